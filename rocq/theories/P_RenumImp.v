(** C106: the order of the cells, and so -mesh_reorder, does not change what an implicit run computes. *)
From Coq Require Import Reals Lra List String ZArith Bool Arith Lia Permutation.
From Verif Require Import Base BaseR BaseSum M_Gas M_Flux M_Visc M_BC M_BCConf M_Mesh M_Geom M_Part M_Space M_Grad M_Recon S_Space S_Gas S_Mesh S_Geom M_Resid S_Resid M_Ode M_MeshUtil M_Prep
  Pf_Topo Pf_Incid Pf_Full Pf_Geom Pf_Space Pf_Grad Pf_Recon Pf_Reorder P_Geom P_Resid P_Par2 Pf_BCConf Pf_Ode Pf_Ode2 M_Ctl M_Case P_Case M_Start P_Start ChkMesh P_Mesh P_MeshUtil P_Part P_Compare Pf_Lines P_Lines Pf_Prep P_Prep Pf_Renum P_Renum P_Renum2 M_Dist P_Dist P_JacPart M_DistImp P_DistImp Pf_RenumImp.
Import ListNotations.
Open Scope R_scope.

(** ** Specification *)
(** the whole mesh, as in C105 (topology and region markers are not needed) *)
Definition whole (m : umesh) (X : arr v2) : gmesh := mkgm m noconn X (mkarr 0 (fun _ => @nil Z)).
(** [same_solver] (Pf_RenumImp): permuting the unknowns of a system permutes what the linear solver returns. So it is for exact solutions, and for iterations that do not depend on the order of
    the unknowns (point or block Jacobi), not for incomplete factorizations or Gauss-Seidel sweeps. *)
(** global numbers are positions, as on one process *)
Definition numbered_in_order (n : nat) (glob : nat -> nat) : Prop := forall i, (i < n)%nat -> glob i = i.
(** [imp_states] of C105 with any linear solver *)
Definition imp_through (m : umesh) (X : arr v2) (S : smesh) (sp : spatial) (w : work) (c : sconf) (glob : nat -> nat) (ksp : nat -> bmat -> arr R -> arr st -> arr st -> arr st * nat) (relax : st -> st -> R) (u : arr st) : Prop :=
  forall k y, (k < Z.to_nat (maxiter c))%nat ->
  steady_loop c (steady_body (sm_ne S) (sm_A S) c (spatial_eval S sp w) 0.25 0.3 (be_upd (sm_ne S) (sm_A S) glob (one_jac S sp) ksp relax)) k (mkmon u 0 1 1 1 0 0 []) = Some (SNext y) ->
  imp_state (whole m X) S sp w (m_u y).

(** ** The matrix: its block (i, j) on the second mesh is its block (s i, s j) on the first *)
Theorem C106_matrix : forall m hs X gh S m' hs' X' gh' S' s o jr spm sps,
  two_orders m hs X gh S m' hs' X' gh' S' s o -> main_spatial jr m X S o = Some (Val spm) -> start_spatial jr m X S o = Some (Val sps) ->
  exists spm' sps', main_spatial jr m' X' S' o = Some (Val spm') /\ start_spatial jr m' X' S' o = Some (Val sps') /\
  forall sp sp', (sp, sp') = (spm, spm') \/ (sp, sp') = (sps, sps') -> has_jacobian (whole m X) sp ->
  forall w u u', alen u = sm_ne S -> alen u' = sm_ne S -> (forall i, (i < sm_ne S)%nat -> aat u' i = aat u (aat s i)) -> imp_state (whole m X) S sp w u ->
  exists J J', one_jac S sp u = Some (Val J) /\ one_jac S' sp' u' = Some (Val J') /\ forall i j, (i < sm_ne S)%nat -> (j < sm_ne S)%nat -> J' i j = J (aat s i) (aat s j).
Proof.
  intros m hs X gh S m' hs' X' gh' S' s o jr spm sps T Em Es.
  destruct (C100_residual _ _ _ _ _ _ _ _ _ _ _ _ jr spm sps T Em Es) as (spm' & sps' & Em' & Es' & _). exists spm', sps'. split; [exact Em'|]. split; [exact Es'|].
  intros sp sp' Hp (f & j & Ff & Fj & JG & NI) w u u' L L' U (_ & PH & OT).
  assert (MK : exists n, make_spatial jr m X S (extract_spatial_physics_config o) n = Some (Val sp) /\ make_spatial jr m' X' S' (extract_spatial_physics_config o) n = Some (Val sp') /\ nc_flux n = o_invflux o /\ nc_jac n = o_invfluxjac o).
  { destruct Hp as [Q|Q]; injection Q as -> ->; eexists; (split; [eassumption|]); (split; [eassumption|]); split; reflexivity. }
  destruct MK as (n & E & E' & Ef & Ej). pose proof T as [B B' RN D TG (Hg & HM & HH) LM].
  destruct (make_for jr m X S o n sp Hg HM E Ef Ej) as ((_ & _ & _ & _ & _ & _ & _ & _ & _ & MB & _) & _).
  destruct (two_sizes _ _ _ _ _ _ _ _ _ _ _ _ T) as (_ & _ & _ & _ & NE & _).
  assert (FL : sp_flow sp' f = sp_flow sp f /\ sp_flux sp' = sp_flux sp /\ sp_jac sp' = sp_jac sp).
  { clear -E E'. unfold make_spatial in *. cbv zeta in *. destruct (grad_of S _) as [gs|]; [|discriminate]. destruct (grad_of S' _) as [gs'|]; [|discriminate]. cbn [bind] in *.
    destruct (match sc_rec _ with None => Some None | Some k => r <- rec_of m X k ;; Some (Some r) end) as [rs|]; [|discriminate]. destruct (match sc_rec _ with None => Some None | Some k => r <- rec_of m' X' k ;; Some (Some r) end) as [rs'|]; [|discriminate]. cbn [bind] in *.
    destruct (create_const_flowBCs _ _); try discriminate. injection E as <-. injection E' as <-. split; [reflexivity|]. split; reflexivity. }
  destruct FL as (F1 & F2 & F3). unfold one_jac, jac_flow. rewrite F2, F3, Ff, Fj. cbn [bind]. rewrite F1.
  destruct (matrix2 m hs X gh S m' hs' X' gh' S' s B B' RN D (sp_flow sp f)) with (u := u) (u' := u') as (A & A' & E1 & E2 & E3); try lia; auto.
  - intros bf Hb. destruct (TG bf Hb) as (t & r & Et & It). destruct (proj2 (MB t) It) as (b & Q). exists t, r, b. auto.
  - intros i Hi. apply U. lia.
  - intros i q k Ac. specialize (OT j Fj i q k Ac). cbn [sp_flow fl_jflux fl_gas]. rewrite Fj. exact OT.
  - exists A, A'. rewrite E1, E2. split; [reflexivity|]. split; [reflexivity|]. intros i q Hi Hq. apply E3; lia.
Qed.

(** ** The whole implicit run, started from the free stream: starter and main solve *)
Theorem C106_implicit_run : forall m hs X gh S m' hs' X' gh' S' s o jr spm sps wk glob ksp at_throw u u',
  two_orders m hs X gh S m' hs' X' gh' S' s o -> o_ptype o = "IMPLICIT"%string ->
  main_spatial jr m X S o = Some (Val spm) -> start_spatial jr m X S o = Some (Val sps) -> has_jacobian (whole m X) spm -> has_jacobian (whole m X) sps -> (forall b, work_ok S (wk b)) ->
  numbered_in_order (sm_ne S) glob -> at_free_stream S o u -> at_free_stream S' o u' ->
  let slv := case_solve S spm sps wk glob (fun main => one_jac S (if main then spm else sps)) ksp at_throw in
  let relax := relax_of (sp_gas spm) (the_update o) in
  (o_starter o <> 0%Z -> imp_through m X S sps (wk false) (start_conf o) glob ksp relax u /\ so_end (run1 slv o u) <> None) ->
  imp_through m X S spm (wk true) (main_conf o) glob ksp relax (start_u slv o u) -> so_end (main_run slv o u) <> None ->
  exists spm' sps', main_spatial jr m' X' S' o = Some (Val spm') /\ start_spatial jr m' X' S' o = Some (Val sps') /\
  forall wk' glob' ksp' at_throw', (forall b, work_ok S' (wk' b)) -> numbered_in_order (sm_ne S) glob' -> same_solver (sm_ne S) s ksp ksp' ->
  let slv' := case_solve S' spm' sps' wk' glob' (fun main => one_jac S' (if main then spm' else sps')) ksp' at_throw' in
  let r := main_run slv o u in let r' := main_run slv' o u' in
  so_end r <> Some (inr Other_error) /\ so_end r' = so_end r /\ so_td r' = so_td r /\
  (o_starter o <> 0%Z -> so_end (run1 slv' o u') = so_end (run1 slv o u) /\ so_td (run1 slv' o u') = so_td (run1 slv o u)) /\
  alen (so_u r) = sm_ne S /\ alen (so_u r') = sm_ne S /\ forall i, (i < sm_ne S)%nat -> aat (so_u r') i = aat (so_u r) (aat s i).
Proof.
  intros m hs X gh S m' hs' X' gh' S' s o jr spm sps wk glob ksp at_throw u u' T HI Em Es Jm Js Hw HG Fu Fu' slv relax S1 S2 N2.
  destruct (C106_matrix _ _ _ _ _ _ _ _ _ _ _ _ jr spm sps T Em Es) as (spm2 & sps2 & Em2 & Es2 & HJ).
  destruct (two_made _ _ _ _ _ _ _ _ _ _ _ _ jr T _ _ Em eq_refl eq_refl) as (spm' & Em' & Gm & Hm).
  { cbn [extract_spatial_numerics_config nc_order2 nc_rec nc_par]. intros O2 rs Er. destruct (to_lim _ _ _ _ _ _ _ _ _ _ _ _ T O2) as [Q|[Q|(Q & Q')]]; rewrite Q in Er; cbn in Er; injection Er as <-; auto. }
  destruct (two_made _ _ _ _ _ _ _ _ _ _ _ _ jr T _ _ Es eq_refl eq_refl ltac:(discriminate)) as (sps' & Es' & _ & Hs).
  assert (spm2 = spm') by (unfold main_spatial in Em2; congruence). assert (sps2 = sps') by (unfold start_spatial in Es2; congruence). subst spm2 sps2.
  exists spm', sps'. split; [exact Em'|]. split; [exact Es'|]. intros wk' glob' ksp' at_throw' Hw' HG' KS slv' r r'. subst r r'.
  destruct (two_sizes _ _ _ _ _ _ _ _ _ _ _ _ T) as (N0 & NS & N0' & P & _ & NA).
  assert (M0 : moved (sm_ne S) s u u') by (eapply start_same; eauto; apply (to_gas _ _ _ _ _ _ _ _ _ _ _ _ T)).
  assert (EI : String.eqb (o_ptype o) "IMPLICIT" = true) by (apply String.eqb_eq; exact HI).
  pose proof (so_A _ (built_sm _ _ _ _ _ (to_built _ _ _ _ _ _ _ _ _ _ _ _ T))) as LA. pose proof (so_A _ (built_sm _ _ _ _ _ (to_built' _ _ _ _ _ _ _ _ _ _ _ _ T))) as LA'. rewrite NS in LA'.
  assert (GI : forall i, (i < sm_ne S)%nat -> glob i = i /\ glob' i = i) by (intros i Hi; auto).
  assert (RX : relax_of (sp_gas spm') (the_update o) = relax) by (rewrite Gm; reflexivity).
  unfold main_run, run2, run1 in *. rewrite EI in *.
  assert (ST : moved (sm_ne S) s (start_u slv o u) (start_u slv' o u') /\ (o_starter o <> 0%Z -> so_end (slv' true false (start_conf o) (o_lognres o) (the_update o) u') = so_end (slv true false (start_conf o) (o_lognres o) (the_update o) u) /\
     so_td (slv' true false (start_conf o) (o_lognres o) (the_update o) u') = so_td (slv true false (start_conf o) (o_lognres o) (the_update o) u))).
  { unfold start_u, run1. rewrite EI. destruct (Z.eqb_spec (o_starter o) 0) as [Q|Q]; [split; [exact M0|contradiction]|]. destruct (S1 Q) as (A1 & A2).
    destruct (imoved_solve (sm_ne S) s (sm_A S) (sm_A S') (start_conf o) (spatial_eval S sps (wk false)) (spatial_eval S' sps' (wk' false)) (one_jac S sps) (one_jac S' sps') (imp_state (whole m X) S sps (wk false)) ksp ksp' relax glob glob' P LA LA' NA GI KS)
      with (main := false) (lg := o_lognres o) (up := the_update o) (JF := fun main : bool => one_jac S (if main then spm else sps)) (JF' := fun main : bool => one_jac S' (if main then spm' else sps')) (G := sp_gas spm) (G' := sp_gas spm') (at_throw := at_throw) (at_throw' := at_throw')
           (RF := fun main : bool => spatial_eval S (if main then spm else sps) (wk main)) (RF' := fun main : bool => spatial_eval S' (if main then spm' else sps') (wk' main)) (u := u) (u' := u') as (_ & B2 & B3 & _ & B5); auto.
    - intros v v' x Mv (Sv & _) Ev. eapply Hs; eauto.
    - intros v v' (L1 & L2 & Mv) Sv. apply (HJ sps sps' (or_intror eq_refl) Js (wk false)); auto.
    - unfold slv, slv', case_solve. rewrite NS. auto. }
  destruct ST as (M1 & ST).
  destruct (imoved_solve (sm_ne S) s (sm_A S) (sm_A S') (main_conf o) (spatial_eval S spm (wk true)) (spatial_eval S' spm' (wk' true)) (one_jac S spm) (one_jac S' spm') (imp_state (whole m X) S spm (wk true)) ksp ksp' relax glob glob' P LA LA' NA GI KS)
      with (main := true) (lg := o_lognres o) (up := the_update o) (JF := fun main : bool => one_jac S (if main then spm else sps)) (JF' := fun main : bool => one_jac S' (if main then spm' else sps')) (G := sp_gas spm) (G' := sp_gas spm') (at_throw := at_throw) (at_throw' := at_throw')
           (RF := fun main : bool => spatial_eval S (if main then spm else sps) (wk main)) (RF' := fun main : bool => spatial_eval S' (if main then spm' else sps') (wk' main)) (u := start_u slv o u) (u' := start_u slv' o u') as (B1 & B2 & B3 & B4 & B5 & B6 & B7); auto.
  - intros v v' x Mv (Sv & _) Ev. eapply Hm; eauto.
  - intros v v' (L1 & L2 & Mv) Sv. apply (HJ spm spm' (or_introl eq_refl) Jm (wk true)); auto.
  - assert (QS : ode_solve (sm_ne S) (sm_A S') (fun main : bool => spatial_eval S' (if main then spm' else sps') (wk' main)) glob' (fun main : bool => one_jac S' (if main then spm' else sps')) ksp' (sp_gas spm') at_throw' = slv') by (unfold slv', case_solve; rewrite NS; reflexivity).
    rewrite QS in B2, B3, B6, B7. split; [exact B1|]. split; [exact B2|]. split; [exact B3|]. split; [exact ST|]. split; [exact B5|]. split; [exact B6|exact B7].
Qed.
Print Assumptions C106_matrix.
Print Assumptions C106_implicit_run.

(** *** Reading one file with two values of -mesh_reorder *)
Theorem C106_reordering_run : forall srt registered m hs X regs o po po' kg k1 k2 je jc jr ji jx j0 g0 kg' k1' k2' je' jc' jr' ji' jx' j0' g0' P P' gh S gh' S' jreal spm sps wk ksp at_throw u u',
  file_case m hs X regs o -> sorts_down srt -> (forall name f, registered name = Some f -> forall n ent, Permutation (f n ent) (seq 0 n)) ->
  constructMesh srt registered po 1 0 kg k1 k2 je jc jr ji jx j0 g0 m X regs = Some (Val P) ->
  constructMesh srt registered po' 1 0 kg' k1' k2' je' jc' jr' ji' jx' j0' g0' m X regs = Some (Val P') ->
  case_mesh P gh S -> case_mesh P' gh' S' -> o_ptype o = "IMPLICIT"%string ->
  main_spatial jreal (l_m (pm_l P)) (l_X (pm_l P)) S o = Some (Val spm) -> start_spatial jreal (l_m (pm_l P)) (l_X (pm_l P)) S o = Some (Val sps) ->
  has_jacobian (whole (l_m (pm_l P)) (l_X (pm_l P))) spm -> has_jacobian (whole (l_m (pm_l P)) (l_X (pm_l P))) sps -> (forall b, work_ok S (wk b)) ->
  at_free_stream S o u -> at_free_stream S' o u' ->
  let glob := aat (l_eglob (pm_l P)) in
  let slv := case_solve S spm sps wk glob (fun main => one_jac S (if main then spm else sps)) ksp at_throw in
  let relax := relax_of (sp_gas spm) (the_update o) in
  (o_starter o <> 0%Z -> imp_through (l_m (pm_l P)) (l_X (pm_l P)) S sps (wk false) (start_conf o) glob ksp relax u /\ so_end (run1 slv o u) <> None) ->
  imp_through (l_m (pm_l P)) (l_X (pm_l P)) S spm (wk true) (main_conf o) glob ksp relax (start_u slv o u) -> so_end (main_run slv o u) <> None ->
  exists spm' sps' p p' s, main_spatial jreal (l_m (pm_l P')) (l_X (pm_l P')) S' o = Some (Val spm') /\ start_spatial jreal (l_m (pm_l P')) (l_X (pm_l P')) S' o = Some (Val sps') /\
  is_perm (nelem m) p /\ is_perm (nelem m) p' /\ same_mesh m X p (pm_l P) /\ same_mesh m X p' (pm_l P') /\ ordered registered po m hs X p /\ ordered registered po' m hs X p' /\
  is_perm (nelem m) s /\ (forall i, (i < nelem m)%nat -> aat p (aat s i) = aat p' i) /\
  forall wk' ksp' at_throw', (forall b, work_ok S' (wk' b)) -> same_solver (nelem m) s ksp ksp' ->
  let slv' := case_solve S' spm' sps' wk' (aat (l_eglob (pm_l P'))) (fun main => one_jac S' (if main then spm' else sps')) ksp' at_throw' in
  let r := main_run slv o u in let r' := main_run slv' o u' in
  so_end r' = so_end r /\ so_td r' = so_td r /\
  forall i j, (i < nelem m)%nat -> (j < nelem m)%nat -> aat p' i = aat p j -> aat (so_u r') i = aat (so_u r) j.
Proof.
  intros srt registered m hs X regs o po po' kg k1 k2 je jc jr ji jx j0 g0 kg' k1' k2' je' jc' jr' ji' jx' j0' g0' P P' gh S gh' S' jreal spm sps wk ksp at_throw u u' FC Hs Hr E E' CS CS' HI Em Es Jm Js Hw Fu Fu' glob slv relax S1 S2 N2.
  destruct (C100_reordering srt registered m hs X regs o po po' kg k1 k2 je jc jr ji jx j0 g0 kg' k1' k2' je' jc' jr' ji' jx' j0' g0' P P' FC Hs Hr E E') as (p & p' & s & Pp & Pp' & SM & SM' & Or & Or' & PS & _ & _ & H).
  destruct (H gh S gh' S' CS CS') as (NE & hs1 & hs2 & T).
  assert (GL : numbered_in_order (sm_ne S) glob).
  { destruct (mesh_of_case srt registered m hs X regs po kg k1 k2 je jc jr ji jx j0 g0 (fc_file _ _ _ _ _ FC) Hs Hr) as (r & Er & Q). rewrite E in Er. injection Er as <-. destruct Q as (_ & Q). intros i Hi. rewrite NE in Hi.
    assert (L : alen (l_eglob (pm_l P)) = nelem m) by (apply (f_equal (@List.length nat)) in Q; rewrite seq_length in Q; unfold alist in Q; rewrite map_length, seq_length in Q; exact Q).
    unfold glob. rewrite <- (P_MeshUtil.nth_alist _ (l_eglob (pm_l P)) i 0%nat) by lia. rewrite Q, seq_nth by lia. reflexivity. }
  assert (GL' : numbered_in_order (sm_ne S) (aat (l_eglob (pm_l P')))).
  { destruct (mesh_of_case srt registered m hs X regs po' kg' k1' k2' je' jc' jr' ji' jx' j0' g0' (fc_file _ _ _ _ _ FC) Hs Hr) as (r & Er & Q). rewrite E' in Er. injection Er as <-. destruct Q as (_ & Q). intros i Hi. rewrite NE in Hi.
    assert (L : alen (l_eglob (pm_l P')) = nelem m) by (apply (f_equal (@List.length nat)) in Q; rewrite seq_length in Q; unfold alist in Q; rewrite map_length, seq_length in Q; exact Q).
    rewrite <- (P_MeshUtil.nth_alist _ (l_eglob (pm_l P')) i 0%nat) by lia. rewrite Q, seq_nth by lia. reflexivity. }
  destruct (C106_implicit_run _ _ _ _ _ _ _ _ _ _ _ _ jreal spm sps wk glob ksp at_throw u u' T HI Em Es Jm Js Hw GL Fu Fu' S1 S2 N2) as (spm' & sps' & Em' & Es' & R0).
  pose proof (two_sizes _ _ _ _ _ _ _ _ _ _ _ _ T) as (_ & _ & _ & Ps & _). pose proof Ps as Ps0. rewrite NE in Ps.
  exists spm', sps', p, p', s. do 10 (split; auto). intros wk' ksp' at_throw' Hw' KS. rewrite <- NE in KS. destruct (R0 wk' (aat (l_eglob (pm_l P'))) ksp' at_throw' Hw' GL' KS) as (_ & A & B & _ & _ & _ & C).
  split; [exact A|]. split; [exact B|]. intros i j Hi Hj Q. rewrite C by lia. f_equal. apply (perm_inj _ _ _ _ Pp); [apply (perm_bound _ _ _ Ps Hi)|exact Hj|]. rewrite PS by auto. exact Q.
Qed.
Print Assumptions C106_reordering_run.

(** ** A case: the mesh and orders of C100_example, one implicit step; the linear solver does one point-Jacobi sweep *)
Definition sweep (n : nat) (k : nat) (M : bmat) (d : arr R) (u b : arr st) : arr st * nat :=
  (mkarr n (fun i => mks (s0 (aat b i) / mget (M i i) I0 I0) (s1 (aat b i) / mget (M i i) I1 I1) (s2 (aat b i) / mget (M i i) I2 I2) (s3 (aat b i) / mget (M i i) I3 I3)), 1%nat).
Lemma sweep_same n s : is_perm n s -> same_solver n s (sweep n) (sweep n).
Proof.
  intros P k M M' d d' u u' b b' HM _ _ (L & L' & Hb). unfold sweep. cbn [fst snd]. split; [|reflexivity]. split; [reflexivity|]. split; [reflexivity|]. intros i Hi. cbn [aat]. rewrite Hb, HM by exact Hi. reflexivity.
Qed.
Lemma ring_jac P p sp : same_mesh ring_f ring_fX p (pm_l P) -> made_for ring_imp sp -> has_jacobian (whole (l_m (pm_l P)) (l_X (pm_l P))) sp.
Proof.
  intros (_ & _ & _ & _ & _ & _ & S7 & _) (G1 & _ & _ & _ & _ & G6 & G7 & _ & _ & _ & G11). exists HLLC, HLLC. split; [apply G6; cbn; auto 6|]. assert (EJ : sp_jac sp = Some HLLC) by (apply G7; cbn; auto 6). split; [exact EJ|]. split.
  - unfold jac_gas. cbn [sp_flow fl_jflux fl_gas]. rewrite EJ, G1. cbn. repeat split; try lra.
  - intros bf a r q q' Hb Et. cbn [whole g_m] in Hb. cbn [sp_flow fl_bcs]. apply In_nth_error in Hb. destruct Hb as (k & Ek). destruct (forall2_nth _ _ _ S7 k bf Ek) as (fb & Ef & _ & Q). apply nth_error_In in Ef. rewrite Q in Et.
    pose proof (G11 1%Z _ eq_refl) as B1. pose proof (G11 2%Z _ eq_refl) as B2. pose proof (G11 3%Z _ eq_refl) as B3. cbn in B1, B2, B3. destruct B3 as (w & B3 & _).
    cbn [ring_f ring bfaces In] in Ef. destruct Ef as [<-|[<-|[<-|[]]]]; injection Et as <- _; [rewrite B1|rewrite B2|rewrite B3]; discriminate.
Qed.
(** Whatever memory contained, both meshes are made, the hypotheses of C106_reordering_run hold, and the states of the two implicit runs are the same with the cells in reverse order. *)
Theorem C106_example : forall kg k1 k2 je jc jr ji jx j0 g0, exists P P',
  constructMesh dsort rcm_only rcm_opts 1 0 kg k1 k2 je jc jr ji jx j0 g0 ring_f ring_fX (mkarr 7 (fun _ => [1%Z])) = Some (Val P) /\
  constructMesh dsort rcm_only (mkpo None RAbsent) 1 0 kg k1 k2 je jc jr ji jx j0 g0 ring_f ring_fX (mkarr 7 (fun _ => [1%Z])) = Some (Val P') /\
  forall gh S gh' S', case_mesh P gh S -> case_mesh P' gh' S' -> exists spm sps spm' sps',
  main_spatial (fun _ => 0) (l_m (pm_l P)) (l_X (pm_l P)) S ring_imp = Some (Val spm) /\ start_spatial (fun _ => 0) (l_m (pm_l P)) (l_X (pm_l P)) S ring_imp = Some (Val sps) /\
  main_spatial (fun _ => 0) (l_m (pm_l P')) (l_X (pm_l P')) S' ring_imp = Some (Val spm') /\ start_spatial (fun _ => 0) (l_m (pm_l P')) (l_X (pm_l P')) S' ring_imp = Some (Val sps') /\
  forall u u', at_free_stream S ring_imp u -> at_free_stream S' ring_imp u' ->
    let r := main_run (case_solve S spm sps (ch_work S) (aat (l_eglob (pm_l P))) (fun main => one_jac S (if main then spm else sps)) (sweep 7) (fun u => u)) ring_imp u in
    let r' := main_run (case_solve S' spm' sps' (ch_work S') (aat (l_eglob (pm_l P'))) (fun main => one_jac S' (if main then spm' else sps')) (sweep 7) (fun u => u)) ring_imp u' in
    so_end r = Some (inr Tolerance_error) /\ so_end r' = Some (inr Tolerance_error) /\ so_td r' = so_td r /\ forall i, (i < 7)%nat -> aat (so_u r') i = aat (so_u r) (6 - i)%nat.
Proof.
  intros kg k1 k2 je jc jr ji jx j0 g0.
  destruct (mesh_of_case dsort rcm_only ring_f ring_h ring_fX (mkarr 7 (fun _ => [1%Z])) rcm_opts kg k1 k2 je jc jr ji jx j0 g0 ring_file dsort_sorts rcm_perm) as (r & E & H).
  assert (UN : forall name, reads rcm_opts name -> name = "rcm"%string). { intros name Q. apply reads_iff in Q. destruct Q as (g & Q & ->). inversion Q; subst. reflexivity. }
  destruct r as [P|].
  2:{ destruct H as (name & Rn & Q). apply UN in Rn. subst name. destruct Q as [(Q & _)|(_ & _ & Q)]; [destruct (rcm_not_line Q)|discriminate]. }
  destruct H as ((_ & p & hs1 & Pp & Or & SM & _ & _ & PR) & EG).
  destruct (C99_mesh_of_a_case dsort rcm_only ring_f ring_h ring_fX (mkarr 7 (fun _ => [1%Z])) (mkpo None RAbsent) kg k1 k2 je jc jr ji jx j0 g0 ring_file dsort_sorts rcm_perm) as (r' & E' & H').
  destruct r' as [P'|]. 2:{ destruct H' as (name & (gv & rest & Q & _) & _). discriminate. }
  destruct H' as (_ & p' & hs2 & Pp' & Or' & SM' & _ & _ & PR').
  exists P, P'. split; [exact E|]. split; [exact E'|]. intros gh S gh' S' CS CS'.
  pose proof (case_built _ _ _ _ PR CS) as B.
  destruct (ring_discretizations P p gh S hs1 SM Pp B) as (spm & sps & Em & Es & H1).
  destruct (ring_discretizations P' p' gh' S' hs2 SM' Pp' (case_built _ _ _ _ PR' CS')) as (spm' & sps' & Em' & Es' & _).
  change (main_spatial (fun _ => 0) (l_m (pm_l P)) (l_X (pm_l P)) S ring_imp = Some (Val spm)) in Em. change (start_spatial (fun _ => 0) (l_m (pm_l P)) (l_X (pm_l P)) S ring_imp = Some (Val sps)) in Es.
  change (main_spatial (fun _ => 0) (l_m (pm_l P')) (l_X (pm_l P')) S' ring_imp = Some (Val spm')) in Em'. change (start_spatial (fun _ => 0) (l_m (pm_l P')) (l_X (pm_l P')) S' ring_imp = Some (Val sps')) in Es'.
  exists spm, sps, spm', sps'. do 4 (split; auto). intros u u' Fu Fu'. assert (WO : forall S b, work_ok S (ch_work S b)) by (intros; repeat split).
  assert (FC : file_case ring_f ring_h ring_fX (mkarr 7 (fun _ => [1%Z])) ring_imp) by (destruct ring_case as [A1 A2 A3 A4 A5]; split; assumption).
  destruct (C98_discretization (l_m (pm_l P)) (l_X (pm_l P)) S ring_imp (fun _ => 0) ltac:(cbn; lra) ltac:(cbn; lra)) as (MM & MS). destruct (MM spm Em) as (MM' & O2 & _). destruct (MS sps Es) as (MS' & _). clear MM MS.
  pose proof (ring_jac P p spm SM MM') as Jm. pose proof (ring_jac P p sps SM MS') as Js.
  destruct (C100_reordering dsort rcm_only ring_f ring_h ring_fX _ ring_imp rcm_opts (mkpo None RAbsent) kg k1 k2 je jc jr ji jx j0 g0 kg k1 k2 je jc jr ji jx j0 g0 P P' FC dsort_sorts rcm_perm E E') as (_ & _ & s0 & _ & _ & _ & _ & _ & _ & _ & _ & _ & HT).
  destruct (HT gh S gh' S' CS CS') as (NE & hx & hy & T). change (nelem ring_f) with 7%nat in NE.
  set (slv := case_solve S spm sps (ch_work S) (aat (l_eglob (pm_l P))) (fun main => one_jac S (if main then spm else sps)) (sweep 7) (fun u => u)).
  assert (EU : start_u slv ring_imp u = u) by reflexivity.
  destruct (H1 (ch_work S) (fun i => i) (fun _ _ => None) ch_ksp (fun u => u) u (WO S) Fu) as (SO & _).
  assert (PH : forall i, (i < sm_ne S)%nat -> physical (gam (sp_gas spm)) (aat u i)) by (intros i Hi; eapply ring_physical; eauto; apply MM').
  destruct (built_ok _ _ _ _ _ B) as (a1 & a2 & a3 & a4 & a5 & _ & OK & N1 & N2 & N3 & N4 & _). assert (N0 : sm_nc S = 0%nat) by (rewrite N4; unfold nconnface; destruct SM as (_ & _ & _ & _ & _ & _ & _ & S8); rewrite S8; reflexivity).
  assert (Lu : alen u = sm_ne S) by (destruct Fu as (L & _); lia).
  assert (I0 : imp_state (whole (l_m (pm_l P)) (l_X (pm_l P))) S spm (ch_work S true) u).
  { split; [|split].
    - apply (SO 0%nat (mkmon u 0 1 1 1 (cflinit (main_conf ring_opts)) 0 [])); [cbn; lia|reflexivity].
    - intros i Hi. apply PH. cbn [whole g_m] in Hi. lia.
    - intros j _ i f k (Hi & _ & Hk & _) e. cbn [whole g_m] in *. unfold nelem in N1. left. destruct Fu as (L & F). apply (free_stream_unique (o_gam ring_imp) (o_Minf ring_imp) (o_alpha ring_imp)); [cbn; lra|apply F; lia|apply F; lia]. }
  assert (ST : imp_through (l_m (pm_l P)) (l_X (pm_l P)) S spm (ch_work S true) (main_conf ring_imp) (aat (l_eglob (pm_l P))) (sweep 7) (relax_of (sp_gas spm) (the_update ring_imp)) (start_u slv ring_imp u)).
  { rewrite EU. intros k y Hk Ek. change (Z.to_nat (maxiter (main_conf ring_imp))) with 1%nat in Hk. assert (k = 0)%nat by lia. subst k. cbn [steady_loop] in Ek. injection Ek as <-. exact I0. }
  destruct (eval_defined (l_m (pm_l P)) hs1 (l_X (pm_l P)) gh S spm (ch_work S true) u HLLC B) as (ro & ER & FR & L1 & L2); auto.
  { eapply ends_kept; eauto; [apply B|apply (fc_ends _ _ _ _ _ ring_case)]. }
  { intros i Hi. exact (ring_area P p gh S hs1 i SM Pp B Hi). }
  { destruct MM' as (_ & _ & _ & _ & _ & _ & _ & _ & _ & G10 & _). destruct SM as (_ & _ & _ & _ & _ & _ & S7 & _). intros bf Hb. apply In_nth_error in Hb. destruct Hb as (k & Ek). destruct (forall2_nth _ _ _ S7 k bf Ek) as (fb & Ef & _ & Et). rewrite Et.
    destruct (fc_tags _ _ _ _ _ FC fb (nth_error_In _ _ Ef)) as (t & r & Q1 & Q2). destruct (proj2 (G10 t) Q2) as (b & Q3). exists t, r, b. auto. }
  { destruct MM' as (G1 & _). rewrite G1. cbn. lra. }
  { destruct MM' as (_ & _ & _ & _ & _ & _ & _ & G8 & _). auto. }
  { destruct MM' as (_ & _ & _ & _ & _ & G6 & _). apply G6. cbn. auto 6. }
  destruct (C106_matrix _ _ _ _ _ _ _ _ _ _ _ _ (fun _ => 0) spm sps T Em Es) as (xm & xs & _ & _ & HJ).
  destruct (two_sizes _ _ _ _ _ _ _ _ _ _ _ _ T) as (_ & NS' & _ & Ps & _).
  assert (EJ : exists J, one_jac S spm u = Some (Val J)).
  { destruct (HJ spm xm (or_introl eq_refl) Jm (ch_work S true) u (mkarr (sm_ne S) (fun i => aat u (aat s0 i))) Lu eq_refl (fun i _ => eq_refl) I0) as (J & _ & Q & _). eauto. }
  destruct EJ as (J & EJ).
  assert (GL : forall i, (i < sm_ne S)%nat -> aat (l_eglob (pm_l P)) i = i).
  { intros i Hi. assert (L : alen (l_eglob (pm_l P)) = 7%nat) by (apply (f_equal (@List.length nat)) in EG; rewrite seq_length in EG; unfold alist in EG; rewrite map_length, seq_length in EG; exact EG).
    rewrite <- (P_MeshUtil.nth_alist _ (l_eglob (pm_l P)) i 0%nat) by lia. rewrite EG. change (nelem ring_f) with 7%nat. rewrite seq_nth by lia. reflexivity. }
  assert (EN : so_end (main_run slv ring_imp u) = Some (inr Tolerance_error)).
  { pose proof (so_A _ OK) as LA. unfold main_run, run2. change (String.eqb (o_ptype ring_imp) "IMPLICIT") with true. rewrite EU. unfold slv, case_solve, ode_solve, loop_of, be_solve. cbv zeta. change (mksconf _ _ _ _) with (main_conf ring_imp).
    change (maxiter (main_conf ring_imp) <=? 0)%Z with false. change (Z.to_nat (maxiter (main_conf ring_imp))) with 1%nat. cbv iota. cbn [steady_loop].
    assert (SC : steady_cont (main_conf ring_imp) (mkmon u 0 1 1 1 0 0 []) = true).
    { unfold steady_cont. cbn [m_resi m_init m_step]. unfold rel_gt. destruct (Req_EM_T 1 0); [lra|]. cbn [tol main_conf ring_imp o_tol]. destruct (Rlt_dec (1/3) (1/1)); [reflexivity|lra]. }
    rewrite SC. unfold steady_body. cbn [m_u m_step m_cfl m_old m_resi m_init m_lin m_log]. rewrite ER. cbv zeta. unfold be_upd. rewrite EJ.
    set (cf := expResidualRamp _ _ _ _ _ _). destruct (pseudo_ok (sm_ne S) (sm_A S) (aat (l_eglob (pm_l P))) ltac:(intros i j Hi Hj Q; rewrite !GL in Q by assumption; exact Q) cf (rt_dt ro) J) as (e0 & M0 & -> & _); try lia. cbn [bind]. unfold sweep at 1.
    match goal with |- context [be_update _ ?rl _ ?du] => destruct (be_update_ok (sm_ne S) rl u du) as (v & -> & _); [lia|cbn [alen]; lia|] end. cbn [bind]. rewrite FR. cbn [m_step]. reflexivity. }
  destruct (C106_reordering_run dsort rcm_only ring_f ring_h ring_fX _ ring_imp rcm_opts (mkpo None RAbsent) kg k1 k2 je jc jr ji jx j0 g0 kg k1 k2 je jc jr ji jx j0 g0 P P' gh S gh' S' (fun _ => 0) spm sps
    (ch_work S) (sweep 7) (fun u => u) u u' FC dsort_sorts rcm_perm E E' CS CS' eq_refl Em Es Jm Js (WO S) Fu Fu' ltac:(intros Q; destruct (Q eq_refl)) ST ltac:(fold slv; rewrite EN; discriminate))
    as (spm2 & sps2 & q & q' & s & Em2 & Es2 & Pq & Pq' & _ & _ & Oq & Oq' & Pss & _ & RR).
  assert (spm2 = spm') by congruence. assert (sps2 = sps') by congruence. subst spm2 sps2.
  destruct (RR (ch_work S') (sweep 7) (fun u => u) (WO S') (sweep_same _ _ Pss)) as (A & B' & C). fold slv in A, B', C. rewrite EN in A. split; [exact EN|]. split; [exact A|]. split; [exact B'|].
  intros i Hi. apply C; [exact Hi|change (nelem ring_f) with 7%nat; lia|].
  destruct Oq as (_ & Oq). destruct (Oq _ reads_rcm) as (_ & _ & O3). destruct (O3 rcm_not_line) as [(Q & _)|(_ & f & ent & Ef & _ & Ep)]; [discriminate|]. inversion Ef; subst f. cbn in Ep.
  destruct Oq' as (Oq' & _). specialize (Oq' eq_refl). pose proof (perm_len _ _ Pq) as Lq. pose proof (perm_len _ _ Pq') as Lq'. change (nelem ring_f) with 7%nat in *.
  rewrite <- (P_MeshUtil.nth_alist _ q (6 - i)%nat 0%nat) by lia. rewrite <- (P_MeshUtil.nth_alist _ q' i 0%nat) by lia. rewrite Ep, Oq'. do 7 (destruct i as [|i]; [reflexivity|]). lia.
Qed.
Print Assumptions C106_example.
