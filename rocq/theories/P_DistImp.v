(** C105: an implicit run on several ranks. *)
From Coq Require Import Reals Lra List String ZArith Bool Arith Lia Permutation FunctionalExtensionality.
From Verif Require Import Base BaseR BaseSum M_Gas M_Flux M_Visc M_BC M_BCConf M_Mesh M_Geom M_Part M_Space M_Grad M_Recon S_Space S_Gas S_Mesh S_Geom M_Resid S_Resid S_Par M_Ode M_Prep
  Pf_Host Pf_Topo Pf_Incid Pf_Full Pf_Geom Pf_Space Pf_Grad Pf_Recon Pf_Reorder Pf_Resid Pf_Resid2 Pf_Part Pf_Restrict Pf_Part2 P_Geom P_Grad P_Part P_Resid Pf_Par P_Par Pf_Par2 P_Par2 Pf_BCConf Pf_Ode Pf_Ode2 M_Ctl M_Case P_Case M_Start P_Start ChkMesh
  Pf_Renum P_Renum P_Prep P_Renum2 M_Dist Pf_Dist P_Dist P_JacPart M_DistImp Pf_DistImp.
Import ListNotations.
Open Scope R_scope.

(** ** Specification *)
(** the discretization has fluxes for residual and Jacobian, its Jacobian flux has a Jacobian that is defined for this gas, and so have the conditions on the boundaries of the mesh *)
Definition has_jacobian (g : gmesh) (sp : spatial) : Prop := exists f j, sp_flux sp = Some f /\ sp_jac sp = Some j /\ jac_gas (sp_flow sp f) /\ no_inflow g (sp_flow sp f).
(** a state at which residual and matrix are evaluated: the fluxes see physical states, and no face where the Jacobian flux switches formula lies between different states *)
Definition imp_state (g : gmesh) (W : smesh) (sp : spatial) (w : work) (u : arr st) : Prop :=
  sound_state W sp w u /\ (forall i, (i < nelem (g_m g))%nat -> physical (gam (sp_gas sp)) (aat u i)) /\
  forall j, sp_jac sp = Some j -> forall i f k, across (cells (g_m g)) i f k -> let e := edge (cell (cells (g_m g)) i) f in
    off_tie j (gam (sp_gas sp)) (aat u i) (aat u k) (fm_n (face_metric (aat (g_X g) (fst e)) (aat (g_X g) (snd e)))).
(** so is every state that the implicit solve with [c], linear solver [ls] and relaxation [relax], started from [u], goes through *)
Definition imp_states (g : gmesh) (W : smesh) (sp : spatial) (w : work) (c : sconf) (ls : lsolver) (relax : st -> st -> R) (u : arr st) : Prop :=
  forall k y, (k < Z.to_nat (maxiter c))%nat ->
  steady_loop c (steady_body (sm_ne W) (sm_A W) c (spatial_eval W sp w) 0.25 0.3 (be_upd (sm_ne W) (sm_A W) (fun i => i) (one_jac W sp) (one_ksp (sm_ne W) ls) relax)) k (mkmon u 0 1 1 1 0 0 []) = Some (SNext y) ->
  imp_state g W sp w (m_u y).

(** ** Proofs *)
Lemma jac_made jreal m X S m' X' S' p n sp sp' : make_spatial jreal m X S p n = Some (Val sp) -> make_spatial jreal m' X' S' p n = Some (Val sp') -> sp_jac sp' = sp_jac sp.
Proof.
  unfold make_spatial. cbv zeta. destruct (grad_of S _) as [gs|]; [|discriminate]. destruct (grad_of S' _) as [gs'|]; [|discriminate]. cbn [bind].
  intros E E'. destruct (match sc_rec _ with None => Some None | Some k => r <- rec_of m X k ;; Some (Some r) end) as [rs|]; [|discriminate]. destruct (match sc_rec _ with None => Some None | Some k => r <- rec_of m' X' k ;; Some (Some r) end) as [rs'|]; [|discriminate]. cbn [bind] in *.
  destruct (create_const_flowBCs _ _); try discriminate. injection E as <-. injection E' as <-. reflexivity.
Qed.
Lemma ranks_matrix g hs nr je dist lm jc jr ji jx j0 hsl gh S gh0 W o jreal n sp spr' u0 u : on_ranks g hs nr je dist lm jc jr ji jx j0 hsl gh S gh0 W o ->
  make_spatial jreal (g_m g) (g_X g) W (extract_spatial_physics_config o) n = Some (Val sp) -> nc_flux n = o_invflux o -> nc_jac n = o_invfluxjac o ->
  (nc_order2 n = true -> forall rs, create_reconstruction (nc_rec n) (nc_par n) = Some rs -> match rs with M_Ctl.RLinear | RVanAlbada => True | M_Ctl.RWENO p => 0 < p | _ => False end) ->
  (forall a, (a < nr)%nat -> make_spatial jreal (l_m (lm a)) (l_X (lm a)) (S a) (extract_spatial_physics_config o) n = Some (Val (spr' a))) ->
  has_jacobian g sp -> alen u0 = sm_ne W -> (forall a, (a < nr)%nat -> spread lm S (aat u0) a (u a)) ->
  (forall i, (i < nelem (g_m g))%nat -> physical (gam (sp_gas sp)) (aat u0 i)) ->
  (forall j, sp_jac sp = Some j -> forall i f k, across (cells (g_m g)) i f k -> let e := edge (cell (cells (g_m g)) i) f in
    off_tie j (gam (sp_gas sp)) (aat u0 i) (aat u0 k) (fm_n (face_metric (aat (g_X g) (fst e)) (aat (g_X g) (snd e))))) ->
  exists J, one_jac W sp u0 = Some (Val J) /\ ranks_jac nr lm S spr' u = Some J.
Proof.
  intros T E Ef Ej H2 EA (f & j & Ff & Fj & JG & NI) L0 U PH OT. pose proof T as [SO BW CE TG (Hg & HM & HH) LM]. pose proof (in_order _ _ _ _ _ _ _ _ _ _ _ _ _ _ SO) as MO. destruct SO as (NR & EP & SR).
  destruct (make_for jreal (g_m g) (g_X g) W o n sp Hg HM E Ef Ej) as ((MG & _ & _ & _ & _ & MF & _ & _ & _ & MB & _) & O2 & _ & _).
  destruct (whole_sizes g hs dist nr lm jc jr ji jx j0 hsl gh S SR gh0 W BW) as (N1 & _).
  assert (EL : jac_flow sp = Some (sp_flow sp f)) by (unfold jac_flow; rewrite Ff, Fj; reflexivity).
  assert (ER : forall a, (a < nr)%nat -> jac_flow (spr' a) = Some (sp_flow sp f)).
  { intros a Ha. destruct (rank_made _ _ _ _ _ _ _ _ _ _ _ _ _ _ _ _ _ jreal T n sp a Ha E H2) as (sp' & E' & Q1 & Q2 & _). rewrite (EA a Ha) in E'. injection E' as <-. unfold jac_flow. rewrite Q1, Ff, (jac_made _ _ _ _ _ _ _ _ _ _ _ E (EA a Ha)), Fj. cbn [bind]. rewrite Q2. reflexivity. }
  assert (TC : tags_covered g (sp_flow sp f)). { intros bf Hb. destruct (TG bf Hb) as (t & r & Et & It). destruct (proj2 (MB t) It) as (b & Q). exists t, r, b. auto. }
  destruct (C103_matrix g hs dist nr lm jc jr ji jx j0 hsl gh S gh0 W SR BW) with (fl := sp_flow sp f) (V := aat u0) (x := u) (A0 := fun _ _ : nat => mat0) as (A & A' & E1 & E2 & E3); auto.
  - intros r k cf Hr Ec. apply (ghost_rc g hs dist nr lm jc jr ji jx j0 hsl gh S SR MO gh0 W BW CE r Hr k cf Ec).
  - intros i q k Ac. specialize (OT j Fj i q k Ac). cbn [sp_flow fl_jflux fl_gas]. rewrite Fj. exact OT.
  - intros r Hr. apply (U r Hr).
  - intros r l Hr Hl. destruct (local_sizes _ _ _ _ _ _ _ _ _ _ _ _ _ SR r Hr) as (N & _). apply (U r Hr). lia.
  - intros r k cf Hr Ec. destruct (local_sizes _ _ _ _ _ _ _ _ _ _ _ _ _ SR r Hr) as (N & _). rewrite <- N. apply (U r Hr). exact Ec.
  - exists A. split.
    + unfold one_jac. rewrite EL. cbn [bind]. replace u0 with (mkarr (nelem (g_m g)) (aat u0)) by (rewrite <- N1, <- L0; destruct u0; reflexivity). rewrite E2. cbn [bind]. do 2 f_equal. apply functional_extensionality. intros p. apply functional_extensionality. intros q. symmetry. apply E3.
    + rewrite <- E1. unfold ranks_jac, assemble_ranks. apply floop_ext. intros r B Hr. rewrite (ER r Hr). reflexivity.
Qed.

(** *** The whole implicit run, started from the free stream. With any linear solver whose result depends on the system alone, the ranks of a distributed run never wait for ever, end like the run on one process
    after the same number of steps with the same recorded history (residuals and CFL numbers), and every cell and ghost cell has the same final state. *)
Theorem C105_implicit_run : forall g hs nr je dist lm jc jr ji jx j0 hsl gh S gh0 W o jreal spm sps wk ls at_throw u0,
  on_ranks g hs nr je dist lm jc jr ji jx j0 hsl gh S gh0 W o -> o_ptype o = "IMPLICIT"%string ->
  main_spatial jreal (g_m g) (g_X g) W o = Some (Val spm) -> start_spatial jreal (g_m g) (g_X g) W o = Some (Val sps) -> has_jacobian g spm -> has_jacobian g sps -> (forall b, work_ok W (wk b)) -> at_free_stream W o u0 ->
  let slv := case_solve W spm sps wk (fun i => i) (fun main => one_jac W (if main then spm else sps)) (one_ksp (sm_ne W) ls) at_throw in
  let relax := relax_of (sp_gas spm) (the_update o) in
  (o_starter o <> 0%Z -> imp_states g W sps (wk false) (start_conf o) ls relax u0) -> starter_passes slv o u0 ->
  imp_states g W spm (wk true) (main_conf o) ls relax (start_u slv o u0) -> so_end (main_run slv o u0) <> None ->
  exists spm' sps', (forall r, (r < nr)%nat -> main_spatial jreal (l_m (lm r)) (l_X (lm r)) (S r) o = Some (Val (spm' r)) /\ start_spatial jreal (l_m (lm r)) (l_X (lm r)) (S r) o = Some (Val (sps' r))) /\
  forall wk' u, (forall b r, (r < nr)%nat -> work_ok (S r) (wk' b r)) -> (forall r, (r < nr)%nat -> at_free_stream (S r) o (u r)) ->
  let r0 := main_run slv o u0 in
  exists q, imp_run nr lm S o ls (the_update o) spm' sps' wk' u = Some q /\ so_end r0 <> Some (inr Other_error) /\ alen (so_u r0) = sm_ne W /\
  (forall r, (r < nr)%nat -> so_end (q r) = so_end r0 /\ so_td (q r) = so_td r0 /\ alen (so_u (q r)) = (sm_ne (S r) + sm_nc (S r))%nat /\
     (forall l i, is_cell nr lm r l i -> aat (so_u (q r)) l = aat (so_u r0) i) /\ (forall k i p, is_ghost lm r k i p -> aat (so_u (q r)) (sm_ne (S r) + k)%nat = aat (so_u r0) i)) /\
  (forall i, (i < nelem (g_m g))%nat -> exists r l, is_cell nr lm r l i /\ aat (so_u (q r)) l = aat (so_u r0) i).
Proof.
  intros g hs nr je dist lm jc jr ji jx j0 hsl gh S gh0 W o jreal spm sps wk ls at_throw u0 T HI Em Es Jm Js Hw Fu slv relax S1 SPS S2 N2.
  assert (Lm : nc_order2 (extract_spatial_numerics_config o) = true -> forall rs, create_reconstruction (nc_rec (extract_spatial_numerics_config o)) (nc_par (extract_spatial_numerics_config o)) = Some rs -> match rs with M_Ctl.RLinear | RVanAlbada => True | M_Ctl.RWENO p => 0 < p | _ => False end).
  { cbn [extract_spatial_numerics_config nc_order2 nc_rec nc_par]. intros O2 rs Er. destruct (or_lim _ _ _ _ _ _ _ _ _ _ _ _ _ _ _ _ _ T O2) as [Q|[Q|(Q & Q')]]; rewrite Q in Er; cbn in Er; injection Er as <-; auto. }
  assert (HX : forall r, exists s, (r < nr)%nat -> main_spatial jreal (l_m (lm r)) (l_X (lm r)) (S r) o = Some (Val (fst s)) /\ start_spatial jreal (l_m (lm r)) (l_X (lm r)) (S r) o = Some (Val (snd s))).
  { intros r. destruct (lt_dec r nr) as [Hr|]; [|exists (spm, sps); lia]. destruct (rank_made _ _ _ _ _ _ _ _ _ _ _ _ _ _ _ _ _ jreal T _ _ r Hr Em Lm) as (a & Ea & _). destruct (rank_made _ _ _ _ _ _ _ _ _ _ _ _ _ _ _ _ _ jreal T _ _ r Hr Es ltac:(discriminate)) as (b & Eb & _). exists (a, b). auto. }
  destruct (finite_choice _ (spm, sps) HX nr) as (ss & HS). exists (fun r => fst (ss r)), (fun r => snd (ss r)). split; [intros r Hr; apply (HS r Hr Hr)|].
  intros wk' u Hw' Fu' r0. subst r0. pose proof T as [SO BW CE _ _ _]. pose proof (in_order _ _ _ _ _ _ _ _ _ _ _ _ _ _ SO) as MO. destruct SO as (NR & EP & SR). destruct (start_spread _ _ _ _ _ _ _ _ _ _ _ _ _ _ _ _ _ u0 u T Fu Fu') as (L0 & U0).
  assert (EI : String.eqb (o_ptype o) "IMPLICIT" = true) by (apply String.eqb_eq; exact HI).
  assert (RX : relax_of (sp_gas (fst (ss 0%nat))) (the_update o) = relax).
  { destruct (rank_made _ _ _ _ _ _ _ _ _ _ _ _ _ _ _ _ _ jreal T _ _ 0%nat NR Em Lm) as (a & Ea & _ & Q & _). pose proof (proj1 (HS 0%nat NR NR)) as E'. unfold main_spatial in E'. rewrite Ea in E'. injection E' as E'. rewrite <- E'. specialize (Q HLLC). apply (f_equal fl_gas) in Q. cbn in Q. rewrite Q. reflexivity. }
  assert (RM : forall u1 u x, alen u1 = sm_ne W -> (forall a, (a < nr)%nat -> spread lm S (aat u1) a (u a)) -> imp_state g W spm (wk true) u1 -> spatial_eval W spm (wk true) u1 = Some x -> _)
    by (intros u1 u' x L' U' (Q & _) E'; exact (ranks_eval _ _ _ _ _ _ _ _ _ _ _ _ _ _ _ _ _ jreal T (extract_spatial_numerics_config o) spm (fun r => fst (ss r)) (wk true) (wk' true) Em eq_refl eq_refl Lm (fun a Ha => proj1 (HS a Ha Ha)) (Hw true) (Hw' true) u1 u' x L' U' Q E')).
  assert (RS : forall u1 u x, alen u1 = sm_ne W -> (forall a, (a < nr)%nat -> spread lm S (aat u1) a (u a)) -> imp_state g W sps (wk false) u1 -> spatial_eval W sps (wk false) u1 = Some x -> _)
    by (intros u1 u' x L' U' (Q & _) E'; exact (ranks_eval _ _ _ _ _ _ _ _ _ _ _ _ _ _ _ _ _ jreal T (firstorder_spatial_numerics_config o) sps (fun r => snd (ss r)) (wk false) (wk' false) Es eq_refl eq_refl ltac:(discriminate) (fun a Ha => proj2 (HS a Ha Ha)) (Hw false) (Hw' false) u1 u' x L' U' Q E')).
  assert (JM : forall u1 u, alen u1 = sm_ne W -> (forall a, (a < nr)%nat -> spread lm S (aat u1) a (u a)) -> imp_state g W spm (wk true) u1 -> exists J, one_jac W spm u1 = Some (Val J) /\ ranks_jac nr lm S (fun r => fst (ss r)) u = Some J)
    by (intros u1 u' L' U' (_ & Q & Q'); exact (ranks_matrix _ _ _ _ _ _ _ _ _ _ _ _ _ _ _ _ _ jreal _ spm (fun r => fst (ss r)) u1 u' T Em eq_refl eq_refl Lm (fun a Ha => proj1 (HS a Ha Ha)) Jm L' U' Q Q')).
  assert (JS : forall u1 u, alen u1 = sm_ne W -> (forall a, (a < nr)%nat -> spread lm S (aat u1) a (u a)) -> imp_state g W sps (wk false) u1 -> exists J, one_jac W sps u1 = Some (Val J) /\ ranks_jac nr lm S (fun r => snd (ss r)) u = Some J)
    by (intros u1 u' L' U' (_ & Q & Q'); exact (ranks_matrix _ _ _ _ _ _ _ _ _ _ _ _ _ _ _ _ _ jreal _ sps (fun r => snd (ss r)) u1 u' T Es eq_refl eq_refl ltac:(discriminate) (fun a Ha => proj2 (HS a Ha Ha)) Js L' U' Q Q')).
  assert (ST : exists u1, (if (o_starter o =? 0)%Z then Some u else x <- imp_solve nr lm S false (fun r => snd (ss r)) (wk' false) (start_conf o) ls relax (o_lognres o) u ;; if forallb (fun r => passes (x r)) (seq 0 nr) then Some (fun r => so_u (x r)) else None) = Some u1 /\
    alen (start_u slv o u0) = sm_ne W /\ forall a, (a < nr)%nat -> spread lm S (aat (start_u slv o u0)) a (u1 a)).
  { unfold start_u, starter_passes in *. destruct (Z.eqb_spec (o_starter o) 0) as [Q|Q]; [exists u; auto|]. destruct SPS as [SPS|SPS]; [contradiction|]. unfold run1 in *. rewrite EI in *.
    destruct (imp_solve_ok g hs dist nr lm jc jr ji jx j0 hsl gh S SR MO gh0 W BW NR false (fun r => snd (ss r)) (wk' false) (start_conf o) ls relax (spatial_eval W sps (wk false)) (one_jac W sps) (imp_state g W sps (wk false)) RS JS
      false (o_lognres o) (the_update o) (fun main => one_jac W (if main then spm else sps)) (sp_gas spm) at_throw (fun main => spatial_eval W (if main then spm else sps) (wk main)) u0 u eq_refl eq_refl eq_refl L0 U0 (S1 Q)) as (_ & q & Eq & Lq & Hq).
    { intros E'. destruct SPS as [Q'|Q']; pose proof (eq_trans (eq_sym Q') E'); discriminate. }
    rewrite Eq. cbn [bind]. replace (forallb (fun r => passes (q r)) (seq 0 nr)) with true.
    - eexists. split; [reflexivity|]. split; [exact Lq|]. intros a Ha. apply (Hq a Ha).
    - symmetry. apply forallb_forall. intros a Ha. apply in_seq in Ha. destruct (Hq a ltac:(lia)) as (Q1 & _). unfold passes. rewrite Q1. destruct SPS as [E'|E']; unfold slv, case_solve, start_conf in *; rewrite E'; reflexivity. }
  destruct ST as (u1 & E1 & L1 & U1). unfold main_run, run2 in *. rewrite EI in *.
  destruct (imp_solve_ok g hs dist nr lm jc jr ji jx j0 hsl gh S SR MO gh0 W BW NR (o_order2 o) (fun r => fst (ss r)) (wk' true) (main_conf o) ls relax (spatial_eval W spm (wk true)) (one_jac W spm) (imp_state g W spm (wk true)) RM JM
    true (o_lognres o) (the_update o) (fun main => one_jac W (if main then spm else sps)) (sp_gas spm) at_throw (fun main => spatial_eval W (if main then spm else sps) (wk main)) (start_u slv o u0) u1 eq_refl eq_refl eq_refl L1 U1 S2 N2) as ((e & EN & NO & _) & q & Eq & Lq & Hq).
  exists q. split. { unfold imp_run. cbv zeta. rewrite RX. rewrite E1. cbn [bind]. exact Eq. } split. { unfold slv, case_solve, main_conf in *. rewrite EN. congruence. } split; [exact Lq|].
  assert (CELL : forall r, (r < nr)%nat -> so_end (q r) = so_end (slv true true (main_conf o) (o_lognres o) (the_update o) (start_u slv o u0)) /\ so_td (q r) = so_td (slv true true (main_conf o) (o_lognres o) (the_update o) (start_u slv o u0)) /\ alen (so_u (q r)) = (sm_ne (S r) + sm_nc (S r))%nat /\
     (forall l i, is_cell nr lm r l i -> aat (so_u (q r)) l = aat (so_u (slv true true (main_conf o) (o_lognres o) (the_update o) (start_u slv o u0))) i) /\ (forall k i p, is_ghost lm r k i p -> aat (so_u (q r)) (sm_ne (S r) + k)%nat = aat (so_u (slv true true (main_conf o) (o_lognres o) (the_update o) (start_u slv o u0))) i)).
  { intros r Hr. destruct (Hq r Hr) as (B1 & B2 & _ & B4 & B5 & B6). split; [exact B1|]. split; [exact B2|]. split; [exact B4|]. destruct (local_sizes _ _ _ _ _ _ _ _ _ _ _ _ _ SR r Hr) as (N & _). split.
    - intros l i (_ & Hl & <-). apply B5. lia.
    - intros k i p (cf & Ec & Q & _). rewrite (B6 k cf Ec), Q, Nat2Z.id. reflexivity. }
  split; [exact CELL|]. intros i Hi. destruct (block_at g hs dist nr lm jc jr ji jx j0 hsl gh S SR MO i Hi) as (r & l & _ & Q1 & Q2 & Q3). exists r, l. assert (IC : is_cell nr lm r l i) by (repeat split; auto). split; [exact IC|]. apply (CELL r Q1). exact IC.
Qed.
Print Assumptions C105_implicit_run.

(** *** The ring of seven triangles, implicitly *)
Definition ring_imp : fpopts := mkopts "" "" "" "EULER" "HLLC" "HLLC" "NONE" "NONE" "IMPLICIT" "" "" "NO" "STEADY" "" "FULL"
  1 10 (1/3) 1 10 (1/3) (1/2) 0 XInf 0 XInf 1.4 0 0 0 0 0 1 0 0 1 0 0 0
  [mkfbc 1 SLIP_WALL_BC [] []; mkfbc 2 SLIP_WALL_BC [] []; mkfbc 3 FARFIELD_BC [] []] 0 true false false false false [1%Z] [].
Lemma ring_jacobian t Rg sp : made_for ring_imp sp -> has_jacobian (mkgm ring t ringX6 Rg) sp.
Proof.
  intros (G1 & _ & _ & _ & _ & G6 & G7 & _ & _ & _ & G11). exists HLLC, HLLC. split; [apply G6; cbn; auto 6|]. assert (EJ : sp_jac sp = Some HLLC) by (apply G7; cbn; auto 6). split; [exact EJ|]. split.
  - unfold jac_gas. cbn [sp_flow fl_jflux fl_gas]. rewrite EJ, G1. cbn. repeat split; try lra. 
  - intros bf a r p q Hb Et. cbn [g_m bfaces ring In] in Hb. cbn [sp_flow fl_bcs].
    pose proof (G11 1%Z _ eq_refl) as B1. pose proof (G11 2%Z _ eq_refl) as B2. pose proof (G11 3%Z _ eq_refl) as B3. cbn in B1, B2, B3. destruct B3 as (w & B3 & _).
    destruct Hb as [<-|[<-|[<-|[]]]]; injection Et as <- _; [rewrite B1|rewrite B2|rewrite B3]; discriminate.
Qed.
(** Whatever memory contained and whatever the linear solver: the hypotheses of C105_implicit_run hold for the mesh split over two ranks, three cells and four, and both ranks end like the one process with the values of their cells. *)
Theorem C105_example : forall je ls, exists t dist lm jc jr ji jx j0 hsl gh S gh0 W, let g := mkgm ring t ringX6 (mkarr 7 (fun _ => [1%Z])) in
  on_ranks g ring_h 2 je dist lm jc jr ji jx j0 hsl gh S gh0 W ring_imp /\
  exists spm sps spm' sps' u0 u, main_spatial (fun _ => 0) ring ringX6 W ring_imp = Some (Val spm) /\ at_free_stream W ring_imp u0 /\ (forall r, (r < 2)%nat -> main_spatial (fun _ => 0) (l_m (lm r)) (l_X (lm r)) (S r) ring_imp = Some (Val (spm' r)) /\ at_free_stream (S r) ring_imp (u r)) /\
  let r0 := main_run (case_solve W spm sps (ch_work W) (fun i => i) (fun main => one_jac W (if main then spm else sps)) (one_ksp (sm_ne W) ls) (fun u => u)) ring_imp u0 in
  exists q, imp_run 2 lm S ring_imp ls (the_update ring_imp) spm' sps' (fun b r => ch_work (S r) b) u = Some q /\ forall r, (r < 2)%nat -> so_end (q r) = Some (inr Tolerance_error) /\
    (forall l i, is_cell 2 lm r l i -> aat (so_u (q r)) l = aat (so_u r0) i).
Proof.
  intros je ls. destruct (global_of ring ring_h ring_tiled eq_refl ringX6 (mkarr 7 (fun _ => [1%Z])) eq_refl eq_refl) as (t & G). set (g := mkgm ring t ringX6 (mkarr 7 (fun _ => [1%Z]))) in *.
  assert (H34 : forall c, In c (cells ring) -> (List.length c = 3 \/ List.length c = 4)%nat).
  { intros c Hc. left. unfold ring in Hc. cbn [cells In] in Hc. repeat (destruct Hc as [<-|Hc]; [reflexivity|]). contradiction. }
  destruct (ring_two je) as (dist & Ed & D).
  destruct (ranks_set_up g ring_h 2 je dist ring_imp G ltac:(lia) Ed H34 ring_ends) as (lm & jc & jr & ji & jx & j0 & hsl & gh & S & gh0 & W & T).
  { intros r i f j _. apply ring_any. } { intros bf [<-|[<-|[<-|[]]]]; do 2 eexists; (split; [reflexivity|cbn; auto]). } { cbn. split; [lra|]. split; [lra|]. intros _. lra. } { auto. }
  exists t, dist, lm, jc, jr, ji, jx, j0, hsl, gh, S, gh0, W. cbv zeta. split; [exact T|].
  pose proof T as [(NR & EP & SR) BW _ _ _ _].
  destruct (ring_discretizations (ringL (mkarr 7 (fun _ => [1%Z]))) (mkarr 7 (fun i => i)) gh0 W ring_h (ring_itself _) ltac:(apply Permutation_refl) BW) as (spm & sps & Em & Es & H1).
  change (main_spatial (fun _ => 0) ring ringX6 W ring_imp = Some (Val spm)) in Em. change (start_spatial (fun _ => 0) ring ringX6 W ring_imp = Some (Val sps)) in Es.
  destruct (free_start W ring_imp ltac:(cbn; lra) ltac:(cbn; lra)) as (u0 & Fu0). assert (WO : forall S b, work_ok S (ch_work S b)) by (intros; repeat split).
  destruct (finite_choice (fun r u => (r < 2)%nat -> at_free_stream (S r) ring_imp u) u0 (fun r => match free_start (S r) ring_imp ltac:(cbn; lra) ltac:(cbn; lra) with ex_intro _ u H => ex_intro _ u (fun _ => H) end) 2) as (u & Fu).
  destruct (H1 (ch_work W) (fun i => i) (fun _ _ => None) ch_ksp (fun u => u) u0 (WO W) Fu0) as (SO & EN).
  destruct (C98_discretization ring ringX6 W ring_imp (fun _ => 0) ltac:(cbn; lra) ltac:(cbn; lra)) as (MM & MS). destruct (MM spm Em) as (MM' & _). destruct (MS sps Es) as (MS' & _). clear MM MS.
  pose proof (ring_jacobian t (mkarr 7 (fun _ => [1%Z])) spm MM') as Jm. pose proof (ring_jacobian t (mkarr 7 (fun _ => [1%Z])) sps MS') as Js. fold g in Jm, Js.
  set (slv := case_solve W spm sps (ch_work W) (fun i => i) (fun main => one_jac W (if main then spm else sps)) (one_ksp (sm_ne W) ls) (fun u => u)).
  assert (EU : start_u slv ring_imp u0 = u0) by reflexivity.
  destruct (whole_sizes g ring_h dist 2 lm jc jr ji jx j0 hsl gh S SR gh0 W BW) as (N1 & N2). assert (N0 : sm_nc W = 0%nat) by tauto.
  assert (PH : forall i, (i < sm_ne W)%nat -> physical (gam (sp_gas spm)) (aat u0 i)) by (intros i Hi; eapply ring_physical; eauto; apply MM').
  assert (I0 : imp_state g W spm (ch_work W true) u0).
  { split; [|split].
    - apply (SO 0%nat (mkmon u0 0 1 1 1 (cflinit (main_conf ring_opts)) 0 [])); [cbn; lia|reflexivity].
    - intros i Hi. apply PH. lia.
    - intros j _ i f k (Hi & _ & Hk & _) e. unfold nelem in N1. left. destruct Fu0 as (L & F). apply (free_stream_unique (o_gam ring_imp) (o_Minf ring_imp) (o_alpha ring_imp)); [cbn; lra|apply F; lia|apply F; lia]. }
  assert (ST : imp_states g W spm (ch_work W true) (main_conf ring_imp) ls (relax_of (sp_gas spm) (the_update ring_imp)) (start_u slv ring_imp u0)).
  { rewrite EU. intros k y Hk Ek. change (Z.to_nat (maxiter (main_conf ring_imp))) with 1%nat in Hk. assert (k = 0)%nat by lia. subst k. cbn [steady_loop] in Ek. injection Ek as <-. exact I0. }
  destruct (start_spread _ _ _ _ _ _ _ _ _ _ _ _ _ _ _ _ _ u0 u T Fu0 (fun r Hr => Fu r Hr Hr)) as (L0 & U0).
  assert (ER : exists ro, spatial_eval W spm (ch_work W true) u0 = Some (Val ro) /\ rt_fin ro = true /\ alen (rt_r ro) = sm_ne W /\ alen (rt_dt ro) = sm_ne W).
  { destruct (spatial_eval W spm (ch_work W true) u0) as [x|] eqn:E.
    - destruct (finite_choice (fun r s => (r < 2)%nat -> main_spatial (fun _ => 0) (l_m (lm r)) (l_X (lm r)) (S r) ring_imp = Some (Val s)) spm) with (n := 2%nat) as (ss & HS).
      { intros r. destruct (lt_dec r 2) as [Hr|]; [|exists spm; lia]. destruct (rank_made _ _ _ _ _ _ _ _ _ _ _ _ _ _ _ _ _ (fun _ => 0) T _ _ r Hr Em ltac:(discriminate)) as (a & Ea & _). exists a. auto. }
      destruct (ranks_eval _ _ _ _ _ _ _ _ _ _ _ _ _ _ _ _ _ (fun _ => 0) T (extract_spatial_numerics_config ring_imp) spm ss (ch_work W true) (fun r => ch_work (S r) true) Em eq_refl eq_refl ltac:(discriminate) (fun a Ha => HS a Ha Ha) (WO W true) (fun r _ => WO (S r) true) u0 u x L0 U0 (proj1 I0) E) as (ro & out & -> & Q1 & Q2 & Q3 & _). eauto 6.
    - exfalso. revert EN. unfold main_run, run2, case_solve, ode_solve, loop_of, fe_solve. cbv zeta. change (start_u _ ring_opts u0) with u0. change (String.eqb (o_ptype ring_opts) "IMPLICIT") with false. change (mksconf _ _ _ _) with (main_conf ring_opts).
      change (maxiter (main_conf ring_opts) <=? 0)%Z with false. change (Z.to_nat (maxiter (main_conf ring_opts))) with 1%nat. cbv iota. cbn [steady_loop]. unfold steady_body. cbn [m_u]. rewrite E. destruct (steady_cont _ _) eqn:SC; [discriminate|].
      exfalso. revert SC. unfold steady_cont. cbn [m_resi m_init m_step]. unfold rel_gt. destruct (Req_EM_T 1 0); [lra|]. cbn [tol main_conf ring_opts o_tol]. destruct (Rlt_dec (1/3) (1/1)); [discriminate|lra]. }
  destruct ER as (ro & ER & FR & LR & LD).
  assert (EJ : exists J, one_jac W spm u0 = Some (Val J)).
  { destruct (finite_choice (fun r s => (r < 2)%nat -> main_spatial (fun _ => 0) (l_m (lm r)) (l_X (lm r)) (S r) ring_imp = Some (Val s)) spm) with (n := 2%nat) as (ss & HS).
    { intros r. destruct (lt_dec r 2) as [Hr|]; [|exists spm; lia]. destruct (rank_made _ _ _ _ _ _ _ _ _ _ _ _ _ _ _ _ _ (fun _ => 0) T _ _ r Hr Em ltac:(discriminate)) as (a & Ea & _). exists a. auto. }
    destruct I0 as (_ & Q & Q'). destruct (ranks_matrix _ _ _ _ _ _ _ _ _ _ _ _ _ _ _ _ _ (fun _ => 0) _ spm ss u0 u T Em eq_refl eq_refl ltac:(discriminate) (fun a Ha => HS a Ha Ha) Jm L0 U0 Q Q') as (J & E & _). eauto. }
  destruct EJ as (J & EJ).
  assert (EI : so_end (main_run slv ring_imp u0) = Some (inr Tolerance_error)).
  { pose proof (so_A _ (built_sm _ _ _ _ _ BW)) as LA. unfold main_run, run2. change (String.eqb (o_ptype ring_imp) "IMPLICIT") with true. rewrite EU. unfold slv, case_solve, ode_solve, loop_of, be_solve. cbv zeta. change (mksconf _ _ _ _) with (main_conf ring_imp).
    change (maxiter (main_conf ring_imp) <=? 0)%Z with false. change (Z.to_nat (maxiter (main_conf ring_imp))) with 1%nat. cbv iota. cbn [steady_loop].
    assert (SC : steady_cont (main_conf ring_imp) (mkmon u0 0 1 1 1 0 0 []) = true).
    { unfold steady_cont. cbn [m_resi m_init m_step]. unfold rel_gt. destruct (Req_EM_T 1 0); [lra|]. cbn [tol main_conf ring_imp o_tol]. destruct (Rlt_dec (1/3) (1/1)); [reflexivity|lra]. }
    rewrite SC. unfold steady_body. cbn [m_u m_step m_cfl m_old m_resi m_init m_lin m_log]. rewrite ER. cbv zeta. unfold be_upd. rewrite EJ.
    set (cf := expResidualRamp _ _ _ _ _ _). destruct (pseudo_ok (sm_ne W) (sm_A W) (fun i => i) (fun i j _ _ Q => Q) cf (rt_dt ro) J) as (e0 & M0 & -> & _); try lia. cbn [bind]. unfold one_ksp. set (X := ls _ _ _ _ _).
    match goal with |- context [be_update _ ?rl _ _] => destruct (be_update_ok (sm_ne W) rl u0 (mkarr (sm_ne W) (fst X))) as (v & -> & _); [lia|cbn [alen]; lia|] end. cbn [bind]. rewrite FR. cbn [m_step]. reflexivity. }
  destruct (C105_implicit_run _ _ _ _ _ _ _ _ _ _ _ _ _ _ _ _ _ (fun _ => 0) spm sps (ch_work W) ls (fun u => u) u0 T eq_refl Em Es Jm Js (WO W) Fu0 ltac:(intros Q; destruct (Q eq_refl)) ltac:(left; reflexivity) ST ltac:(fold slv; rewrite EI; discriminate)) as (spm' & sps' & E' & H).
  destruct (H (fun b r => ch_work (S r) b) u (fun b r _ => WO (S r) b) (fun r Hr => Fu r Hr Hr)) as (q & Eq & _ & _ & HQ & _).
  exists spm, sps, spm', sps', u0, u. split; [exact Em|]. split; [exact Fu0|]. split; [intros r Hr; split; [apply (E' r Hr)|apply (Fu r Hr Hr)]|]. exists q. split; [exact Eq|]. intros r Hr. destruct (HQ r Hr) as (Q1 & _ & _ & Q3 & _). fold slv in Q1. rewrite Q1. split; [exact EI|]. exact Q3.
Qed.
Print Assumptions C105_example.
