(** C100, from the mesh file: the option -mesh_reorder does not change what an explicit run on one process computes. *)
From Coq Require Import Reals Lra List String ZArith Bool Arith Lia Permutation Sorted.
From Verif Require Import Base BaseR BaseSum M_Gas M_Flux M_BC M_BCConf M_Mesh M_Geom M_Space M_Grad M_Recon S_Space S_Gas S_Mesh S_Geom M_Resid S_Resid M_Ode M_MeshUtil M_Part M_Prep
  Pf_Topo Pf_Incid Pf_Full Pf_Geom Pf_Space Pf_Reorder Pf_Part Pf_Host Pf_Restrict P_Geom P_MeshUtil P_Part P_Compare Pf_Lines P_Lines Pf_Prep P_Prep Pf_Resid Pf_Resid2 P_Resid P_Par2 Pf_BCConf Pf_Ode Pf_Ode2 M_Ctl M_Case P_Case M_Start P_Start Pf_Renum P_Renum.
Import ListNotations.
Open Scope R_scope.

(** ** Specification *)
(** what the spatial discretization computes from the mesh [P] of the case *)
Definition case_mesh (P : pmesh) (gh : nat -> v2) (S : smesh) : Prop :=
  exists ni t M A jc jb, pm_t P = Some (ni, t) /\ pm_M P = Some M /\ pm_A P = Some A /\ spatial_ctor (l_m (pm_l P)) (l_X (pm_l P)) ni t M A gh jc jb = Some S.
(** a mesh file and the control file for it *)
Record file_case (m : umesh) (hs : list (nat * nat)) (X : arr v2) (regs : arr (list Z)) (o : fpopts) : Prop := {
  fc_file : mesh_file m hs X regs;
  fc_ends : distinct_ends m X;
  fc_tags : forall bf, In bf (bfaces m) -> exists t r, btg bf = t :: r /\ In t (map fb_tag (o_bc o));
  fc_gas : 1 < o_gam o /\ 0 < o_Minf o /\ (o_invflux o = "HLLC"%string -> 5/4 <= o_gam o);
  fc_lim : o_order2 o = true -> o_lim o = "NONE"%string \/ o_lim o = "VANALBADA"%string \/ o_lim o = "WENO"%string /\ 0 < o_limpar o }.

(** ** Proofs *)
Lemma perm_of_inj n (f : nat -> nat) : (forall i, (i < n)%nat -> (f i < n)%nat) -> (forall i j, (i < n)%nat -> (j < n)%nat -> f i = f j -> i = j) -> is_perm n (mkarr n f).
Proof.
  intros H1 H2. unfold is_perm, alist. cbn [alen aat]. apply NoDup_Permutation_bis.
  - clear H1. assert (G : forall l, NoDup l -> (forall x, In x l -> (x < n)%nat) -> NoDup (map f l)).
    { induction 1 as [|x l Nx ND IH]; intros B; cbn; constructor.
      - intros Q. apply in_map_iff in Q. destruct Q as (y & Ey & Iy). apply H2 in Ey; [subst; auto| |]; apply B; cbn; auto.
      - apply IH. intros y Hy. apply B. cbn; auto. }
    apply G; [apply seq_NoDup|]. intros x Hx. apply in_seq in Hx. lia.
  - rewrite map_length. auto.
  - intros x Hx. apply in_map_iff in Hx. destruct Hx as (i & <- & Hi). apply in_seq in Hi. apply in_seq. pose proof (H1 i ltac:(lia)). lia.
Qed.
Lemma f2_length {A B} (Q : A -> B -> Prop) l l' : Forall2 Q l l' -> List.length l = List.length l'. Proof. induction 1; cbn; auto. Qed.
Lemma ss_nodup l : StronglySorted lt l -> NoDup l.
Proof. induction 1 as [|x l SS IH F]; constructor; auto. intros Q. rewrite Forall_forall in F. specialize (F x Q). lia. Qed.
Lemma back_inj L L' v w : StronglySorted lt (l_p2g L) -> l_p2g L' = l_p2g L -> (v < List.length (l_p2g L))%nat -> (w < List.length (l_p2g L))%nat -> back L v = back L' w -> v = w.
Proof. intros SS E Hv Hw Q. unfold back in Q. rewrite E in Q. apply (proj1 (NoDup_nth (l_p2g L) 0%nat) (ss_nodup _ SS)); auto. Qed.
Lemma map_back_inj L L' l l' : StronglySorted lt (l_p2g L) -> l_p2g L' = l_p2g L -> (forall v, In v l -> (v < List.length (l_p2g L))%nat) -> (forall v, In v l' -> (v < List.length (l_p2g L))%nat) -> map (back L) l = map (back L') l' -> l = l'.
Proof.
  intros SS E. revert l'. induction l as [|v l IH]; intros [|w l'] H H' Q; cbn in Q; try discriminate; auto. injection Q as Q1 Q2. f_equal.
  - apply (back_inj L L'); auto; [apply H|apply H']; cbn; auto.
  - apply IH; auto; intros x Hx; [apply H|apply H']; cbn; auto.
Qed.
Lemma case_built P hs gh S : prepared P hs -> case_mesh P gh S -> built (l_m (pm_l P)) hs (l_X (pm_l P)) gh S.
Proof.
  intros (ni & t & M & A & E1 & E2 & E3 & _ & _ & _ & H) (ni' & t' & M' & A' & jc & jb & Q1 & Q2 & Q3 & Q4). rewrite E1 in Q1. injection Q1 as <- <-. rewrite E2 in Q2. injection Q2 as <-. rewrite E3 in Q3. injection Q3 as <-.
  destruct (H gh jc jb) as (S' & ES & B). congruence.
Qed.
Lemma case_exists P hs gh : prepared P hs -> exists S, case_mesh P gh S.
Proof. intros (ni & t & M & A & E1 & E2 & E3 & _ & _ & _ & H). destruct (H gh (fun _ => vzero) (fun _ => vzero)) as (S & ES & _). exists S, ni, t, M, A, (fun _ => vzero), (fun _ => vzero). auto. Qed.

Section Orders.
Variables (m : umesh) (X : arr v2) (L L' : lmesh) (p p' : arr nat) (hs1 hs2 : list (nat * nat)).
Hypothesis HS : same_mesh m X p L.
Hypothesis HS' : same_mesh m X p' L'.
Hypothesis Pp : is_perm (nelem m) p.
Hypothesis Pp' : is_perm (nelem m) p'.
Hypothesis TL : tiled (l_m L) hs1.
Hypothesis TL' : tiled (l_m L') hs2.
Definition order_map : arr nat := mkarr (nelem m) (fun i => idx (alist p) (aat p' i)).
Lemma order_map_ok i : (i < nelem m)%nat -> (aat order_map i < nelem m)%nat /\ aat p (aat order_map i) = aat p' i.
Proof.
  intros Hi. cbn [order_map aat]. destruct (idx_ok (alist p) (aat p' i)) as (A & B).
  - eapply Permutation_in; [symmetry; exact Pp|]. apply in_seq. pose proof (perm_bound _ _ _ Pp' Hi). lia.
  - rewrite alist_length in A. rewrite (perm_len _ _ Pp) in A. split; [exact A|]. rewrite P_MeshUtil.nth_alist in B by (rewrite (perm_len _ _ Pp); exact A). exact B.
Qed.
Lemma order_map_perm : is_perm (nelem m) order_map.
Proof.
  apply perm_of_inj.
  - intros i Hi. apply (order_map_ok i Hi).
  - intros i j Hi Hj E. apply (perm_inj _ _ _ _ Pp' Hi Hj). destruct (order_map_ok i Hi) as (_ & <-). destruct (order_map_ok j Hj) as (_ & <-). cbn [order_map aat]. rewrite E. reflexivity.
Qed.
Lemma points_same : l_p2g L' = l_p2g L.
Proof.
  destruct HS as (_ & _ & _ & S4 & S5 & _). destruct HS' as (_ & _ & _ & S4' & S5' & _). apply ss_ext; auto. intros x. rewrite S5, S5'. tauto.
Qed.
Lemma orders_renumbered : renumbered (l_m L) (l_X L) order_map (l_m L') (l_X L').
Proof.
  pose proof points_same as PS. destruct HS as (S1 & S2 & S3 & S4 & S5 & (S6 & S6') & S7 & S8). destruct HS' as (S1' & S2' & S3' & S4' & S5' & (S6a & S6b) & S7' & S8').
  unfold renumbered. rewrite S1. split; [apply order_map_perm|]. split; [congruence|].
  assert (V : forall M hh (T : tiled M hh) i, (i < nelem M)%nat -> forall v, In v (cell (cells M) i) -> (v < npoin M)%nat).
  { intros M hh T i Hi v Hv. apply (gm_valid _ _ (tl_good _ _ T) (cell (cells M) i)); auto. apply nth_In. exact Hi. }
  split.
  { intros i Hi. destruct (order_map_ok i Hi) as (A & B). symmetry. apply (map_back_inj L L'); auto.
    - intros v Hv. rewrite <- S3. apply (V _ _ TL (aat order_map i)); [lia|exact Hv].
    - intros v Hv. rewrite <- PS, <- S3'. apply (V _ _ TL' i); [lia|exact Hv].
    - rewrite S2, S2' by auto. rewrite B. reflexivity. }
  split; [congruence|]. split; [intros v Hv; rewrite S6b, S6' by congruence; unfold back; rewrite PS; reflexivity|].
  split; [|auto]. apply Forall2_nth.
  - apply f2_length in S7, S7'. lia.
  - intros k b b' E E'. assert (exists fb, nth_error (bfaces m) k = Some fb) as (fb & Ef). { destruct (nth_error (bfaces m) k) eqn:Q; eauto. apply nth_error_None in Q. apply f2_length in S7. assert (nth_error (bfaces (l_m L)) k <> None) by congruence. apply nth_error_Some in H. lia. }
    destruct (forall2_nth _ _ _ S7 k b E) as (f1 & F1 & A1 & A2). destruct (forall2_nth _ _ _ S7' k b' E') as (f2 & F2 & B1 & B2). assert (f1 = fb) by congruence. assert (f2 = fb) by congruence. subst f1 f2.
    split; [|congruence]. assert (BD : forall M hh (T : tiled M hh) q z, nth_error (bfaces M) q = Some z -> (b0 z < npoin M)%nat /\ (b1 z < npoin M)%nat).
    { intros M hh T q z Ez. destruct (gm_hosts _ _ (tl_good _ _ T)) as (Lh & Hh). assert (q < nbface M)%nat by (unfold nbface; apply nth_error_Some; congruence). destruct (nth_error hh q) as [h|] eqn:Eh; [|apply nth_error_None in Eh; lia]. destruct (Hh q z h Ez Eh) as (Q1 & Q2 & _). auto. }
    destruct (BD _ _ TL k b E) as (C0 & C1). destruct (BD _ _ TL' k b' E') as (D0 & D1). rewrite S3 in C0, C1. rewrite S3', PS in D0, D1. cbn [back_bf same_points b0 b1] in *. unfold same_points, back_bf in A1, B1. cbn [b0 b1] in A1, B1.
    assert (J : forall v w, (v < List.length (l_p2g L))%nat -> (w < List.length (l_p2g L))%nat -> back L v = back L' w -> v = w) by (intros; apply (back_inj L L'); auto).
    unfold same_ends. destruct A1 as [(A1 & A3)|(A1 & A3)], B1 as [(B1 & B3)|(B1 & B3)]; [left|right|right|left]; split; symmetry; apply J; congruence.
Qed.
Lemma ends_kept : distinct_ends m X -> distinct_ends (l_m L) (l_X L).
Proof.
  intros D i f Hi Hf. destruct HS as (S1 & S2 & S3 & S4 & S5 & (S6 & S6') & S7 & S8). pose proof (perm_bound _ _ i Pp ltac:(lia)) as Hp. specialize (S2 i ltac:(lia)).
  assert (Hl : List.length (cell (cells (l_m L)) i) = List.length (cell (cells m) (aat p i))) by (rewrite <- S2, map_length; reflexivity).
  specialize (D (aat p i) f Hp ltac:(lia)). rewrite <- S2 in D.
  rewrite Pf_Restrict.edge_map in D by exact Hf. cbn [fst snd] in D. destruct (Pf_Restrict.edge_in (cell (cells (l_m L)) i) f Hf) as (I1 & I2).
  assert (V : forall v, In v (cell (cells (l_m L)) i) -> (v < npoin (l_m L))%nat). { intros v Hv. apply (gm_valid _ _ (tl_good _ _ TL) (cell (cells (l_m L)) i)); auto. apply nth_In. exact Hi. }
  rewrite !S6' by auto. exact D.
Qed.
End Orders.

(** ** Theorems *)
(** *** Two orders of one file: whatever the two options, the meshes made are one mesh with its cells in two orders. Cell [c] of the
    file is cell i of the one and cell j of the other, where [p i = c] and [p' j = c]. *)
Theorem C100_reordering : forall srt registered m hs X regs o po po' kg k1 k2 je jc jr ji jx j0 g0 kg' k1' k2' je' jc' jr' ji' jx' j0' g0' P P',
  file_case m hs X regs o -> sorts_down srt -> (forall name f, registered name = Some f -> forall n ent, Permutation (f n ent) (seq 0 n)) ->
  constructMesh srt registered po 1 0 kg k1 k2 je jc jr ji jx j0 g0 m X regs = Some (Val P) ->
  constructMesh srt registered po' 1 0 kg' k1' k2' je' jc' jr' ji' jx' j0' g0' m X regs = Some (Val P') ->
  exists p p' s, is_perm (nelem m) p /\ is_perm (nelem m) p' /\ same_mesh m X p (pm_l P) /\ same_mesh m X p' (pm_l P') /\ ordered registered po m hs X p /\ ordered registered po' m hs X p' /\
    (forall i, (i < nelem m)%nat -> aat p (aat s i) = aat p' i) /\ (forall gh, exists S, case_mesh P gh S) /\ (forall gh, exists S, case_mesh P' gh S) /\
    forall gh S gh' S', case_mesh P gh S -> case_mesh P' gh' S' -> sm_ne S = nelem m /\
      exists hs1 hs2, two_orders (l_m (pm_l P)) hs1 (l_X (pm_l P)) gh S (l_m (pm_l P')) hs2 (l_X (pm_l P')) gh' S' s o.
Proof.
  intros srt registered m hs X regs o po po' kg k1 k2 je jc jr ji jx j0 g0 kg' k1' k2' je' jc' jr' ji' jx' j0' g0' P P' FC Hs Hr E E'.
  destruct (C99_mesh_of_a_case srt registered m hs X regs po kg k1 k2 je jc jr ji jx j0 g0 (fc_file _ _ _ _ _ FC) Hs Hr) as (r & Er & H). rewrite E in Er. injection Er as <-. destruct H as (_ & p & hs1 & Pp & Or & SM & T & _ & PR).
  destruct (C99_mesh_of_a_case srt registered m hs X regs po' kg' k1' k2' je' jc' jr' ji' jx' j0' g0' (fc_file _ _ _ _ _ FC) Hs Hr) as (r & Er & H). rewrite E' in Er. injection Er as <-. destruct H as (_ & p' & hs2 & Pp' & Or' & SM' & T' & _ & PR').
  exists p, p', (order_map m p p'). do 6 (split; auto). split; [intros i Hi; apply (order_map_ok m p p' Pp Pp' i Hi)|].
  split; [intros gh; eapply case_exists; eauto|]. split; [intros gh; eapply case_exists; eauto|]. intros gh S gh' S' CS CS'. pose proof (case_built _ _ _ _ PR CS) as B. pose proof (case_built _ _ _ _ PR' CS') as B'.
  split. { destruct (built_ok _ _ _ _ _ B) as (a1 & a2 & a3 & a4 & a5 & _ & _ & N1 & _). rewrite N1. apply SM. }
  exists hs1, hs2. split; auto.
  - eapply orders_renumbered; eauto.
  - eapply ends_kept; eauto. apply (fc_ends _ _ _ _ _ FC).
  - intros bf Hb. destruct SM as (_ & _ & _ & _ & _ & _ & S7 & _). apply In_nth_error in Hb. destruct Hb as (k & Ek). destruct (forall2_nth _ _ _ S7 k bf Ek) as (fb & Ef & _ & Et). rewrite Et. apply (fc_tags _ _ _ _ _ FC). eapply nth_error_In; eauto.
  - apply (fc_gas _ _ _ _ _ FC).
  - apply (fc_lim _ _ _ _ _ FC).
Qed.

(** *** The explicit run: with any other -mesh_reorder it ends in the same way, with the same history, and with the same state in every cell of the file *)
Theorem C100_reordering_run : forall srt registered m hs X regs o po po' kg k1 k2 je jc jr ji jx j0 g0 kg' k1' k2' je' jc' jr' ji' jx' j0' g0' P P' gh S gh' S' jreal spm sps wk glob Jf ksp at_throw u u',
  file_case m hs X regs o -> sorts_down srt -> (forall name f, registered name = Some f -> forall n ent, Permutation (f n ent) (seq 0 n)) ->
  constructMesh srt registered po 1 0 kg k1 k2 je jc jr ji jx j0 g0 m X regs = Some (Val P) ->
  constructMesh srt registered po' 1 0 kg' k1' k2' je' jc' jr' ji' jx' j0' g0' m X regs = Some (Val P') ->
  case_mesh P gh S -> case_mesh P' gh' S' -> o_ptype o <> "IMPLICIT"%string ->
  main_spatial jreal (l_m (pm_l P)) (l_X (pm_l P)) S o = Some (Val spm) -> start_spatial jreal (l_m (pm_l P)) (l_X (pm_l P)) S o = Some (Val sps) -> (forall b, work_ok S (wk b)) ->
  at_free_stream S o u -> at_free_stream S' o u' ->
  let slv := case_solve S spm sps wk glob Jf ksp at_throw in
  (o_starter o <> 0%Z -> sound_solve S sps (wk false) (start_conf o) u /\ so_end (run1 slv o u) <> None) ->
  sound_solve S spm (wk true) (main_conf o) (start_u slv o u) -> so_end (main_run slv o u) <> None ->
  exists spm' sps' p p', main_spatial jreal (l_m (pm_l P')) (l_X (pm_l P')) S' o = Some (Val spm') /\ start_spatial jreal (l_m (pm_l P')) (l_X (pm_l P')) S' o = Some (Val sps') /\
  is_perm (nelem m) p /\ is_perm (nelem m) p' /\ same_mesh m X p (pm_l P) /\ same_mesh m X p' (pm_l P') /\ ordered registered po m hs X p /\ ordered registered po' m hs X p' /\
  forall wk' glob' Jf' ksp' at_throw', (forall b, work_ok S' (wk' b)) ->
  let slv' := case_solve S' spm' sps' wk' glob' Jf' ksp' at_throw' in
  let r := main_run slv o u in let r' := main_run slv' o u' in
  so_end r' = so_end r /\ so_td r' = so_td r /\
  forall i j, (i < nelem m)%nat -> (j < nelem m)%nat -> aat p' i = aat p j -> aat (so_u r') i = aat (so_u r) j.
Proof.
  intros srt registered m hs X regs o po po' kg k1 k2 je jc jr ji jx j0 g0 kg' k1' k2' je' jc' jr' ji' jx' j0' g0' P P' gh S gh' S' jreal spm sps wk glob Jf ksp at_throw u u' FC Hs Hr E E' CS CS' HI Em Es Hw Fu Fu' slv S1 S2 N2.
  destruct (C100_reordering srt registered m hs X regs o po po' kg k1 k2 je jc jr ji jx j0 g0 kg' k1' k2' je' jc' jr' ji' jx' j0' g0' P P' FC Hs Hr E E') as (p & p' & s & Pp & Pp' & SM & SM' & Or & Or' & PS & _ & _ & H).
  destruct (H gh S gh' S' CS CS') as (NE & hs1 & hs2 & T).
  destruct (C100_explicit_run _ _ _ _ _ _ _ _ _ _ _ _ jreal spm sps wk glob Jf ksp at_throw u u' T HI Em Es Hw Fu Fu' S1 S2 N2) as (spm' & sps' & Em' & Es' & R0).
  exists spm', sps', p, p'. do 8 (split; auto). intros wk' glob' Jf' ksp' at_throw' Hw'. destruct (R0 wk' glob' Jf' ksp' at_throw' Hw') as (_ & A & B & _ & _ & _ & C).
  split; [exact A|]. split; [exact B|]. intros i j Hi Hj Q. rewrite C by lia. f_equal. pose proof (two_sizes _ _ _ _ _ _ _ _ _ _ _ _ T) as (_ & _ & _ & Ps & _). rewrite NE in Ps. apply (perm_inj _ _ _ _ Pp); [apply (perm_bound _ _ _ Ps Hi)|exact Hj|]. rewrite PS by auto. exact Q.
Qed.
Print Assumptions C100_reordering.
Print Assumptions C100_reordering_run.

(** ** A case: the seven triangles of C99 with slip walls on all sides, first order, one step; the cells as in the file and in the order of a PETSc ordering *)
Lemma eval_defined m hs X gh S sp w u f : built m hs X gh S -> distinct_ends m X -> (forall i, (i < sm_ne S)%nat -> 0 < aat (sm_A S) i) -> sm_nc S = 0%nat ->
  (forall bf, In bf (bfaces m) -> exists t r b, btg bf = t :: r /\ mfind (sp_bcs sp) t = Some b) -> 1 < gam (sp_gas sp) -> sp_visc sp = false -> sp_order2 sp = false -> sp_flux sp = Some f ->
  work_ok S w -> alen u = sm_ne S -> (forall i, (i < sm_ne S)%nat -> physical (gam (sp_gas sp)) (aat u i)) ->
  exists ro, spatial_eval S sp w u = Some (Val ro) /\ rt_fin ro = true /\ alen (rt_r ro) = sm_ne S /\ alen (rt_dt ro) = sm_ne S.
Proof.
  intros B D HA N0 TC Hg NV O1 Ef (W1 & W2 & W3 & W4) Lu PU. unfold spatial_eval. rewrite Ef, O1. cbn [bind]. set (fl := sp_flow sp f). pose proof (built_sm _ _ _ _ _ B) as OK.
  destruct (cover_by_tag m hs X gh S fl B TC) as (bc & C & _).
  destruct (residual1_ok S fl bc u (wk_l w) (wk_r w) (mkarr (sm_ne S) (fun _ => szero)) (wk_g w) (Some (wk_dt w)) OK C ltac:(lia) W1 W2 eq_refl) as (ul & ur & res' & Ll & Lr & V & ER & LR & P).
  destruct (C68_time_step m hs X gh S B D HA fl ul ur (wk_dt w) Hg) as (d & Ed & Ld & Pd); auto.
  - intros Q. cbn in Q. congruence.
  - intros k Hk. destruct (V k Hk) as (-> & _). unfold left_value. apply PU. apply (so_left _ OK k Hk).
  - intros k Hk. destruct (V k ltac:(unfold sm_nf_all; lia)) as (_ & ->). unfold right_value. destruct (Nat.ltb_spec k (sm_nb S)); [lia|]. apply PU. apply (so_int _ OK k Hk).
  - rewrite ER. cbn [maybe_dt]. rewrite Ed. cbn [bind ro_dt ro_res]. eexists. split; [reflexivity|]. cbn. auto.
Qed.
Definition ring_opts : fpopts := mkopts "" "" "" "EULER" "HLLC" "HLLC" "NONE" "NONE" "EXPLICIT" "" "" "NO" "STEADY" "" "FULL"
  1 10 (1/3) 1 10 (1/3) (1/2) 0 XInf 0 XInf 1.4 0 0 0 0 0 1 0 0 1 0 0 0
  [mkfbc 1 SLIP_WALL_BC [] []; mkfbc 2 SLIP_WALL_BC [] []; mkfbc 3 FARFIELD_BC [] []] 0 true false false false false [1%Z] [].
Lemma ring_case : file_case ring_f ring_h ring_fX (mkarr 7 (fun _ => [1%Z])) ring_opts.
Proof.
  split.
  - apply ring_file.
  - intros i f Hi Hf. cbn in Hi. do 7 (destruct i as [|i]; [cbn in Hf; do 3 (destruct f as [|f]; [cbn; intros E; injection E; lra|]); lia|]). lia.
  - intros bf [<-|[<-|[<-|[]]]]; do 2 eexists; (split; [reflexivity|cbn; auto]).
  - cbn. lra.
  - discriminate.
Qed.
Lemma ring_area P p gh S hs1 i : same_mesh ring_f ring_fX p (pm_l P) -> is_perm 7 p -> built (l_m (pm_l P)) hs1 (l_X (pm_l P)) gh S -> (i < sm_ne S)%nat -> 0 < aat (sm_A S) i.
Proof.
  intros (S1 & S2 & S3 & S4 & S5 & (S6 & S6') & S7 & S8) Pp B Hi. destruct (built_ok _ _ _ _ _ B) as (a1 & a2 & a3 & a4 & a5 & _ & _ & N1 & _ & _ & _ & _ & _ & IA & _). rewrite N1 in Hi. rewrite IA by exact Hi.
  change (nelem ring_f) with 7%nat in *. pose proof (perm_bound _ _ i Pp ltac:(lia)) as Hp.
  assert (E : map (aat (l_X (pm_l P))) (cell (cells (l_m (pm_l P))) i) = map (aat ring_fX) (cell (cells ring_f) (aat p i))).
  { rewrite <- S2 by lia. rewrite map_map. apply map_ext_in. intros v Hv. apply S6'. destruct B as (T & _). apply (gm_valid _ _ (tl_good _ _ T) (cell (cells (l_m (pm_l P))) i)); auto. apply nth_In. exact Hi. }
  rewrite E. generalize dependent (aat p i). intros c Hc _. do 7 (destruct c as [|c]; [unfold polygon_area, cross; cbn; lra|]). lia.
Qed.
Lemma ring_physical S u sp i : gam (sp_gas sp) = 1.4 -> at_free_stream S ring_opts u -> (i < sm_ne S)%nat -> physical (gam (sp_gas sp)) (aat u i).
Proof.
  intros Hg (L & F) Hi. destruct (F i ltac:(lia)) as (A1 & A2 & A3 & A4). rewrite Hg. cbn [ring_opts o_gam o_Minf o_alpha] in *. unfold physical. rewrite A4. split; [lra|]. apply Rinv_0_lt_compat. lra.
Qed.
Lemma ring_discretizations P p gh S hs1 : same_mesh ring_f ring_fX p (pm_l P) -> is_perm 7 p -> built (l_m (pm_l P)) hs1 (l_X (pm_l P)) gh S ->
  exists spm sps, main_spatial (fun _ => 0) (l_m (pm_l P)) (l_X (pm_l P)) S ring_opts = Some (Val spm) /\ start_spatial (fun _ => 0) (l_m (pm_l P)) (l_X (pm_l P)) S ring_opts = Some (Val sps) /\
  forall wk glob Jf ksp at_throw u, (forall b, work_ok S (wk b)) -> at_free_stream S ring_opts u ->
    let slv := case_solve S spm sps wk glob Jf ksp at_throw in
    sound_solve S spm (wk true) (main_conf ring_opts) (start_u slv ring_opts u) /\ so_end (main_run slv ring_opts u) = Some (inr Tolerance_error).
Proof.
  intros SM Pp B. pose proof SM as (S1 & S2 & S3 & S4 & S5 & S6 & S7 & S8).
  destruct (create_ok (compute_freestream_state (gas_of (fun _ => 0) (extract_spatial_physics_config ring_opts)) (o_alpha ring_opts)) (o_bc ring_opts)) with (m := @nil (Z * flowbc)) as (bcs & Eb).
  { intros c [<-|[<-|[<-|[]]]]; cbn; auto. }
  assert (EM : exists sp, main_spatial (fun _ => 0) (l_m (pm_l P)) (l_X (pm_l P)) S ring_opts = Some (Val sp)).
  { unfold main_spatial, make_spatial, create_const_flowBCs. cbv zeta. cbn [create_flowSpatialDiscretization sc_grad sc_rec extract_spatial_numerics_config nc_grad nc_rec nc_par ring_opts o_grad o_lim o_limpar]. 
    cbn [create_gradientscheme create_reconstruction String.eqb Ascii.eqb Bool.eqb grad_of rec_of bind]. change (pc_aoa (extract_spatial_physics_config ring_opts)) with (o_alpha ring_opts). change (pc_bc (extract_spatial_physics_config ring_opts)) with (o_bc ring_opts).
    fold ring_opts. rewrite Eb. eauto. }
  assert (ES : exists sp, start_spatial (fun _ => 0) (l_m (pm_l P)) (l_X (pm_l P)) S ring_opts = Some (Val sp)).
  { unfold start_spatial, make_spatial, create_const_flowBCs. cbv zeta. cbn [create_flowSpatialDiscretization sc_grad sc_rec firstorder_spatial_numerics_config nc_grad nc_rec nc_par]. 
    cbn [create_gradientscheme create_reconstruction String.eqb Ascii.eqb Bool.eqb grad_of rec_of bind]. change (pc_aoa (extract_spatial_physics_config ring_opts)) with (o_alpha ring_opts). change (pc_bc (extract_spatial_physics_config ring_opts)) with (o_bc ring_opts).
    rewrite Eb. eauto. }
  destruct EM as (spm & EM). destruct ES as (sps & ES). exists spm, sps. split; [exact EM|]. split; [exact ES|].
  destruct (proj1 (C98_discretization (l_m (pm_l P)) (l_X (pm_l P)) S ring_opts (fun _ => 0) ltac:(cbn; lra) ltac:(cbn; lra)) spm EM) as ((G1 & _ & _ & _ & _ & G6 & _ & G8 & _ & G10 & _) & O2 & _).
  intros wk glob Jf ksp at_throw u Hw Fu slv.
  assert (EU : start_u slv ring_opts u = u) by reflexivity. rewrite EU.
  assert (PH : forall i, (i < sm_ne S)%nat -> physical (gam (sp_gas spm)) (aat u i)) by (intros i Hi; eapply ring_physical; eauto).
  destruct (built_ok _ _ _ _ _ B) as (a1 & a2 & a3 & a4 & a5 & _ & OK & N1 & N2 & N3 & N4 & _). assert (N0 : sm_nc S = 0%nat) by (rewrite N4; unfold nconnface; rewrite S8; reflexivity).
  assert (Lu : alen u = sm_ne S) by (destruct Fu as (L & _); lia).
  split.
  - intros k y Hk Ek. change (Z.to_nat (maxiter (main_conf ring_opts))) with 1%nat in Hk. assert (k = 0)%nat by lia. subst k. cbn [steady_loop] in Ek. injection Ek as <-. unfold sound_state. rewrite O2. exact PH.
  - destruct (eval_defined (l_m (pm_l P)) hs1 (l_X (pm_l P)) gh S spm (wk true) u HLLC B) as (ro & ER & FR & L1 & L2); auto.
    + eapply ends_kept; eauto; [apply B|apply (fc_ends _ _ _ _ _ ring_case)].
    + intros i Hi. eapply ring_area; eauto.
    + intros bf Hb. apply In_nth_error in Hb. destruct Hb as (k & Ek). destruct (forall2_nth _ _ _ S7 k bf Ek) as (fb & Ef & _ & Et). rewrite Et.
      destruct (fc_tags _ _ _ _ _ ring_case fb (nth_error_In _ _ Ef)) as (t & r & Q1 & Q2). destruct (proj2 (G10 t) Q2) as (b & Q3). exists t, r, b. auto.
    + rewrite G1. cbn. lra.
    + apply G6. cbn. auto 6.
    + assert (LA : alen (sm_A S) = sm_ne S) by apply (so_A _ OK).
      unfold main_run, run2. change (String.eqb (o_ptype ring_opts) "IMPLICIT") with false. rewrite EU. unfold slv, case_solve, ode_solve, loop_of, fe_solve. cbv zeta. change (mksconf _ _ _ _) with (main_conf ring_opts).
      change (maxiter (main_conf ring_opts) <=? 0)%Z with false. change (Z.to_nat (maxiter (main_conf ring_opts))) with 1%nat. cbv iota. cbn [steady_loop].
      assert (SC : steady_cont (main_conf ring_opts) (mkmon u 0 1 1 1 (cflinit (main_conf ring_opts)) 0 []) = true).
      { unfold steady_cont. cbn [m_resi m_init m_step]. unfold rel_gt. destruct (Req_EM_T 1 0); [lra|]. cbn [tol main_conf ring_opts o_tol]. destruct (Rlt_dec (1/3) (1/1)); [reflexivity|lra]. }
      rewrite SC. unfold steady_body. cbn [m_u m_step m_cfl m_old m_resi m_init m_lin m_log]. rewrite ER. cbv zeta. destruct (fe_update_ok (sm_ne S) (sm_A S) (main_conf ring_opts) u ro) as (v & Ev & _); try lia.
      unfold fe_upd. rewrite Ev. cbn [bind]. rewrite FR. cbn [m_step]. change (Z.of_nat (0 + 1) =? maxiter (main_conf ring_opts))%Z with true. reflexivity.
Qed.
(** Whatever memory contained, both meshes are made, the hypotheses of C100_reordering_run hold, and the states of the two runs are the same with the cells in reverse order. *)
Theorem C100_example : forall kg k1 k2 je jc jr ji jx j0 g0, exists P P',
  constructMesh dsort rcm_only rcm_opts 1 0 kg k1 k2 je jc jr ji jx j0 g0 ring_f ring_fX (mkarr 7 (fun _ => [1%Z])) = Some (Val P) /\
  constructMesh dsort rcm_only (mkpo None RAbsent) 1 0 kg k1 k2 je jc jr ji jx j0 g0 ring_f ring_fX (mkarr 7 (fun _ => [1%Z])) = Some (Val P') /\
  forall gh S gh' S', case_mesh P gh S -> case_mesh P' gh' S' -> exists spm sps spm' sps',
  main_spatial (fun _ => 0) (l_m (pm_l P)) (l_X (pm_l P)) S ring_opts = Some (Val spm) /\ start_spatial (fun _ => 0) (l_m (pm_l P)) (l_X (pm_l P)) S ring_opts = Some (Val sps) /\
  main_spatial (fun _ => 0) (l_m (pm_l P')) (l_X (pm_l P')) S' ring_opts = Some (Val spm') /\ start_spatial (fun _ => 0) (l_m (pm_l P')) (l_X (pm_l P')) S' ring_opts = Some (Val sps') /\
  forall u u', at_free_stream S ring_opts u -> at_free_stream S' ring_opts u' ->
    let r := main_run (case_solve S spm sps (ch_work S) (fun i => i) (fun _ _ => None) ch_ksp (fun u => u)) ring_opts u in
    let r' := main_run (case_solve S' spm' sps' (ch_work S') (fun i => i) (fun _ _ => None) ch_ksp (fun u => u)) ring_opts u' in
    so_end r = Some (inr Tolerance_error) /\ so_end r' = Some (inr Tolerance_error) /\ so_td r' = so_td r /\ forall i, (i < 7)%nat -> aat (so_u r') i = aat (so_u r) (6 - i)%nat.
Proof.
  intros kg k1 k2 je jc jr ji jx j0 g0.
  destruct (C99_mesh_of_a_case dsort rcm_only ring_f ring_h ring_fX (mkarr 7 (fun _ => [1%Z])) rcm_opts kg k1 k2 je jc jr ji jx j0 g0 ring_file dsort_sorts rcm_perm) as (r & E & H).
  assert (UN : forall name, reads rcm_opts name -> name = "rcm"%string). { intros name Q. apply reads_iff in Q. destruct Q as (g & Q & ->). inversion Q; subst. reflexivity. }
  destruct r as [P|].
  2:{ destruct H as (name & Rn & Q). apply UN in Rn. subst name. destruct Q as [(Q & _)|(_ & _ & Q)]; [destruct (rcm_not_line Q)|discriminate]. }
  destruct H as (_ & p & hs1 & Pp & Or & SM & _ & _ & PR).
  destruct (C99_mesh_of_a_case dsort rcm_only ring_f ring_h ring_fX (mkarr 7 (fun _ => [1%Z])) (mkpo None RAbsent) kg k1 k2 je jc jr ji jx j0 g0 ring_file dsort_sorts rcm_perm) as (r' & E' & H').
  destruct r' as [P'|]. 2:{ destruct H' as (name & (gv & rest & Q & _) & _). discriminate. }
  destruct H' as (_ & p' & hs2 & Pp' & Or' & SM' & _ & _ & PR').
  exists P, P'. split; [exact E|]. split; [exact E'|]. intros gh S gh' S' CS CS'.
  destruct (ring_discretizations P p gh S hs1 SM Pp (case_built _ _ _ _ PR CS)) as (spm & sps & Em & Es & H1).
  destruct (ring_discretizations P' p' gh' S' hs2 SM' Pp' (case_built _ _ _ _ PR' CS')) as (spm' & sps' & Em' & Es' & _).
  exists spm, sps, spm', sps'. do 4 (split; auto). intros u u' Fu Fu'. assert (WO : forall S b, work_ok S (ch_work S b)) by (intros; repeat split).
  destruct (H1 (ch_work S) (fun i => i) (fun _ _ => None) ch_ksp (fun u => u) u (WO S) Fu) as (SO & EN).
  destruct (C100_reordering_run dsort rcm_only ring_f ring_h ring_fX _ ring_opts rcm_opts (mkpo None RAbsent) kg k1 k2 je jc jr ji jx j0 g0 kg k1 k2 je jc jr ji jx j0 g0 P P' gh S gh' S' (fun _ => 0) spm sps
    (ch_work S) (fun i => i) (fun _ _ => None) ch_ksp (fun u => u) u u' ring_case dsort_sorts rcm_perm E E' CS CS' ltac:(discriminate) Em Es (WO S) Fu Fu' ltac:(intros Q; destruct (Q eq_refl)) SO ltac:(rewrite EN; discriminate))
    as (spm2 & sps2 & q & q' & Em2 & Es2 & Pq & Pq' & _ & _ & Oq & Oq' & RR).
  assert (spm2 = spm') by congruence. assert (sps2 = sps') by congruence. subst spm2 sps2.
  destruct (RR (ch_work S') (fun i => i) (fun _ _ => None) ch_ksp (fun u => u) (WO S')) as (A & B & C). rewrite EN in A. split; [exact EN|]. split; [exact A|]. split; [exact B|].
  intros i Hi. apply C; [exact Hi|change (nelem ring_f) with 7%nat; lia|].
  destruct Oq as (_ & Oq). destruct (Oq _ reads_rcm) as (_ & _ & O3). destruct (O3 rcm_not_line) as [(Q & _)|(_ & f & ent & Ef & _ & Ep)]; [discriminate|]. inversion Ef; subst f. cbn in Ep.
  destruct Oq' as (Oq' & _). specialize (Oq' eq_refl). pose proof (perm_len _ _ Pq) as Lq. pose proof (perm_len _ _ Pq') as Lq'. change (nelem ring_f) with 7%nat in *.
  rewrite <- (P_MeshUtil.nth_alist _ q (6 - i)%nat 0%nat) by lia. rewrite <- (P_MeshUtil.nth_alist _ q' i 0%nat) by lia. rewrite Ep, Oq'. do 7 (destruct i as [|i]; [reflexivity|]). lia.
Qed.
Print Assumptions C100_example.
