(** C109: the reported functionals do not depend on the order of the cells, and so not on -mesh_reorder. *)
From Coq Require Import Reals Lra List String Arith ZArith Lia Bool Permutation.
From Verif Require Import Base BaseR BaseSum M_Gas M_Flux M_Visc M_BC M_BCConf M_Mesh M_Geom M_Part M_Space M_Grad M_Recon S_Space S_Gas S_Mesh S_Geom M_Resid S_Resid S_Par M_Out S_Out M_Ode M_MeshUtil M_Prep
  Pf_Host Pf_Topo Pf_Incid Pf_Full Pf_Geom Pf_Space Pf_Grad Pf_Recon Pf_Reorder Pf_Resid Pf_Resid2 Pf_Part Pf_Restrict Pf_Part2 P_Geom P_Grad P_Part P_Resid Pf_Par P_Par Pf_Par2 P_Par2 Pf_Out P_Out M_Ctl M_Case P_Case M_Start P_Start M_Dist Pf_Dist P_Dist M_Report Pf_Report P_Report
  Pf_BCConf Pf_Ode Pf_Ode2 P_Mesh P_MeshUtil P_Lines Pf_Prep P_Prep Pf_Renum P_Renum P_Renum2 M_DistImp P_DistImp Pf_RenumImp P_RenumImp.
Import ListNotations.
Open Scope R_scope.

(** ** Proofs: sums over the wall faces on both meshes *)
Section Walls.
Variables (m : umesh) (hs : list (nat * nat)) (X : arr v2) (gh : nat -> v2) (S : smesh).
Variables (m' : umesh) (hs' : list (nat * nat)) (X' : arr v2) (gh' : nat -> v2) (S' : smesh) (s : arr nat).
Hypothesis B : built m hs X gh S.
Hypothesis B' : built m' hs' X' gh' S'.
Hypothesis RN : renumbered m X s m' X'.
Hypothesis D : distinct_ends m X.
Variable fl : flow.
Hypothesis TC : forall bf, In bf (bfaces m) -> exists t r b, btg bf = t :: r /\ mfind (fl_bcs fl) t = Some b.
Notation gg := (mkgm m noconn X (mkarr 0 (fun _ => @nil Z))).
Notation ll := (as_part m' X' s gg).

Lemma tags2 bf : In bf (bfaces m') -> btg bf <> [].
Proof.
  destruct RN as (_ & _ & _ & _ & _ & BF & _). intros Hb. apply In_nth_error in Hb. destruct Hb as (q & Eq). destruct (forall2_nth _ _ _ BF q bf Eq) as (gb & Eg & _ & Et). rewrite Et.
  destruct (TC gb (nth_error_In _ _ Eg)) as (t & r & b & Q & _). congruence.
Qed.
Lemma wall_faces2 wall : wall_faces wall m' = wall_faces wall m.
Proof.
  destruct RN as (_ & _ & _ & _ & _ & BF & _). unfold wall_faces. clear -BF. induction BF as [|x y l l' (_ & Q) _ IH]; [reflexivity|]. cbn [filter]. assert (E : has_tag wall y = has_tag wall x) by (unfold has_tag; rewrite Q; reflexivity).
  rewrite E. destruct (has_tag wall x); cbn [List.length]; lia.
Qed.
(** a boundary face seen from a cell has the same marker in both meshes *)
Lemma same_tag2 l f : (l < nelem m)%nat -> (f < aat (sm_nf S') l)%nat -> (at2 (sm_EF S') l f < sm_nb S')%nat -> tag_at S' (at2 (sm_EF S') l f) = tag_at S (at2 (sm_EF S) (aat s l) f).
Proof.
  intros Hl Hf Hk. pose proof (SM m hs X gh S m' X' s B RN) as SMM. destruct (counts gg hs ll SMM gh S S' hs' gh' B B') as (N1 & N2 & N3 & N4 & N5 & N6). cbn [g_m l_m as_part l_eglob] in *.
  destruct (sizes _ _ _ _ _ _ _ _ _ _ _ B B' RN) as (_ & _ & _ & _ & NE & _ & _). destruct (N6 l ltac:(lia)) as (Hi & _ & _). rewrite (N5 l) in Hf by lia.
  destruct SMM as (SER & F1 & _ & _ & F6). cbn [g_m l_m as_part l_eglob] in *. pose proof B as (T & _). pose proof B' as (T' & _).
  destruct (built_ok _ _ _ _ _ B') as (_ & _ & _ & _ & _ & _ & _ & _ & E2' & _).
  pose proof (edge_cases _ _ _ _ _ B' l f ltac:(lia) Hf) as (_ & V'). pose proof (edge_cases _ _ _ _ _ B (aat s l) f ltac:(lia) ltac:(destruct (F1 l ltac:(lia)) as (_ & A3 & _); lia)) as (_ & V). cbv zeta in V, V'.
  set (k' := at2 (sm_EF S') l f) in *. set (k := at2 (sm_EF S) (aat s l) f) in *.
  destruct V' as [(K & Eh & L & Ed)|[(K & _)|[(K & _)|(q & cf & K & _)]]]; try lia.
  destruct (nth_error_some _ (bfaces m') k') as (bf & Eb). { unfold nbface in E2'. lia. }
  destruct (F6 hs' k' bf l f T' Eb Eh) as (p1 & gb & P1 & P2 & P3).
  destruct (TC gb (nth_error_In _ _ P1)) as (t & r & b & Et & _). rewrite Et in P3.
  destruct (tag_built _ _ _ _ _ _ _ _ _ B' Eb P3) as (_ & ->).
  destruct V as [(K2 & Eh2 & L2 & _)|[(_ & _ & Ac & _)|[(_ & _ & Ac & _)|(q & cf & _ & _ & Ec & _)]]].
  - pose proof (tl_nodup _ _ T) as ND. apply nodup_app in ND. destruct ND as (ND & _). pose proof (nodup_nth_error _ _ _ _ ND P2 Eh2) as Q. rewrite Q in P1. destruct (tag_built _ _ _ _ _ _ _ _ _ B P1 Et) as (_ & ->). reflexivity.
  - exfalso. eapply host_no_across; [exact T|exact P2|exact Ac].
  - exfalso. eapply host_no_across; [exact T|exact P2|exact Ac].
  - exfalso. eapply (no_conn gg); [exact SER|eapply nth_error_In; exact Ec].
Qed.
Lemma cells2 (F : nat -> R) : rsum (fun l => F (aat s l)) (seq 0 (nelem m)) = rsum F (seq 0 (nelem m)).
Proof. destruct RN as (P & _). rewrite <- (rsum_map (aat s) F). apply rsum_perm. pose proof P as P'. unfold is_perm, alist in P'. rewrite (perm_len _ _ P) in P'. exact P'. Qed.
Lemma walls2 (u u' : arr st) (gr gr' : arr grad) tag phi : (forall l, (l < nelem m)%nat -> aat u' l = aat u (aat s l) /\ aat gr' l = aat gr (aat s l)) ->
  rsum phi (walls S' u' gr' tag) = rsum phi (walls S u gr tag).
Proof.
  intros HU. pose proof (built_sm _ _ _ _ _ B) as OK. pose proof (built_sm _ _ _ _ _ B') as OK'. pose proof (SM m hs X gh S m' X' s B RN) as SMM. destruct (counts gg hs ll SMM gh S S' hs' gh' B B') as (_ & _ & _ & _ & _ & N6).
  destruct (sizes _ _ _ _ _ _ _ _ _ _ _ B B' RN) as (N1 & _ & N3 & _ & NE & C1 & _). cbn [g_m l_m as_part l_eglob] in *.
  rewrite !walls_sum, !sum_by_cells, N1, N3 by auto. rewrite <- (cells2 (cell_wall S _)). apply rsum_ext. intros l Hl. apply in_seq in Hl. destruct (N6 l ltac:(lia)) as (Hi & N7 & _).
  destruct (covers2 m hs X gh S m' hs' X' gh' S' s B B' RN fl TC) as (bc & bc' & C & C' & BC & BC' & BT).
  unfold cell_wall. rewrite N7. apply rsum_ext. intros f Hf. apply in_seq in Hf.
  destruct (same_view gg hs ll SMM gh S S' hs' gh' B B' D fl bc bc' BC BT BC' l f ltac:(cbn [l_m as_part]; lia) ltac:(lia)) as (_ & (_ & V2 & V3 & _) & V). cbv zeta in *. cbn [l_eglob as_part] in *. unfold at_cell.
  destruct V as [(K & K2 & _ & L & L2)|[(K & K2 & _)|(q & cf & K & _ & _ & _ & _ & _ & _ & K2 & _)]].
  - pose proof (same_tag2 l f ltac:(lia) ltac:(lia) K) as ET. rewrite L, L2, !Nat.eqb_refl. destruct (Nat.ltb_spec (at2 (sm_EF S') l f) (sm_nb S')); [|lia]. destruct (Nat.ltb_spec (at2 (sm_EF S) (aat s l) f) (sm_nb S)); [|lia]. cbn [andb].
    unfold on_wall. rewrite ET. destruct (_ =? tag)%Z; [|reflexivity]. f_equal. unfold wf_at, left_value. unfold out_normal in V3. rewrite L, L2 in *. rewrite !Nat.eqb_refl in V3. destruct (HU l ltac:(lia)) as (-> & ->). rewrite V2, V3. reflexivity.
  - destruct (Nat.ltb_spec (at2 (sm_EF S') l f) (sm_nb S')); [lia|]. destruct (Nat.ltb_spec (at2 (sm_EF S) (aat s l) f) (sm_nb S)); [lia|]. reflexivity.
  - destruct (Nat.ltb_spec (at2 (sm_EF S') l f) (sm_nb S')); [lia|]. destruct (Nat.ltb_spec (at2 (sm_EF S) (aat s l) f) (sm_nb S)); [lia|]. reflexivity.
Qed.
(** the gradients of both meshes *)
Lemma gradients2 gs gs' jg jG jg' jG' (u u' : arr st) : same_gradients S S' gs gs' -> alen u = nelem m -> alen u' = nelem m -> (forall i, (i < nelem m)%nat -> aat u' i = aat u (aat s i)) ->
  exists G G', flow_getGradients S fl gs jg u (mkarr (sm_ne S) jG) = Some G /\ flow_getGradients S' fl gs' jg' u' (mkarr (sm_ne S') jG') = Some G' /\ alen G = sm_ne S /\ alen G' = sm_ne S' /\
  forall l, (l < nelem m)%nat -> aat G' l = aat G (aat s l).
Proof.
  intros SG Lu Lu' U. pose proof (built_sm _ _ _ _ _ B) as OK. pose proof (built_sm _ _ _ _ _ B') as OK'. pose proof (SM m hs X gh S m' X' s B RN) as SMM.
  destruct (sizes _ _ _ _ _ _ _ _ _ _ _ B B' RN) as (N1 & N2 & N3 & N4 & NE & C1 & N7). destruct (covers2 m hs X gh S m' hs' X' gh' S' s B B' RN fl TC) as (bc & bc' & C & C' & BC & BC' & BT).
  destruct (getGradients_ok S fl bc gs jg u (mkarr (sm_ne S) jG) OK C ltac:(lia) ltac:(cbn; lia)) as (ug & G & EG & CG & LUG & LG & PG). { destruct gs, gs'; cbn [same_gradients] in SG; tauto. }
  destruct (getGradients_ok S' fl bc' gs' jg' u' (mkarr (sm_ne S') jG') OK' C' ltac:(lia) ltac:(cbn; lia)) as (ug' & G' & EG' & CG' & LUG' & LG' & PG'). { destruct gs, gs'; cbn [same_gradients] in SG; tauto. }
  exists G, G'. split; [exact EG|]. split; [exact EG'|]. split; [exact LG|]. split; [exact LG'|]. intros l Hl. assert (AU : Pf_Par2.agree ll (aat u) (aat u')) by (eapply states2; eauto).
  refine (grads_same gg hs ll SMM gh S S' hs' gh' B B' _ D fl bc bc' BC BT BC' u u' ug ug' _ LUG _ LUG' AU _ gs gs' (mkarr (sm_ne S) jG) (mkarr (sm_ne S') jG') G G' SG _ _ CG CG' l _); try (cbn [alen l_m as_part]; lia).
  - intros q cf. cbn [l_m as_part]. rewrite C1. destruct q; discriminate.
  - intros l' f' Hl' Hf' K' K. cbn [l_m l_eglob as_part] in *. rewrite PG, PG' by auto. destruct (same_view gg hs ll SMM gh S S' hs' gh' B B' D fl bc bc' BC BT BC' l' f' Hl' Hf') as (_ & (_ & _ & V3 & _) & V). cbv zeta in *. cbn [l_eglob as_part] in *.
    destruct V as [(_ & _ & V & Q' & Q)|[(K2 & _)|(q & cf & K2 & _)]]; [|lia|lia].
    unfold bghost, left_value. unfold out_normal in V3. rewrite Q, Q' in *. rewrite !Nat.eqb_refl in V3. rewrite V3, V, U by lia. reflexivity.
Qed.
End Walls.

(** ** A state held on both meshes *)
Theorem C109_report : forall m hs X gh S m' hs' X' gh' S' s o jreal spm spm',
  two_orders m hs X gh S m' hs' X' gh' S' s o -> main_spatial jreal m X S o = Some (Val spm) -> main_spatial jreal m' X' S' o = Some (Val spm') -> sp_flux spm <> None ->
  forall wall u u', alen u = sm_ne S -> alen u' = sm_ne S -> (forall i, (i < sm_ne S)%nat -> aat u' i = aat u (aat s i)) -> (forall i, (i < sm_ne S)%nat -> physical (o_gam o) (aat u i)) ->
  (exists bf t, In bf (bfaces m) /\ btg bf = wall :: t) -> (wall_faces wall m <= nelem m)%nat ->
  forall jg jG jo jg' jG' jo', exists p, serial_report S spm (o_alpha o) wall jg jG jo u = Some p /\ serial_report S' spm' (o_alpha o) wall jg' jG' jo' u' = Some p.
Proof.
  intros m hs X gh S m' hs' X' gh' S' s o jreal spm spm' T E E' NF wall u u' Lu Lu' U PU (wbf & wt & Wi & Wt) ROOM jg jG jo jg' jG' jo'.
  pose proof T as [B B' RN D TG (Hg & HM & HH) LM]. destruct (two_sizes _ _ _ _ _ _ _ _ _ _ _ _ T) as (N0 & N1 & N0' & Ps & NE & HA).
  destruct (sp_flux spm) as [f|] eqn:Ef; [|congruence].
  assert (SP : sp_flux spm' = Some f /\ sp_flow spm' f = sp_flow spm f /\ sp_gas spm' = sp_gas spm /\ same_gradients S S' (sp_grad spm) (sp_grad spm')).
  { rewrite <- Ef. clear -E E' T. unfold main_spatial, make_spatial in *. cbv zeta in *. destruct (grad_of S _) as [gs|] eqn:Eg; [|discriminate]. destruct (two_grads _ _ _ _ _ _ _ _ _ _ _ _ T _ _ Eg) as (gs' & Eg' & SG). rewrite Eg' in E'. cbn [bind] in *.
    destruct (match sc_rec _ with None => Some None | Some k => r <- rec_of m X k ;; Some (Some r) end) as [rs|]; [|discriminate]. destruct (match sc_rec _ with None => Some None | Some k => r <- rec_of m' X' k ;; Some (Some r) end) as [rs'|]; [|discriminate]. cbn [bind] in *.
    destruct (create_const_flowBCs _ _); try discriminate. injection E as <-. injection E' as <-. do 3 (split; [reflexivity|]). exact SG. }
  destruct SP as (Ef' & FL & GS & SG).
  destruct (make_for jreal m X S o _ spm Hg HM E eq_refl eq_refl) as ((MG & _ & _ & _ & _ & _ & _ & _ & _ & MB & _) & _).
  set (fl := sp_flow spm f) in *.
  assert (TC : forall bf, In bf (bfaces m) -> exists t r b, btg bf = t :: r /\ mfind (fl_bcs fl) t = Some b). { intros bf Hb. destruct (TG bf Hb) as (t & r & Et & It). destruct (proj2 (MB t) It) as (b & Q). exists t, r, b. auto. }
  assert (BT : forall bf, In bf (bfaces m) -> btg bf <> []). { intros bf Hb. destruct (TC bf Hb) as (t & r & b & Q & _). congruence. }
  pose proof (tags2 m X m' X' s RN fl TC) as BT'.
  destruct (gradients2 m hs X gh S m' hs' X' gh' S' s B B' RN D fl TC (sp_grad spm) (sp_grad spm') jg jG jg' jG' u u' SG ltac:(lia) ltac:(lia) ltac:(intros; apply U; lia)) as (G & G' & EG & EG' & LG & LG' & GG).
  pose proof (built_sm _ _ _ _ _ B) as OK. pose proof (built_sm _ _ _ _ _ B') as OK'.
  assert (RNG : forall SS (uu : arr st) (gr : arr grad), sm_ok SS -> alen uu = sm_ne SS -> alen gr = sm_ne SS -> forall k, (k < sm_nb SS)%nat -> (k < alen (sm_F SS))%nat /\ (k < alen (sm_M SS))%nat /\ (f_left (aat (sm_F SS) k) < alen uu)%nat /\ (f_left (aat (sm_F SS) k) < alen gr)%nat /\
    (f_a (aat (sm_F SS) k) < alen (sm_X SS))%nat /\ (f_b (aat (sm_F SS) k) < alen (sm_X SS))%nat).
  { intros SS uu gr OO Q1 Q2 k Hk. assert (K : (k < sm_nf_all SS)%nat) by (unfold sm_nf_all; lia). pose proof (so_left _ OO k K). pose proof (so_pts _ OO k K). rewrite (so_F _ OO), (so_M _ OO). lia. }
  assert (PU' : forall i, (i < sm_ne S)%nat -> physical (o_gam o) (aat u' i)). { intros i Hi. rewrite U by auto. apply PU. apply (perm_bound _ _ _ Ps Hi). }
  destruct (surface_local_ok (sp_gas spm) S (o_alpha o) (mkarr (sm_ne S) (aat u)) G wall (RNG S (mkarr (sm_ne S) (aat u)) G OK eq_refl LG) (tags_built _ _ _ _ _ B BT) (mkarr (sm_ne S) jo)) as (s0 & Es0 & _ & _ & _ & _ & A1 & A2 & A3 & A4).
  { rewrite (marked_count _ _ _ _ _ _ B BT). cbn [alen]. unfold wall_faces in ROOM. lia. }
  { intros k Hk. unfold left_value. cbn [aat]. unfold marked, marked_upto in Hk. apply filter_In in Hk. destruct Hk as (Hk & _). apply in_seq in Hk. assert (K : (k < sm_nf_all S)%nat) by (unfold sm_nf_all; lia). pose proof (so_left _ OK k K). destruct (PU (f_left (aat (sm_F S) k)) ltac:(lia)). lra. }
  destruct (surface_local_ok (sp_gas spm) S' (o_alpha o) (mkarr (sm_ne S') (aat u')) G' wall (RNG S' (mkarr (sm_ne S') (aat u')) G' OK' eq_refl LG') (tags_built _ _ _ _ _ B' BT') (mkarr (sm_ne S') jo')) as (s1 & Es1 & _ & _ & _ & _ & A1' & A2' & A3' & A4').
  { rewrite (marked_count _ _ _ _ _ _ B' BT'). pose proof (wall_faces2 m X m' X' s RN wall) as Q. unfold wall_faces in *. cbn [alen]. lia. }
  { intros k Hk. unfold left_value. cbn [aat]. unfold marked, marked_upto in Hk. apply filter_In in Hk. destruct Hk as (Hk & _). apply in_seq in Hk. assert (K : (k < sm_nf_all S')%nat) by (unfold sm_nf_all; lia). pose proof (so_left _ OK' k K). destruct (PU' (f_left (aat (sm_F S') k)) ltac:(lia)). lra. }
  assert (W2 : forall phi, rsum phi (walls S' (mkarr (sm_ne S') (aat u')) G' wall) = rsum phi (walls S (mkarr (sm_ne S) (aat u)) G wall)).
  { intros phi. apply (walls2 m hs X gh S m' hs' X' gh' S' s B B' RN D fl TC). intros l Hl. cbn [aat]. split; [apply U; lia|apply GG; lia]. }
  rewrite W2 in A1', A2', A3', A4'. rewrite <- A1 in A1'. rewrite <- A2 in A2'. rewrite <- A3 in A3'. rewrite <- A4 in A4'.
  assert (L1 : local_surface S spm (o_alpha o) wall jg jG jo u = Some s0). { unfold local_surface. rewrite Ef. cbn [bind]. fold fl. rewrite EG. cbn [bind]. destruct (Nat.leb_spec (sm_ne S) (alen u)); [exact Es0|lia]. }
  assert (L2 : local_surface S' spm' (o_alpha o) wall jg' jG' jo' u' = Some s1). { unfold local_surface. rewrite Ef'. cbn [bind]. rewrite FL, EG'. cbn [bind]. destruct (Nat.leb_spec (sm_ne S') (alen u')); [rewrite GS; exact Es1|lia]. }
  assert (EN : exists e, entropy_local (sp_gas spm) (o_alpha o) (sm_ne S) (sm_A S) u = Some e /\ entropy_local (sp_gas spm') (o_alpha o) (sm_ne S') (sm_A S') u' = Some e).
  { eexists. split. { apply entropy_sum; [rewrite (so_A _ OK)|]; lia. } assert (LA' : (sm_ne S' <= alen (sm_A S'))%nat) by (rewrite (so_A _ OK'); lia). rewrite GS. rewrite (entropy_sum _ _ _ _ _ LA') by lia. f_equal. rewrite N1, <- NE. etransitivity; [|exact (cells2 m X m' X' s RN _)]. apply rsum_ext. intros l Hl. apply in_seq in Hl. rewrite U, HA by lia. reflexivity. }
  destruct EN as (e & En & En').
  assert (AR : su_ar s0 <> 0).
  { enough (0 < su_ar s0) by lra. rewrite A4.
    assert (RK : Forall (rank_ok (sp_gas spm)) [mkrank S (mkarr (sm_ne S) (aat u)) G]).
    { constructor; [|constructor]. exists m, hs, X, gh. cbn [rk_S rk_u rk_g alen aat]. split; [exact B|]. split; [exact D|]. split; [exact BT|]. split; [lia|]. split; [lia|]. rewrite MG. intros i Hi. apply PU. lia. }
    pose proof (walls_area_pos (sp_gas spm) wall _ RK) as Q. unfold wall_area, all_walls in Q. cbn [flat_map] in Q. rewrite app_nil_r in Q. apply Q. unfold rank_walls, walls. cbn [rk_S rk_u rk_g].
    apply In_nth_error in Wi. destruct Wi as (k & Ek). destruct (tag_built _ _ _ _ _ _ _ _ _ B Ek Wt) as (K1 & K2).
    assert (In k (marked S wall)) as Hin. { unfold marked, marked_upto. apply filter_In. split; [apply in_seq; lia|]. rewrite K2. apply Z.eqb_refl. } destruct (marked S wall); [contradiction|discriminate]. }
  assert (REP : forall SS sp (uu : arr st) kg kG ko ss, sm_ne SS = sm_ne S -> entropy_local (sp_gas sp) (o_alpha o) (sm_ne SS) (sm_A SS) uu = Some e -> local_surface SS sp (o_alpha o) wall kg kG ko uu = Some ss ->
    su_cl ss = su_cl s0 -> su_dp ss = su_dp s0 -> su_df ss = su_df s0 -> su_ar ss = su_ar s0 ->
    serial_report SS sp (o_alpha o) wall kg kG ko uu = Some (mkreport (mesh_size S) (compute_entropy_cell [e]) (su_cl s0 / su_ar s0) (su_dp s0 / su_ar s0) (su_df s0 / su_ar s0))).
  { clear -AR. intros SS sp uu kg kG ko ss Q0 Q1 Q2 Q3 Q4 Q5 Q6. unfold serial_report, ranks_report.
    destruct (all_of_ok 0 1 (fun _ => entropy_local (sp_gas sp) (o_alpha o) (sm_ne SS) (sm_A SS) uu) (fun _ => e) (fun _ _ => Q1)) as (h0 & Eh0 & Ph0 & _).
    destruct (all_of_ok (mksurf 0 (mkarr 0 (fun _ => mksrow 0 0 0 0)) 0 0 0 0) 1 (fun _ => local_surface SS sp (o_alpha o) wall kg kG ko uu) (fun _ => ss) (fun _ _ => Q2)) as (k0 & Ek0 & Pk0 & _).
    rewrite Eh0. cbn [bind]. rewrite Ek0. cbn [bind]. cbn [seq map]. rewrite Pk0, Ph0 by lia. unfold surface_reduce. cbn [map rsum]. rewrite !Rplus_0_r, Q3, Q4, Q5, Q6. unfold rdiv. destruct (Req_EM_T (su_ar s0) 0); [contradiction|]. cbn [bind]. unfold mesh_size. rewrite Q0. reflexivity. }
  eexists. split; [apply (REP S spm u jg jG jo s0); auto|apply (REP S' spm' u' jg' jG' jo' s1); auto].
Qed.
Print Assumptions C109_report.

(** ** Two values of -mesh_reorder for one mesh file *)
(** the walls of the file are those of the mesh made from it *)
Lemma wall_kept m X p L wall : same_mesh m X p L -> wall_faces wall (l_m L) = wall_faces wall m /\ ((exists bf t, In bf (bfaces m) /\ btg bf = wall :: t) -> exists bf t, In bf (bfaces (l_m L)) /\ btg bf = wall :: t).
Proof.
  intros (_ & _ & _ & _ & _ & _ & S7 & _). split.
  - unfold wall_faces. clear -S7. induction S7 as [|x y l l' (_ & Q) _ IH]; [reflexivity|]. cbn [filter]. assert (E : has_tag wall y = has_tag wall x) by (unfold has_tag; rewrite Q; reflexivity). rewrite E. destruct (has_tag wall x); cbn [List.length]; lia.
  - intros (bf & t & Hi & Ht). clear -S7 Hi Ht. induction S7 as [|x y l l' (_ & Q) _ IH]; [destruct Hi|]. destruct Hi as [->|Hi]; [exists y, t; split; [left; reflexivity|congruence]|]. destruct (IH Hi) as (z & w & A & B). exists z, w. split; [right; exact A|exact B].
Qed.
(** *** Any state: if it is the same in every cell of the file, the reports are the same *)
Theorem C109_reordering : forall srt registered m hs X regs o po po' kg k1 k2 je jc jr ji jx j0 g0 kg' k1' k2' je' jc' jr' ji' jx' j0' g0' P P' gh S gh' S' jreal spm spm' wall,
  file_case m hs X regs o -> sorts_down srt -> (forall name f, registered name = Some f -> forall n ent, Permutation (f n ent) (seq 0 n)) ->
  constructMesh srt registered po 1 0 kg k1 k2 je jc jr ji jx j0 g0 m X regs = Some (Val P) ->
  constructMesh srt registered po' 1 0 kg' k1' k2' je' jc' jr' ji' jx' j0' g0' m X regs = Some (Val P') ->
  case_mesh P gh S -> case_mesh P' gh' S' -> main_spatial jreal (l_m (pm_l P)) (l_X (pm_l P)) S o = Some (Val spm) -> main_spatial jreal (l_m (pm_l P')) (l_X (pm_l P')) S' o = Some (Val spm') -> sp_flux spm <> None ->
  (exists bf t, In bf (bfaces m) /\ btg bf = wall :: t) -> (wall_faces wall m <= nelem m)%nat ->
  exists p p', is_perm (nelem m) p /\ is_perm (nelem m) p' /\ same_mesh m X p (pm_l P) /\ same_mesh m X p' (pm_l P') /\ ordered registered po m hs X p /\ ordered registered po' m hs X p' /\
  forall u u', alen u = nelem m -> alen u' = nelem m -> (forall i j, (i < nelem m)%nat -> (j < nelem m)%nat -> aat p' i = aat p j -> aat u' i = aat u j) -> (forall i, (i < nelem m)%nat -> physical (o_gam o) (aat u i)) ->
  forall jg jG jo jg' jG' jo', exists q, serial_report S spm (o_alpha o) wall jg jG jo u = Some q /\ serial_report S' spm' (o_alpha o) wall jg' jG' jo' u' = Some q.
Proof.
  intros srt registered m hs X regs o po po' kg k1 k2 je jc jr ji jx j0 g0 kg' k1' k2' je' jc' jr' ji' jx' j0' g0' P P' gh S gh' S' jreal spm spm' wall FC Hs Hr E E' CS CS' Em Em' NF HW ROOM.
  destruct (C100_reordering srt registered m hs X regs o po po' kg k1 k2 je jc jr ji jx j0 g0 kg' k1' k2' je' jc' jr' ji' jx' j0' g0' P P' FC Hs Hr E E') as (p & p' & s & Pp & Pp' & SM & SM' & Or & Or' & PS & _ & _ & H).
  destruct (H gh S gh' S' CS CS') as (NE & hs1 & hs2 & T). exists p, p'. do 6 (split; auto). intros u u' Lu Lu' U PU jg jG jo jg' jG' jo'.
  destruct (wall_kept _ _ _ _ wall SM) as (W1 & W2). pose proof (two_sizes _ _ _ _ _ _ _ _ _ _ _ _ T) as (_ & _ & _ & Ps & NE2 & _). rewrite NE in Ps.
  apply (C109_report _ _ _ _ _ _ _ _ _ _ _ _ jreal spm spm' T Em Em' NF wall u u'); try lia; auto.
  - intros i Hi. apply U; [lia|apply (perm_bound _ _ _ Ps); lia|]. rewrite PS by lia. reflexivity.
  - intros i Hi. apply PU. lia.
Qed.
Print Assumptions C109_reordering.

(** *** A whole explicit case *)
Theorem C109_explicit_case : forall srt registered m hs X regs o po po' kg k1 k2 je jc jr ji jx j0 g0 kg' k1' k2' je' jc' jr' ji' jx' j0' g0' P P' gh S gh' S' jreal spm sps wk glob Jf ksp at_throw u u' wall,
  file_case m hs X regs o -> sorts_down srt -> (forall name f, registered name = Some f -> forall n ent, Permutation (f n ent) (seq 0 n)) ->
  constructMesh srt registered po 1 0 kg k1 k2 je jc jr ji jx j0 g0 m X regs = Some (Val P) ->
  constructMesh srt registered po' 1 0 kg' k1' k2' je' jc' jr' ji' jx' j0' g0' m X regs = Some (Val P') ->
  case_mesh P gh S -> case_mesh P' gh' S' -> o_ptype o <> "IMPLICIT"%string ->
  main_spatial jreal (l_m (pm_l P)) (l_X (pm_l P)) S o = Some (Val spm) -> start_spatial jreal (l_m (pm_l P)) (l_X (pm_l P)) S o = Some (Val sps) -> sp_flux spm <> None -> (forall b, work_ok S (wk b)) ->
  at_free_stream S o u -> at_free_stream S' o u' ->
  let slv := case_solve S spm sps wk glob Jf ksp at_throw in let r := main_run slv o u in
  (o_starter o <> 0%Z -> sound_solve S sps (wk false) (start_conf o) u /\ so_end (run1 slv o u) <> None) ->
  sound_solve S spm (wk true) (main_conf o) (start_u slv o u) -> so_end r <> None -> (forall i, (i < nelem m)%nat -> physical (o_gam o) (aat (so_u r) i)) ->
  (exists bf t, In bf (bfaces m) /\ btg bf = wall :: t) -> (wall_faces wall m <= nelem m)%nat ->
  exists spm' sps', main_spatial jreal (l_m (pm_l P')) (l_X (pm_l P')) S' o = Some (Val spm') /\ start_spatial jreal (l_m (pm_l P')) (l_X (pm_l P')) S' o = Some (Val sps') /\
  forall wk' glob' Jf' ksp' at_throw' jg jG jo jg' jG' jo', (forall b, work_ok S' (wk' b)) -> let r' := main_run (case_solve S' spm' sps' wk' glob' Jf' ksp' at_throw') o u' in
  so_end r' = so_end r /\ so_td r' = so_td r /\ exists q, serial_report S spm (o_alpha o) wall jg jG jo (so_u r) = Some q /\ serial_report S' spm' (o_alpha o) wall jg' jG' jo' (so_u r') = Some q.
Proof.
  intros srt registered m hs X regs o po po' kg k1 k2 je jc jr ji jx j0 g0 kg' k1' k2' je' jc' jr' ji' jx' j0' g0' P P' gh S gh' S' jreal spm sps wk glob Jf ksp at_throw u u' wall FC Hs Hr E E' CS CS' HI Em Es NF Hw Fu Fu' slv r S1 S2 N2 PU HW ROOM.
  destruct (C100_reordering srt registered m hs X regs o po po' kg k1 k2 je jc jr ji jx j0 g0 kg' k1' k2' je' jc' jr' ji' jx' j0' g0' P P' FC Hs Hr E E') as (p & p' & s & Pp & Pp' & SM & SM' & _ & _ & _ & _ & _ & H).
  destruct (H gh S gh' S' CS CS') as (NE & hs1 & hs2 & T). destruct (wall_kept _ _ _ _ wall SM) as (W1 & W2). pose proof (two_sizes _ _ _ _ _ _ _ _ _ _ _ _ T) as (_ & _ & _ & _ & NE2 & _).
  destruct (C100_explicit_run _ _ _ _ _ _ _ _ _ _ _ _ jreal spm sps wk glob Jf ksp at_throw u u' T HI Em Es Hw Fu Fu' S1 S2 N2) as (spm' & sps' & Em' & Es' & R0).
  exists spm', sps'. split; [exact Em'|]. split; [exact Es'|]. intros wk' glob' Jf' ksp' at_throw' jg jG jo jg' jG' jo' Hw' r'. destruct (R0 wk' glob' Jf' ksp' at_throw' Hw') as (_ & A & B & _ & L1 & L2 & C).
  split; [exact A|]. split; [exact B|]. apply (C109_report _ _ _ _ _ _ _ _ _ _ _ _ jreal spm spm' T Em Em' NF); auto; try lia. intros i Hi. apply PU. lia.
Qed.
Print Assumptions C109_explicit_case.

(** *** A whole implicit case, for linear solvers that commute with the order of the cells *)
Lemma case_numbered srt registered m hs X regs po kg k1 k2 je jc jr ji jx j0 g0 P : mesh_file m hs X regs -> sorts_down srt -> (forall name f, registered name = Some f -> forall n ent, Permutation (f n ent) (seq 0 n)) ->
  constructMesh srt registered po 1 0 kg k1 k2 je jc jr ji jx j0 g0 m X regs = Some (Val P) -> numbered_in_order (nelem m) (aat (l_eglob (pm_l P))).
Proof.
  intros MF Hs Hr E. destruct (mesh_of_case srt registered m hs X regs po kg k1 k2 je jc jr ji jx j0 g0 MF Hs Hr) as (r & Er & Q). rewrite E in Er. injection Er as <-. destruct Q as (_ & Q). intros i Hi.
  assert (L : alen (l_eglob (pm_l P)) = nelem m) by (apply (f_equal (@List.length nat)) in Q; rewrite seq_length in Q; unfold alist in Q; rewrite map_length, seq_length in Q; exact Q).
  rewrite <- (P_MeshUtil.nth_alist _ (l_eglob (pm_l P)) i 0%nat) by lia. rewrite Q, seq_nth by lia. reflexivity.
Qed.
Theorem C109_implicit_case : forall srt registered m hs X regs o po po' kg k1 k2 je jc jr ji jx j0 g0 kg' k1' k2' je' jc' jr' ji' jx' j0' g0' P P' gh S gh' S' jreal spm sps wk ksp at_throw u u' wall,
  file_case m hs X regs o -> sorts_down srt -> (forall name f, registered name = Some f -> forall n ent, Permutation (f n ent) (seq 0 n)) ->
  constructMesh srt registered po 1 0 kg k1 k2 je jc jr ji jx j0 g0 m X regs = Some (Val P) ->
  constructMesh srt registered po' 1 0 kg' k1' k2' je' jc' jr' ji' jx' j0' g0' m X regs = Some (Val P') ->
  case_mesh P gh S -> case_mesh P' gh' S' -> o_ptype o = "IMPLICIT"%string ->
  main_spatial jreal (l_m (pm_l P)) (l_X (pm_l P)) S o = Some (Val spm) -> start_spatial jreal (l_m (pm_l P)) (l_X (pm_l P)) S o = Some (Val sps) ->
  has_jacobian (whole (l_m (pm_l P)) (l_X (pm_l P))) spm -> has_jacobian (whole (l_m (pm_l P)) (l_X (pm_l P))) sps -> (forall b, work_ok S (wk b)) ->
  at_free_stream S o u -> at_free_stream S' o u' ->
  let glob := aat (l_eglob (pm_l P)) in
  let slv := case_solve S spm sps wk glob (fun main => one_jac S (if main then spm else sps)) ksp at_throw in let r := main_run slv o u in
  let relax := relax_of (sp_gas spm) (the_update o) in
  (o_starter o <> 0%Z -> imp_through (l_m (pm_l P)) (l_X (pm_l P)) S sps (wk false) (start_conf o) glob ksp relax u /\ so_end (run1 slv o u) <> None) ->
  imp_through (l_m (pm_l P)) (l_X (pm_l P)) S spm (wk true) (main_conf o) glob ksp relax (start_u slv o u) -> so_end r <> None -> (forall i, (i < nelem m)%nat -> physical (o_gam o) (aat (so_u r) i)) ->
  (exists bf t, In bf (bfaces m) /\ btg bf = wall :: t) -> (wall_faces wall m <= nelem m)%nat ->
  exists spm' sps' p p' s, main_spatial jreal (l_m (pm_l P')) (l_X (pm_l P')) S' o = Some (Val spm') /\ start_spatial jreal (l_m (pm_l P')) (l_X (pm_l P')) S' o = Some (Val sps') /\
  is_perm (nelem m) p /\ is_perm (nelem m) p' /\ same_mesh m X p (pm_l P) /\ same_mesh m X p' (pm_l P') /\ is_perm (nelem m) s /\ (forall i, (i < nelem m)%nat -> aat p (aat s i) = aat p' i) /\
  forall wk' ksp' at_throw' jg jG jo jg' jG' jo', (forall b, work_ok S' (wk' b)) -> same_solver (nelem m) s ksp ksp' ->
  let r' := main_run (case_solve S' spm' sps' wk' (aat (l_eglob (pm_l P'))) (fun main => one_jac S' (if main then spm' else sps')) ksp' at_throw') o u' in
  so_end r' = so_end r /\ so_td r' = so_td r /\ exists q, serial_report S spm (o_alpha o) wall jg jG jo (so_u r) = Some q /\ serial_report S' spm' (o_alpha o) wall jg' jG' jo' (so_u r') = Some q.
Proof.
  intros srt registered m hs X regs o po po' kg k1 k2 je jc jr ji jx j0 g0 kg' k1' k2' je' jc' jr' ji' jx' j0' g0' P P' gh S gh' S' jreal spm sps wk ksp at_throw u u' wall FC Hs Hr E E' CS CS' HI Em Es Jm Js Hw Fu Fu' glob slv r relax S1 S2 N2 PU HW ROOM.
  destruct (C100_reordering srt registered m hs X regs o po po' kg k1 k2 je jc jr ji jx j0 g0 kg' k1' k2' je' jc' jr' ji' jx' j0' g0' P P' FC Hs Hr E E') as (p & p' & s & Pp & Pp' & SM & SM' & _ & _ & PS & _ & _ & H).
  destruct (H gh S gh' S' CS CS') as (NE & hs1 & hs2 & T). destruct (wall_kept _ _ _ _ wall SM) as (W1 & W2). pose proof (two_sizes _ _ _ _ _ _ _ _ _ _ _ _ T) as (_ & _ & _ & Ps & NE2 & _).
  pose proof (case_numbered _ _ _ _ _ _ _ _ _ _ _ _ _ _ _ _ _ _ (fc_file _ _ _ _ _ FC) Hs Hr E) as GL. pose proof (case_numbered _ _ _ _ _ _ _ _ _ _ _ _ _ _ _ _ _ _ (fc_file _ _ _ _ _ FC) Hs Hr E') as GL'. rewrite <- NE in GL, GL'.
  destruct (C106_implicit_run _ _ _ _ _ _ _ _ _ _ _ _ jreal spm sps wk glob ksp at_throw u u' T HI Em Es Jm Js Hw GL Fu Fu' S1 S2 N2) as (spm' & sps' & Em' & Es' & R0).
  exists spm', sps', p, p', s. do 6 (split; auto). split; [rewrite <- NE; exact Ps|]. split; [exact PS|]. intros wk' ksp' at_throw' jg jG jo jg' jG' jo' Hw' KS r'. rewrite <- NE in KS.
  destruct (R0 wk' (aat (l_eglob (pm_l P'))) ksp' at_throw' Hw' GL' KS) as (_ & A & B & _ & L1 & L2 & C).
  split; [exact A|]. split; [exact B|]. apply (C109_report _ _ _ _ _ _ _ _ _ _ _ _ jreal spm spm' T Em Em' ltac:(destruct Jm as (f & j & Ff & _); congruence) wall (so_u r) (so_u r')); auto; try lia. intros i Hi. apply PU. lia.
Qed.
Print Assumptions C109_implicit_case.

(** ** A case: the mesh and orders of C100_example. Both meshes are made, and the free stream held on both, in opposite orders, is reported alike. *)
Theorem C109_example : forall kg k1 k2 je jc jr ji jx j0 g0, exists P P',
  constructMesh dsort rcm_only rcm_opts 1 0 kg k1 k2 je jc jr ji jx j0 g0 ring_f ring_fX (mkarr 7 (fun _ => [1%Z])) = Some (Val P) /\
  constructMesh dsort rcm_only (mkpo None RAbsent) 1 0 kg k1 k2 je jc jr ji jx j0 g0 ring_f ring_fX (mkarr 7 (fun _ => [1%Z])) = Some (Val P') /\
  (exists S S', case_mesh P (fun _ => vzero) S /\ case_mesh P' (fun _ => vzero) S') /\
  forall gh S gh' S', case_mesh P gh S -> case_mesh P' gh' S' -> exists spm spm',
  main_spatial (fun _ => 0) (l_m (pm_l P)) (l_X (pm_l P)) S ring_opts = Some (Val spm) /\ main_spatial (fun _ => 0) (l_m (pm_l P')) (l_X (pm_l P')) S' ring_opts = Some (Val spm') /\
  forall u u', at_free_stream S ring_opts u -> at_free_stream S' ring_opts u' ->
  forall jg jG jo jg' jG' jo', exists q, serial_report S spm 0 1%Z jg jG jo u = Some q /\ serial_report S' spm' 0 1%Z jg' jG' jo' u' = Some q.
Proof.
  intros kg k1 k2 je jc jr ji jx j0 g0. destruct (C100_example kg k1 k2 je jc jr ji jx j0 g0) as (P & P' & E & E' & H). exists P, P'. split; [exact E|]. split; [exact E'|].
  destruct (C100_reordering dsort rcm_only ring_f ring_h ring_fX _ ring_opts rcm_opts (mkpo None RAbsent) kg k1 k2 je jc jr ji jx j0 g0 kg k1 k2 je jc jr ji jx j0 g0 P P' ring_case dsort_sorts rcm_perm E E') as (_ & _ & sg & _ & _ & _ & _ & _ & _ & _ & X1 & X2 & HT).
  split. { destruct (X1 (fun _ => vzero)) as (S & CS). destruct (X2 (fun _ => vzero)) as (S' & CS'). eauto. }
  intros gh S gh' S' CS CS'. destruct (H gh S gh' S' CS CS') as (spm & sps & spm' & sps' & Em & _ & Em' & _). exists spm, spm'. split; [exact Em|]. split; [exact Em'|].
  destruct (HT gh S gh' S' CS CS') as (NE & hx & hy & T). change (nelem ring_f) with 7%nat in NE. pose proof (two_sizes _ _ _ _ _ _ _ _ _ _ _ _ T) as (N0 & NS & N0' & Ps & _).
  destruct (make_for (fun _ => 0) (l_m (pm_l P)) (l_X (pm_l P)) S ring_opts _ spm ltac:(cbn; lra) ltac:(cbn; lra) Em eq_refl eq_refl) as ((MG & _ & _ & _ & _ & MF & _) & _).
  intros u u' Fu Fu' jg jG jo jg' jG' jo'.
  destruct (C109_reordering dsort rcm_only ring_f ring_h ring_fX _ ring_opts rcm_opts (mkpo None RAbsent) kg k1 k2 je jc jr ji jx j0 g0 kg k1 k2 je jc jr ji jx j0 g0 P P' gh S gh' S' (fun _ => 0) spm spm' 1%Z ring_case dsort_sorts rcm_perm E E' CS CS' Em Em') as (p & p' & Pp & Pp' & _ & _ & _ & _ & R0).
  - rewrite (proj2 (MF HLLC)); [discriminate|]. cbn. auto 10.
  - exists (mkbf 4 3 [1%Z]), []. split; [left; reflexivity|reflexivity].
  - vm_compute. lia.
  - change (nelem ring_f) with 7%nat in R0. apply (R0 u u'); [destruct Fu; lia|destruct Fu'; lia| |].
    + intros i j Hi Hj _. destruct Fu as (_ & F). destruct Fu' as (_ & F'). apply (free_stream_unique (o_gam ring_opts) (o_Minf ring_opts) (o_alpha ring_opts)); [cbn; lra|apply F'; lia|apply F; lia].
    + intros i Hi. change (o_gam ring_opts) with 1.4 in *. rewrite <- MG. apply (ring_physical S u spm i MG Fu). lia.
Qed.
Print Assumptions C109_example.
