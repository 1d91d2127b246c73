(** C112: the position of a mesh in the plane does not matter. If every point of the mesh is moved by the same vector, the cell centres, the
    face centres and the ghost centres move by that vector, face normals, face lengths and cell areas stay what they are, and every quantity the solver
    computes from the mesh -- gradients of all schemes, face values of all reconstructions, residual, time steps, Jacobian matrix, whole explicit and
    implicit runs, reported functionals -- is exactly the same; only the coordinates in the surface output move along.

    Proved without any condition on the states: where one of the two evaluations is undefined, the other one is. *)
From Coq Require Import Reals List String Arith ZArith Bool Lra Lia FunctionalExtensionality.
From Verif Require Import Base BaseR BaseSum M_Gas M_Flux M_Visc M_BC M_BCConf M_Mesh M_Geom M_Space M_Grad M_Recon M_Resid M_Ode M_Ctl M_Case M_Start M_Out M_Dist M_DistImp M_Report S_Mesh S_Geom Pf_Topo Pf_Faces Pf_Incid Pf_Full Pf_Geom Pf_Space P_Start.
Import ListNotations.
Open Scope R_scope.

(** ** Specification *)
Definition shifted (d : v2) (a a' : arr v2) : Prop := alen a' = alen a /\ forall i, (i < alen a)%nat -> aat a' i = vadd (aat a i) d.
(** [S'] is [S] moved by [d] *)
Record translated (d : v2) (S S' : smesh) : Prop := {
  tr_ne : sm_ne S' = sm_ne S; tr_nb : sm_nb S' = sm_nb S; tr_ni : sm_ni S' = sm_ni S; tr_nc : sm_nc S' = sm_nc S;
  tr_F : sm_F S' = sm_F S; tr_M : sm_M S' = sm_M S; tr_A : sm_A S' = sm_A S;
  tr_EF : sm_EF S' = sm_EF S; tr_ES : sm_ES S' = sm_ES S; tr_nf : sm_nf S' = sm_nf S; tr_bt : sm_bt S' = sm_bt S;
  tr_X : shifted d (sm_X S) (sm_X S'); tr_rc : shifted d (sm_rc S) (sm_rc S'); tr_rcbp : shifted d (sm_rcbp S) (sm_rcbp S'); tr_gr : shifted d (sm_gr S) (sm_gr S') }.

(** ** Geometry *)
Lemma v2_eq (a b : v2) : vx a = vx b -> vy a = vy b -> a = b.
Proof. destruct a, b. cbn. intros -> ->. reflexivity. Qed.
Lemma frange_ext T (f g : nat -> T -> option T) lo hi s : (forall k s, f k s = g k s) -> frange lo hi f s = frange lo hi g s.
Proof. intros H. unfold frange. apply floop_ext. intros. apply H. Qed.
Lemma acc_ext T plus lo hi (f g : nat -> option (list (inc T))) A : (forall k, f k = g k) -> acc_loop plus lo hi f A = acc_loop plus lo hi g A.
Proof. intros H. unfold acc_loop. apply frange_ext. intros k s. rewrite H. reflexivity. Qed.

Section Moved.
Variable d : v2.
Notation sh p := (vadd p d).
Lemma dx p q : vx (sh p) - vx (sh q) = vx p - vx q. Proof. cbn. lra. Qed.
Lemma dy p q : vy (sh p) - vy (sh q) = vy p - vy q. Proof. cbn. lra. Qed.
Lemma dv p q : vsub (sh p) (sh q) = vsub p q. Proof. apply v2_eq; cbn; lra. Qed.
Lemma mid_sh a b : face_mid (sh a) (sh b) = sh (face_mid a b). Proof. apply v2_eq; cbn; lra. Qed.
Lemma metric_sh a b : face_metric (sh a) (sh b) = face_metric a b. Proof. unfold face_metric. rewrite dx, dy. reflexivity. Qed.
Lemma tri_sh a b c : tri_area (sh a) (sh b) (sh c) = tri_area a b c. Proof. unfold tri_area. cbn. ring. Qed.
Lemma inv_sh a b : inv_dist (sh a) (sh b) = inv_dist a b. Proof. unfold inv_dist. rewrite dx, dy. reflexivity. Qed.
Lemma wmat_sh a b : wls_mat (sh a) (sh b) = wls_mat a b. Proof. unfold wls_mat, wls_w2, wls_dr. rewrite dx, dy. reflexivity. Qed.
Lemma wvec_sh a b x y : wls_vec (sh a) (sh b) x y = wls_vec a b x y. Proof. unfold wls_vec, wls_w2, wls_dr. rewrite dx, dy. reflexivity. Qed.
Lemma lin_sh u g l a b : linearExtrapolate u g l (sh a) (sh b) = linearExtrapolate u g l a b. Proof. unfold linearExtrapolate. rewrite dx, dy. reflexivity. Qed.
Lemma weno_sh u g a b : weno_val u g (sh a) (sh b) = weno_val u g a b. Proof. unfold weno_val. rewrite dx, dy. reflexivity. Qed.
Lemma mul_sh a b x y g : mu_face_left (sh a) (sh b) x y g = mu_face_left a b x y g. Proof. unfold mu_face_left, biased. rewrite dx, dy. reflexivity. Qed.
Lemma mur_sh a b x y g : mu_face_right (sh a) (sh b) x y g = mu_face_right a b x y g. Proof. unfold mu_face_right, biased. rewrite dx, dy. reflexivity. Qed.
Lemma cdist_sh a b : centre_dist (sh a) (sh b) = centre_dist a b. Proof. unfold centre_dist. rewrite dv. reflexivity. Qed.
Lemma cdir_sh a b : centre_dir (sh a) (sh b) = centre_dir a b. Proof. unfold centre_dir. rewrite dv, cdist_sh. reflexivity. Qed.
Lemma vflux_sh G so cv n a b ucl ucr gl gr l r : compute_viscous_flux G so cv n (sh a) (sh b) ucl ucr gl gr l r = compute_viscous_flux G so cv n a b ucl ucr gl gr l r.
Proof. unfold compute_viscous_flux, getFaceGradient_modifiedAverage. rewrite cdist_sh, cdir_sh. reflexivity. Qed.
Lemma vjac_sh G cv n a b l r x y : compute_viscous_flux_jacobian G cv n (sh a) (sh b) l r x y = compute_viscous_flux_jacobian G cv n a b l r x y.
Proof. unfold compute_viscous_flux_jacobian, getFaceGradientAndJacobian_thinLayer. rewrite cdist_sh, cdir_sh. reflexivity. Qed.

Lemma aget_sh a a' i : shifted d a a' -> aget a' i = option_map (fun p => sh p) (aget a i).
Proof. intros (L & V). unfold aget. rewrite L. destruct (Nat.ltb_spec i (alen a)); cbn; [rewrite V by auto|]; reflexivity. Qed.
Lemma get_mid_sh X X' fc : shifted d X X' -> get_mid X' fc = option_map (fun p => sh p) (get_mid X fc).
Proof. intros H. unfold get_mid. rewrite !(aget_sh _ _ _ H). destruct (aget X (f_a fc)), (aget X (f_b fc)); cbn [option_map bind]; try reflexivity. rewrite mid_sh. reflexivity. Qed.

(** ** What one mesh and the moved one give *)
Section Same.
Variables (ne nb ni nc : nat) (F : arr face) (M : arr fmet) (A : arr R) (X X' rc rc' rb rb' gr gr' : arr v2) (EF : arr2 nat) (ES : arr2 Z) (nf : arr nat) (bt : arr (list Z)).
Hypotheses (HX : shifted d X X') (Hc : shifted d rc rc') (Hb : shifted d rb rb') (Hg : shifted d gr gr').
Let S := mksm ne nb ni nc F M A X rc rb gr EF ES nf bt.
Let S' := mksm ne nb ni nc F M A X' rc' rb' gr' EF ES nf bt.
Ltac sm := cbn [S S' sm_ne sm_nb sm_ni sm_nc sm_F sm_M sm_A sm_X sm_rc sm_rcbp sm_gr sm_EF sm_ES sm_nf sm_bt].
Ltac st1 := first
  [ reflexivity
  | rewrite (get_mid_sh _ _ _ HX) | rewrite (aget_sh _ _ _ Hc) | rewrite (aget_sh _ _ _ Hb) | rewrite (aget_sh _ _ _ Hg)
  | match goal with
    | |- bind (option_map _ ?x) _ = bind ?x _ => destruct x; cbn [option_map bind]
    | |- bind ?x _ = bind ?x _ => destruct x; cbn [bind]
    end
  | rewrite inv_sh | rewrite wmat_sh | rewrite wvec_sh | rewrite lin_sh | rewrite weno_sh | rewrite mul_sh | rewrite mur_sh | rewrite vflux_sh | rewrite vjac_sh ].
Ltac go := repeat st1.

Lemma far_sh k fc : far_centre S' k fc = option_map (fun p => sh p) (far_centre S k fc).
Proof. unfold far_centre. sm. destruct (k <? nb)%nat; apply aget_sh; auto. Qed.

Lemma GG_sh u ug G : GreenGauss S' u ug G = GreenGauss S u ug G.
Proof.
  unfold GreenGauss, zero_grads, sm_nf_all. sm. go.
  rewrite (acc_ext _ _ _ _ (gg_boundary S' u ug) (gg_boundary S u ug)). 2:{ intros k. unfold gg_boundary. sm. go. }
  go. rewrite (acc_ext _ _ _ _ (gg_interior S' u) (gg_interior S u)). 2:{ intros k. unfold gg_interior. sm. go. }
  go. apply acc_ext. intros k. unfold gg_conn. sm. go.
Qed.
Lemma lhs_o_sh k : wls_lhs_outer S' k = wls_lhs_outer S k. Proof. unfold wls_lhs_outer. rewrite ?far_sh. sm. destruct (aget F k); cbn [bind]; [|reflexivity]. rewrite far_sh. go. Qed.
Lemma lhs_i_sh k : wls_lhs_inner S' k = wls_lhs_inner S k. Proof. unfold wls_lhs_inner. sm. destruct (aget F k); cbn [bind]; [|reflexivity]. rewrite far_sh. go. Qed.
Lemma rhs_o_sh u ug k : wls_rhs_outer S' u ug k = wls_rhs_outer S u ug k. Proof. unfold wls_rhs_outer. change (far_value S' u ug) with (far_value S u ug). sm. destruct (aget F k); cbn [bind]; [|reflexivity]. rewrite far_sh. go. Qed.
Lemma rhs_i_sh u ug k : wls_rhs_inner S' u ug k = wls_rhs_inner S u ug k. Proof. unfold wls_rhs_inner. change (far_value S' u ug) with (far_value S u ug). sm. destruct (aget F k); cbn [bind]; [|reflexivity]. rewrite far_sh. go. Qed.
Lemma WLSc_sh : WLS_ctor S' = WLS_ctor S.
Proof.
  unfold WLS_ctor, sm_nf_all. sm. rewrite (acc_ext _ _ _ _ _ _ _ lhs_o_sh). go. rewrite (acc_ext _ _ _ _ _ _ _ lhs_i_sh). go. rewrite (acc_ext _ _ _ _ _ _ _ lhs_o_sh). go.
Qed.
Lemma WLS_sh V u ug G : WLS_gradients S' V u ug G = WLS_gradients S V u ug G.
Proof.
  unfold WLS_gradients, sm_nf_all. sm. rewrite (acc_ext _ _ _ _ _ _ _ (rhs_o_sh u ug)). go. rewrite (acc_ext _ _ _ _ _ _ _ (rhs_i_sh u ug)). go. rewrite (acc_ext _ _ _ _ _ _ _ (rhs_o_sh u ug)). go.
Qed.
Lemma grads_sh gs u ug G : compute_gradients S' gs u ug G = compute_gradients S gs u ug G.
Proof. destruct gs; cbn [compute_gradients]; [reflexivity|apply GG_sh|apply WLS_sh]. Qed.

Lemma store_sh i val s : (forall a b, val (sh a) (sh b) = val a b) -> store_faces S' i val s = store_faces S i val s.
Proof.
  intros H. unfold store_faces. sm. go. apply floop_ext. intros f [fl fr] _. go. rewrite H. reflexivity.
Qed.
Lemma minf_sh u G i phi : min_factor S' u G i phi = min_factor S u G i phi.
Proof. unfold min_factor. sm. go. apply floop_ext. intros f l _. go. Qed.
Lemma faces_sh rs u ug G s : compute_face_values S' rs u ug G s = compute_face_values S rs u ug G s.
Proof.
  destruct rs; cbn [compute_face_values].
  - unfold LinearUnlimited, sm_nf_all. sm.
    assert (E : forall k s, lin_outer S' u G k s = lin_outer S u G k s). { intros k [fl fr]. unfold lin_outer. sm. go. }
    rewrite (frange_ext _ _ _ _ _ _ E). go. rewrite (frange_ext _ (lin_inner S' u G) (lin_inner S u G)). 2:{ intros k [fl fr]. unfold lin_inner. sm. go. }
    go. apply frange_ext, E.
  - unfold WENO. sm. apply floop_ext. intros i t _. change (weno_grad S' lambda G i) with (weno_grad S lambda G i). go. apply store_sh. intros. apply weno_sh.
  - unfold BarthJespersen. sm. apply floop_ext. intros i t _. unfold bj_cell. change (du_range S' u i) with (du_range S u i). go. destruct p. rewrite minf_sh. go. apply store_sh. intros. apply lin_sh.
  - unfold Venkatakrishnan. sm. apply floop_ext. intros i t _. unfold venkat_cell. change (du_range S' u i) with (du_range S u i). go. destruct p. rewrite minf_sh. go. apply store_sh. intros. apply lin_sh.
  - unfold MUSCLVanAlbada, sm_nf_all. sm. rewrite (frange_ext _ (mu_outer S' u ug G) (mu_outer S u ug G)). 2:{ intros k [fl fr]. unfold mu_outer. sm. go. }
    go. apply frange_ext. intros k [fl fr]. unfold mu_inner. sm. go.
Qed.
Lemma flux_sh fl so u G ul ur ug k : face_flux S' fl so u G ul ur ug k = face_flux S fl so u G ul ur ug k.
Proof.
  unfold face_flux. sm. go. destruct (fl_visc fl); [|reflexivity]. rewrite far_sh. change (far_value S' u ug k) with (far_value S u ug k). go.
Qed.
Lemma fluxes_sh fl so u G ul ur ug res : compute_fluxes S' fl so u G ul ur ug res = compute_fluxes S fl so u G ul ur ug res.
Proof. unfold compute_fluxes. apply acc_ext. intros k. unfold flux_incs. rewrite flux_sh. reflexivity. Qed.
Lemma res1_sh fl u ul ur res G dt : compute_residual1 S' fl u ul ur res G dt = compute_residual1 S fl u ul ur res G dt.
Proof.
  unfold compute_residual1. change (boundary_left S' u ul) with (boundary_left S u ul). go.
  match goal with |- bind ?x _ = bind ?y _ => change x with y; destruct y as [[l r]|]; cbn [bind]; [|reflexivity] end.
  match goal with |- bind ?x _ = bind ?y _ => change x with y; destruct y; cbn [bind]; [|reflexivity] end.
  rewrite fluxes_sh. reflexivity.
Qed.
Lemma res2_sh fl gs rs gg rf u ul ur res G jp dt : compute_residual2 S' fl gs rs gg rf u ul ur res G jp dt = compute_residual2 S fl gs rs gg rf u ul ur res G jp dt.
Proof.
  unfold compute_residual2. cbv zeta. change (sm_nb S') with (sm_nb S).
  do 4 (match goal with |- bind ?x _ = bind ?y _ => change x with y; destruct y; cbn [bind]; [|reflexivity] end).
  rewrite grads_sh. go. change (ghost_gradients S') with (ghost_gradients S). rewrite faces_sh.
  match goal with |- bind ?x _ = bind ?x _ => destruct x as [[l r]|]; cbn [bind]; [|reflexivity] end.
  do 5 (match goal with |- bind ?x _ = bind ?y _ => change x with y; destruct y; cbn [bind]; [|reflexivity] end).
  rewrite fluxes_sh. reflexivity.
Qed.
Lemma fjac_sh fl k l r : face_jac S' fl k l r = face_jac S fl k l r.
Proof. unfold face_jac. sm. go. destruct (fl_visc fl); [|reflexivity]. rewrite far_sh. go. Qed.
Lemma jac_sh fl u row col B : assemble_jacobian S' fl u row col B = assemble_jacobian S fl u row col B.
Proof.
  unfold assemble_jacobian, assemble_with, sm_nf_all. sm.
  assert (LB : forall k x, local_jacobian_boundary S' fl k x = local_jacobian_boundary S fl k x).
  { intros. unfold local_jacobian_boundary. sm. go. change (face_bc S' fl k) with (face_bc S fl k). go. rewrite fjac_sh. go. }
  assert (LI : forall k x y, local_jacobian_interior S' fl k x y = local_jacobian_interior S fl k x y).
  { intros. unfold local_jacobian_interior. sm. go. rewrite fjac_sh. go. }
  match goal with |- bind ?x _ = bind ?y _ => assert (E : x = y) end. { apply floop_ext. intros. go. rewrite LB. go. }
  rewrite E. go.
  match goal with |- bind ?x _ = bind ?y _ => assert (E1 : x = y) end. { apply frange_ext. intros. go. rewrite LI. go. }
  rewrite E1. go. apply frange_ext. intros. go. rewrite LI. go.
Qed.
End Same.
End Moved.

(** the same, for [translated] *)
Ltac moved H := match type of H with translated _ ?S ?S' =>
  destruct H as [T1 T2 T3 T4 T5 T6 T7 T8 T9 T10 T11 TX TC TB TG]; destruct S as [n1 n2 n3 n4 F1 M1 A1 X1 c1 b1 g1 E1 Z1 f1 t1]; destruct S' as [n1' n2' n3' n4' F1' M1' A1' X1' c1' b1' g1' E1' Z1' f1' t1'];
  cbn [sm_ne sm_nb sm_ni sm_nc sm_F sm_M sm_A sm_X sm_rc sm_rcbp sm_gr sm_EF sm_ES sm_nf sm_bt] in *; subst n1' n2' n3' n4' F1' M1' A1' E1' Z1' f1' t1' end.

Lemma eval_sh d S S' sp w u : translated d S S' -> spatial_eval S' sp w u = spatial_eval S sp w u.
Proof.
  intros H. moved H. unfold spatial_eval. destruct (sp_flux sp); cbn [bind]; [|reflexivity]. cbv zeta. cbn [sm_ne]. destruct (sp_order2 sp).
  - destruct (sp_rec sp); cbn [bind]; [|reflexivity]. rewrite (res2_sh d) with (X := X1) (rc := c1) (rb := b1) (gr := g1) by auto. reflexivity.
  - rewrite (res1_sh d) with (X := X1) (rc := c1) (rb := b1) (gr := g1) by auto. reflexivity.
Qed.
Lemma one_jac_sh d S S' sp u : translated d S S' -> one_jac S' sp u = one_jac S sp u.
Proof. intros H. moved H. unfold one_jac. destruct (jac_flow sp); cbn [bind]; [|reflexivity]. rewrite (jac_sh d) with (X := X1) (rc := c1) (rb := b1) (gr := g1) by auto. reflexivity. Qed.
Lemma venkat_sh d m X X' : shifted d X X' -> venkat_ctor m X' = venkat_ctor m X.
Proof.
  intros H. unfold venkat_ctor. apply floop_ext. intros i C _. cbv zeta.
  match goal with |- bind ?x _ = bind ?y _ => assert (E : x = y); [|rewrite E; reflexivity] end. apply floop_ext. intros f l _.
  rewrite !(aget_sh d _ _ _ H). destruct (aget X (nth f _ 0%nat)); cbn [option_map bind]; [|reflexivity]. destruct (aget X (nth (_ mod _) _ 0%nat)); cbn [option_map bind]; [|reflexivity]. rewrite dx, dy. reflexivity.
Qed.
Lemma make_sh d jr m X X' S S' p n : shifted d X X' -> translated d S S' -> make_spatial jr m X' S' p n = make_spatial jr m X S p n.
Proof.
  intros HX H. unfold make_spatial. cbv zeta.
  assert (E : forall k, grad_of S' k = grad_of S k). { intros []; cbn [grad_of]; try reflexivity. moved H. rewrite (WLSc_sh d) with (X := X1) (rc := c1) (rb := b1) (gr := g1) by auto. reflexivity. }
  assert (E' : forall k, rec_of m X' k = rec_of m X k). { intros []; cbn [rec_of]; try reflexivity. rewrite (venkat_sh d m X X' HX). reflexivity. }
  rewrite E. destruct (grad_of S _); cbn [bind]; [|reflexivity]. destruct (sc_rec _); cbn [bind]; [|reflexivity]. rewrite E'. reflexivity.
Qed.

(** related outcomes *)
Definition orel {T T'} (Q : T -> T' -> Prop) (x : option T) (y : option T') : Prop := match x, y with Some a, Some b => Q a b | None, None => True | _, _ => False end.
Lemma floop_orel {T T'} (Q : T -> T' -> Prop) f g n : forall s s', Q s s' -> (forall k s s', (k < n)%nat -> Q s s' -> orel Q (f k s) (g k s')) -> orel Q (floop n f s) (floop n g s').
Proof.
  induction n as [|n IH]; intros s s' H0 H; cbn; [exact H0|]. specialize (IH s s' H0 ltac:(intros; apply H; auto)). destruct (floop n f s), (floop n g s'); cbn in *; try contradiction; auto.
Qed.
(** surface data of one mesh and of the moved one: the same sums, the same rows but for the coordinates *)
Definition moved_rows (d : v2) (s s' : surf) : Prop :=
  su_n s' = su_n s /\ su_cl s' = su_cl s /\ su_dp s' = su_dp s /\ su_df s' = su_df s /\ su_ar s' = su_ar s /\ alen (su_out s') = alen (su_out s) /\
  forall i, (i < su_n s)%nat -> let r := aat (su_out s) i in aat (su_out s') i = mksrow (sr_x r + vx d) (sr_y r + vy d) (sr_cp r) (sr_cf r).
Lemma surface_sh d G S S' aoa u gr tag out : translated d S S' -> orel (moved_rows d) (surface_local G S aoa u gr tag out) (surface_local G S' aoa u gr tag out).
Proof.
  intros H. moved H. unfold surface_local. cbn [sm_nb]. apply floop_orel.
  { unfold moved_rows. cbn. repeat split; auto. intros; lia. }
  intros k s s' _ (Q1 & Q2 & Q3 & Q4 & Q5 & Q6 & Q7). unfold face_tag. cbn [sm_bt]. destruct (aget t1 k) as [tg|]; cbn [bind]; [|exact Logic.I]. destruct (nth_error tg 0) as [z|]; cbn [bind]; [|exact Logic.I].
  destruct (z =? tag)%Z; [|cbn [orel]; unfold moved_rows; auto 8].
  unfold surface_face. cbn [sm_F sm_M sm_X]. destruct (aget F1 k) as [fc|]; cbn [bind]; [|exact Logic.I]. destruct (aget M1 k) as [met|]; cbn [bind]; [|exact Logic.I].
  rewrite (get_mid_sh d _ _ _ TX). destruct (get_mid X1 fc) as [cen|]; cbn [option_map bind]; [|exact Logic.I].
  destruct (aget u (f_left fc)) as [x|]; cbn [bind]; [|exact Logic.I]. destruct (aget gr (f_left fc)) as [gg|]; cbn [bind]; [|exact Logic.I].
  unfold aset. rewrite Q6, Q1. destruct (Nat.ltb_spec (su_n s) (alen (su_out s))); cbn [bind orel]; [|exact Logic.I].
  unfold moved_rows. cbn [su_n su_out su_cl su_dp su_df su_ar alen aat]. rewrite Q2, Q3, Q4, Q5. repeat split; auto.
  intros i Hi. unfold upd. destruct (Nat.eqb_spec i (su_n s)); [cbn; reflexivity|apply Q7; lia].
Qed.
Lemma getg_sh d S S' fl gs jg u G : translated d S S' -> flow_getGradients S' fl gs jg u G = flow_getGradients S fl gs jg u G.
Proof.
  intros H. moved H. unfold flow_getGradients. cbn [sm_nb]. match goal with |- bind ?x _ = bind ?y _ => change x with y; destruct y; cbn [bind]; [|reflexivity] end.
  rewrite (grads_sh d) with (X := X1) (rc := c1) (rb := b1) (gr := g1) by auto. reflexivity.
Qed.
Lemma local_sh d S S' sp aoa wall jg jG jo u : translated d S S' -> orel (moved_rows d) (local_surface S sp aoa wall jg jG jo u) (local_surface S' sp aoa wall jg jG jo u).
Proof.
  intros H. unfold local_surface. destruct (sp_flux sp) as [f|]; cbn [bind]; [|exact Logic.I]. rewrite (getg_sh d S S' _ _ _ _ _ H), (tr_ne _ _ _ H).
  destruct (flow_getGradients S _ _ _ _ _) as [G|]; cbn [bind]; [|exact Logic.I]. destruct (sm_ne S <=? alen u)%nat; [|exact Logic.I]. apply surface_sh, H.
Qed.

(** ** Theorems *)
(** *** The mesh. [jc], [jb], [jc'], [jb']: what memory contained in the arrays that hold coordinates; the memory of the other tables is the same in both cases. *)
Theorem C112_mesh : forall d m hs X X' gh gh' j0 jf je jt jm ja jc jb jc' jb' S,
  tiled m hs -> (forall c, In c (cells m) -> (List.length c = 3 \/ List.length c = 4)%nat) -> alen X = npoin m ->
  shifted d X X' -> (forall k, (k < nconnface m)%nat -> gh' k = vadd (gh k) d) ->
  setup m X gh j0 jf je jt jm ja jc jb = Some (Val S) ->
  exists S', setup m X' gh' j0 jf je jt jm ja jc' jb' = Some (Val S') /\ translated d S S' /\ sm_X S = X /\ sm_X S' = X'.
Proof.
  intros d m hs X X' gh gh' j0 jf je jt jm ja jc jb jc' jb' S T H34 LX HX Hgh E. pose proof HX as (LX' & VX).
  destruct (setup_ok m hs X' gh' j0 jf je jt jm ja jc' jb' T H34 ltac:(congruence)) as (_ & _ & _ & _ & _ & S' & _ & _ & E' & _). exists S'. split; [exact E'|].
  assert (B : built m hs X gh S). { split; auto. split; auto. split; auto. exists j0, jf, je, jt, jm, ja, jc, jb. exact E. }
  assert (B' : built m hs X' gh' S'). { split; auto. split; auto. split; [congruence|]. exists j0, jf, je, jt, jm, ja, jc', jb'. exact E'. }
  destruct (built_ok _ _ _ _ _ B) as (p & e & ni & s & il & TO & OK & N1 & N2 & N3 & N4 & NF & NX & _ & NC & NG & _).
  destruct (built_ok _ _ _ _ _ B') as (p' & e' & ni' & s' & il' & TO' & OK' & N1' & N2' & N3' & N4' & NF' & NX' & _ & NC' & NG' & _).
  clear TO TO' p e p' e' il il' NF NF' N3 N3' ni ni' s s' B B'.
  assert (FD : forall F, compute_face_data X' F jm = compute_face_data X F jm).
  { intros F. unfold compute_face_data. apply floop_ext. intros i N _. destruct (aget F i) as [fc|]; cbn [bind]; [|reflexivity]. rewrite !(aget_sh d _ _ _ HX). destruct (aget X (f_a fc)), (aget X (f_b fc)); cbn [option_map bind]; try reflexivity. rewrite metric_sh. reflexivity. }
  assert (AR : compute_areas m X' ja = compute_areas m X ja).
  { unfold compute_areas. apply floop_ext. intros i N _. destruct (nnode m i) as [n|]; cbn [bind]; [|reflexivity]. cbv zeta.
    assert (P : forall j, (v <- inpoel m i j ;; aget X' v) = option_map (fun p => vadd p d) (v <- inpoel m i j ;; aget X v)). { intros j. destruct (inpoel m i j); cbn [bind]; [apply aget_sh; auto|reflexivity]. }
    rewrite !P. generalize (v <- inpoel m i 0 ;; aget X v), (v <- inpoel m i 1 ;; aget X v), (v <- inpoel m i 2 ;; aget X v), (v <- inpoel m i 3 ;; aget X v). intros o0 o1 o2 o3.
    destruct (n =? 3)%nat; [destruct o0, o1, o2; cbn [option_map bind]; rewrite ?tri_sh; reflexivity|]. destruct (n =? 4)%nat; [|reflexivity].
    destruct o0, o1, o2, o3; cbn [option_map bind]; rewrite ?tri_sh; reflexivity. }
  unfold setup in E, E'. destruct (compute_topological m j0 jf je jt) as [[[[tp te] [tn ts]]|]|]; try discriminate. rewrite FD in E'. destruct (compute_face_data X (intfac ts) jm) as [Mt|]; cbn [bind] in E, E'; [|discriminate].
  rewrite AR in E'. destruct (compute_areas m X ja) as [At|]; cbn [bind] in E, E'; [|discriminate].
  destruct (spatial_ctor m X tn ts Mt At gh jc jb) as [S0|] eqn:Q; cbn [bind] in E; [|discriminate]. injection E as ->.
  destruct (spatial_ctor m X' tn ts Mt At gh' jc' jb') as [S0|] eqn:Q'; cbn [bind] in E'; [|discriminate]. injection E' as ->.
  unfold spatial_ctor in Q, Q'.
  destruct (compute_cell_centres m X jc) as [C|]; cbn [bind] in Q; [|discriminate]. cbv zeta in Q. destruct (face_centres X (intfac ts)) as [gr|]; cbn [bind] in Q; [|discriminate]. destruct (ghost_about_midpoint X _ _ _ jb) as [rb|]; cbn [bind] in Q; [|discriminate].
  destruct (compute_cell_centres m X' jc') as [C'|]; cbn [bind] in Q'; [|discriminate]. cbv zeta in Q'. destruct (face_centres X' (intfac ts)) as [gr'|]; cbn [bind] in Q'; [|discriminate]. destruct (ghost_about_midpoint X' _ _ _ jb') as [rb'|]; cbn [bind] in Q'; [|discriminate].
  apply (f_equal (fun o => match o with Some x => x | None => S end)) in Q. apply (f_equal (fun o => match o with Some x => x | None => S' end)) in Q'. 
  assert (EQ : sm_ne S' = sm_ne S /\ sm_nb S' = sm_nb S /\ sm_ni S' = sm_ni S /\ sm_nc S' = sm_nc S /\ sm_F S' = sm_F S /\ sm_M S' = sm_M S /\ sm_A S' = sm_A S /\ sm_EF S' = sm_EF S /\ sm_ES S' = sm_ES S /\ sm_nf S' = sm_nf S /\ sm_bt S' = sm_bt S).
  { rewrite <- Q, <- Q'. cbn. auto 12. }
  clear Q Q'. destruct EQ as (K1 & K2 & K3 & K4 & K5 & K6 & K7 & K8 & K9 & K10 & K11).
  assert (KA : sm_nf_all S' = sm_nf_all S) by (unfold sm_nf_all; congruence).
  assert (HR : shifted d (sm_rc S) (sm_rc S')).
  { split; [rewrite (so_rc _ OK), (so_rc _ OK'); congruence|]. rewrite (so_rc _ OK). intros i Hi. destruct (Nat.lt_ge_cases i (nelem m)) as [L|L].
    - rewrite NC, NC' by auto. cbv zeta. set (c := cell (cells m) i).
      assert (Hc : In c (cells m)) by (apply nth_In; unfold nelem in L; exact L).
      assert (Hl : INR (List.length c) <> 0) by (apply not_0_INR; destruct (H34 c Hc); lia).
      assert (Hp : forall v, In v c -> (v < alen X)%nat). { intros v Hv. rewrite LX. exact (proj2 (proj2 (gm_valid _ _ (tl_good _ _ T) c Hc)) v Hv). }
      assert (SX : forall l, (forall v, In v l -> (v < alen X)%nat) -> rsum (fun x => vx (aat X' x)) l = rsum (fun x => vx (aat X x)) l + INR (List.length l) * vx d /\ rsum (fun x => vy (aat X' x)) l = rsum (fun x => vy (aat X x)) l + INR (List.length l) * vy d).
      { induction l as [|v l IH]; intros Hv; cbn [rsum List.length]; [cbn; lra|]. destruct IH as (I1 & I2). { intros; apply Hv; right; auto. } rewrite I1, I2, S_INR, VX by (apply Hv; left; auto). cbn. split; ring. }
      destruct (SX c Hp) as (S1 & S2). apply v2_eq; cbn [vx vy vadd vsum]; [rewrite S1|rewrite S2]; field; exact Hl.
    - replace i with (nelem m + (i - nelem m))%nat by lia. rewrite NG, NG', Hgh by lia. reflexivity. }
  assert (HG : shifted d (sm_gr S) (sm_gr S')).
  { split; [rewrite (so_gr _ OK), (so_gr _ OK'); exact KA|]. rewrite (so_gr _ OK). intros k Hk. rewrite (so_mid _ OK), (so_mid _ OK') by congruence. rewrite K5, NX, NX'. pose proof (so_pts _ OK k Hk) as P. rewrite NX in P. rewrite !VX by tauto. apply mid_sh. }
  split; [|auto]. split; auto.
  - rewrite NX, NX'. exact HX.
  - split; [rewrite (so_rcbp _ OK), (so_rcbp _ OK'); exact K2|]. rewrite (so_rcbp _ OK). intros k Hk. rewrite (so_bp _ OK), (so_bp _ OK') by congruence. rewrite K5.
    assert (Hk' : (k < sm_nf_all S)%nat) by (unfold sm_nf_all; lia). destruct HG as (_ & VG). destruct HR as (_ & VR). rewrite VG by (rewrite (so_gr _ OK); exact Hk'). rewrite VR by (rewrite (so_rc _ OK); pose proof (so_left _ OK k Hk'); lia).
    apply v2_eq; cbn; lra.
Qed.

(** *** What is made from the control file is the same *)
Theorem C112_discretization : forall d jr m X X' S S' o, shifted d X X' -> translated d S S' ->
  main_spatial jr m X' S' o = main_spatial jr m X S o /\ start_spatial jr m X' S' o = start_spatial jr m X S o.
Proof. intros d jr m X X' S S' o HX H. split; apply (make_sh d); auto. Qed.

(** *** Gradients and face values of every scheme, residual and time steps, Jacobian matrix *)
Theorem C112_residual : forall d S S', translated d S S' ->
  (forall gs u ug G, compute_gradients S' gs u ug G = compute_gradients S gs u ug G) /\
  (forall rs u ug G s, compute_face_values S' rs u ug G s = compute_face_values S rs u ug G s) /\
  (forall sp w u, spatial_eval S' sp w u = spatial_eval S sp w u) /\
  (forall fl u row col B, assemble_jacobian S' fl u row col B = assemble_jacobian S fl u row col B).
Proof.
  intros d S S' H. split; [|split; [|split]].
  - intros. moved H. apply (grads_sh d); auto.
  - intros. moved H. apply (faces_sh d); auto.
  - intros. apply (eval_sh d); auto.
  - intros. moved H. apply (jac_sh d); auto.
Qed.

(** *** The reported functionals and the rows of the surface output *)
Theorem C112_report : forall d S S' sp aoa wall jg jG jo u, translated d S S' ->
  serial_report S' sp aoa wall jg jG jo u = serial_report S sp aoa wall jg jG jo u /\
  forall G gr tag, orel (moved_rows d) (export_wall G S aoa u gr tag jo) (export_wall G S' aoa u gr tag jo).
Proof.
  intros d S S' sp aoa wall jg jG jo u H. split.
  - unfold serial_report, ranks_report. pose proof (local_sh d S S' sp aoa wall jg jG jo u H) as L. unfold mesh_size, all_of. cbn [seq forallb map]. rewrite (tr_ne _ _ _ H), (tr_A _ _ _ H).
    destruct (entropy_local _ _ _ _ _) as [e|]; cbn [andb bind]; [|reflexivity].
    destruct (local_surface S _ _ _ _ _ _ _) as [s|], (local_surface S' _ _ _ _ _ _ _) as [s'|]; cbn in L; try contradiction; cbn [andb bind]; [|reflexivity].
    destruct L as (_ & Q2 & Q3 & Q4 & Q5 & _). cbn [map Nat.ltb Nat.leb]. unfold surface_reduce. cbn [rsum map]. change (0 <? 1)%nat with true. cbv iota. rewrite Q2, Q3, Q4, Q5. reflexivity.
  - intros G gr tag. unfold export_wall. assert (E : count_faces S' tag = count_faces S tag) by (moved H; reflexivity). rewrite E. destruct (count_faces S tag); cbn [bind]; [|exact Logic.I]. apply surface_sh, H.
Qed.

(** *** Whole runs, explicit or implicit, with the files written, the history and the functionals *)
Theorem C112_run : forall d S S' spm sps wk glob ksp at_throw o mf aoa jg jG jo surf vtu rank size w, translated d S S' ->
  let slv S := case_solve S spm sps wk glob (fun main => one_jac S (if main then spm else sps)) ksp at_throw in
  let fnl S u wall := serial_report S spm aoa wall jg jG jo u in
  run_output (slv S') o mf (fnl S') surf vtu rank size w = run_output (slv S) o mf (fnl S) surf vtu rank size w.
Proof.
  intros d S S' spm sps wk glob ksp at_throw o mf aoa jg jG jo surf vtu rank size w H. cbv zeta.
  assert (E1 : (fun main : bool => spatial_eval S' (if main then spm else sps) (wk main)) = (fun main : bool => spatial_eval S (if main then spm else sps) (wk main))).
  { apply functional_extensionality. intros b. apply functional_extensionality. intros u. apply (eval_sh d); auto. }
  assert (E2 : (fun main : bool => one_jac S' (if main then spm else sps)) = (fun main : bool => one_jac S (if main then spm else sps))).
  { apply functional_extensionality. intros b. apply functional_extensionality. intros u. apply (one_jac_sh d); auto. }
  assert (E3 : (fun u wall => serial_report S' spm aoa wall jg jG jo u) = (fun u wall => serial_report S spm aoa wall jg jG jo u)).
  { apply functional_extensionality. intros u. apply functional_extensionality. intros z. apply (C112_report d S S'); auto. }
  unfold case_solve. rewrite E1, E2, E3, (tr_ne _ _ _ H), (tr_A _ _ _ H). reflexivity.
Qed.

(** ** A case: the two-cell channel of C98, moved far to the right and down: centres move, areas stay, the discretizations made are the same *)
Definition far_d : v2 := mkv 1000 (-7).
Definition chX' : arr v2 := mkarr 6 (fun k => vadd (aat chX k) far_d).
Example C112_example : exists S S', built ch chh chX chg S /\ built ch chh chX' (fun _ => far_d) S' /\ translated far_d S S' /\ sm_ne S' = 2%nat /\ sm_nb S' = 6%nat /\
  aat (sm_rc S') 1%nat = mkv 1002 (- 13 / 2) /\ aat (sm_A S') 1%nat = 2 /\
  forall jr o, main_spatial jr ch chX' S' o = main_spatial jr ch chX S o.
Proof.
  destruct ch_built as (S & B). destruct B as (T & H34 & LX & j0 & jf & je & jt & jm & ja & jc & jb & E).
  assert (HX : shifted far_d chX chX') by (split; auto).
  destruct (C112_mesh far_d ch chh chX chX' chg (fun _ => far_d) j0 jf je jt jm ja jc jb jc jb S T H34 LX HX) as (S' & E' & TR & _); [|exact E|].
  { intros k Hk. apply v2_eq; cbn; lra. }
  assert (B : built ch chh chX chg S). { split; auto. split; auto. split; auto. exists j0, jf, je, jt, jm, ja, jc, jb. exact E. }
  assert (B' : built ch chh chX' (fun _ => far_d) S'). { split; auto. split; auto. split; [reflexivity|]. exists j0, jf, je, jt, jm, ja, jc, jb. exact E'. }
  exists S, S'. split; [exact B|]. split; [exact B'|]. split; [exact TR|].
  destruct (built_ok _ _ _ _ _ B') as (_ & _ & _ & _ & _ & _ & _ & N1 & N2 & _ & _ & _ & _ & NA & NC & _).
  split; [rewrite N1; reflexivity|]. split; [rewrite N2; reflexivity|]. split; [|split].
  - rewrite NC by (cbn; lia). apply v2_eq; cbn; lra.
  - rewrite NA by (cbn; lia). cbn. unfold polygon_area, sides, chain, cross. cbn. unfold cross. cbn. field_simplify. lra.
  - intros jr o. apply (C112_discretization far_d); auto.
Qed.

Print Assumptions C112_mesh.
Print Assumptions C112_discretization.
Print Assumptions C112_residual.
Print Assumptions C112_report.
Print Assumptions C112_run.
