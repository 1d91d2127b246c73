(** C113: the unit of length does not matter to an explicit inviscid run on one process. If every point of the mesh is multiplied by the same factor
    k > 0, face normals stay, face lengths are multiplied by k and areas by k^2; gradients are divided by k, the face values of the linear,
    Barth-Jespersen and MUSCL reconstructions stay, the residual and the local time steps are multiplied by k, and a run of the forward
    Euler solver takes the same steps and leaves the same states; the residual norms are multiplied by k^2, so relative residuals agree.
    Venkatakrishnan's limiter gives the same values if its constant is divided by k (its threshold is (K h)^3).

    Left out: WENO, whose weights contain a fixed 1e-5 next to squared gradients, viscous flow, where the Reynolds number fixes the length,
    and the implicit solver: see [C113_implicit_cfl_refuted].

    Proved without any condition on the states: where one of the two evaluations is undefined, the other one is. *)
From Coq Require Import Reals List String Arith ZArith Bool Lra Lia FunctionalExtensionality.
From Verif Require Import Base BaseR BaseSum M_Gas M_Flux M_Visc M_BC M_BCConf M_Mesh M_Geom M_Space M_Grad M_Recon M_Resid M_Ode M_Ctl M_Case M_Start S_Mesh S_Geom Pf_Topo Pf_Faces Pf_Incid Pf_Full Pf_Geom Pf_Space Pf_Resid P_Start P_Shift P_Case.
Import ListNotations.
Open Scope R_scope.

(** ** Specification *)
Definition scaled_by {T} (f : T -> T) (a a' : arr T) : Prop := alen a' = alen a /\ forall i, (i < alen a)%nat -> aat a' i = f (aat a i).
Definition len_times (k : R) (m : fmet) : fmet := mkfm (fm_n m) (k * fm_len m).
(** [S'] is [S] seen in a unit of length [k] times smaller *)
Record resized (k : R) (S S' : smesh) : Prop := {
  rz_ne : sm_ne S' = sm_ne S; rz_nb : sm_nb S' = sm_nb S; rz_ni : sm_ni S' = sm_ni S; rz_nc : sm_nc S' = sm_nc S;
  rz_F : sm_F S' = sm_F S; rz_EF : sm_EF S' = sm_EF S; rz_ES : sm_ES S' = sm_ES S; rz_nf : sm_nf S' = sm_nf S; rz_bt : sm_bt S' = sm_bt S;
  rz_M : scaled_by (len_times k) (sm_M S) (sm_M S'); rz_A : scaled_by (Rmult (k * k)) (sm_A S) (sm_A S');
  rz_X : scaled_by (vscal k) (sm_X S) (sm_X S'); rz_rc : scaled_by (vscal k) (sm_rc S) (sm_rc S');
  rz_rcbp : scaled_by (vscal k) (sm_rcbp S) (sm_rcbp S'); rz_gr : scaled_by (vscal k) (sm_gr S) (sm_gr S') }.
Definition gtimes (c : R) (g : grad) : grad := mkgrad (sscal c (gx g)) (sscal c (gy g)).
(** reconstructions that give the same face values *)
Definition same_rec (r r' : recscheme) : Prop := match r, r' with
  | M_Resid.RLinear, M_Resid.RLinear => True | M_Resid.RBJ, M_Resid.RBJ => True | M_Resid.RAlbada, M_Resid.RAlbada => True
  | M_Resid.RVenkat K cl, M_Resid.RVenkat K' cl' => alen cl' = alen cl /\ forall i, (i < alen cl)%nat -> K' * aat cl' i = K * aat cl i
  | _, _ => False end.

(** ** Loops *)
Lemma aget_sc {T} (f : T -> T) a a' i : scaled_by f a a' -> aget a' i = option_map f (aget a i).
Proof. intros (L & V). unfold aget. rewrite L. destruct (Nat.ltb_spec i (alen a)); cbn; [rewrite V by auto|]; reflexivity. Qed.
Lemma add_sc {T} plus (f : T -> T) (Hf : forall a b, f (plus a b) = plus (f a) (f b)) A A' p : scaled_by f A A' -> orel (scaled_by f) (add_at plus A p) (add_at plus A' (fst p, f (snd p))).
Proof.
  intros H. unfold add_at. cbn [fst snd]. rewrite (aget_sc f _ _ _ H). unfold aget, aset. destruct H as (L & V). rewrite L. destruct (Nat.ltb_spec (fst p) (alen A)); cbn; [|exact Logic.I].
  split; cbn; auto. intros i Hi. unfold upd. destruct (Nat.eqb_spec i (fst p)); auto.
Qed.
Definition incs {T} (f : T -> T) (l : list (inc T)) : list (inc T) := map (fun p => (fst p, f (snd p))) l.
Lemma all_sc {T} plus (f : T -> T) (Hf : forall a b, f (plus a b) = plus (f a) (f b)) l : forall A A', scaled_by f A A' -> orel (scaled_by f) (add_all plus l A) (add_all plus (incs f l) A').
Proof.
  unfold add_all. induction l as [|p l IH]; intros A A' H; cbn; [exact H|].
  pose proof (add_sc plus f Hf A A' p H) as Q. unfold inc in *. destruct (add_at plus A p), (add_at plus A' (fst p, f (snd p))); cbn in *; try contradiction; auto.
Qed.
Lemma acc_sc {T} plus (f : T -> T) lo hi b b' A A' : (forall a b, f (plus a b) = plus (f a) (f b)) -> (forall k, b' k = option_map (incs f) (b k)) -> scaled_by f A A' ->
  orel (scaled_by f) (acc_loop plus lo hi b A) (acc_loop plus lo hi b' A').
Proof.
  intros Hf Hb H. unfold acc_loop, frange. apply floop_orel; auto. intros k s s' _ Hs. rewrite Hb. destruct (b (lo + k)%nat); cbn; [apply all_sc; auto|exact Logic.I].
Qed.
Lemma fill_sc {T} (f : T -> T) n e e' (A A' : arr T) : alen A' = alen A -> (forall i, (i < n)%nat -> e' i = option_map f (e i)) ->
  orel (fun B B' => alen B = alen A /\ alen B' = alen A /\ forall i, (i < n)%nat -> aat B' i = f (aat B i))
       (floop n (fun i B => x <- e i ;; aset B i x) A) (floop n (fun i B => x <- e' i ;; aset B i x) A').
Proof.
  intros L. induction n as [|n IH]; intros He; cbn; [split; auto; split; auto; intros; lia|].
  specialize (IH ltac:(intros; apply He; lia)). destruct (floop n _ A) as [B|], (floop n _ A') as [B'|]; cbn in *; try contradiction; [|exact Logic.I].
  rewrite He by lia. destruct IH as (L1 & L2 & V). destruct (e n) as [x|]; cbn; [|exact Logic.I]. unfold aset. rewrite L1, L2. destruct (n <? alen A)%nat eqn:Q; cbn; [|exact Logic.I].
  split; auto. split; auto. intros i Hi. unfold upd. destruct (Nat.eqb_spec i n); auto. apply V. lia.
Qed.
Lemma orel_bind {T T' V V'} (P : T -> T' -> Prop) (Q : V -> V' -> Prop) x x' f f' : orel P x x' -> (forall a a', P a a' -> orel Q (f a) (f' a')) -> orel Q (bind x f) (bind x' f').
Proof. intros H K. destruct x, x'; cbn in *; try contradiction; auto. Qed.

Section Resized.
Variable k : R.
Hypothesis kp : 0 < k.
Notation sk := (vscal k).
Let g1 := gtimes (/ k).
Lemma kn : k <> 0. Proof. lra. Qed.

(** ** One face *)
Lemma sq_sc a b : sqrt (k * k * (a * a + b * b)) = k * sqrt (a * a + b * b).
Proof. rewrite sqrt_mult_alt by nra. rewrite sqrt_square by lra. reflexivity. Qed.
Lemma mid_sc a b : face_mid (sk a) (sk b) = sk (face_mid a b). Proof. apply v2_eq; cbn; lra. Qed.
Lemma metric_sc a b : face_metric (sk a) (sk b) = len_times k (face_metric a b).
Proof.
  unfold face_metric, len_times. cbn [vx vy vscal fm_n fm_len].
  replace ((k * vy b - k * vy a) ^ 2 + (-1 * (k * vx b - k * vx a)) ^ 2) with (k * k * ((vy b - vy a) * (vy b - vy a) + (vx b - vx a) * (vx b - vx a))) by ring.
  replace ((vy b - vy a) ^ 2 + (-1 * (vx b - vx a)) ^ 2) with ((vy b - vy a) * (vy b - vy a) + (vx b - vx a) * (vx b - vx a)) by ring.
  rewrite sq_sc. set (q := sqrt _). f_equal. unfold Rdiv. rewrite Rinv_mult. f_equal.
  - replace ((k * vy b - k * vy a) * (/ k * / q)) with (k * / k * ((vy b - vy a) * / q)) by ring. rewrite Rinv_r by exact kn. ring.
  - replace (-1 * (k * vx b - k * vx a) * (/ k * / q)) with (k * / k * (-1 * (vx b - vx a) * / q)) by ring. rewrite Rinv_r by exact kn. ring.
Qed.
Lemma inv_sc a b : inv_dist (sk a) (sk b) = / k * inv_dist a b.
Proof.
  unfold inv_dist. cbn [vx vy vscal]. rewrite !Rplus_0_l.
  replace ((k * vx a - k * vx b) * (k * vx a - k * vx b) + (k * vy a - k * vy b) * (k * vy a - k * vy b)) with (k * k * ((vx a - vx b) * (vx a - vx b) + (vy a - vy b) * (vy a - vy b))) by ring.
  rewrite sq_sc. unfold Rdiv. rewrite Rinv_mult. ring.
Qed.
Lemma ratio x y : (/ k * x) / (/ k * y) = x / y.
Proof. unfold Rdiv. rewrite Rinv_mult, Rinv_inv. replace (/ k * x * (k * / y)) with (/ k * k * (x * / y)) by ring. rewrite Rinv_l by exact kn. ring. Qed.
Lemma ut_sc a b len x y : gg_ut (/ k * a) (/ k * b) (k * len) x y = sscal k (gg_ut a b len x y).
Proof.
  apply st_ext. intros i. unfold gg_ut. rewrite cget_scal, !cget_mkst.
  replace (cget x i * (/ k * a) + cget y i * (/ k * b)) with (/ k * (cget x i * a + cget y i * b)) by ring. replace (/ k * a + / k * b) with (/ k * (a + b)) by ring. rewrite ratio. ring.
Qed.
Lemma term_sc u n a : gg_term (sscal k u) n (1 / (k * k * a)) = g1 (gg_term u n (1 / a)).
Proof.
  unfold gg_term, g1, gtimes. cbn [gx gy]. unfold Rdiv. rewrite !Rinv_mult.
  f_equal; apply st_ext; intros i; rewrite cget_scal, !cget_mkst, cget_scal; [set (w := vx n)|set (w := vy n)]; replace (k * cget u i * w * (1 * (/ k * / k * / a))) with (k * / k * (/ k * (cget u i * w * (1 * / a)))) by ring; rewrite Rinv_r by exact kn; ring.
Qed.
Lemma g1_neg g : g1 (gneg g) = gneg (g1 g).
Proof. unfold g1, gtimes, gneg. cbn [gx gy]. f_equal; apply st_ext; intros i; rewrite cget_scal, !cget_neg, cget_scal; ring. Qed.
Lemma g1_add a b : g1 (gadd a b) = gadd (g1 a) (g1 b).
Proof. unfold g1, gtimes, gadd. cbn [gx gy]. f_equal; apply st_ext; intros i; rewrite cget_scal, !cget_add, !cget_scal; ring. Qed.
Lemma g1_zero : g1 gzero = gzero.
Proof. unfold g1, gtimes, gzero. cbn [gx gy]. f_equal; apply st_ext; intros i; rewrite cget_scal, cget_zero; ring. Qed.
Lemma w2_sc a b : wls_w2 (sk a) (sk b) = / k * / k * wls_w2 a b.
Proof.
  unfold wls_w2. cbn [vx vy vscal]. rewrite !Rplus_0_l.
  replace ((k * vx a - k * vx b) * (k * vx a - k * vx b) + (k * vy a - k * vy b) * (k * vy a - k * vy b)) with (k * k * ((vx a - vx b) * (vx a - vx b) + (vy a - vy b) * (vy a - vy b))) by ring.
  unfold Rdiv. rewrite !Rinv_mult. ring.
Qed.
Lemma kk x : / k * / k * x * (k * k) = x. Proof. field. exact kn. Qed.
Lemma wmat_sc a b : wls_mat (sk a) (sk b) = wls_mat a b.
Proof. unfold wls_mat. cbv zeta. rewrite w2_sc. unfold wls_dr. cbn [vx vy vscal]. f_equal; field; exact kn. Qed.
Lemma wvec_sc a b x y : wls_vec (sk a) (sk b) x y = g1 (wls_vec a b x y).
Proof. unfold wls_vec, g1, gtimes. cbv zeta. rewrite w2_sc. unfold wls_dr. cbn [vx vy vscal gx gy]. f_equal; apply st_ext; intros i; rewrite cget_scal, !cget_mkst; field; exact kn. Qed.
Lemma m2g_sc v f : m2grad v (g1 f) = g1 (m2grad v f).
Proof. unfold m2grad, g1, gtimes. cbn [gx gy]. f_equal; apply st_ext; intros i; rewrite cget_scal, !cget_mkst, !cget_scal; ring. Qed.
Lemma lin_sc u g l a b : linearExtrapolate u (g1 g) l (sk a) (sk b) = linearExtrapolate u g l a b.
Proof. apply st_ext. intros i. unfold linearExtrapolate, g1, gtimes. cbn [vx vy vscal gx gy]. rewrite !cget_mkst, !cget_scal. field. exact kn. Qed.
Lemma biased_sc a b x y p q : biased (sk a) (sk b) x y (/ k * p) (/ k * q) = biased a b x y p q.
Proof. unfold biased. cbn [vx vy vscal]. field. exact kn. Qed.
Lemma mul_sc a b x y g : mu_face_left (sk a) (sk b) x y (g1 g) = mu_face_left a b x y g.
Proof. unfold mu_face_left, g1, gtimes. cbn [gx gy]. f_equal. apply functional_extensionality. intros v. cbv zeta. rewrite !cget_scal, biased_sc. reflexivity. Qed.
Lemma mur_sc a b x y g : mu_face_right (sk a) (sk b) x y (g1 g) = mu_face_right a b x y g.
Proof. unfold mu_face_right, g1, gtimes. cbn [gx gy]. f_equal. apply functional_extensionality. intros v. cbv zeta. rewrite !cget_scal, biased_sc. reflexivity. Qed.
Lemma get_mid_sc X X' fc : scaled_by sk X X' -> get_mid X' fc = option_map sk (get_mid X fc).
Proof. intros H. unfold get_mid. rewrite !(aget_sc sk _ _ _ H). destruct (aget X (f_a fc)), (aget X (f_b fc)); cbn [option_map bind]; try reflexivity. rewrite mid_sc. reflexivity. Qed.

(** ** One mesh and the other *)
Section Both.
Variables (ne nb ni nc : nat) (F : arr face) (M M' : arr fmet) (A A' : arr R) (X X' rc rc' rb rb' gr gr' : arr v2) (EF : arr2 nat) (ES : arr2 Z) (nf : arr nat) (bt : arr (list Z)).
Hypotheses (HM : scaled_by (len_times k) M M') (HA : scaled_by (Rmult (k * k)) A A') (HX : scaled_by sk X X') (Hc : scaled_by sk rc rc') (Hb : scaled_by sk rb rb') (Hg : scaled_by sk gr gr').
Let S := mksm ne nb ni nc F M A X rc rb gr EF ES nf bt.
Let S' := mksm ne nb ni nc F M' A' X' rc' rb' gr' EF ES nf bt.
Ltac sm := cbn [S S' sm_ne sm_nb sm_ni sm_nc sm_F sm_M sm_A sm_X sm_rc sm_rcbp sm_gr sm_EF sm_ES sm_nf sm_bt].
Ltac rw := rewrite ?(aget_sc _ _ _ _ HM), ?(aget_sc _ _ _ _ HA), ?(get_mid_sc _ _ _ HX), ?(aget_sc _ _ _ _ Hc), ?(aget_sc _ _ _ _ Hb), ?(aget_sc _ _ _ _ Hg).
Ltac gob := repeat (rw; match goal with
  | |- bind (option_map _ ?x) _ = option_map _ (bind ?x _) => destruct x; cbn [option_map bind]; [|reflexivity]
  | |- bind ?x _ = option_map _ (bind ?x _) => destruct x; cbn [option_map bind]; [|reflexivity] end).
Ltac go := repeat (rw; match goal with
  | |- bind (option_map _ ?x) _ = bind ?x _ => destruct x; cbn [option_map bind]; [|reflexivity]
  | |- bind ?x _ = bind ?x _ => destruct x; cbn [bind]; [|reflexivity] end).

Lemma far_sc j fc : far_centre S' j fc = option_map sk (far_centre S j fc).
Proof. unfold far_centre. sm. destruct (j <? nb)%nat; apply aget_sc; auto. Qed.
Lemma zero_sc G G' : alen G' = alen G -> alen G = ne -> orel (scaled_by g1) (zero_grads S G) (zero_grads S' G').
Proof.
  intros L N. unfold zero_grads. sm. pose proof (fill_sc g1 ne (fun _ => Some gzero) (fun _ => Some gzero) G G' L) as H.
  cbn [bind option_map] in H. specialize (H ltac:(intros; rewrite g1_zero; reflexivity)).
  destruct (floop ne _ G), (floop ne _ G'); cbn in *; auto. destruct H as (L1 & L2 & V). split; [congruence|]. rewrite L1, N. exact V.
Qed.
Lemma GG_sc u ug G G' : alen G' = alen G -> alen G = ne -> orel (scaled_by g1) (GreenGauss S u ug G) (GreenGauss S' u ug G').
Proof.
  intros L N. unfold GreenGauss, sm_nf_all. sm. apply (orel_bind (scaled_by g1)); [apply zero_sc; auto|]. intros H1 H1' Q1.
  apply (orel_bind (scaled_by g1)); [apply acc_sc; auto; [apply g1_add|]|].
  { intros j. unfold gg_boundary. sm. gob. cbv zeta. unfold incs. cbn [map fst snd fm_n fm_len len_times]. rewrite !inv_sc, ut_sc, term_sc. reflexivity. }
  intros H2 H2' Q2. apply (orel_bind (scaled_by g1)); [apply acc_sc; auto; [apply g1_add|]|].
  { intros j. unfold gg_interior. sm. gob. cbv zeta. unfold incs. cbn [map fst snd fm_n fm_len len_times]. rewrite !inv_sc, ut_sc, !term_sc, g1_neg. reflexivity. }
  intros H3 H3' Q3. apply acc_sc; auto; [apply g1_add|].
  intros j. unfold gg_conn. sm. gob. cbv zeta. unfold incs. cbn [map fst snd fm_n fm_len len_times]. rewrite !inv_sc, ut_sc, term_sc. reflexivity.
Qed.
Lemma lhs_o_sc j : wls_lhs_outer S' j = wls_lhs_outer S j. Proof. unfold wls_lhs_outer. sm. destruct (aget F j); cbn [bind]; [|reflexivity]. rewrite far_sc. go. rewrite wmat_sc. reflexivity. Qed.
Lemma lhs_i_sc j : wls_lhs_inner S' j = wls_lhs_inner S j. Proof. unfold wls_lhs_inner. sm. destruct (aget F j); cbn [bind]; [|reflexivity]. rewrite far_sc. go. rewrite wmat_sc. reflexivity. Qed.
Lemma WLSc_sc : WLS_ctor S' = WLS_ctor S.
Proof.
  unfold WLS_ctor, sm_nf_all. sm. rewrite (acc_ext _ _ _ _ _ _ _ lhs_o_sc). go. rewrite (acc_ext _ _ _ _ _ _ _ lhs_i_sc). go. rewrite (acc_ext _ _ _ _ _ _ _ lhs_o_sc). go. reflexivity.
Qed.
Lemma rhs_o_sc u ug j : wls_rhs_outer S' u ug j = option_map (incs g1) (wls_rhs_outer S u ug j).
Proof. unfold wls_rhs_outer. change (far_value S' u ug) with (far_value S u ug). sm. destruct (aget F j); cbn [bind option_map]; [|reflexivity]. rewrite far_sc. gob. rewrite wvec_sc. reflexivity. Qed.
Lemma rhs_i_sc u ug j : wls_rhs_inner S' u ug j = option_map (incs g1) (wls_rhs_inner S u ug j).
Proof. unfold wls_rhs_inner. change (far_value S' u ug) with (far_value S u ug). sm. destruct (aget F j); cbn [bind option_map]; [|reflexivity]. rewrite far_sc. gob. rewrite wvec_sc. reflexivity. Qed.
Lemma WLS_sc V u ug G G' : alen G' = alen G -> alen G = ne -> orel (scaled_by g1) (WLS_gradients S V u ug G) (WLS_gradients S' V u ug G').
Proof.
  intros L N. unfold WLS_gradients, sm_nf_all. sm.
  apply (orel_bind (scaled_by g1)); [apply acc_sc; [apply g1_add|apply rhs_o_sc|split; auto; intros; cbn; rewrite g1_zero; reflexivity]|]. intros H1 H1' Q1.
  apply (orel_bind (scaled_by g1)); [apply acc_sc; [apply g1_add|apply rhs_i_sc|auto]|]. intros H2 H2' Q2.
  apply (orel_bind (scaled_by g1)); [apply acc_sc; [apply g1_add|apply rhs_o_sc|auto]|]. intros H3 H3' Q3.
  pose proof (fill_sc g1 ne (fun i => v <- aget V i ;; f <- aget H3 i ;; Some (m2grad v f)) (fun i => v <- aget V i ;; f <- aget H3' i ;; Some (m2grad v f)) G G' L) as H.
  assert (E : forall (H : arr grad), (fun i (B : arr grad) => x <- (v <- aget V i ;; f <- aget H i ;; Some (m2grad v f)) ;; aset B i x) = (fun i B => v <- aget V i ;; f <- aget H i ;; aset B i (m2grad v f))).
  { intros. apply functional_extensionality; intros i. apply functional_extensionality; intros B. destruct (aget V i); cbn [bind]; [|reflexivity]. destruct (aget _ i); reflexivity. }
  cbv beta in H. rewrite !E in H. specialize (H ltac:(intros i Hi; rewrite (aget_sc _ _ _ _ Q3); destruct (aget V i); cbn [bind option_map]; [|reflexivity]; destruct (aget H3 i); cbn [bind option_map]; [rewrite m2g_sc|]; reflexivity)).
  destruct (floop ne _ G), (floop ne _ G'); cbn in *; auto. destruct H as (L1 & L2 & VV). split; [congruence|]. rewrite L1, N. exact VV.
Qed.
Lemma grads_sc gs u ug G G' : alen G' = alen G -> alen G = ne -> orel (scaled_by g1) (compute_gradients S gs u ug G) (compute_gradients S' gs u ug G').
Proof. destruct gs; cbn [compute_gradients]; [apply zero_sc|apply GG_sc|apply WLS_sc]. Qed.

Section Faces.
Variables (G G' : arr grad).
Hypothesis HG : scaled_by g1 G G'.
Ltac go2 := repeat (rewrite ?(aget_sc _ _ _ _ HG); go).
Lemma store_sc i val val' s : (forall a b, val' (sk a) (sk b) = val a b) -> store_faces S' i val' s = store_faces S i val s.
Proof. intros H. unfold store_faces. sm. go. apply floop_ext. intros f [fl fr] _. go. rewrite H. reflexivity. Qed.
Lemma minf_sc u i phi : min_factor S' u G' i phi = min_factor S u G i phi.
Proof. unfold min_factor. sm. go. apply floop_ext. intros f l _. go2. rewrite lin_sc. go. reflexivity. Qed.
Lemma faces_sc rs rs' u ug s : same_rec rs rs' -> compute_face_values S' rs' u ug G' s = compute_face_values S rs u ug G s.
Proof.
  intros R. destruct rs, rs'; cbn in R; try contradiction; cbn [compute_face_values].
  - unfold LinearUnlimited, sm_nf_all. sm.
    assert (E : forall j s, lin_outer S' u G' j s = lin_outer S u G j s). { intros j [fl fr]. unfold lin_outer. sm. go2. rewrite lin_sc. reflexivity. }
    rewrite (frange_ext _ _ _ _ _ _ E). go. rewrite (frange_ext _ (lin_inner S' u G') (lin_inner S u G)). 2:{ intros j [fl fr]. unfold lin_inner. sm. go2. rewrite !lin_sc. reflexivity. }
    go. apply frange_ext, E.
  - unfold BarthJespersen. sm. apply floop_ext. intros i t _. unfold bj_cell. change (du_range S' u i) with (du_range S u i). go. destruct p. rewrite minf_sc. go2. apply store_sc. intros. apply lin_sc.
  - destruct R as (LC & VC). unfold Venkatakrishnan. sm. apply floop_ext. intros i t _. unfold venkat_cell. change (du_range S' u i) with (du_range S u i).
    destruct (Nat.lt_ge_cases i (alen cl)) as [Hi|Hi].
    2:{ assert (Z : forall a : arr R, (alen a <= i)%nat -> aget a i = None) by (intros a Ha; unfold aget; destruct (Nat.ltb_spec i (alen a)); [lia|reflexivity]). rewrite (Z cl0), (Z cl) by lia. reflexivity. }
    rewrite (aget_ok _ cl0), (aget_ok _ cl) by lia. cbn [bind]. cbv zeta. rewrite VC by auto.
    destruct (du_range S u i) as [[d1 d2]|]; cbn [bind]; [|reflexivity]. rewrite minf_sc. go2. apply store_sc. intros. apply lin_sc.
  - unfold MUSCLVanAlbada, sm_nf_all. sm. rewrite (frange_ext _ (mu_outer S' u ug G') (mu_outer S u ug G)). 2:{ intros j [fl fr]. unfold mu_outer. sm. go2. rewrite mul_sc. reflexivity. }
    go. apply frange_ext. intros j [fl fr]. unfold mu_inner. sm. go2. rewrite mul_sc, mur_sc. reflexivity.
Qed.
End Faces.

(** ** Fluxes and time steps of inviscid flow *)
Section Inviscid.
Variable fl : flow.
Hypothesis inv : fl_visc fl = false.
Lemma ghosts_sc ul ur : compute_boundary_states S' fl ul ur = compute_boundary_states S fl ul ur.
Proof.
  unfold compute_boundary_states. sm. apply floop_ext. intros j s _. destruct (aget ul j); cbn [bind]; [|reflexivity].
  assert (E : forall x, compute_boundary_state S' fl j x = compute_boundary_state S fl j x). { intros x. unfold compute_boundary_state. change (face_bc S' fl j) with (face_bc S fl j). sm. go. reflexivity. }
  rewrite E. reflexivity.
Qed.
Lemma fluxes_sc so u G G' ul ur ug res res' : scaled_by (sscal k) res res' -> orel (scaled_by (sscal k)) (compute_fluxes S fl so u G ul ur ug res) (compute_fluxes S' fl so u G' ul ur ug res').
Proof.
  intros H. unfold compute_fluxes. change (sm_nf_all S') with (sm_nf_all S). apply acc_sc; auto.
  { intros. apply st_ext. intros i. rewrite cget_scal, !cget_add, !cget_scal. ring. }
  intros j. unfold flux_incs, face_flux. sm. rewrite inv. rw. destruct (aget M j); cbn [bind option_map]; [|reflexivity]. destruct (aget F j) as [fc|]; cbn [bind option_map]; [|reflexivity].
  destruct (aget ul j); cbn [bind option_map]; [|reflexivity]. destruct (aget ur j); cbn [bind option_map]; [|reflexivity]. cbn [len_times fm_n fm_len].
  set (q := get_flux _ _ _ _ _). replace (sscal (k * fm_len f) q) with (sscal k (sscal (fm_len f) q)) by (apply st_ext; intros i; rewrite !cget_scal; ring). set (w := sscal (fm_len f) q).
  replace (sneg (sscal k w)) with (sscal k (sneg w)) by (apply st_ext; intros i; rewrite cget_neg, !cget_scal, cget_neg; ring).
  destruct (f_right fc <? ne)%nat; reflexivity.
Qed.
Lemma spec_sc a a' u n len : specrad fl a' u n (k * len) = k * specrad fl a u n len.
Proof. unfold specrad. rewrite inv. destruct a, a'; ring. Qed.
Lemma rdiv_sc a w : rdiv (k * k * a) (k * w) = option_map (Rmult k) (rdiv a w).
Proof.
  unfold rdiv. pose proof kn. destruct (Req_EM_T (k * w) 0) as [E|E], (Req_EM_T w 0) as [E'|E']; cbn [option_map]; auto.
  - apply Rmult_integral in E. tauto.
  - exfalso. apply E. rewrite E'. ring.
  - f_equal. field. auto.
Qed.
Definition dt_times (d d' : arr R) : Prop := alen d' = alen d /\ forall i, (i < ne)%nat -> aat d' i = k * aat d i.
Lemma step_sc ul ur dt dt' : alen dt' = alen dt -> orel (fun d d' => alen d = alen dt /\ dt_times d d') (compute_max_timestep S fl ul ur dt) (compute_max_timestep S' fl ul ur dt').
Proof.
  intros L. unfold compute_max_timestep. change (sm_nf_all S') with (sm_nf_all S). sm.
  apply (orel_bind (scaled_by (Rmult k))).
  - apply acc_sc; [intros; ring| |split; auto; intros; cbn; ring].
    intros j. unfold specrad_incs. sm. rw. destruct (aget M j); cbn [bind option_map]; [|reflexivity]. destruct (aget F j) as [fc|]; cbn [bind option_map]; [|reflexivity].
    destruct (aget ul j); cbn [bind option_map]; [|reflexivity]. destruct (aget ur j); cbn [bind option_map]; [|reflexivity]. rw. destruct (aget A (f_left fc)) as [al|]; cbn [bind option_map]; [|reflexivity].
    cbn [len_times fm_n fm_len]. rewrite (spec_sc (Some al) (Some (k * k * al))). destruct (f_right fc <? ne)%nat; [|reflexivity].
    rw. destruct (aget A (f_right fc)) as [ar|]; cbn [bind option_map]; [|reflexivity]. rewrite (spec_sc (Some ar) (Some (k * k * ar))). reflexivity.
  - intros I1 I1' Q.
    pose proof (fill_sc (Rmult k) ne (fun i => a <- aget A i ;; w <- aget I1 i ;; rdiv a w) (fun i => a <- aget A' i ;; w <- aget I1' i ;; rdiv a w) dt dt' L) as H.
    assert (E : forall B I1, (fun i (d : arr R) => x <- (a <- aget B i ;; w <- aget I1 i ;; rdiv a w) ;; aset d i x) = (fun i d => a <- aget B i ;; w <- aget I1 i ;; q <- rdiv a w ;; aset d i q)).
    { intros. apply functional_extensionality; intros i. apply functional_extensionality; intros d. destruct (aget B i); cbn [bind]; [|reflexivity]. destruct (aget _ i); reflexivity. }
    cbv beta in H. rewrite !E in H. specialize (H ltac:(intros i Hi; rw; rewrite (aget_sc _ _ _ _ Q); destruct (aget A i); cbn [bind option_map]; [|reflexivity]; destruct (aget I1 i); cbn [bind option_map]; [apply rdiv_sc|reflexivity])).
    destruct (floop ne _ dt), (floop ne _ dt'); cbn in *; auto. destruct H as (L1 & L2 & V). split; [auto|]. split; [congruence|exact V].
Qed.
(** outcomes: same face states, residual and time steps times k *)
Definition out_times (o o' : resout) : Prop :=
  scaled_by (sscal k) (ro_res o) (ro_res o') /\ ro_left o' = ro_left o /\ ro_right o' = ro_right o /\
  match ro_dt o, ro_dt o' with Some d, Some d' => dt_times d d' | None, None => True | _, _ => False end.
Lemma maybe_sc ul ur dt dt' : alen dt' = alen dt -> orel (fun d d' => match d, d' with Some d, Some d' => dt_times d d' | None, None => True | _, _ => False end) (maybe_dt S fl ul ur (Some dt)) (maybe_dt S' fl ul ur (Some dt')).
Proof. intros L. unfold maybe_dt. eapply orel_bind; [apply step_sc, L|]. intros d d' (_ & Q). exact Q. Qed.
Lemma res1_sc u ul ur res res' G G' dt dt' : scaled_by (sscal k) res res' -> alen dt' = alen dt ->
  orel out_times (compute_residual1 S fl u ul ur res G (Some dt)) (compute_residual1 S' fl u ul ur res' G' (Some dt')).
Proof.
  intros H L. unfold compute_residual1. change (boundary_left S' u ul) with (boundary_left S u ul). destruct (boundary_left S u ul) as [ul1|]; cbn [bind]; [|exact Logic.I].
  change (first_order_faces S' u (ul1, ur)) with (first_order_faces S u (ul1, ur)). destruct (first_order_faces S u (ul1, ur)) as [[l r]|]; cbn [bind]; [|exact Logic.I].
  rewrite ghosts_sc. destruct (compute_boundary_states S fl l r) as [r2|]; cbn [bind]; [|exact Logic.I]. change (sm_nb S') with (sm_nb S).
  eapply orel_bind; [apply fluxes_sc, H|]. intros o o' Q. eapply orel_bind; [apply maybe_sc, L|]. intros d d' Q'. cbn. split; auto.
Qed.
Lemma res2_sc gs rs rs' rf u ul ur res res' G G' jp dt dt' gg gg' : same_rec rs rs' -> scaled_by (sscal k) res res' -> alen dt' = alen dt -> alen G = ne -> alen G' = ne ->
  orel out_times (compute_residual2 S fl gs rs gg rf u ul ur res G jp (Some dt)) (compute_residual2 S' fl gs rs' gg' rf u ul ur res' G' jp (Some dt')).
Proof.
  intros R H L LG LG'. unfold compute_residual2. cbv zeta. change (sm_nb S') with (sm_nb S).
  assert (W : is_weno rs = false /\ is_weno rs' = false) by (destruct rs, rs'; cbn in R |- *; try contradiction; auto). destruct W as (-> & ->).
  change (boundary_left S' u ul) with (boundary_left S u ul). destruct (boundary_left S u ul) as [ul1|]; cbn [bind]; [|exact Logic.I].
  rewrite ghosts_sc. destruct (compute_boundary_states S fl ul1 ur) as [ur1|]; cbn [bind]; [|exact Logic.I].
  do 2 (match goal with |- orel _ (bind ?x _) (bind ?y _) => change y with x; destruct x; cbn [bind]; [|exact Logic.I] end).
  eapply orel_bind; [apply grads_sc; congruence|]. intros G1 G1' Q. cbn [bind]. rewrite (faces_sc G1 G1' Q rs rs') by auto.
  match goal with |- orel _ (bind ?x _) (bind ?x _) => destruct x as [[l r]|]; cbn [bind]; [|exact Logic.I] end.
  do 4 (match goal with |- orel _ (bind ?x _) (bind ?y _) => change y with x; destruct x; cbn [bind]; [|exact Logic.I] end).
  rewrite ghosts_sc. match goal with |- orel _ (bind ?x _) (bind ?x _) => destruct x; cbn [bind]; [|exact Logic.I] end.
  change (recv_faces S' rf) with (recv_faces S rf).
  eapply orel_bind; [apply fluxes_sc, H|]. intros o o' Q1. eapply orel_bind; [apply maybe_sc, L|]. intros d d' Q'. cbn. split; auto.
Qed.
End Inviscid.
End Both.
End Resized.

Ltac rsz H := match type of H with resized _ ?S ?S' =>
  destruct H as [T1 T2 T3 T4 T5 T8 T9 T10 T11 TM TA TX TC TB TG]; destruct S as [n1 n2 n3 n4 F1 M1 A1 X1 c1 b1 g1 E1 Z1 f1 t1]; destruct S' as [n1' n2' n3' n4' F1' M1' A1' X1' c1' b1' g1' E1' Z1' f1' t1'];
  cbn [sm_ne sm_nb sm_ni sm_nc sm_F sm_M sm_A sm_X sm_rc sm_rcbp sm_gr sm_EF sm_ES sm_nf sm_bt] in *; subst n1' n2' n3' n4' F1' E1' Z1' f1' t1' end.

(** ** Theorems *)
(** *** The mesh. The memory of the topology tables is the same in both cases; that of all other arrays is arbitrary. *)
Theorem C113_mesh : forall k m hs X X' gh gh' j0 jf je jt jm ja jc jb jm' ja' jc' jb' S, 0 < k ->
  tiled m hs -> (forall c, In c (cells m) -> (List.length c = 3 \/ List.length c = 4)%nat) -> alen X = npoin m ->
  scaled_by (vscal k) X X' -> (forall j, (j < nconnface m)%nat -> gh' j = vscal k (gh j)) ->
  setup m X gh j0 jf je jt jm ja jc jb = Some (Val S) ->
  exists S', setup m X' gh' j0 jf je jt jm' ja' jc' jb' = Some (Val S') /\ resized k S S' /\ sm_X S = X /\ sm_X S' = X'.
Proof.
  intros k m hs X X' gh gh' j0 jf je jt jm ja jc jb jm' ja' jc' jb' S kp T H34 LX HX Hgh E. pose proof HX as (LX' & VX).
  destruct (setup_ok m hs X' gh' j0 jf je jt jm' ja' jc' jb' T H34 ltac:(congruence)) as (_ & _ & _ & _ & _ & S' & _ & _ & E' & _). exists S'. split; [exact E'|].
  assert (B : built m hs X gh S). { split; auto. split; auto. split; auto. exists j0, jf, je, jt, jm, ja, jc, jb. exact E. }
  assert (B' : built m hs X' gh' S'). { split; auto. split; auto. split; [congruence|]. exists j0, jf, je, jt, jm', ja', jc', jb'. exact E'. }
  destruct (built_ok _ _ _ _ _ B) as (p & e & ni & s & il & TO & OK & N1 & N2 & N3 & N4 & NF & NX & NA & NC & NG & _).
  destruct (built_ok _ _ _ _ _ B') as (p' & e' & ni' & s' & il' & TO' & OK' & N1' & N2' & N3' & N4' & NF' & NX' & NA' & NC' & NG' & _).
  clear TO TO' p e p' e' il il' NF NF' N3 N3' ni ni' s s' B B'.
  unfold setup in E, E'. destruct (compute_topological m j0 jf je jt) as [[[[tp te] [tn ts]]|]|]; try discriminate.
  destruct (compute_face_data X (intfac ts) jm) as [Mt|]; cbn [bind] in E; [|discriminate]. destruct (compute_areas m X ja) as [At|]; cbn [bind] in E; [|discriminate].
  destruct (compute_face_data X' (intfac ts) jm') as [Mt'|]; cbn [bind] in E'; [|discriminate]. destruct (compute_areas m X' ja') as [At'|]; cbn [bind] in E'; [|discriminate].
  destruct (spatial_ctor m X tn ts Mt At gh jc jb) as [S0|] eqn:Q; cbn [bind] in E; [|discriminate]. injection E as ->.
  destruct (spatial_ctor m X' tn ts Mt' At' gh' jc' jb') as [S0|] eqn:Q'; cbn [bind] in E'; [|discriminate]. injection E' as ->.
  unfold spatial_ctor in Q, Q'.
  destruct (compute_cell_centres m X jc) as [C|]; cbn [bind] in Q; [|discriminate]. cbv zeta in Q. destruct (face_centres X (intfac ts)) as [gr|]; cbn [bind] in Q; [|discriminate]. destruct (ghost_about_midpoint X _ _ _ jb) as [rb|]; cbn [bind] in Q; [|discriminate].
  destruct (compute_cell_centres m X' jc') as [C'|]; cbn [bind] in Q'; [|discriminate]. cbv zeta in Q'. destruct (face_centres X' (intfac ts)) as [gr'|]; cbn [bind] in Q'; [|discriminate]. destruct (ghost_about_midpoint X' _ _ _ jb') as [rb'|]; cbn [bind] in Q'; [|discriminate].
  apply (f_equal (fun o => match o with Some x => x | None => S end)) in Q. apply (f_equal (fun o => match o with Some x => x | None => S' end)) in Q'.
  assert (EQ : sm_ne S' = sm_ne S /\ sm_nb S' = sm_nb S /\ sm_ni S' = sm_ni S /\ sm_nc S' = sm_nc S /\ sm_F S' = sm_F S /\ sm_EF S' = sm_EF S /\ sm_ES S' = sm_ES S /\ sm_nf S' = sm_nf S /\ sm_bt S' = sm_bt S).
  { rewrite <- Q, <- Q'. cbn. auto 12. }
  clear Q Q'. destruct EQ as (K1 & K2 & K3 & K4 & K5 & K8 & K9 & K10 & K11).
  assert (KA : sm_nf_all S' = sm_nf_all S) by (unfold sm_nf_all; congruence).
  assert (PT : forall c, In c (cells m) -> forall v, In v c -> (v < alen X)%nat). { intros c Hc v Hv. rewrite LX. exact (proj2 (proj2 (gm_valid _ _ (tl_good _ _ T) c Hc)) v Hv). }
  assert (HR : scaled_by (vscal k) (sm_rc S) (sm_rc S')).
  { split; [rewrite (so_rc _ OK), (so_rc _ OK'); congruence|]. rewrite (so_rc _ OK). intros i Hi. destruct (Nat.lt_ge_cases i (nelem m)) as [L|L].
    - rewrite NC, NC' by auto. cbv zeta. set (c := cell (cells m) i).
      assert (Hc : In c (cells m)) by (apply nth_In; unfold nelem in L; exact L).
      assert (Hl : INR (List.length c) <> 0) by (apply not_0_INR; destruct (H34 c Hc); lia).
      assert (SX : forall l, (forall v, In v l -> (v < alen X)%nat) -> rsum (fun x => vx (aat X' x)) l = k * rsum (fun x => vx (aat X x)) l /\ rsum (fun x => vy (aat X' x)) l = k * rsum (fun x => vy (aat X x)) l).
      { induction l as [|v l IH]; intros Hv; cbn [rsum]; [lra|]. destruct IH as (I1 & I2). { intros; apply Hv; right; auto. } rewrite I1, I2, VX by (apply Hv; left; auto). cbn. split; ring. }
      destruct (SX c (PT c Hc)) as (S1 & S2). apply v2_eq; cbn [vx vy vscal vsum]; [rewrite S1|rewrite S2]; field; exact Hl.
    - replace i with (nelem m + (i - nelem m))%nat by lia. rewrite NG, NG', Hgh by lia. reflexivity. }
  assert (HG : scaled_by (vscal k) (sm_gr S) (sm_gr S')).
  { split; [rewrite (so_gr _ OK), (so_gr _ OK'); exact KA|]. rewrite (so_gr _ OK). intros j Hj. rewrite (so_mid _ OK), (so_mid _ OK') by congruence. rewrite K5, NX, NX'. pose proof (so_pts _ OK j Hj) as P. rewrite NX in P. rewrite !VX by tauto. apply mid_sc. }
  split; [|auto]. split; auto.
  - split; [rewrite (so_M _ OK), (so_M _ OK'); exact KA|]. rewrite (so_M _ OK). intros j Hj. rewrite (so_met _ OK), (so_met _ OK') by congruence. rewrite K5, NX, NX'. pose proof (so_pts _ OK j Hj) as P. rewrite NX in P. rewrite !VX by tauto. apply metric_sc, kp.
  - split; [rewrite (so_A _ OK), (so_A _ OK'); exact K1|]. rewrite (so_A _ OK), N1. intros i Hi. rewrite NA, NA' by auto. set (c := cell (cells m) i).
    assert (Hc : In c (cells m)) by (apply nth_In; unfold nelem in Hi; exact Hi).
    replace (map (aat X') c) with (map (vscal k) (map (aat X) c)). 2:{ rewrite map_map. apply map_ext_in. intros v Hv. rewrite VX by (apply (PT c Hc), Hv). reflexivity. }
    unfold polygon_area. assert (CH : forall l a, chain (map (vscal k) l) (vscal k a) = map (fun q => (vscal k (fst q), vscal k (snd q))) (chain l a)).
    { induction l as [|x l IH]; intros a; cbn; auto. destruct l as [|y l]; cbn; auto. cbn in IH. rewrite IH. reflexivity. }
    assert (SD : sides (map (vscal k) (map (aat X) c)) = map (fun q => (vscal k (fst q), vscal k (snd q))) (sides (map (aat X) c))).
    { unfold sides. destruct (map (aat X) c) as [|a l]; [reflexivity|]. cbn [map]. apply (CH (a :: l) a). }
    rewrite SD, rsum_map. replace (k * k * (/ 2 * rsum (fun q => cross (fst q) (snd q)) (sides (map (aat X) c)))) with (/ 2 * (k * k * rsum (fun q => cross (fst q) (snd q)) (sides (map (aat X) c)))) by ring. f_equal.
    clear SD CH. induction (sides (map (aat X) c)) as [|x l IH]; cbn [rsum]; [ring|]. rewrite IH. unfold cross. cbn. ring.
  - rewrite NX, NX'. exact HX.
  - split; [rewrite (so_rcbp _ OK), (so_rcbp _ OK'); exact K2|]. rewrite (so_rcbp _ OK). intros j Hj. rewrite (so_bp _ OK), (so_bp _ OK') by congruence. rewrite K5.
    assert (Hj' : (j < sm_nf_all S)%nat) by (unfold sm_nf_all; lia). destruct HG as (_ & VG). destruct HR as (_ & VR). rewrite VG by (rewrite (so_gr _ OK); exact Hj'). rewrite VR by (rewrite (so_rc _ OK); pose proof (so_left _ OK j Hj'); lia).
    apply v2_eq; cbn; lra.
Qed.

(** *** What is made from the control file: the same gradient schemes; the same reconstruction, with Venkatakrishnan's constant divided by k *)
Theorem C113_discretization : forall k m X X' S S', 0 < k -> resized k S S' -> scaled_by (vscal k) X X' ->
  (forall g, grad_of S' g = grad_of S g) /\
  (forall r, r = M_Ctl.RLinear \/ r = RVanAlbada \/ r = RBarthJespersen -> rec_of m X' r = rec_of m X r /\ exists x, rec_of m X r = Some x /\ same_rec x x) /\
  (forall K, orel same_rec (rec_of m X (RVenkatakrishnan K)) (rec_of m X' (RVenkatakrishnan (K / k)))).
Proof.
  intros k m X X' S S' kp H HX. split; [|split].
  - intros []; cbn [grad_of]; try reflexivity. rsz H. rewrite (WLSc_sc k kp) with (M := M1) (A := A1) (X := X1) (rc := c1) (rb := b1) (gr := g1) by auto. reflexivity.
  - intros r [->|[->| ->]]; cbn; split; auto; eexists; split; reflexivity || exact Logic.I.
  - intros K. cbn [rec_of].
    assert (V : orel (scaled_by (Rmult k)) (venkat_ctor m X) (venkat_ctor m X')).
    { unfold venkat_ctor. cbv zeta.
      apply floop_orel; [split; auto; intros; cbn; ring|]. intros i s s' _ (L & V).
      match goal with |- orel _ (bind ?x _) (bind ?y _) => assert (Q : orel (fun a b => 0 <= a /\ b = k * k * a) x y) end.
      { apply floop_orel; [lra|]. intros f l l' _ (P & ->). rewrite !(aget_sc (vscal k) X X') by auto. destruct (aget X (nth f _ 0%nat)) as [a|]; cbn [option_map bind]; [|exact Logic.I]. destruct (aget X (nth (_ mod _) _ 0%nat)) as [b|]; cbn [option_map bind orel]; [|exact Logic.I].
        cbn [vx vy vscal]. replace (0 + (k * vx a - k * vx b) ^ 2 + (k * vy a - k * vy b) ^ 2) with (k * k * (0 + (vx a - vx b) ^ 2 + (vy a - vy b) ^ 2)) by ring. set (q := 0 + (vx a - vx b) ^ 2 + (vy a - vy b) ^ 2).
        assert (0 <= q) by (unfold q; pose proof (pow2_ge_0 (vx a - vx b)); pose proof (pow2_ge_0 (vy a - vy b)); lra).
        unfold Rltb. assert (0 < k * k) by nra. destruct (Rlt_dec l q), (Rlt_dec (k * k * l) (k * k * q)); split; auto; exfalso; nra. }
      match type of Q with orel _ ?x ?y => destruct x as [l|], y as [l'|]; cbn in Q |- *; try contradiction; auto end. destruct Q as (P & ->).
      unfold aset. rewrite L. destruct (i <? alen s)%nat; cbn [orel]; [|exact Logic.I]. split; cbn [alen aat]; auto. intros j Hj. unfold upd. destruct (Nat.eqb_spec j i); [|apply V; auto].
      rewrite sqrt_mult_alt by nra. rewrite sqrt_square by lra. reflexivity. }
    eapply orel_bind; [exact V|]. intros c c' (L & W). cbn. split; auto. intros i Hi. rewrite W by auto. field. lra.
Qed.

(** *** Gradients, face values, residual and time steps *)
Definition exc_rel {T T'} (Q : T -> T' -> Prop) (x : exc T) (y : exc T') : Prop := match x, y with Val a, Val b => Q a b | Exn, Exn => True | _, _ => False end.
(** residual and time steps multiplied by [k] *)
Definition rout_times (k : R) (n : nat) (r r' : rout) : Prop := scaled_by (sscal k) (rt_r r) (rt_r r') /\ dt_times k n (rt_dt r) (rt_dt r') /\ rt_fin r' = rt_fin r.
(** the same inviscid discretization *)
Definition same_spatial (sp sp' : spatial) : Prop :=
  sp_gas sp' = sp_gas sp /\ sp_flux sp' = sp_flux sp /\ sp_jac sp' = sp_jac sp /\ sp_visc sp = false /\ sp_visc sp' = false /\ sp_cvisc sp' = sp_cvisc sp /\ sp_bcs sp' = sp_bcs sp /\
  sp_order2 sp' = sp_order2 sp /\ sp_grad sp' = sp_grad sp /\ (sp_order2 sp = true -> match sp_rec sp, sp_rec sp' with Some r, Some r' => same_rec r r' | None, None => True | _, _ => False end).
(** work arrays: gradients of the cells of this process, time steps of the same number; contents of these are arbitrary *)
Definition same_work (ne : nat) (w w' : work) : Prop :=
  wk_l w' = wk_l w /\ wk_r w' = wk_r w /\ wk_p w' = wk_p w /\ alen (wk_g w) = ne /\ alen (wk_g w') = ne /\ alen (wk_dt w') = alen (wk_dt w).
Theorem C113_residual : forall k S S', 0 < k -> resized k S S' ->
  (forall gs u ug G G', alen G = sm_ne S -> alen G' = sm_ne S -> orel (scaled_by (gtimes (/ k))) (compute_gradients S gs u ug G) (compute_gradients S' gs u ug G')) /\
  (forall rs rs' u ug G G' s, same_rec rs rs' -> scaled_by (gtimes (/ k)) G G' -> compute_face_values S' rs' u ug G' s = compute_face_values S rs u ug G s) /\
  (forall sp sp' w w' u, same_spatial sp sp' -> same_work (sm_ne S) w w' -> orel (exc_rel (rout_times k (sm_ne S))) (spatial_eval S sp w u) (spatial_eval S' sp' w' u)).
Proof.
  intros k S S' kp H. split; [|split].
  - intros gs u ug G G' L L'. rsz H. apply (grads_sc k kp); congruence.
  - intros rs rs' u ug G G' s HR HG. rsz H. apply (faces_sc k kp); auto.
  - intros sp sp' w w' u (P1 & P2 & P3 & P4 & P4' & P5 & P6 & P7 & P8 & P9) (W1 & W2 & W3 & W4 & W5 & W6). unfold spatial_eval. rewrite P2. destruct (sp_flux sp) as [f|]; cbn [bind]; [|exact Logic.I]. cbv zeta.
    assert (EF : sp_flow sp' f = sp_flow sp f) by (unfold sp_flow; rewrite P1, P3, P4, P4', P5, P6; reflexivity). rewrite EF, P7, P8, W1, W2, W3, (rz_ne _ _ _ H). clear EF.
    assert (V : fl_visc (sp_flow sp f) = false) by exact P4.
    assert (Z : scaled_by (sscal k) (mkarr (sm_ne S) (fun _ => szero)) (mkarr (sm_ne S) (fun _ => szero))). { split; auto. intros; cbn. apply st_ext. intros v. rewrite cget_scal, cget_zero. ring. }
    eapply orel_bind with (P := out_times k (sm_ne S)).
    + destruct (sp_order2 sp) eqn:O2.
      * specialize (P9 eq_refl). destruct (sp_rec sp) as [r|], (sp_rec sp') as [r'|]; cbn [bind]; try contradiction; [|exact Logic.I]. rsz H. apply (res2_sc k kp); auto.
      * rsz H. apply (res1_sc k kp); auto.
    + intros out out' (Q1 & _ & _ & Q4). destruct (ro_dt out) as [d|], (ro_dt out') as [d'|]; cbn in *; try contradiction; auto. split; [exact Q1|]. split; [exact Q4|reflexivity].
Qed.

(** ** Runs *)
(** history lines: the same step, both norms multiplied by k^2 *)
Definition line_times (k : R) (l l' : logline) : Prop := lg_step l' = lg_step l /\ lg_resi l' = k * k * lg_resi l /\ lg_init l' = k * k * lg_init l.
(** variables of the solve loop: the same state and step; before the first step both norms are 1 *)
Definition mon_times (k : R) (s s' : mon) : Prop :=
  m_u s' = m_u s /\ m_step s' = m_step s /\ m_lin s' = m_lin s /\ Forall2 (line_times k) (m_log s) (m_log s') /\
  (m_step s = 0%nat /\ m_resi s = 1 /\ m_resi s' = 1 /\ m_init s = 1 /\ m_init s' = 1 \/ m_step s <> 0%nat /\ m_resi s' = k * k * m_resi s /\ m_init s' = k * k * m_init s).
Definition stp_times (k : R) (s s' : stp) : Prop := match s, s' with SNext x, SNext x' => mon_times k x x' | SErr e, SErr e' => e' = e | _, _ => False end.
Definition sres_times (k : R) (s s' : sres) : Prop := match s, s' with SReturn x b, SReturn x' b' => mon_times k x x' /\ b' = b | SThrow e, SThrow e' => e' = e | _, _ => False end.

Lemma floop_all {T} n (f : nat -> T -> option T) : forall s s', floop n f s = Some s' -> forall i, (i < n)%nat -> exists t, f i t <> None.
Proof.
  induction n as [|n IH]; intros s s' E i Hi; [lia|]. cbn in E. destruct (floop n f s) as [t|] eqn:Q; [|discriminate]. destruct (Nat.eq_dec i n) as [->|]; [exists t; cbn in E; congruence|apply (IH s t Q); lia].
Qed.
Section Run.
Variable k : R.
Hypothesis kp : 0 < k.
Variables (n : nat) (A A' : arr R) (c : sconf) (Rf Rf' : arr st -> option (exc rout)).
Hypothesis HA : scaled_by (Rmult (k * k)) A A'.
Hypothesis EV : forall u, orel (exc_rel (rout_times k n)) (Rf u) (Rf' u).
Lemma rel_gt_sc r i t : rel_gt (k * k * r) (k * k * i) t = rel_gt r i t.
Proof.
  unfold rel_gt. assert (K : k * k <> 0) by nra. assert (Z : forall x, k * k * x = 0 <-> x = 0). { intros x. split; [intros H; apply Rmult_integral in H; tauto|intros ->; ring]. }
  destruct (Req_EM_T (k * k * i) 0) as [E|E], (Req_EM_T i 0) as [E'|E']; try (exfalso; exact (E' (proj1 (Z _) E))); try (exfalso; exact (E (proj2 (Z _) E'))).
  - destruct (Req_EM_T (k * k * r) 0) as [F|F], (Req_EM_T r 0) as [F'|F']; auto; [exfalso; exact (F' (proj1 (Z _) F))|exfalso; exact (F (proj2 (Z _) F'))].
  - replace (k * k * r / (k * k * i)) with (r / i) by (field; split; auto; nra). reflexivity.
Qed.
Lemma cont_sc s s' : mon_times k s s' -> steady_cont c s' = steady_cont c s.
Proof.
  intros (_ & E & _ & _ & [(_ & F1 & F2 & F3 & F4)|(_ & F1 & F2)]); unfold steady_cont; rewrite E; [rewrite F1, F2, F3, F4; reflexivity|]. rewrite F1, F2, rel_gt_sc. reflexivity.
Qed.
Lemma fe_sc u ro ro' : rout_times k n ro ro' -> fe_update n A' c u ro' = fe_update n A c u ro.
Proof.
  intros (HR & (LD & VD) & _). unfold fe_update. apply floop_ext. intros i s Hi. destruct (aget s i) as [x|]; cbn [bind]; [|reflexivity].
  unfold aget at 1 4. rewrite LD. destruct (i <? alen (rt_dt ro))%nat; cbn [bind]; [|reflexivity]. rewrite VD by auto.
  rewrite (aget_sc _ _ _ _ HA). destruct (aget A i) as [a|]; cbn [bind option_map]; [|reflexivity]. rewrite (aget_sc _ _ _ _ HR). destruct (aget (rt_r ro) i) as [r|]; cbn [bind option_map]; [|reflexivity].
  f_equal. f_equal. apply st_ext. intros v. rewrite !cget_scal. unfold Rdiv. rewrite !Rinv_mult.
  replace (cflinit c * (k * aat (rt_dt ro) i) * 1 * (/ k * / k * / a) * (k * cget r v)) with (k * / k * (k * / k) * (cflinit c * aat (rt_dt ro) i * 1 * / a * cget r v)) by ring. rewrite Rinv_r by lra. ring.
Qed.
Lemma norm_sc u ro ro' v : rout_times k n ro ro' -> fe_update n A c u ro = Some v -> res_norm n A' (rt_r ro') = k * k * res_norm n A (rt_r ro).
Proof.
  intros ((LR & VR) & _) E. destruct HA as (LA & VA). unfold res_norm.
  rewrite (rsum_ext _ (fun i => k * k * (k * k) * (s3 (aat (rt_r ro) i) * s3 (aat (rt_r ro) i) * aat A i))).
  2:{ intros i Hi. apply in_seq in Hi. destruct (floop_all n _ _ _ E i ltac:(lia)) as (t & Q). destruct (aget t i); cbn [bind] in Q; [|congruence]. destruct (aget (rt_dt ro) i); cbn [bind] in Q; [|congruence].
      unfold aget in Q. destruct (Nat.ltb_spec i (alen A)) as [H1|]; cbn [bind] in Q; [|congruence]. destruct (Nat.ltb_spec i (alen (rt_r ro))) as [H2|]; cbn [bind] in Q; [|congruence].
      rewrite VR, VA by auto. cbn. ring. }
  assert (P : forall f (l : list nat), rsum (fun i => k * k * (k * k) * f i) l = k * k * (k * k) * rsum f l). { intros f l. induction l as [|x l IH]; cbn [rsum]; [ring|]. rewrite IH. ring. }
  rewrite (P (fun i => s3 (aat (rt_r ro) i) * s3 (aat (rt_r ro) i) * aat A i)). rewrite sqrt_mult_alt by nra. rewrite sqrt_square by nra. reflexivity.
Qed.
Lemma body_sc up down s s' : mon_times k s s' -> orel (stp_times k) (steady_body n A c Rf up down (fe_upd n A c) s) (steady_body n A' c Rf' up down (fe_upd n A' c) s').
Proof.
  intros (Q1 & Q2 & Q3 & Q4 & Q5). unfold steady_body. rewrite Q1. pose proof (EV (m_u s)) as H. destruct (Rf (m_u s)) as [[ro|]|], (Rf' (m_u s)) as [[ro'|]|]; cbn in H; try contradiction; [|reflexivity|exact Logic.I].
  cbv zeta. unfold fe_upd. rewrite (fe_sc _ _ _ H). destruct (fe_update n A c (m_u s) ro) as [v|] eqn:E; cbn [bind]; [|exact Logic.I].
  pose proof (norm_sc _ _ _ _ H E) as NE. destruct H as (_ & _ & ->). destruct (rt_fin ro); [|reflexivity]. cbn [orel stp_times]. rewrite Q2, Q3, NE.
  assert (IE : (if (m_step s =? 0)%nat then k * k * res_norm n A (rt_r ro) else m_init s') = k * k * (if (m_step s =? 0)%nat then res_norm n A (rt_r ro) else m_init s)).
  { destruct (Nat.eqb_spec (m_step s) 0); [reflexivity|]. destruct Q5 as [(? & _)|(_ & _ & Q5)]; [contradiction|exact Q5]. }
  rewrite IE. unfold mon_times. cbn [m_u m_step m_lin m_log m_resi m_init]. repeat split; auto.
  - apply Forall2_app; auto. constructor; [|constructor]. repeat split.
  - right. split; [lia|]. auto.
Qed.
Lemma loop_sc up down fuel : forall s s', mon_times k s s' -> orel (stp_times k) (steady_loop c (steady_body n A c Rf up down (fe_upd n A c)) fuel s) (steady_loop c (steady_body n A' c Rf' up down (fe_upd n A' c)) fuel s').
Proof.
  induction fuel as [|f IH]; intros s s' H; cbn [steady_loop]; [exact H|]. rewrite (cont_sc _ _ H). destruct (steady_cont c s); [|exact H].
  pose proof (body_sc up down s s' H) as Q. destruct (steady_body _ _ _ Rf _ _ _ s) as [[y|e]|], (steady_body _ _ _ Rf' _ _ _ s') as [[y'|e']|]; cbn in Q |- *; try contradiction; auto.
Qed.
Lemma start_sc u cfl : mon_times k (mkmon u 0 1 1 1 cfl 0 []) (mkmon u 0 1 1 1 cfl 0 []).
Proof. unfold mon_times. cbn. repeat split; auto. left. auto. Qed.
Lemma fe_solve_sc u b : orel (sres_times k) (fe_solve n A c Rf u b) (fe_solve n A' c Rf' u b).
Proof.
  unfold fe_solve. cbv zeta. destruct (maxiter c <=? 0)%Z; [cbn; split; auto; apply start_sc|].
  pose proof (loop_sc 0.3 0.25 (Z.to_nat (maxiter c)) _ _ (start_sc u (cflinit c))) as H.
  match type of H with orel _ ?x ?y => destruct x as [[y1|e]|], y as [[y1'|e']|]; cbn in H |- *; try contradiction; auto end.
  destruct H as (Q1 & Q2 & Q). rewrite Q2. destruct (Z.of_nat (m_step y1) =? maxiter c)%Z; [reflexivity|]. split; [split; auto|reflexivity].
Qed.
End Run.

(** *** The forward Euler solver: the same steps, the same states, the same outcome; residual norms times k^2 *)
Theorem C113_solve : forall k S S' sp sp' w w' c u b, 0 < k -> resized k S S' -> same_spatial sp sp' -> same_work (sm_ne S) w w' ->
  orel (sres_times k) (fe_solve (sm_ne S) (sm_A S) c (spatial_eval S sp w) u b) (fe_solve (sm_ne S') (sm_A S') c (spatial_eval S' sp' w') u b).
Proof.
  intros k S S' sp sp' w w' c u b kp H HS HW. rewrite (rz_ne _ _ _ H). apply fe_solve_sc; auto; [apply (rz_A _ _ _ H)|]. intros v. apply (C113_residual k S S'); auto.
Qed.

(** *** Relative residuals of the two histories agree *)
Lemma C113_relative : forall k l l', 0 < k -> line_times k l l' -> lg_init l <> 0 -> lg_resi l' / lg_init l' = lg_resi l / lg_init l.
Proof. intros k l l' kp (_ & -> & ->) H. field. split; auto; lra. Qed.

(** *** Explicit runs of the case driver, starter and main solve: the same final state, the same end, the same step counts *)
Theorem C113_run : forall k S S' spm spm' sps sps' wk wk' glob Jf ksp at_throw o u, 0 < k -> resized k S S' -> same_spatial spm spm' -> same_spatial sps sps' ->
  (forall main, same_work (sm_ne S) (wk main) (wk' main)) -> o_ptype o <> "IMPLICIT"%string ->
  let out := P_Case.main_run (case_solve S spm sps wk glob Jf ksp at_throw) o u in
  let out' := P_Case.main_run (case_solve S' spm' sps' wk' glob Jf ksp at_throw) o u in
  so_u out' = so_u out /\ so_end out' = so_end out /\ so_vecs out' = so_vecs out /\
  td_conv (so_td out') = td_conv (so_td out) /\ td_steps (so_td out') = td_steps (so_td out) /\ Forall2 (line_times k) (td_hist (so_td out)) (td_hist (so_td out')).
Proof.
  intros k S S' spm spm' sps sps' wk wk' glob Jf ksp at_throw o u kp H HM HS HW HP. cbv zeta.
  assert (EI : String.eqb (o_ptype o) "IMPLICIT" = false) by (apply String.eqb_neq, HP).
  assert (Q : forall (main : bool) c lg up v, let r := case_solve S spm sps wk glob Jf ksp at_throw false main c lg up v in let r' := case_solve S' spm' sps' wk' glob Jf ksp at_throw false main c lg up v in
    so_u r' = so_u r /\ so_end r' = so_end r /\ so_vecs r' = so_vecs r /\ td_conv (so_td r') = td_conv (so_td r) /\ td_steps (so_td r') = td_steps (so_td r) /\ Forall2 (line_times k) (td_hist (so_td r)) (td_hist (so_td r'))).
  { intros main c lg up v. cbv zeta. unfold case_solve, ode_solve. cbv zeta.
    assert (EV : forall x, orel (exc_rel (rout_times k (sm_ne S))) (spatial_eval S (if main then spm else sps) (wk main) x) (spatial_eval S' (if main then spm' else sps') (wk' main) x)).
    { intros x. apply (C113_residual k S S'); auto. destruct main; auto. }
    rewrite (rz_ne _ _ _ H).
    pose proof (fe_solve_sc k kp (sm_ne S) (sm_A S) (sm_A S') c _ _ (rz_A _ _ _ H) EV v false) as SV.
    pose proof (loop_sc k kp (sm_ne S) (sm_A S) (sm_A S') c _ _ (rz_A _ _ _ H) EV 0.3 0.25 (Z.to_nat (maxiter c)) _ _ (start_sc k v (cflinit c))) as LO.
    unfold loop_of. cbv beta in SV, LO |- *.
    destruct (fe_solve _ (sm_A S) _ _ _ _) as [[s1 b1|e1]|], (fe_solve _ (sm_A S') _ _ _ _) as [[s1' b1'|e1']|]; cbn in SV; try contradiction.
    - destruct SV as ((M1 & M2 & M3 & M4 & M5) & ->). cbn. rewrite M1, M2. repeat split; auto. destruct lg; auto.
    - subst e1'. match type of LO with orel _ ?x ?y => destruct x as [[y1|e]|], y as [[y1'|e']|]; cbn in LO; try contradiction end; cbn.
      + destruct LO as (M1 & M2 & M3 & M4 & M5). rewrite M1, M2. repeat split; auto. destruct lg; auto.
      + repeat split; auto. destruct lg; auto.
      + repeat split; auto. destruct lg; auto.
    - cbn. repeat split; auto. }
  unfold P_Case.main_run, P_Case.run2, P_Case.start_u, P_Case.run1. rewrite EI.
  destruct (Z.eqb (o_starter o) 0); [apply Q|]. destruct (Q false (mksconf (o_fcfl0 o) (o_fcfl1 o) (o_ftol o) (o_fmaxit o)) (o_lognres o) (P_Case.the_update o) u) as (-> & _). apply Q.
Qed.

(** *** Not so for the implicit solver: the first ratio of residuals given to the CFL ramp is 1 / (first residual norm) (the variable resiold of
    aodesolver.cpp starts as 1), which depends on the unit of length. Here is a system of one cell with a constant residual, Jacobian zero and an
    exact linear solver, seen in two units of length: after two steps the states differ. *)
Definition one_res (k : R) (_ : arr st) : option (exc rout) := Some (Val (mkrout (aconst 1 (mks 0 0 0 k)) (aconst 1 k) true)).
Definition one_A (k : R) : arr R := aconst 1 (k * k).
Definition one_conf : sconf := mksconf 1 2 (1 / 2) 5.
Definition exact_diag (_ : nat) (_ : bmat) (dtm : arr R) (_ b : arr st) : arr st * nat := (mkarr 1 (fun i => sscal (/ aat dtm i) (aat b i)), 1%nat).
Definition zero_jac (_ : arr st) : option (exc bmat) := Some (Val (fun _ _ => mdiag 0)).
Definition one_loop (k : R) (fuel : nat) (s : mon) : option stp :=
  steady_loop one_conf (steady_body 1 (one_A k) one_conf (one_res k) 0.25 0.3 (be_upd 1 (one_A k) (fun i => i) zero_jac exact_diag FullUpdate_factor)) fuel s.
Lemma one_pass k s : 0 < k -> alen (m_u s) = 1%nat -> let cfl := expResidualRamp 1 2 (m_cfl s) (m_old s / m_resi s) 0.25 0.3 in cfl <> 0 ->
  exists s', steady_body 1 (one_A k) one_conf (one_res k) 0.25 0.3 (be_upd 1 (one_A k) (fun i => i) zero_jac exact_diag FullUpdate_factor) s = Some (SNext s') /\
  alen (m_u s') = 1%nat /\ s3 (aat (m_u s') 0%nat) = s3 (aat (m_u s) 0%nat) + cfl /\ m_step s' = (m_step s + 1)%nat /\ m_resi s' = k * k /\ m_old s' = m_resi s /\ m_cfl s' = cfl /\
  m_init s' = (if (m_step s =? 0)%nat then k * k else m_init s).
Proof.
  intros kp L cfl HC.
  assert (EN : res_norm 1 (one_A k) (aconst 1 (mks 0 0 0 k)) = k * k). { unfold res_norm. cbn. replace (k * k * (k * k) + 0) with (k * k * (k * k)) by ring. apply sqrt_square. nra. }
  unfold steady_body, one_res. cbn [cflinit cflfin one_conf]. fold cfl. cbv zeta. unfold be_upd, zero_jac. cbn [rt_dt rt_r rt_fin].
  unfold add_pseudo_time. cbn. unfold aget, aset, aconst, one_A. cbn. unfold aget. cbn. unfold be_update. cbn. unfold aget, aset. rewrite L. cbn.
  eexists. split; [reflexivity|]. cbn [m_u m_step m_resi m_old m_cfl m_init alen aat]. repeat split; auto; try exact EN.
  - unfold upd. cbn. unfold FullUpdate_factor. change (0 =? 0)%nat with true. cbn. field. split; lra.
  - destruct (m_step s =? 0)%nat; [exact EN|reflexivity].
Qed.

Theorem C113_implicit_cfl_refuted : exists k A A' Rf Rf' c ksp u s s', 0 < k /\ scaled_by (Rmult (k * k)) A A' /\ (forall v, orel (exc_rel (rout_times k 1)) (Rf v) (Rf' v)) /\
  let loop A Rf := steady_loop c (steady_body 1 A c Rf 0.25 0.3 (be_upd 1 A (fun i => i) zero_jac ksp FullUpdate_factor)) 2 (mkmon u 0 1 1 1 0 0 []) in
  loop A Rf = Some (SNext s) /\ loop A' Rf' = Some (SNext s') /\ m_step s = 2%nat /\ m_step s' = 2%nat /\ s3 (aat (m_u s) 0%nat) < s3 (aat (m_u s') 0%nat).
Proof.
  set (u := aconst 1 szero). set (x0 := mkmon u 0 1 1 1 0 0 []).
  assert (R0 : expResidualRamp 1 2 0 (1 / 1) 0.25 0.3 = 1). { unfold expResidualRamp. destruct (Rlt_dec 1 (1 / 1)); [lra|]. rewrite Rmult_0_l. destruct (Rlt_dec 0 1); lra. }
  assert (C0 : forall k, 0 < k -> forall y, m_step y = 1%nat -> m_resi y = k * k -> m_init y = k * k -> steady_cont one_conf y = true).
  { intros k kp y E1 E2 E3. unfold steady_cont. rewrite E1, E2, E3. cbn. unfold rel_gt. destruct (Req_EM_T (k * k) 0); [nra|]. replace (k * k / (k * k)) with 1 by (field; lra). destruct (Rlt_dec (1 / 2) 1); [reflexivity|lra]. }
  assert (C1 : steady_cont one_conf x0 = true). { unfold steady_cont. cbn. unfold rel_gt. destruct (Req_EM_T 1 0); [lra|]. destruct (Rlt_dec (1 / 2) (1 / 1)); [reflexivity|lra]. }
  assert (P : forall k, 0 < k -> exists y z, one_loop k 2 x0 = Some (SNext z) /\ m_step z = 2%nat /\ m_cfl y = 1 /\ m_old y = 1 /\ m_resi y = k * k /\ s3 (aat (m_u z) 0%nat) = 0 + 1 + expResidualRamp 1 2 1 (1 / (k * k)) 0.25 0.3).
  { intros k kp. destruct (one_pass k x0 kp eq_refl) as (y & E1 & Y1 & Y2 & Y3 & Y4 & Y5 & Y6 & Y7). { cbn [x0 m_cfl m_old m_resi]. rewrite R0. lra. }
    cbn [x0 m_cfl m_old m_resi m_step m_u u aconst aat] in *. rewrite R0 in *. cbn in Y2, Y7.
    destruct (one_pass k y kp Y1) as (z & E2 & Z1 & Z2 & Z3 & _).
    { rewrite Y4, Y5, Y6. unfold expResidualRamp. destruct (Rlt_dec _ 1); [lra|]. destruct (Rlt_dec 2 _); lra. }
    exists y, z. unfold one_loop. cbn [steady_loop]. fold x0 in E1. fold u in E1. fold x0. rewrite C1, E1, (C0 k kp y), E2 by auto. rewrite Z2, Z3, Y2, Y3, Y4, Y5, Y6. auto 8. }
  destruct (P 1 ltac:(lra)) as (_ & z & L & Z & _ & _ & _ & V). destruct (P (1 / 2) ltac:(lra)) as (_ & z' & L' & Z' & _ & _ & _ & V').
  exists (1 / 2), (one_A 1), (one_A (1 / 2)), (one_res 1), (one_res (1 / 2)), one_conf, exact_diag, u, z, z'. split; [lra|]. split; [split; auto; intros; cbn; lra|]. split.
  { intros v. cbn. unfold rout_times, dt_times, scaled_by. cbn. repeat split; auto; intros; try lra. apply st_ext. intros []; cbn; lra. }
  split; [exact L|]. split; [exact L'|]. split; auto. split; auto. rewrite V, V'. apply Rplus_lt_compat_l.
  assert (A1 : expResidualRamp 1 2 1 (1 / (1 * 1)) 0.25 0.3 = 1).
  { unfold expResidualRamp. destruct (Rlt_dec 1 (1 / (1 * 1))); [lra|]. unfold powr. destruct (Rle_dec (1 / (1 * 1)) 0); [lra|]. replace (1 / (1 * 1)) with 1 by field. unfold Rpower. rewrite ln_1, Rmult_0_r, exp_0.
    destruct (Rlt_dec (1 * 1) 1); [lra|]. destruct (Rlt_dec 2 (1 * 1)); lra. }
  assert (A2 : 1 < expResidualRamp 1 2 1 (1 / (1 / 2 * (1 / 2))) 0.25 0.3).
  { replace (1 / (1 / 2 * (1 / 2))) with 4 by field. unfold expResidualRamp. destruct (Rlt_dec 1 4); [|lra]. unfold powr. destruct (Rle_dec 4 0); [lra|].
    assert (1 < Rpower 4 0.25). { rewrite <- (Rpower_O 4) by lra. apply Rpower_lt; lra. }
    destruct (Rlt_dec (1 * Rpower 4 0.25) 1); [lra|]. destruct (Rlt_dec 2 (1 * Rpower 4 0.25)); lra. }
  lra.
Qed.

(** ** A case: the two-cell channel of C98 in a unit of length 1000 times smaller: centres and areas grow, the control file of C98 (HLLC, least squares, Van Albada) gives
    the same discretization, whose residual is defined on the free stream, and explicit runs from any state go the same way *)
Definition chX1000 : arr v2 := mkarr 6 (fun i => vscal 1000 (aat chX i)).
Definition ch_wk (x : grad) : work := mkwk (aconst 7 szero) (aconst 7 szero) (aconst 2 x) (fun _ => szero) (aconst 2 0).
Example C113_example : exists S S' spm, built ch chh chX chg S /\ built ch chh chX1000 (fun _ => vzero) S' /\ resized 1000 S S' /\ sm_ne S' = 2%nat /\
  aat (sm_rc S') 1%nat = mkv 2000 500 /\ aat (sm_A S) 1%nat = 2 /\ aat (sm_A S') 1%nat = 2000000 /\
  main_spatial (fun _ => 0) ch chX S (ch_opts "EXPLICIT" 1) = Some (Val spm) /\ main_spatial (fun _ => 0) ch chX1000 S' (ch_opts "EXPLICIT" 1) = Some (Val spm) /\ sp_order2 spm = true /\
  (exists u ro, spatial_eval S spm (ch_work S true) u = Some (Val ro)) /\
  forall c u x, orel (sres_times 1000) (fe_solve 2 (sm_A S) c (spatial_eval S spm (ch_wk x)) u false) (fe_solve 2 (sm_A S') c (spatial_eval S' spm (ch_wk gzero)) u false).
Proof.
  destruct ch_built as (S & B0). pose proof B0 as (T & H34 & LX & j0 & jf & je & jt & jm & ja & jc & jb & E).
  assert (HX : scaled_by (vscal 1000) chX chX1000) by (split; auto).
  destruct (C113_mesh 1000 ch chh chX chX1000 chg (fun _ => vzero) j0 jf je jt jm ja jc jb jm ja jc jb S ltac:(lra) T H34 LX HX) as (S' & E' & TR & _); [|exact E|].
  { intros j Hj. cbn in Hj. lia. }
  assert (B : built ch chh chX chg S). { split; auto. split; auto. split; auto. exists j0, jf, je, jt, jm, ja, jc, jb. exact E. }
  assert (B' : built ch chh chX1000 (fun _ => vzero) S'). { split; auto. split; auto. split; [reflexivity|]. exists j0, jf, je, jt, jm, ja, jc, jb. exact E'. }
  destruct (ch_fits S "EXPLICIT" 1 B) as (F & F2). destruct (C98_residual _ _ _ _ _ _ (fun _ => 0) F (fun _ => F2)) as (spm & sps & Em & _ & EV).
  exists S, S', spm. split; [exact B|]. split; [exact B'|]. split; [exact TR|].
  destruct (built_ok _ _ _ _ _ B) as (_ & _ & _ & _ & _ & _ & _ & M1 & _ & _ & _ & _ & _ & MA & _).
  destruct (built_ok _ _ _ _ _ B') as (_ & _ & _ & _ & _ & _ & _ & N1 & N2 & _ & _ & _ & _ & NA & NC & _).
  split; [rewrite N1; reflexivity|]. split; [|split; [|split; [|split; [exact Em|]]]].
  - rewrite NC by (cbn; lia). apply v2_eq; cbn; lra.
  - rewrite MA by (cbn; lia). cbn. unfold polygon_area, sides, chain, cross. cbn. unfold cross. cbn. field_simplify. lra.
  - rewrite NA by (cbn; lia). cbn. unfold polygon_area, sides, chain, cross. cbn. unfold cross. cbn. field_simplify. lra.
  - assert (EM : main_spatial (fun _ => 0) ch chX1000 S' (ch_opts "EXPLICIT" 1) = main_spatial (fun _ => 0) ch chX S (ch_opts "EXPLICIT" 1)).
    { unfold main_spatial, make_spatial. cbv zeta. rewrite (proj1 (C113_discretization 1000 ch chX chX1000 S S' ltac:(lra) TR HX)). reflexivity. }
    split; [congruence|].
    assert (P : sp_order2 spm = true /\ sp_visc spm = false /\ sp_rec spm = Some M_Resid.RAlbada).
    { unfold main_spatial, make_spatial in Em. cbv zeta in Em. destruct (grad_of S _); [|discriminate]. cbn [bind] in Em. cbn in Em. injection Em as <-. repeat split. }
    destruct P as (P1 & P2 & P3). split; [exact P1|]. split.
    + destruct (C98_initial_state (fun _ => 0) S (ch_opts "EXPLICIT" 1) (fun _ => 0) ltac:(cbn; lra) ltac:(cbn; lra)) as (u & _ & _ & FS).
      destruct (EV spm (or_introl eq_refl) (ch_work S true) (states u) ltac:(repeat split) FS) as (ro & Q & _). exists (states u), ro. exact Q.
    + intros c u x. pose proof (C113_solve 1000 S S' spm spm (ch_wk x) (ch_wk gzero) c u false ltac:(lra) TR) as H. rewrite N1, M1 in H. apply H.
      * unfold same_spatial. rewrite P2, P3. repeat split; auto.
      * unfold same_work. cbn. repeat split; auto.
Qed.

Print Assumptions C113_mesh.
Print Assumptions C113_discretization.
Print Assumptions C113_residual.
Print Assumptions C113_solve.
Print Assumptions C113_relative.
Print Assumptions C113_run.
Print Assumptions C113_implicit_cfl_refuted.
