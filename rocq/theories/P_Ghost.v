(** C110: ghost cell centres by reflection about the boundary faces. *)
From Coq Require Import Reals Lra List Arith Lia Psatz.
From Verif Require Import Base BaseR M_Mesh M_Geom M_Space M_Recon M_Ghost S_Space S_Mesh S_Geom Pf_Geom Pf_Space P_Geom.
Open Scope R_scope.

(** ** Specification: [c'] is the mirror image of [c] in the line through [a] and [b] *)
Definition mirror (a b c c' : v2) : Prop := dot2 (vsub c' c) (vsub b a) = 0 /\ cross (vsub (vscal (1 / 2) (vadd c c')) a) (vsub b a) = 0.
(** the normal is not within A_SMALL_NUMBER of an axis, or is along one *)
Definition clear_of_axes (n : v2) : Prop := (A_SMALL_NUMBER < Rabs (vx n) /\ A_SMALL_NUMBER < Rabs (vy n)) \/ vx n = 0 \/ vy n = 0.

(** ** Proofs *)
Definition image (n a c : v2) : v2 := vsub c (vscal (2 * dot2 (vsub c a) n) n).
Lemma small_pos : 0 < A_SMALL_NUMBER.
Proof. unfold A_SMALL_NUMBER. apply Rinv_0_lt_compat. apply pow_lt. lra. Qed.
Lemma dist_pos a b : a <> b -> 0 < (vx b - vx a) ^ 2 + (vy b - vy a) ^ 2.
Proof.
  intros H. assert (vx b - vx a <> 0 \/ vy b - vy a <> 0) as [Q|Q].
  { destruct (Req_dec (vx b - vx a) 0); [right|left; assumption]. intros Q. apply H. destruct a, b; cbn in *. f_equal; lra. }
  - pose proof (Rsqr_pos_lt _ Q). pose proof (Rle_0_sqr (vy b - vy a)). unfold Rsqr in *. cbn [pow]. lra.
  - pose proof (Rsqr_pos_lt _ Q). pose proof (Rle_0_sqr (vx b - vx a)). unfold Rsqr in *. cbn [pow]. lra.
Qed.
(** there is one mirror image only *)
Lemma mirror_unique a b c c1 c2 : a <> b -> mirror a b c c1 -> mirror a b c c2 -> c1 = c2.
Proof.
  intros H (A1 & A2) (B1 & B2). apply dist_pos in H. destruct a as [ax ay], b as [bx bY], c as [cx cy], c1 as [x1 y1], c2 as [x2 y2].
  unfold dot2, cross, vsub, vadd, vscal in *. cbn [vx vy] in *. set (dx := bx - ax) in *. set (dy := bY - ay) in *.
  assert (E1 : (x1 - x2) * dx + (y1 - y2) * dy = 0) by lra. assert (E2 : (x1 - x2) * dy - (y1 - y2) * dx = 0) by lra.
  assert (Q1 : (x1 - x2) * (dx ^ 2 + dy ^ 2) = 0). { replace ((x1 - x2) * (dx ^ 2 + dy ^ 2)) with (dx * ((x1 - x2) * dx + (y1 - y2) * dy) + dy * ((x1 - x2) * dy - (y1 - y2) * dx)) by ring. rewrite E1, E2. ring. }
  assert (Q2 : (y1 - y2) * (dx ^ 2 + dy ^ 2) = 0). { replace ((y1 - y2) * (dx ^ 2 + dy ^ 2)) with (dy * ((x1 - x2) * dx + (y1 - y2) * dy) - dx * ((x1 - x2) * dy - (y1 - y2) * dx)) by ring. rewrite E1, E2. ring. }
  apply Rmult_integral in Q1, Q2. f_equal; lra.
Qed.
Section Face.
Variables (a b c : v2).
Hypothesis N : a <> b.
Notation n := (fm_n (face_metric a b)).
Notation L := (fm_len (face_metric a b)).
Lemma normal_parts : 0 < L /\ vy b - vy a = L * vx n /\ vx b - vx a = - (L * vy n) /\ vx n * vx n + vy n * vy n = 1.
Proof.
  pose proof (metric_scaled a b N) as S. pose proof (metric_unit a b N) as U. pose proof (metric_len a b) as E. pose proof (norm2_pos _ (vsub_ne a b N)) as P. rewrite <- E in P.
  pose proof (f_equal vx S) as S1. pose proof (f_equal vy S) as S2. unfold vscal, rot_right, vsub in S1, S2. cbn [vx vy] in S1, S2. unfold dot2 in U.
  generalize dependent (fm_n (face_metric a b)). generalize dependent (fm_len (face_metric a b)). intros l _ P n0 _ U S1 S2. split; [exact P|]. split; [lra|]. split; [lra|exact U].
Qed.
Lemma image_mirror : mirror a b c (image n a c).
Proof.
  destruct normal_parts as (P & Y & X & U). unfold mirror, image, dot2, cross, vsub, vadd, vscal. cbn [vx vy]. rewrite Y, X. set (l := L) in *. set (p := vx n) in *. set (q := vy n) in *. split; [ring|].
  set (t := (vx c - vx a) * p + (vy c - vy a) * q). transitivity (l * (t - t * (p * p + q * q))); [unfold t; field|rewrite U; ring].
Qed.
Lemma about_face_ok : exists p, about_face n a b c = Some p /\ (clear_of_axes n -> p = image n a c) /\
  Rabs (vx p - vx (image n a c)) <= 2 * A_SMALL_NUMBER * norm2 (vsub c a) /\ Rabs (vy p - vy (image n a c)) <= 2 * A_SMALL_NUMBER * norm2 (vsub c a).
Proof.
  destruct normal_parts as (P & Y & X & U). pose proof small_pos as SP. assert (NP : 0 <= norm2 (vsub c a)) by (unfold norm2; apply sqrt_pos).
  assert (BD : forall x y, x * x + y * y = 1 -> Rabs (x * (vx c - vx a) + y * (vy c - vy a)) <= norm2 (vsub c a)).
  { intros x y E. unfold norm2. rewrite <- sqrt_Rsqr_abs. apply sqrt_le_1_alt. unfold Rsqr, dot2, vsub. cbn [vx vy]. set (v := vx c - vx a). set (w := vy c - vy a). assert (0 <= (x * w - y * v) * (x * w - y * v)) by (pose proof (Rle_0_sqr (x * w - y * v)); unfold Rsqr in *; lra).
    assert (v * v + w * w = (v * v + w * w) * (x * x + y * y)) by (rewrite E; ring). nra. }
  unfold about_face. set (p := vx n) in *. set (q := vy n) in *. set (l := L) in *.
  destruct (Rlt_dec A_SMALL_NUMBER (Rabs p)) as [Hp|Hp]; [destruct (Rlt_dec A_SMALL_NUMBER (Rabs q)) as [Hq|Hq]|].
  - assert (p0 : p <> 0) by (intros Q; rewrite Q, Rabs_R0 in Hp; lra). assert (q0 : q <> 0) by (intros Q; rewrite Q, Rabs_R0 in Hq; lra).
    unfold rdiv. destruct (Req_EM_T p 0) as [Z1|_]; [contradiction|]. cbn [bind]. assert (lq : l * q <> 0) by (apply Rmult_integral_contrapositive; split; lra).
    destruct (Req_EM_T (vx b - vx a) 0) as [Q|_]; [rewrite X in Q; lra|]. cbn [bind]. rewrite Y, X.
    assert (D : l * p / - (l * q) - q / p = - / (p * q)). { transitivity (- (p * p + q * q) / (p * q)); [field; repeat split; lra|rewrite U; field; split; assumption]. }
    rewrite D. assert (D0 : - / (p * q) <> 0). { apply Ropp_neq_0_compat. apply Rinv_neq_0_compat. apply Rmult_integral_contrapositive; auto. } destruct (Req_EM_T (- / (p * q)) 0) as [Z2|_]; [contradiction|]. cbn [bind vx vy].
    assert (EQ : mkv (2 * ((vy c - vy a - q / p * vx c + l * p / - (l * q) * vx a) / - / (p * q)) - vx c)
                     (2 * (vy a + l * p / - (l * q) * ((vy c - vy a - q / p * vx c + l * p / - (l * q) * vx a) / - / (p * q) - vx a)) - vy c) = image n a c).
    { unfold image, vsub, vscal, dot2. cbn [vx vy]. fold p q.
      assert (XS : (vy c - vy a - q / p * vx c + l * p / - (l * q) * vx a) / - / (p * q) = vx c * (q * q) + vx a * (p * p) - (vy c - vy a) * (p * q)) by (field; repeat split; lra).
      rewrite XS. assert (SL : l * p / - (l * q) = - (p / q)) by (field; split; lra). rewrite SL. f_equal.
      - transitivity (2 * (vx c * (q * q) + vx a * (p * p) - (vy c - vy a) * (p * q)) - vx c * (p * p + q * q)); [rewrite U; ring|]. transitivity (vx c * (p * p + q * q) - 2 * ((vx c - vx a) * p + (vy c - vy a) * q) * p); [ring|rewrite U; ring].
      - replace (vx c * (q * q) + vx a * (p * p) - (vy c - vy a) * (p * q) - vx a) with (vx c * (q * q) + vx a * (p * p) - (vy c - vy a) * (p * q) - vx a * (p * p + q * q)) by (rewrite U; ring).
        transitivity (2 * (vy a - p * ((vx c - vx a) * q - (vy c - vy a) * p)) - vy c); [field; lra|]. transitivity (2 * (vy a * (p * p + q * q) - p * ((vx c - vx a) * q - (vy c - vy a) * p)) - vy c * (p * p + q * q)); [rewrite U; ring|].
        transitivity (vy c * (p * p + q * q) - 2 * ((vx c - vx a) * p + (vy c - vy a) * q) * q); [ring|rewrite U; ring]. }
    rewrite EQ. eexists. split; [reflexivity|]. split; [reflexivity|]. rewrite !Rminus_eq_0, Rabs_R0. split; nra.
  - assert (Hq' : Rabs q <= A_SMALL_NUMBER) by lra. cbn [bind vx vy]. eexists. split; [reflexivity|]. cbn [vx vy]. unfold image, vsub, vscal, dot2. cbn [vx vy]. fold p q.
    assert (E1 : 2 * vx a - vx c - (vx c - 2 * ((vx c - vx a) * p + (vy c - vy a) * q) * p) = 2 * (q * ((- q) * (vx c - vx a) + p * (vy c - vy a)))).
    { transitivity (-2 * (vx c - vx a) * (p * p + q * q) + 2 * ((vx c - vx a) * p + (vy c - vy a) * q) * p); [rewrite U; ring|ring]. }
    assert (E2 : 2 * vy c - vy c - (vy c - 2 * ((vx c - vx a) * p + (vy c - vy a) * q) * q) = 2 * (q * (p * (vx c - vx a) + q * (vy c - vy a)))) by ring.
    split.
    + intros [(_ & Q)|[Q|Q]]; fold p q in Q; [lra| |]; [rewrite Q, Rabs_R0 in Hp; lra|]. f_equal; [apply Rminus_diag_uniq; rewrite E1, Q; ring|apply Rminus_diag_uniq; rewrite E2, Q; ring].
    + rewrite E1, E2, !Rabs_mult, (Rabs_right 2) by lra. pose proof (BD (- q) p ltac:(lra)) as B1. pose proof (BD p q U) as B2. pose proof (Rabs_pos q). pose proof (Rabs_pos (- q * (vx c - vx a) + p * (vy c - vy a))). pose proof (Rabs_pos (p * (vx c - vx a) + q * (vy c - vy a))).
      split; rewrite Rmult_assoc; (apply Rmult_le_compat_l; [lra|]); (apply Rmult_le_compat; assumption).
  - assert (Hp' : Rabs p <= A_SMALL_NUMBER) by lra. cbn [bind vx vy]. eexists. split; [reflexivity|]. cbn [vx vy]. unfold image, vsub, vscal, dot2. cbn [vx vy]. fold p q.
    assert (E1 : 2 * vx c - vx c - (vx c - 2 * ((vx c - vx a) * p + (vy c - vy a) * q) * p) = 2 * (p * (p * (vx c - vx a) + q * (vy c - vy a)))) by ring.
    assert (E2 : 2 * vy a - vy c - (vy c - 2 * ((vx c - vx a) * p + (vy c - vy a) * q) * q) = 2 * (p * (q * (vx c - vx a) + (- p) * (vy c - vy a)))).
    { transitivity (-2 * (vy c - vy a) * (p * p + q * q) + 2 * ((vx c - vx a) * p + (vy c - vy a) * q) * q); [rewrite U; ring|ring]. }
    split.
    + intros [(Q & _)|[Q|Q]]; fold p q in Q; [lra| |]. 2:{ exfalso. rewrite Q in U. assert (Q1 : 1 <= Rabs p). { rewrite <- sqrt_Rsqr_abs. unfold Rsqr. replace (p * p) with 1 by lra. rewrite sqrt_1. lra. } assert (A_SMALL_NUMBER < 1). { unfold A_SMALL_NUMBER. apply Rmult_lt_reg_r with (10 ^ 12); [lra|]. rewrite Rinv_l by lra. lra. } lra. }
      f_equal; [apply Rminus_diag_uniq; rewrite E1, Q; ring|apply Rminus_diag_uniq; rewrite E2, Q; ring].
    + rewrite E1, E2, !Rabs_mult, (Rabs_right 2) by lra. pose proof (BD q (- p) ltac:(lra)) as B1. pose proof (BD p q U) as B2. pose proof (Rabs_pos p). pose proof (Rabs_pos (q * (vx c - vx a) + - p * (vy c - vy a))). pose proof (Rabs_pos (p * (vx c - vx a) + q * (vy c - vy a))).
      split; rewrite Rmult_assoc; (apply Rmult_le_compat_l; [lra|]); (apply Rmult_le_compat; assumption).
Qed.
End Face.

(** ** Theorems *)
(** *** On every mesh the centres are the mirror images of the cells' centres in the boundary faces, exactly where the normal is clear of the axes and else
    to within 2e-12 times the distance of the centre from the face's first point; what the array holds beyond them is kept *)
Theorem C110_ghosts : forall m hs X gh S rchg, built m hs X gh S -> distinct_ends m X -> (sm_nb S <= alen rchg)%nat ->
  exists G, ghost_about_face (sm_X S) (sm_F S) (sm_M S) (sm_rc S) (sm_nb S) rchg = Some G /\ alen G = alen rchg /\ (forall k, (sm_nb S <= k)%nat -> aat G k = aat rchg k) /\
  forall k, (k < sm_nb S)%nat -> let a := aat (sm_X S) (f_a (aat (sm_F S) k)) in let b := aat (sm_X S) (f_b (aat (sm_F S) k)) in let c := aat (sm_rc S) (f_left (aat (sm_F S) k)) in
    (clear_of_axes (fm_n (aat (sm_M S) k)) -> mirror a b c (aat G k)) /\
    exists c', mirror a b c c' /\ Rabs (vx (aat G k) - vx c') <= 2 * A_SMALL_NUMBER * norm2 (vsub c a) /\ Rabs (vy (aat G k) - vy c') <= 2 * A_SMALL_NUMBER * norm2 (vsub c a).
Proof.
  intros m hs X gh S rchg B D LR. pose proof (built_sm _ _ _ _ _ B) as OK. unfold ghost_about_face.
  match goal with |- context [floop _ ?bb ?ss] => destruct (floop_inv _ (fun j (G : arr v2) => alen G = alen rchg /\ (forall k, (j <= k)%nat -> aat G k = aat rchg k) /\ forall k, (k < j)%nat ->
    about_face (fm_n (aat (sm_M S) k)) (aat (sm_X S) (f_a (aat (sm_F S) k))) (aat (sm_X S) (f_b (aat (sm_F S) k))) (aat (sm_rc S) (f_left (aat (sm_F S) k))) = Some (aat G k)) (sm_nb S) bb ss) as (G & E & L & K & P) end.
  - split; [reflexivity|]. split; [reflexivity|]. intros; lia.
  - intros k G Hk (L & K & P). assert (Hk' : (k < sm_nf_all S)%nat) by (unfold sm_nf_all; lia). pose proof (so_left _ OK k Hk'). pose proof (so_pts _ OK k Hk') as (Ha & Hb).
    rewrite !aget_ok by (rewrite ?(so_F _ OK), ?(so_M _ OK), ?(so_rc _ OK); first [assumption|lia]). cbn [bind]. repeat (rewrite !aget_ok by (rewrite ?(so_F _ OK), ?(so_M _ OK), ?(so_rc _ OK); first [assumption|lia]); cbn [bind]).
    destruct (about_face_ok (aat (sm_X S) (f_a (aat (sm_F S) k))) (aat (sm_X S) (f_b (aat (sm_F S) k))) (aat (sm_rc S) (f_left (aat (sm_F S) k))) (built_distinct _ _ _ _ _ B D k Hk')) as (p & Ep & _). rewrite <- (so_met _ OK k Hk') in Ep. rewrite Ep. cbn [bind]. rewrite aset_ok by lia.
    eexists. split; [reflexivity|]. cbn [alen aat]. split; [exact L|]. unfold upd. split.
    + intros q Hq. destruct (Nat.eqb_spec q k); [lia|apply K; lia].
    + intros q Hq. destruct (Nat.eqb_spec q k); [subst; exact Ep|apply P; lia].
  - exists G. split; [exact E|]. split; [exact L|]. split; [exact K|]. intros k Hk. set (a := aat (sm_X S) (f_a (aat (sm_F S) k))). set (b := aat (sm_X S) (f_b (aat (sm_F S) k))). set (c := aat (sm_rc S) (f_left (aat (sm_F S) k))). cbv zeta. assert (Hk' : (k < sm_nf_all S)%nat) by (unfold sm_nf_all; lia). pose proof (built_distinct _ _ _ _ _ B D k Hk') as N. fold a b in N.
    destruct (about_face_ok a b c N) as (p & Ep & P1 & P2 & P3). specialize (P k Hk). rewrite (so_met _ OK k Hk') in *. fold a b c in P. fold a b. rewrite Ep in P. injection P as <-. split.
    + intros Q. rewrite (P1 Q). apply image_mirror. exact N.
    + exists (image (fm_n (face_metric a b)) a c). split; [apply image_mirror; exact N|]. auto.
Qed.
Print Assumptions C110_ghosts.

(** *** There is one mirror image *)
Theorem C110_one_image : forall a b c c1 c2, a <> b -> mirror a b c c1 -> mirror a b c c2 -> c1 = c2.
Proof. exact mirror_unique. Qed.
Print Assumptions C110_one_image.

(** *** A face within A_SMALL_NUMBER of an axis: the centre is not the mirror image *)
Theorem C110_near_axis_refuted : exists a b c p, a <> b /\ about_face (fm_n (face_metric a b)) a b c = Some p /\ ~ mirror a b c p.
Proof.
  exists (mkv 0 0), (mkv 1 (/ 10 ^ 12)), (mkv 0 1), (mkv 0 (-1)). assert (N : mkv 0 0 <> mkv 1 (/ 10 ^ 12)) by (intros Q; injection Q as Q _; lra). split; [exact N|].
  assert (T : 0 < / 10 ^ 12) by apply small_pos. split.
  - unfold about_face. destruct (normal_parts _ _ N) as (P & Y & X & U). cbn [vx vy] in *. set (n := fm_n _) in *. set (l := fm_len _) in *.
    destruct (Rlt_dec A_SMALL_NUMBER (Rabs (vx n))) as [Q|_]. 2:{ cbn [bind vx vy]. f_equal. f_equal; lra. }
    exfalso. unfold A_SMALL_NUMBER in Q. set (t := / 10 ^ 12) in *. assert (L1 : 1 <= l). { assert (l * l = 1 + t * t). { transitivity (l * l * (vx n * vx n + vy n * vy n)); [rewrite U; ring|]. transitivity ((l * vx n) * (l * vx n) + (l * vy n) * (l * vy n)); [ring|]. replace (l * vx n) with t by lra. replace (l * vy n) with (-1) by lra. ring. } nra. }
    assert (0 < vx n). { assert (l * vx n = t) by lra. nra. } rewrite Rabs_right in Q by lra. assert (l * vx n = t) by lra. nra.
  - intros (Q & _). unfold dot2, vsub in Q. cbn [vx vy] in Q. lra.
Qed.
Print Assumptions C110_near_axis_refuted.

(** ** A case: the slanted face from (1,0) to (0,1) and the centre (0,0): the ghost centre is (1,1) *)
Example C110_example : about_face (fm_n (face_metric (mkv 1 0) (mkv 0 1))) (mkv 1 0) (mkv 0 1) (mkv 0 0) = Some (mkv 1 1).
Proof.
  assert (N : mkv 1 0 <> mkv 0 1) by (intros Q; injection Q as Q _; lra). destruct (about_face_ok _ _ (mkv 0 0) N) as (p & -> & P & _). destruct (normal_parts _ _ N) as (L & Y & X & U). cbn [vx vy] in *. set (n := fm_n _) in *. set (l := fm_len _) in *.
  assert (E : vx n = vy n) by (apply Rmult_eq_reg_l with l; lra). assert (S : vx n * vx n = 1 / 2) by (rewrite <- E in U; lra).
  assert (B : A_SMALL_NUMBER < Rabs (vx n)).
  { assert (T : A_SMALL_NUMBER < 1 / 2). { unfold A_SMALL_NUMBER. apply Rmult_lt_reg_r with (10 ^ 12); [lra|]. rewrite Rinv_l by lra. lra. } apply Rlt_le_trans with (1 / 2); [exact T|]. rewrite <- (Rabs_right (1 / 2)) by lra. apply Rsqr_le_abs_0. unfold Rsqr. lra. }
  rewrite P. 2:{ left. rewrite <- E. auto. }
  unfold image, vsub, vscal, dot2. cbn [vx vy]. rewrite <- E. f_equal. f_equal; lra.
Qed.
