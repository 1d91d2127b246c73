(** Proofs about the geometry routines. *)
From Coq Require Import Reals Lra List Arith Lia Permutation ZArith.
From Verif Require Import Base BaseR BaseSum M_Mesh M_Geom S_Mesh S_Geom Pf_Esup Pf_Esuel Pf_Host Pf_Faces Pf_Topo Pf_Incid.
Import ListNotations.
Open Scope R_scope.

(** ** one face *)
Lemma metric_len a b : fm_len (face_metric a b) = norm2 (vsub b a).
Proof. unfold face_metric, norm2, dot2, vsub; cbn. f_equal. ring. Qed.
Lemma norm2_pos d : d <> vzero -> 0 < norm2 d.
Proof.
  intros H. unfold norm2. apply sqrt_lt_R0. unfold dot2. destruct d as [x y]; cbn in *.
  destruct (Req_dec x 0) as [->|Hx].
  - assert (y <> 0) by (intros ->; apply H; reflexivity). nra.
  - nra.
Qed.
Lemma vsub_ne a b : a <> b -> vsub b a <> vzero.
Proof. intros H E. apply H. unfold vsub, vzero in E. inversion E. apply v2_eq; lra. Qed.
Lemma metric_scaled a b : a <> b -> vscal (fm_len (face_metric a b)) (fm_n (face_metric a b)) = rot_right (vsub b a).
Proof.
  intros H. pose proof (norm2_pos _ (vsub_ne a b H)) as P. rewrite <- metric_len in P.
  unfold face_metric in *; cbn in *. unfold vscal, rot_right, vsub; cbn. f_equal; field; lra.
Qed.
Lemma metric_unit a b : a <> b -> dot2 (fm_n (face_metric a b)) (fm_n (face_metric a b)) = 1.
Proof.
  intros H. pose proof (norm2_pos _ (vsub_ne a b H)) as P. rewrite <- metric_len in P.
  unfold face_metric in *; cbn in *. unfold dot2; cbn.
  set (L := sqrt _) in *. assert (E : L * L = (vy b - vy a) * ((vy b - vy a) * 1) + -1 * (vx b - vx a) * (-1 * (vx b - vx a) * 1)).
  { apply sqrt_sqrt. apply Rplus_le_le_0_compat; [apply (pow2_ge_0 (vy b - vy a))|apply (pow2_ge_0 (-1 * (vx b - vx a)))]. }
  apply (Rmult_eq_reg_r (L * L)); [|nra]. rewrite E at 2. field. lra.
Qed.
Lemma metric_right a b : a <> b -> dot2 (fm_n (face_metric a b)) (vsub b a) = 0 /\
  cross (vsub b a) (fm_n (face_metric a b)) = - fm_len (face_metric a b).
Proof.
  intros H. pose proof (metric_scaled a b H) as S. pose proof (norm2_pos _ (vsub_ne a b H)) as P. rewrite <- metric_len in P.
  pose proof (metric_unit a b H) as U.
  revert S P U. generalize (fm_n (face_metric a b)) (fm_len (face_metric a b)). intros [n1 n2] L S P U.
  unfold vscal, rot_right, vsub in S. cbn in S. injection S as S1 S2. unfold dot2, cross, vsub in *; cbn in *.
  rewrite <- S1. replace (vx b - vx a) with (- (L * n2)) by lra. split; [ring|].
  replace (- (L * n2) * n2 - L * n1 * n1) with (- L * (n1 * n1 + n2 * n2)) by ring. rewrite U. ring.
Qed.

(** ** the loop *)
Lemma face_data_ok X F jm : (forall k, (k < alen F)%nat -> (f_a (aat F k) < alen X)%nat /\ (f_b (aat F k) < alen X)%nat) ->
  exists M, compute_face_data X F jm = Some M /\ alen M = alen F /\
    forall k, (k < alen F)%nat -> aat M k = face_metric (aat X (f_a (aat F k))) (aat X (f_b (aat F k))).
Proof.
  intros H. unfold compute_face_data.
  match goal with |- context [floop _ ?bb ?ss] =>
    destruct (floop_inv _ (fun i (M : arr fmet) => alen M = alen F /\ forall k, (k < i)%nat ->
       aat M k = face_metric (aat X (f_a (aat F k))) (aat X (f_b (aat F k)))) (alen F) bb ss) as (M & E & L & I) end.
  - split; [reflexivity|]. intros; lia.
  - intros i M Hi (L & I). destruct (H i Hi). rewrite !aget_ok by auto. cbn [bind]. rewrite !aget_ok by auto. cbn [bind]. rewrite aset_ok by lia.
    eexists; split; [reflexivity|]. cbn [alen aat]. split; auto. intros k Hk. unfold upd. destruct (Nat.eqb_spec k i); subst; auto. apply I. lia.
  - rewrite E. eauto.
Qed.

(** ** closed polygons *)
Lemma chain_app (l1 l2 : list v2) y z : chain (l1 ++ y :: l2) z = chain l1 y ++ chain (y :: l2) z.
Proof.
  induction l1 as [|a l1 IH]; [reflexivity|]. destruct l1 as [|b l1]; [reflexivity|].
  cbn [app] in *. change (chain (a :: b :: l1 ++ y :: l2) z) with ((a, b) :: chain (b :: l1 ++ y :: l2) z).
  change (chain (a :: b :: l1) y) with ((a, b) :: chain (b :: l1) y). rewrite IH. reflexivity.
Qed.
Lemma chain_length (p : list v2) z : length (chain p z) = length p.
Proof. induction p as [|a [|b p] IH]; [reflexivity..|]. change (S (length (chain (b :: p) z)) = S (length (b :: p))). f_equal; auto. Qed.
Lemma chain_nth (p : list v2) z k d d' : (k < length p)%nat -> nth k (chain p z) d = (nth k p d', nth (S k) (p ++ [z]) d').
Proof.
  revert k. induction p as [|a [|b p] IH]; intros k Hk.
  - cbn in Hk; lia.
  - cbn in Hk. assert (k = 0%nat) by lia. subst. reflexivity.
  - change (chain (a :: b :: p) z) with ((a, b) :: chain (b :: p) z). destruct k as [|k]; [reflexivity|].
    cbn [nth]. rewrite IH by (cbn in *; lia). reflexivity.
Qed.
Lemma sides_edges (c : list nat) (X : nat -> v2) : (0 < length c)%nat ->
  sides (map X c) = map (fun f => (X (fst (edge c f)), X (snd (edge c f)))) (seq 0 (length c)).
Proof.
  intros Hc. destruct c as [|a c]; [cbn in Hc; lia|]. set (cc := a :: c) in *.
  change (sides (map X cc)) with (chain (map X cc) (X a)).
  apply (nth_ext _ _ (vzero, vzero) (vzero, vzero)).
  - rewrite chain_length, !map_length, seq_length. reflexivity.
  - intros k Hk. rewrite chain_length, map_length in Hk.
    rewrite (chain_nth _ _ _ _ (X 0%nat)) by (rewrite map_length; auto). rewrite map_nth.
    rewrite (nth_indep _ (vzero, vzero) (X (fst (edge cc 0%nat)), X (snd (edge cc 0%nat)))) by (rewrite map_length, seq_length; auto).
    rewrite map_nth with (f := fun f => (X (fst (edge cc f)), X (snd (edge cc f)))). rewrite seq_nth by auto.
    cbn [edge fst snd]. f_equal. unfold edge; cbn [snd].
    destruct (Nat.eq_dec (S k) (length cc)) as [E|E].
    + rewrite Nat.add_0_l, Nat.add_1_r, E, Nat.mod_same by lia.
      rewrite app_nth2 by (rewrite map_length; lia). rewrite map_length, Nat.sub_diag. reflexivity.
    + rewrite Nat.add_0_l, Nat.add_1_r, Nat.mod_small by lia. rewrite app_nth1 by (rewrite map_length; lia). rewrite map_nth. reflexivity.
Qed.

(** a closed polygon's sides sum up to zero *)
Lemma chain_diff (g : v2 -> R) p z : p <> [] -> rsum (fun s => g (snd s) - g (fst s)) (chain p z) = g z - g (hd z p).
Proof.
  induction p as [|a [|b p] IH]; intros H; [congruence|cbn; lra|].
  change (chain (a :: b :: p) z) with ((a, b) :: chain (b :: p) z). cbn [rsum fst snd]. rewrite IH by discriminate. cbn [hd]. lra.
Qed.
Lemma sides_diff (g : v2 -> R) p : rsum (fun s => g (snd s) - g (fst s)) (sides p) = 0.
Proof. destruct p as [|a p]; [reflexivity|]. change (sides (a :: p)) with (chain (a :: p) a). rewrite chain_diff by discriminate. cbn. lra. Qed.

Lemma polygon_translate t p : polygon_area (map (vadd t) p) = polygon_area p.
Proof.
  unfold polygon_area. f_equal.
  assert (E : forall q z, chain (map (vadd t) q) (vadd t z) = map (fun s => (vadd t (fst s), vadd t (snd s))) (chain q z)).
  { induction q as [|a [|b q] IH]; intros z; [reflexivity..|].
    change (chain (a :: b :: q) z) with ((a, b) :: chain (b :: q) z). cbn [map fst snd]. rewrite <- IH. reflexivity. }
  destruct p as [|a p]; [reflexivity|]. change (sides (map (vadd t) (a :: p))) with (chain (map (vadd t) (a :: p)) (vadd t a)).
  rewrite E, rsum_map. change (chain (a :: p) a) with (sides (a :: p)).
  transitivity (rsum (fun s => cross (fst s) (snd s) + (cross t (snd s) - cross t (fst s))) (sides (a :: p))).
  - apply rsum_ext. intros [x y] _. unfold cross, vadd; cbn. ring.
  - rewrite rsum_plus, (sides_diff (cross t)). lra.
Qed.
Lemma polygon_cyclic a p : polygon_area (p ++ [a]) = polygon_area (a :: p).
Proof.
  unfold polygon_area. f_equal. destruct p as [|b p]; [reflexivity|]. cbn [app].
  change (sides (b :: p ++ [a])) with (chain ((b :: p) ++ [a]) b). rewrite chain_app, rsum_app.
  change (sides (a :: b :: p)) with ((a, b) :: chain (b :: p) a). cbn. lra.
Qed.
Lemma polygon_glue x y l1 l2 :
  polygon_area (x :: l1 ++ [y]) + polygon_area (y :: l2 ++ [x]) = polygon_area (x :: l1 ++ y :: l2).
Proof.
  unfold polygon_area. rewrite <- Rmult_plus_distr_l. f_equal.
  change (sides (x :: l1 ++ [y])) with (chain ((x :: l1) ++ [y]) x). change (sides (y :: l2 ++ [x])) with (chain ((y :: l2) ++ [x]) y).
  change (sides (x :: l1 ++ y :: l2)) with (chain ((x :: l1) ++ y :: l2) x). rewrite !chain_app, !rsum_app. cbn [chain rsum fst snd].
  unfold cross. lra.
Qed.
Lemma tri_polygon a b c : tri_area a b c = polygon_area [a; b; c].
Proof. unfold tri_area, polygon_area, cross; cbn. lra. Qed.
Lemma quad_polygon a b c d : tri_area a b c + tri_area a c d = polygon_area [a; b; c; d].
Proof. unfold tri_area, polygon_area, cross; cbn. lra. Qed.

Lemma areas_ok m X ja : (forall c, In c (cells m) -> (length c = 3 \/ length c = 4)%nat /\ forall v, In v c -> (v < alen X)%nat) ->
  exists A, compute_areas m X ja = Some A /\ alen A = nelem m /\
    forall i, (i < nelem m)%nat -> aat A i = polygon_area (map (aat X) (cell (cells m) i)).
Proof.
  intros H. unfold compute_areas.
  match goal with |- context [floop _ ?bb ?ss] =>
    destruct (floop_inv _ (fun i (A : arr R) => alen A = nelem m /\ forall k, (k < i)%nat ->
       aat A k = polygon_area (map (aat X) (cell (cells m) k))) (nelem m) bb ss) as (A & E & L & I) end.
  - split; [reflexivity|]. intros; lia.
  - intros i A Hi (L & I). rewrite nnode_ok by auto. cbn [bind].
    pose proof (H (cell (cells m) i) (nth_In _ _ Hi)) as (Hl & Hv).
    assert (P : forall j, (j < length (cell (cells m) i))%nat -> (v <- inpoel m i j ;; aget X v) = Some (aat X (nth j (cell (cells m) i) 0%nat))).
    { intros j Hj. rewrite inpoel_ok by auto. cbn [bind]. rewrite aget_ok; auto. apply Hv. apply nth_In. auto. }
    destruct Hl as [Hl|Hl]; rewrite Hl in *; cbv zeta; rewrite !P by lia; cbn [bind Nat.eqb]; change (3 =? 3)%nat with true; change (4 =? 3)%nat with false; change (4 =? 4)%nat with true; cbv iota.
    + rewrite aset_ok by lia. eexists; split; [reflexivity|]. cbn [alen aat]. split; auto. intros k Hk. unfold upd.
      destruct (Nat.eqb_spec k i); [|apply I; lia]. subst k. rewrite tri_polygon. f_equal.
      destruct (cell (cells m) i) as [|x [|y [|z [|w r]]]]; cbn in Hl; try lia. reflexivity.
    + rewrite aset_ok by lia. cbn [bind]. rewrite aget_ok by (cbn; lia). cbn [bind aat]. rewrite upd_eq. rewrite aset_ok by (cbn; lia).
      eexists; split; [reflexivity|]. cbn [alen aat]. split; auto. intros k Hk. unfold upd.
      destruct (Nat.eqb_spec k i); [|apply I; lia]. subst k. rewrite quad_polygon. f_equal.
      destruct (cell (cells m) i) as [|x [|y [|z [|w [|u r]]]]]; cbn in Hl; try lia. reflexivity.
  - rewrite E. eauto.
Qed.

(** ** sums over half faces *)
Section Half.
Variables (m : umesh) (hs : list (nat * nat)) (F il : list face).
Hypothesis T : tiled m hs.
Hypothesis HR : face_ranges m hs F il.

(** every face contributes once for each real cell it bounds *)
Theorem half_sum (phi : nat -> nat -> nat -> R) :
  rsum (fun fc => phi (f_left fc) (f_a fc) (f_b fc) +
                  if (f_right fc <? nelem m)%nat then phi (f_right fc) (f_b fc) (f_a fc) else 0) F
  = rsum (fun i => rsum (fun f => phi i (fst (edge (cell (cells m) i) f)) (snd (edge (cell (cells m) i) f)))
                        (seq 0 (length (cell (cells m) i)))) (seq 0 (nelem m)).
Proof.
  pose proof (rsum_perm (fun h : nat * (nat * nat) => phi (fst h) (fst (snd h)) (snd (snd h))) _ _ (halves_perm m hs F il T HR)) as P.
  rewrite rsum_flat_map in P. unfold cell_edges in P. rewrite rsum_flat_map in P.
  transitivity (rsum (fun x => rsum (fun h : nat * (nat * nat) => phi (fst h) (fst (snd h)) (snd (snd h))) (halves (nelem m) x)) F).
  - apply rsum_ext. intros fc _. unfold halves. destruct (f_right fc <? nelem m)%nat; cbn; lra.
  - rewrite P. apply rsum_ext. intros i _. rewrite rsum_map. reflexivity.
Qed.

Theorem half_sum_cell (phi : nat -> nat -> R) i : (i < nelem m)%nat ->
  rsum (fun fc => (if (f_left fc =? i)%nat then phi (f_a fc) (f_b fc) else 0) +
                  (if (f_right fc =? i)%nat then phi (f_b fc) (f_a fc) else 0)) F
  = rsum (fun f => phi (fst (edge (cell (cells m) i) f)) (snd (edge (cell (cells m) i) f))) (seq 0 (length (cell (cells m) i))).
Proof.
  intros Hi. pose proof (half_sum (fun k a b => if (k =? i)%nat then phi a b else 0)) as P. cbv beta in P.
  transitivity (rsum (fun fc => (if (f_left fc =? i)%nat then phi (f_a fc) (f_b fc) else 0) +
     (if (f_right fc <? nelem m)%nat then if (f_right fc =? i)%nat then phi (f_b fc) (f_a fc) else 0 else 0)) F).
  { apply rsum_ext. intros fc _. f_equal. destruct (Nat.ltb_spec (f_right fc) (nelem m)); auto. destruct (Nat.eqb_spec (f_right fc) i); auto. lia. }
  rewrite P. rewrite <- (rsum_single (fun k => rsum (fun f => phi (fst (edge (cell (cells m) k) f)) (snd (edge (cell (cells m) k) f))) (seq 0 (length (cell (cells m) k)))) (nelem m) i Hi).
  apply rsum_ext. intros k _. destruct (Nat.eqb_spec k i); auto. apply rsum_zero. auto.
Qed.
End Half.

Lemma face_points m hs F il : tiled m hs -> face_ranges m hs F il -> forall fc, In fc F ->
  exists i f, (i < nelem m)%nat /\ (f < length (cell (cells m) i))%nat /\ i = f_left fc /\ (f_a fc, f_b fc) = edge (cell (cells m) i) f.
Proof.
  intros T HR fc Hfc. destruct (origin_of m hs F il T HR fc (f_left fc) (f_a fc, f_b fc) Hfc) as (f & Hi & Hf & E & _). left; reflexivity.
  exists (f_left fc), f. auto.
Qed.
Lemma edge_in np cs i f : valid_cells np cs -> (i < length cs)%nat -> (f < length (cell cs i))%nat ->
  In (fst (edge (cell cs i) f)) (cell cs i) /\ In (snd (edge (cell cs i) f)) (cell cs i).
Proof.
  intros Hv Hi Hf. destruct (cell_valid np cs i Hv Hi) as (N & _). split; cbn; apply nth_In; auto. apply next_lt; auto.
Qed.

(** the list sums as sums over face indices *)
Lemma rsum_alist {A} (g : A -> R) (a : arr A) : rsum g (alist a) = rsum (fun k => g (aat a k)) (seq 0 (alen a)).
Proof. unfold alist. rewrite rsum_map. reflexivity. Qed.

Definition outward (i : nat) (fc : face) (M : fmet) : v2 :=
  if (f_left fc =? i)%nat then vscal (fm_len M) (fm_n M)
  else if (f_right fc =? i)%nat then vneg (vscal (fm_len M) (fm_n M)) else vzero.

Lemma closed m hs X F il M i : tiled m hs -> face_ranges m hs (alist F) il -> (i < nelem m)%nat ->
  (forall i f, (i < nelem m)%nat -> (f < length (cell (cells m) i))%nat ->
     aat X (fst (edge (cell (cells m) i) f)) <> aat X (snd (edge (cell (cells m) i) f))) ->
  (forall k, (k < alen F)%nat -> aat M k = face_metric (aat X (f_a (aat F k))) (aat X (f_b (aat F k)))) ->
  vsum (fun k => outward i (aat F k) (aat M k)) (seq 0 (alen F)) = vzero.
Proof.
  intros T HR Hi HX HM.
  assert (FL : forall k, (k < alen F)%nat -> f_left (aat F k) <> f_right (aat F k) /\ aat X (f_a (aat F k)) <> aat X (f_b (aat F k))).
  { intros k Hk. assert (Hin : In (aat F k) (alist F)) by (unfold alist; apply in_map; apply in_seq; lia).
    destruct (face_points m hs _ il T HR _ Hin) as (j & f & Hj & Hf & El & Ee). split.
    - intros E. pose proof (halves_perm m hs _ il T HR) as P.
      assert (Hr : (f_right (aat F k) < nelem m)%nat) by lia.
      destruct (origin_of m hs _ il T HR (aat F k) (f_left (aat F k)) (f_b (aat F k), f_a (aat F k)) Hin) as (g & _ & Hg & Eg & _).
      { unfold halves. destruct (Nat.ltb_spec (f_right (aat F k)) (nelem m)); [|lia]. right; left. rewrite E. reflexivity. }
      rewrite <- El in *. destruct T as [[Hv _ _ _ _] _ _ _ _ _]. destruct (cell_valid _ _ j Hv Hj) as (N3 & ND & _).
      assert (f = g). { apply (edge_unique (cell (cells m) j)); auto. right. rewrite <- Ee, <- Eg. reflexivity. } subst g.
      pose proof (edge_distinct (cell (cells m) j) f N3 ND Hf) as D. rewrite <- Ee in Eg. inversion Eg. rewrite <- Ee in D. cbn in D. congruence.
    - replace (f_a (aat F k)) with (fst (edge (cell (cells m) j) f)) by (rewrite <- Ee; reflexivity).
      replace (f_b (aat F k)) with (snd (edge (cell (cells m) j) f)) by (rewrite <- Ee; reflexivity). apply HX; auto. }
  assert (G : forall c : v2 -> R, (forall x y, c (vadd x y) = c x + c y) -> (forall k x, c (vscal k x) = k * c x) ->
     rsum (fun k => c (outward i (aat F k) (aat M k))) (seq 0 (alen F)) = 0).
  { intros c Ca Cs.
    assert (Cn : forall x, c (vneg x) = - c x). { intros x. replace (vneg x) with (vscal (-1) x) by (unfold vneg, vscal; f_equal; ring). rewrite Cs. lra. }
    assert (C0 : c vzero = 0). { replace vzero with (vscal 0 vzero) by (unfold vscal, vzero; f_equal; cbn; ring). rewrite Cs. lra. }
    pose (phi := fun a b => c (rot_right (vsub (aat X b) (aat X a)))).
    transitivity (rsum (fun fc => (if (f_left fc =? i)%nat then phi (f_a fc) (f_b fc) else 0) +
                  (if (f_right fc =? i)%nat then phi (f_b fc) (f_a fc) else 0)) (alist F)).
    { rewrite rsum_alist. apply rsum_ext. intros k Hk. apply in_seq in Hk. destruct (FL k ltac:(lia)) as (F1 & F2).
      unfold outward. rewrite HM by lia. rewrite metric_scaled by auto. unfold phi.
      destruct (Nat.eqb_spec (f_left (aat F k)) i); destruct (Nat.eqb_spec (f_right (aat F k)) i); try lra; try congruence.
      rewrite Rplus_0_l. f_equal. unfold vneg, rot_right, vsub; cbn. f_equal; ring. }
    rewrite (half_sum_cell m hs _ il T HR phi i Hi).
    assert (T' := T). destruct T' as [[Hv _ _ _ _] _ _ _ _ _]. destruct (cell_valid _ _ i Hv Hi) as (N3 & _).
    pose proof (sides_diff (fun p => c (rot_right p)) (map (aat X) (cell (cells m) i))) as D.
    rewrite sides_edges in D by lia. rewrite rsum_map in D. cbn [fst snd] in D. rewrite <- D. apply rsum_ext. intros f _.
    unfold phi. replace (rot_right (vsub (aat X (snd (edge (cell (cells m) i) f))) (aat X (fst (edge (cell (cells m) i) f)))))
      with (vadd (rot_right (aat X (snd (edge (cell (cells m) i) f)))) (vscal (-1) (rot_right (aat X (fst (edge (cell (cells m) i) f)))))).
    rewrite Ca, Cs. lra. unfold vadd, vscal, rot_right, vsub; cbn. f_equal; ring. }
  apply v2_eq; cbn.
  - apply (G vx); reflexivity.
  - apply (G vy); reflexivity.
Qed.

(** total area from the outer faces *)
Lemma total_area m hs F il (X : nat -> v2) : tiled m hs -> face_ranges m hs F il ->
  rsum (fun i => polygon_area (map X (cell (cells m) i))) (seq 0 (nelem m))
  = rsum (fun fc => if (f_right fc <? nelem m)%nat then 0 else / 2 * cross (X (f_a fc)) (X (f_b fc))) F.
Proof.
  intros T HR. pose proof (half_sum m hs F il T HR (fun _ a b => / 2 * cross (X a) (X b))) as P. cbv beta in P.
  transitivity (rsum (fun i => rsum (fun f => / 2 * cross (X (fst (edge (cell (cells m) i) f))) (X (snd (edge (cell (cells m) i) f))))
     (seq 0 (length (cell (cells m) i)))) (seq 0 (nelem m))).
  - apply rsum_ext. intros i Hi. apply in_seq in Hi. assert (T' := T). destruct T' as [[Hv _ _ _ _] _ _ _ _ _].
    destruct (cell_valid _ _ i Hv) as (N3 & _). unfold nelem in Hi; lia. unfold polygon_area. rewrite sides_edges by lia.
    rewrite rsum_map, rsum_scal. reflexivity.
  - rewrite <- P. apply rsum_ext. intros fc _. destruct (f_right fc <? nelem m)%nat; unfold cross; lra.
Qed.

(** convexity and positive area *)
Lemma tri_pos a b c : left_of a b c -> 0 < polygon_area [a; b; c].
Proof. unfold left_of, polygon_area, cross, vsub; cbn. lra. Qed.
Lemma quad_pos a b c d : left_of a b c -> left_of a c d -> 0 < polygon_area [a; b; c; d].
Proof. unfold left_of, polygon_area, cross, vsub; cbn. lra. Qed.

(** ** cell centres *)
Lemma vsum_nth (c : list nat) (X : nat -> v2) k : (k < length c)%nat ->
  vsum X (firstn (S k) c) = vadd (vsum X (firstn k c)) (X (nth k c 0%nat)).
Proof.
  revert k. induction c as [|a c IH]; intros k Hk; [cbn in Hk; lia|]. destruct k as [|k].
  - cbn. unfold vadd, vsum; cbn. f_equal; lra.
  - cbn in Hk. specialize (IH k ltac:(lia)). cbn [firstn nth]. unfold vsum, vadd in *. cbn in *. inversion IH as [[H1 H2]].
    cbn [firstn] in *. rewrite H1, H2. f_equal; lra.
Qed.
Lemma centres_ok m X jc : (forall c, In c (cells m) -> forall v, In v c -> (v < alen X)%nat) ->
  exists C, compute_cell_centres m X jc = Some C /\ alen C = nelem m /\
    forall i, (i < nelem m)%nat -> let c := cell (cells m) i in
      aat C i = mkv (vx (vsum (aat X) c) / INR (length c)) (vy (vsum (aat X) c) / INR (length c)).
Proof.
  intros H. unfold compute_cell_centres.
  match goal with |- context [floop _ ?bb ?ss] =>
    destruct (floop_inv _ (fun i (C : arr v2) => alen C = nelem m /\ forall k, (k < i)%nat -> let c := cell (cells m) k in
       aat C k = mkv (vx (vsum (aat X) c) / INR (length c)) (vy (vsum (aat X) c) / INR (length c))) (nelem m) bb ss) as (C & E & L & I) end.
  - split; [reflexivity|]. intros; lia.
  - intros i C Hi (L & I). rewrite nnode_ok by auto. cbn [bind]. rewrite aset_ok by lia. cbn [bind].
    set (c := cell (cells m) i) in *.
    match goal with |- context [floop _ ?bb ?ss] =>
      destruct (floop_inv _ (fun j (D : arr v2) => alen D = nelem m /\ (forall k, (k <> i)%nat -> aat D k = aat C k) /\
         aat D i = vsum (aat X) (firstn j c)) (length c) bb ss) as (D & E & LD & K & ID) end.
    + cbn [alen aat]. split; auto. split. intros; apply upd_ne; auto. rewrite upd_eq. reflexivity.
    + intros j D Hj (LD & K & ID). rewrite inpoel_ok by auto. fold c. cbn [bind].
      assert (In (nth j c 0%nat) c) by (apply nth_In; auto).
      rewrite aget_ok by (apply (H c); [apply nth_In; auto|auto]). cbn [bind]. rewrite aget_ok by lia. cbn [bind]. rewrite aset_ok by lia.
      eexists; split; [reflexivity|]. cbn [alen aat]. split; auto. split. intros; rewrite upd_ne; auto.
      rewrite upd_eq, ID, Nat.add_1_r. symmetry. apply vsum_nth; auto.
    + rewrite E. cbn [bind]. rewrite aget_ok by lia. cbn [bind]. rewrite aset_ok by lia. eexists; split; [reflexivity|].
      cbn [alen aat]. split; auto. rewrite ID, firstn_all. intros k Hk. unfold upd. destruct (Nat.eqb_spec k i).
      * subst k. reflexivity.
      * rewrite K by auto. apply I. lia.
  - rewrite E. eauto.
Qed.
