(** Proofs about compute_elementsSurroundingPoints. *)
From Coq Require Import List Arith Lia ZArith Bool.
From Verif Require Import Base M_Mesh S_Mesh.
Import ListNotations.

(** The (point, cell) incidences in the order in which the code visits them. *)
Definition occs (cells : list (list nat)) : list (nat * nat) :=
  flat_map (fun i => map (fun v => (v, i)) (nth i cells [])) (seq 0 (length cells)).

Lemma ofold_nth : forall S (c : list nat) (b : nat -> S -> option S) s,
  ofold (fun j s => v <- nth_error c j ;; b v s) (seq 0 (length c)) s = ofold b c s.
Proof.
  intros S c b s.
  assert (E : c = map (fun j => nth j c 0) (seq 0 (length c))).
  { apply (nth_ext _ _ 0 0); [rewrite map_length, seq_length; auto|].
    intros n Hn. symmetry. rewrite (nth_indep _ 0 (nth 0 c 0)) by (rewrite map_length, seq_length; auto).
    rewrite map_nth with (f := fun j => nth j c 0). rewrite seq_nth by auto. reflexivity. }
  rewrite E at 2. rewrite ofold_map. apply ofold_ext. intros x s1 Hx. apply in_seq in Hx.
  rewrite (nth_error_nth' c 0) by lia. reflexivity.
Qed.

Lemma loop_occs : forall S (m : umesh) (b : nat -> nat -> S -> option S) s,
  floop (nelem m) (fun i s => n <- nnode m i ;; floop n (fun j s => v <- inpoel m i j ;; b v i s) s) s
  = ofold (fun o s => b (fst o) (snd o) s) (occs (cells m)) s.
Proof.
  intros. rewrite floop_seq. unfold occs. rewrite ofold_flat_map. apply ofold_ext.
  intros i s1 Hi. apply in_seq in Hi. unfold nelem in Hi.
  rewrite ofold_map. cbn [fst snd]. unfold nnode, inpoel.
  rewrite (nth_error_nth' (cells m) []) by lia. cbn [bind].
  rewrite floop_seq. apply ofold_nth.
Qed.

Section Buckets.
Variable occ : list (nat * nat).
Variable n : nat.
Hypothesis Hk : forall o, In o occ -> fst o < n.

Definition cnt (k : nat) (l : list (nat * nat)) := length (filter (fun o => fst o =? k) l).
Definition below (k : nat) (l : list (nat * nat)) := length (filter (fun o => fst o <? k) l).
Definition vals (k : nat) (l : list (nat * nat)) := map snd (filter (fun o => fst o =? k) l).

Lemma cnt_app : forall k l1 l2, cnt k (l1 ++ l2) = cnt k l1 + cnt k l2.
Proof. intros. unfold cnt. rewrite filter_app, app_length. reflexivity. Qed.
Lemma vals_app : forall k l1 l2, vals k (l1 ++ l2) = vals k l1 ++ vals k l2.
Proof. intros. unfold vals. rewrite filter_app, map_app. reflexivity. Qed.
Lemma cnt_snoc : forall k l v i, cnt k (l ++ [(v, i)]) = cnt k l + if v =? k then 1 else 0.
Proof. intros. rewrite cnt_app. f_equal. unfold cnt; cbn. destruct (v =? k); reflexivity. Qed.
Lemma vals_length : forall k l, length (vals k l) = cnt k l.
Proof. intros. unfold vals, cnt. rewrite map_length. reflexivity. Qed.
Lemma below_S : forall k l, below (k + 1) l = below k l + cnt k l.
Proof.
  intros k l. unfold below, cnt. induction l as [|[a b] l IH]; cbn [filter fst length]; [reflexivity|].
  destruct (Nat.ltb_spec a (k + 1)); destruct (Nat.ltb_spec a k); destruct (Nat.eqb_spec a k); cbn [length]; lia.
Qed.
Lemma below_0 : forall l, below 0 l = 0.
Proof. intros. unfold below. induction l; cbn; auto. Qed.
Lemma below_mono : forall j k l, j <= k -> below j l <= below k l.
Proof.
  intros j k l H. induction H; auto. rewrite <- Nat.add_1_r, below_S. lia.
Qed.
Lemma below_n : below n occ = length occ.
Proof.
  clear -Hk. unfold below. induction occ as [|o l IH]; cbn; auto.
  destruct (Nat.ltb_spec (fst o) n). cbn. f_equal. apply IH. intros; apply Hk; right; auto.
  exfalso. specialize (Hk o (or_introl eq_refl)). lia.
Qed.

(** first pass *)
Lemma count_pass : exists p, ofold (fun o p => x <- aget p (fst o + 1) ;; aset p (fst o + 1) (x + 1))
     occ (aconst (n + 1) 0) = Some p /\
  alen p = n + 1 /\ aat p 0 = 0 /\ forall k, k < n -> aat p (k + 1) = cnt k occ.
Proof.
  apply (ofold_inv _ _ (fun pre p => alen p = n + 1 /\ aat p 0 = 0 /\ forall k, k < n -> aat p (k + 1) = cnt k pre)).
  - cbn. auto.
  - intros pre [v i] post p El (L & Z0 & C). cbn [fst].
    assert (v < n) by (apply (Hk (v, i)); rewrite El; apply in_or_app; right; left; auto).
    rewrite aget_ok by lia. cbn [bind]. rewrite aset_ok by lia. eexists; split; [reflexivity|]. cbn [alen aat].
    split; [auto|]. split; [rewrite upd_ne by lia; auto|]. intros k Hkn. rewrite cnt_app. unfold cnt at 2; cbn.
    unfold upd. destruct (Nat.eqb_spec (k + 1) (v + 1)); destruct (Nat.eqb_spec v k); try lia; cbn.
    + subst v. rewrite C by auto. reflexivity.
    + rewrite C by auto. lia.
Qed.

(** cumulative sums *)
Lemma scan_pass : forall p, alen p = n + 1 -> aat p 0 = 0 -> (forall k, k < n -> aat p (k + 1) = cnt k occ) ->
  exists p', frange 1 (n + 1) (fun i p => x <- aget p i ;; y <- aget p (i - 1) ;; aset p i (x + y)) p = Some p' /\
  alen p' = n + 1 /\ forall k, k <= n -> aat p' k = below k occ.
Proof.
  intros p L Z0 C.
  destruct (frange_inv _ (fun i p => alen p = n + 1 /\ (forall k, k < i -> aat p k = below k occ) /\
     (forall k, i <= k + 1 -> k < n -> aat p (k + 1) = cnt k occ)) 1 (n + 1)
     (fun i p => x <- aget p i ;; y <- aget p (i - 1) ;; aset p i (x + y)) p) as (p' & E & I); [lia| | |].
  - split; [auto|]. split. { intros k Hk1. replace k with 0 by lia. rewrite below_0. auto. }
    intros; auto.
  - intros i q Hi (Lq & B & Cq). pose proof (below_S (i - 1) occ) as BS. replace (i - 1 + 1) with i in BS by lia. rewrite aget_ok by lia. cbn [bind]. rewrite aget_ok by lia. cbn [bind].
    rewrite aset_ok by lia. eexists; split; [reflexivity|]. cbn [alen aat]. split; [auto|]. split.
    + intros k Hki. unfold upd. destruct (Nat.eqb_spec k i).
      * subst k. rewrite (B (i - 1)) by lia. pose proof (Cq (i - 1) ltac:(lia) ltac:(lia)) as C1. replace (i - 1 + 1) with i in C1 by lia. rewrite C1. lia.
      * apply B. lia.
    + intros k H1 H2. rewrite upd_ne by lia. apply Cq; lia.
  - exists p'. split; [auto|]. destruct I as (L' & B & _). split; auto. intros. apply B. lia.
Qed.

Lemma slots_disjoint : forall k v r, k <> v -> k < n -> v < n -> r < cnt k occ ->
  forall r', r' < cnt v occ -> below k occ + r <> below v occ + r'.
Proof.
  intros. assert (k + 1 <= v \/ v + 1 <= k) as [L|L] by lia.
  - pose proof (below_mono _ _ occ L). rewrite below_S in H4. lia.
  - pose proof (below_mono _ _ occ L). rewrite below_S in H4. lia.
Qed.

(** filling pass *)
Lemma fill_pass : forall p, alen p = n + 1 -> (forall k, k <= n -> aat p k = below k occ) ->
  exists s, ofold (fun o s => x <- aget (fst s) (fst o) ;; e <- aset (snd s) x (snd o) ;;
                              p <- aset (fst s) (fst o) (x + 1) ;; Some (p, e))
     occ (p, aconst (length occ) 0) = Some s /\
  alen (fst s) = n + 1 /\ alen (snd s) = length occ /\
  (forall k, k < n -> aat (fst s) k = below (k + 1) occ) /\
  (forall k r, k < n -> r < cnt k occ -> aat (snd s) (below k occ + r) = nth r (vals k occ) 0).
Proof.
  intros p L B.
  destruct (ofold_inv _ _ (fun pre s => alen (fst s) = n + 1 /\ alen (snd s) = length occ /\
    (forall k, k < n -> aat (fst s) k = below k occ + cnt k pre) /\
    (forall k r, k < n -> r < cnt k pre -> aat (snd s) (below k occ + r) = nth r (vals k pre) 0))
    (fun o s => x <- aget (fst s) (fst o) ;; e <- aset (snd s) x (snd o) ;;
                              p <- aset (fst s) (fst o) (x + 1) ;; Some (p, e))
     occ (p, aconst (length occ) 0)) as (s & E & I).
  - cbn. split; [auto|]. split; [auto|]. split. { intros. rewrite B by lia. lia. } intros; lia.
  - intros pre [v i] post [q e] El (Lq & Le & P & V). cbn [fst snd] in *.
    assert (Hv : v < n) by (apply (Hk (v, i)); rewrite El; apply in_or_app; right; left; auto).
    assert (Hc : cnt v pre < cnt v occ).
    { rewrite El, cnt_app. unfold cnt at 3; cbn. rewrite Nat.eqb_refl. cbn. lia. }
    assert (Hle : forall k, cnt k pre <= cnt k occ) by (intros k; rewrite El, cnt_app; lia).
    assert (Hb : below v occ + cnt v pre < length occ).
    { rewrite <- below_n. assert (v + 1 <= n) by lia. pose proof (below_mono _ _ occ H). rewrite below_S in H0. lia. }
    rewrite aget_ok by lia. cbn [bind]. rewrite P by auto. rewrite aset_ok by lia. cbn [bind].
    rewrite aset_ok by lia. cbn [bind]. eexists; split; [reflexivity|]. cbn [fst snd alen aat].
    split; [auto|]. split; [auto|]. split.
    + intros k Hkn. rewrite cnt_snoc. unfold upd.
      destruct (Nat.eqb_spec k v); destruct (Nat.eqb_spec v k); try lia; cbn.
      * subst. lia.
      * rewrite P by auto. lia.
    + intros k r Hkn. rewrite cnt_snoc, vals_app. unfold vals at 2. cbn.
      destruct (Nat.eqb_spec v k); cbn; intros Hr.
      * subst k. unfold upd. destruct (Nat.eqb_spec (below v occ + r) (below v occ + cnt v pre)).
        -- replace r with (length (vals v pre)) by (rewrite vals_length; lia). rewrite nth_middle. reflexivity.
        -- rewrite app_nth1 by (rewrite vals_length; lia). apply V; lia.
      * rewrite Nat.add_0_r in Hr. rewrite upd_ne.
        -- rewrite app_nil_r. apply V; auto.
        -- apply slots_disjoint; auto. specialize (Hle k). lia.
  - exists s. split; [auto|]. destruct I as (A1 & A2 & A3 & A4). repeat split; auto.
    intros. rewrite A3, below_S by auto. reflexivity.
Qed.

(** shifting back *)
Lemma shift_pass : forall p, alen p = n + 1 -> (forall k, k < n -> aat p k = below (k + 1) occ) ->
  exists p', (p4 <- floop n (fun k p => let i := n - k in x <- aget p (i - 1) ;; aset p i x) p ;; aset p4 0 0)
    = Some p' /\ alen p' = n + 1 /\ forall k, k <= n -> aat p' k = below k occ.
Proof.
  intros p L B.
  destruct (floop_inv _ (fun j q => alen q = n + 1 /\ (forall k, k < n - j -> aat q k = below (k + 1) occ) /\
    (forall k, n - j < k -> k <= n -> aat q k = below k occ)) n
    (fun k p => let i := n - k in x <- aget p (i - 1) ;; aset p i x) p) as (q & E & L' & _ & B').
  - split; auto. split; [intros; apply B; lia|]. intros; lia.
  - intros j q Hj (Lq & Lo & Hi). cbv zeta. rewrite aget_ok by lia. cbn [bind]. rewrite aset_ok by lia.
    eexists; split; [reflexivity|]. cbn [alen aat]. split; [auto|]. split.
    + intros k Hk1. rewrite upd_ne by lia. apply Lo. lia.
    + intros k Hk1 Hk2. unfold upd. destruct (Nat.eqb_spec k (n - j)).
      * rewrite Lo by lia. f_equal. lia.
      * apply Hi; lia.
  - rewrite E. cbn [bind]. rewrite aset_ok by lia. eexists; split; [reflexivity|]. cbn [alen aat]. split; auto.
    intros k Hk1. unfold upd. destruct (Nat.eqb_spec k 0). subst; rewrite below_0; auto. apply B'; lia.
Qed.
End Buckets.

Lemma vals_occs : forall k cs, vals k (occs cs) = cells_around cs k.
Proof.
  intros k cs. unfold occs, cells_around.
  induction (seq 0 (length cs)) as [|i l IH]; [reflexivity|].
  cbn [flat_map]. rewrite vals_app, IH. f_equal.
  induction (nth i cs []) as [|v c IHc]; [reflexivity|].
  unfold vals in *. cbn. destruct (Nat.eqb_spec v k); destruct (Nat.eq_dec v k); try lia; cbn.
  - rewrite IHc. reflexivity.
  - apply IHc.
Qed.

Lemma occs_bound : forall n cs, (forall c v, In c cs -> In v c -> v < n) ->
  forall o, In o (occs cs) -> fst o < n.
Proof.
  intros n cs H o Ho. unfold occs in Ho. apply in_flat_map in Ho. destruct Ho as (i & Hi & Ho).
  apply in_map_iff in Ho. destruct Ho as (v & E & Hv). subst o. cbn. apply in_seq in Hi.
  apply (H (nth i cs [])); auto. apply nth_In. lia.
Qed.

Definition esup_ok (np : nat) (cs : list (list nat)) (p e : arr nat) : Prop :=
  alen p = np + 1 /\ aat p 0 = 0 /\ alen e = aat p np /\
  (forall k, k < np -> aat p (k + 1) = aat p k + length (cells_around cs k)) /\
  (forall k, k < np -> aslice e (aat p k) (aat p (k + 1)) = cells_around cs k).

Lemma esup_correct : forall m, (forall c v, In c (cells m) -> In v c -> v < npoin m) ->
  exists p e, elementsSurroundingPoints m = Some (p, e) /\ esup_ok (npoin m) (cells m) p e.
Proof.
  intros m H. pose proof (occs_bound (npoin m) (cells m) H) as Hb.
  unfold elementsSurroundingPoints. cbv zeta.
  rewrite (loop_occs _ m (fun v i p => x <- aget p (v + 1) ;; aset p (v + 1) (x + 1))).
  destruct (count_pass (occs (cells m)) (npoin m) Hb) as (p1 & E1 & L1 & Z1 & C1). rewrite E1. cbn [bind].
  destruct (scan_pass (occs (cells m)) (npoin m) p1 L1 Z1 C1) as (p2 & E2 & L2 & B2). rewrite E2. cbn [bind].
  rewrite aget_ok by lia. cbn [bind]. rewrite B2 by lia. rewrite below_n by exact Hb.
  rewrite (loop_occs _ m (fun ipoin i s => x <- aget (fst s) ipoin ;; e <- aset (snd s) x i ;;
            p <- aset (fst s) ipoin (x + 1) ;; Some (p, e))).
  destruct (fill_pass (occs (cells m)) (npoin m) Hb p2 L2 B2) as ([p3 e] & E3 & L3 & Le & B3 & V3).
  cbn [fst snd] in *. rewrite E3. cbn [bind fst snd].
  destruct (shift_pass (occs (cells m)) (npoin m) p3 L3 B3) as (p5 & E5 & L5 & B5).
  rewrite <- bind_assoc. cbv zeta in E5. rewrite E5. cbn [bind].
  exists p5, e. split; [reflexivity|]. unfold esup_ok. split; [auto|].
  split; [rewrite B5 by lia; apply below_0|]. split; [rewrite B5 by lia; rewrite below_n; auto|].
  assert (Lc : forall k, k < npoin m -> aat p5 (k + 1) = aat p5 k + length (cells_around (cells m) k)).
  { intros k Hk. rewrite !B5 by lia. rewrite below_S. rewrite <- vals_occs, vals_length. reflexivity. }
  split; [exact Lc|].
  intros k Hk. rewrite Lc by auto. unfold aslice.
  replace (aat p5 k + length (cells_around (cells m) k) - aat p5 k) with (length (cells_around (cells m) k)) by lia.
  apply (nth_ext _ _ 0 0). { rewrite map_length, seq_length. reflexivity. }
  intros r Hr. rewrite map_length, seq_length in Hr.
  rewrite (nth_indep _ 0 (aat e 0)) by (rewrite map_length, seq_length; auto).
  rewrite map_nth, seq_nth by auto. rewrite B5 by lia. rewrite V3; auto.
  - rewrite vals_occs. reflexivity.
  - rewrite <- vals_length, vals_occs. auto.
Qed.
