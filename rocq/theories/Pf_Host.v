(** Proofs about the search for the host cell of a boundary face and about its orientation. *)
From Coq Require Import List Arith Lia ZArith Bool Sorted.
From Verif Require Import Base M_Mesh S_Mesh Pf_Esup Pf_Esuel.
Import ListNotations.

Lemma ss_seq : forall n k, StronglySorted lt (seq k n).
Proof.
  induction n; intros; cbn; constructor; auto. apply Forall_forall. intros x Hx. apply in_seq in Hx. lia.
Qed.
Lemma ss_filter : forall (f : nat -> bool) l, StronglySorted lt l -> StronglySorted lt (filter f l).
Proof.
  induction l as [|x l IH]; intros H; cbn; auto. inversion H; subst. destruct (f x); auto.
  constructor; auto. apply Forall_forall. intros y Hy. apply filter_In in Hy. rewrite Forall_forall in H3. apply H3, Hy.
Qed.

Lemma cells_around_filter : forall np cs p, valid_cells np cs ->
  cells_around cs p = filter (fun i => existsb (Nat.eqb p) (cell cs i)) (seq 0 (length cs)).
Proof.
  intros np cs p Hv. unfold cells_around.
  assert (G : forall l, (forall i, In i l -> i < length cs) ->
    flat_map (fun i => repeat i (count_occ Nat.eq_dec (nth i cs []) p)) l
     = filter (fun i => existsb (Nat.eqb p) (cell cs i)) l).
  { induction l as [|i l IH]; intros Hl; auto. cbn [flat_map filter]. rewrite IH by (intros; apply Hl; right; auto).
    destruct (cell_valid np cs i Hv) as (_ & Dd & _). { apply Hl; left; auto. }
    assert (NC := proj1 (NoDup_count_occ Nat.eq_dec _) Dd p).
    change (nth i cs []) with (cell cs i). destruct (existsb (Nat.eqb p) (cell cs i)) eqn:B.
    - apply existsb_exists in B. destruct B as (v & Hin & E). apply Nat.eqb_eq in E. subst v.
      apply (count_occ_In Nat.eq_dec) in Hin. replace (count_occ Nat.eq_dec (cell cs i) p) with 1 by lia. reflexivity.
    - assert (count_occ Nat.eq_dec (cell cs i) p = 0) as ->; [|reflexivity].
      apply count_occ_not_In. intros Hin. assert (existsb (Nat.eqb p) (cell cs i) = true); [|congruence].
      apply existsb_exists. exists p. split; auto. apply Nat.eqb_refl. }
  apply G. intros i Hi. apply in_seq in Hi. lia.
Qed.
Lemma cells_around_sorted : forall np cs p, valid_cells np cs -> StronglySorted lt (cells_around cs p).
Proof. intros. rewrite (cells_around_filter np) by auto. apply ss_filter, ss_seq. Qed.

Lemma sort_id : forall l, StronglySorted lt l -> sort l = l.
Proof.
  unfold sort. induction l as [|x l IH]; intros H; auto. inversion H; subst. cbn [fold_right]. rewrite IH by auto.
  destruct l as [|y r]; auto. cbn. inversion H3; subst. destruct (Nat.leb_spec x y); auto. lia.
Qed.

Lemma inter_ss : forall l1 l2, StronglySorted lt l1 -> StronglySorted lt l2 ->
  StronglySorted lt (set_intersection l1 l2) /\ (forall z, In z (set_intersection l1 l2) <-> In z l1 /\ In z l2).
Proof.
  induction l1 as [|x r1 IH]; intros l2 H1 H2.
  - cbn. split; [constructor|]. tauto.
  - inversion H1 as [|? ? S1 F1]; subst. rewrite Forall_forall in F1.
    induction l2 as [|y r2 IH2].
    + cbn. split; [constructor|]. tauto.
    + inversion H2 as [|? ? S2 F2]; subst. rewrite Forall_forall in F2.
      cbn. destruct (Nat.ltb_spec x y) as [L|L]; [|destruct (Nat.ltb_spec y x) as [L2|L2]].
      * destruct (IH (y :: r2) S1 H2) as (A & B). split; auto. intros z. rewrite B. cbn.
        split; [tauto|]. intros [[E|Hz] Hz2]; [|auto]. subst z. exfalso. destruct Hz2 as [E|E]; [lia|]. apply F2 in E. lia.
      * destruct (IH2 S2) as (A & B). split; auto. intros z. specialize (B z). cbn in B. rewrite B.
        split; [tauto|]. intros [Hz [E|Hz2]]; [|tauto]. subst z. exfalso. destruct Hz as [E|E]; [lia|]. apply F1 in E. lia.
      * assert (x = y) by lia. subst y. destruct (IH r2 S1 S2) as (A & B). split.
        -- constructor; auto. apply Forall_forall. intros z Hz. apply B in Hz. apply F1, Hz.
        -- intros z. cbn. rewrite B. split; [tauto|]. intros [[E|Hz] [E2|Hz2]]; auto.
Qed.

Lemma nbdelems_ok : forall np cs p e v, valid_cells np cs -> esup_ok np cs p e -> v < np ->
  nbdelems p e v = Some (cells_around cs v).
Proof.
  intros np cs p e v Hv Hes Hp. pose proof (esup_ok_range _ _ _ _ v Hes Hp) as Rg.
  pose proof Hes as (L & _ & Le & _ & SL). unfold nbdelems. rewrite !aget_ok by lia. cbn [bind].
  destruct (frange_inv _ (fun k l => l = aslice e (aat p v) k) (aat p v) (aat p (v + 1))
     (fun isup l => x <- aget e isup ;; Some (l ++ [x])) []) as (l & El & I).
  - lia.
  - unfold aslice. rewrite Nat.sub_diag. reflexivity.
  - intros i l Hi ->. rewrite aget_ok by lia. cbn [bind]. eexists; split; [reflexivity|].
    unfold aslice. replace (i + 1 - aat p v) with (S (i - aat p v)) by lia. rewrite seq_S, map_app. cbn. repeat f_equal. lia.
  - rewrite El. cbn [bind]. rewrite I, SL by auto. rewrite sort_id; auto. apply (cells_around_sorted np); auto.
Qed.

Lemma getFaceEIndex_ok : forall m a b i f, valid_cells (npoin m) (cells m) -> i < nelem m ->
  f < length (cell (cells m) i) -> same_edge (a, b) (edge (cell (cells m) i) f) ->
  getFaceEIndex m a b i = Some (Some f).
Proof.
  intros m a b i f Hv Hi Hf Se. destruct (cell_valid _ _ i Hv Hi) as (Ni & Di & Bi).
  set (c := cell (cells m) i) in *.
  unfold getFaceEIndex. rewrite nnode_ok by auto. cbn [bind]. fold c.
  set (q := fun k => ((a =? nth k c 0) || (b =? nth k c 0)) &&
                     ((a =? nth ((k + 1) mod length c) c 0) || (b =? nth ((k + 1) mod length c) c 0))).
  assert (Hq : forall k, k < length c -> (q k = true <-> same_edge (a, b) (edge c k))).
  { intros k Hk. pose proof (edge_distinct c k Ni Di Hk) as De. pose proof (edge_distinct c f Ni Di Hf) as Df.
    unfold q. change (nth k c 0) with (fst (edge c k)). change (nth ((k + 1) mod length c) c 0) with (snd (edge c k)).
    assert (Hab : a <> b). { destruct (edge c f). unfold same_edge in Se. cbn in *. destruct Se as [Se|Se]; inversion Se; subst; auto. }
    unfold same_edge. destruct (edge c k) as [x y]. cbn in *.
    rewrite andb_true_iff, !orb_true_iff, !Nat.eqb_eq. split.
    - intros [[E|E] [E2|E2]]; subst; try congruence; auto.
    - intros [E|E]; inversion E; subst; auto. }
  destruct (ofind_spec (length c) (fun ifael =>
    k0 <- getNodeEIndex m i ifael 0 ;; v0 <- inpoel m i k0 ;;
    if (a =? v0) || (b =? v0) then
      k1 <- getNodeEIndex m i ifael 1 ;; v1 <- inpoel m i k1 ;;
      Some ((a =? v1) || (b =? v1))
    else Some false) q) as [(k & Hk & Qk & _ & E)|(N & _)].
  - intros k Hk. unfold getNodeEIndex. rewrite nnode_ok by auto. cbn [bind]. fold c.
    rewrite Nat.add_0_r, Nat.mod_small by auto. rewrite inpoel_ok by auto. cbn [bind]. fold c. unfold q.
    destruct ((a =? nth k c 0) || (b =? nth k c 0)); cbn [andb]; auto.
    rewrite inpoel_ok by (auto; apply next_lt; auto). reflexivity.
  - rewrite E. do 2 f_equal. apply (edge_unique c); auto. apply Hq in Qk; auto.
    apply same_edge_trans with (a, b); auto. apply same_edge_sym; auto.
  - exfalso. specialize (N f Hf). apply (proj2 (Hq f Hf)) in Se. congruence.
Qed.

Section Host.
Variable m : umesh.
Hypothesis Hv : valid_cells (npoin m) (cells m).
Variables p e : arr nat.
Hypothesis Hes : esup_ok (npoin m) (cells m) p e.

Lemma inter_both : forall a b, StronglySorted lt (set_intersection (cells_around (cells m) b) (cells_around (cells m) a)) /\
  forall j, In j (set_intersection (cells_around (cells m) b) (cells_around (cells m) a)) <-> has_both (cells m) a b j.
Proof.
  intros a b. destruct (inter_ss (cells_around (cells m) b) (cells_around (cells m) a)) as (A & B);
    try (apply (cells_around_sorted (npoin m)); auto).
  split; auto. intros j. rewrite B, !cells_around_in. unfold has_both. tauto.
Qed.

Lemma host_one : forall bf i f, b0 bf < npoin m -> b1 bf < npoin m -> hosted (cells m) (b0 bf) (b1 bf) i f ->
  phyBFaceNeighboringElement m p e bf = Some (Val (i, Some f)).
Proof.
  intros bf i f H0 H1 (Hi & Hf & Se & U). unfold phyBFaceNeighboringElement.
  rewrite !(nbdelems_ok (npoin m) (cells m)) by auto. cbn [lift ebind]. cbv zeta.
  destruct (inter_both (b0 bf) (b1 bf)) as (SS & IN).
  destruct (set_intersection (cells_around (cells m) (b1 bf)) (cells_around (cells m) (b0 bf))) as [|h l].
  - exfalso. apply (IN i). split; auto.
    destruct (cell_valid _ _ i Hv Hi) as (Ni & Di & Bi).
    unfold edge in Se. destruct Se as [Se|Se]; cbn in Se; inversion Se as [[Q1 Q2]]; rewrite Q1, Q2; split; apply nth_In; auto; apply next_lt; auto.
  - assert (h = i) by (apply U; apply IN; left; auto). subst h.
    assert (l = []) as ->.
    { destruct l as [|z l]; auto. exfalso. assert (z = i) by (apply U; apply IN; right; left; auto). subst z.
      inversion SS as [|? ? ? Fa]; subst. inversion Fa; subst. lia. }
    cbn [length]. change (1 <? 1) with false. cbn [lift].
    rewrite (getFaceEIndex_ok m _ _ i f) by auto. reflexivity.
Qed.

(** no host: undefined behaviour; more than one cell around both points: exception *)
Lemma host_none : forall bf, b0 bf < npoin m -> b1 bf < npoin m ->
  (forall j, ~ has_both (cells m) (b0 bf) (b1 bf) j) -> phyBFaceNeighboringElement m p e bf = None.
Proof.
  intros bf H0 H1 N. unfold phyBFaceNeighboringElement.
  rewrite !(nbdelems_ok (npoin m) (cells m)) by auto. cbn [lift ebind]. cbv zeta.
  destruct (inter_both (b0 bf) (b1 bf)) as (SS & IN).
  destruct (set_intersection (cells_around (cells m) (b1 bf)) (cells_around (cells m) (b0 bf))) as [|h l].
  - reflexivity.
  - exfalso. apply (N h). apply IN. left; auto.
Qed.
Lemma host_many : forall bf i j, b0 bf < npoin m -> b1 bf < npoin m -> i <> j ->
  has_both (cells m) (b0 bf) (b1 bf) i -> has_both (cells m) (b0 bf) (b1 bf) j ->
  phyBFaceNeighboringElement m p e bf = Some Exn.
Proof.
  intros bf i j H0 H1 Hij Bi Bj. unfold phyBFaceNeighboringElement.
  rewrite !(nbdelems_ok (npoin m) (cells m)) by auto. cbn [lift ebind]. cbv zeta.
  destruct (inter_both (b0 bf) (b1 bf)) as (SS & IN). apply IN in Bi, Bj.
  destruct (set_intersection (cells_around (cells m) (b1 bf)) (cells_around (cells m) (b0 bf))) as [|h [|h2 l]].
  - destruct Bi.
  - destruct Bi as [Bi|[]]; destruct Bj as [Bj|[]]; congruence.
  - reflexivity.
Qed.

(** each boundary face has its host in the given list *)
Definition hosts_ok (hs : list (nat * nat)) : Prop :=
  length hs = nbface m /\
  forall k bf h, nth_error (bfaces m) k = Some bf -> nth_error hs k = Some h ->
    b0 bf < npoin m /\ b1 bf < npoin m /\ hosted (cells m) (b0 bf) (b1 bf) (fst h) (snd h).

Lemma nth_error_some : forall A (l : list A) k, k < length l -> exists x, nth_error l k = Some x.
Proof. intros A l k H. destruct (nth_error l k) eqn:E; eauto. apply nth_error_None in E. lia. Qed.

Lemma hosts_all : forall hs, hosts_ok hs ->
  phyBFaceNeighboringElements m p e = Some (Val (map (fun h => (fst h, Some (snd h))) hs)).
Proof.
  intros hs (L & H). unfold phyBFaceNeighboringElements.
  destruct (eloop_inv _ (fun k l => l = map (fun h => (fst h, Some (snd h))) (firstn k hs)) (nbface m)
    (fun iface l => bf <-- lift (nth_error (bfaces m) iface) ;;
    r <-- phyBFaceNeighboringElement m p e bf ;; Some (Val (l ++ [r]))) []) as (l & E & I).
  - reflexivity.
  - intros k l Hk ->. destruct (nth_error_some _ (bfaces m) k Hk) as (bf & Eb).
    destruct (nth_error_some _ hs k) as (h & Eh); [lia|]. rewrite Eb. cbn [lift ebind].
    destruct (H k bf h Eb Eh) as (B0 & B1 & Hh). rewrite (host_one bf (fst h) (snd h)) by auto. cbn [ebind].
    eexists; split; [reflexivity|]. rewrite Nat.add_1_r.
    assert (EF : firstn (S k) hs = firstn k hs ++ [h]).
    { clear -Eh. revert hs Eh. induction k; intros [|x hs] Eh; cbn in *; try discriminate.
      - inversion Eh; auto. - f_equal. apply IHk; auto. }
    rewrite EF, map_app. reflexivity.
  - rewrite E, I. rewrite firstn_all2 by lia. reflexivity.
Qed.

End Host.

(** orientation *)
Definition orient (c : list nat) (f : nat) (bf : bfrec) : bfrec :=
  mkbf (fst (edge c f)) (snd (edge c f)) (btg bf).

Lemma correct_orientation : forall m hs, valid_cells (npoin m) (cells m) -> hosts_ok m hs ->
  exists bl, correctBoundaryFaceOrientation m = Some (Val (mkmesh (npoin m) (cells m) (maxnfael m) bl (conns m))) /\
    length bl = nbface m /\
    forall k bf h, nth_error (bfaces m) k = Some bf -> nth_error hs k = Some h ->
      nth_error bl k = Some (orient (cell (cells m) (fst h)) (snd h) bf).
Proof.
  intros m hs Hv Hh. destruct (esup_correct m) as (p & e & E & Hes).
  { intros c v Hc Hvv. apply (Hv c Hc). auto. }
  unfold correctBoundaryFaceOrientation. rewrite E. cbn [lift ebind fst snd].
  rewrite (hosts_all m Hv p e Hes hs Hh). cbn [ebind].
  destruct (floop_inv _ (fun n l => length l = n /\ forall k bf h, k < n -> nth_error (bfaces m) k = Some bf ->
     nth_error hs k = Some h -> nth_error l k = Some (orient (cell (cells m) (fst h)) (snd h) bf)) (nbface m)
     (fun iface l =>
    bf <- nth_error (bfaces m) iface ;;
    h <- nth_error (map (fun h => (fst h, Some (snd h))) hs) iface ;; eface <- snd h ;;
    k0 <- getNodeEIndex m (fst h) eface 0 ;; v0 <- inpoel m (fst h) k0 ;;
    k1 <- getNodeEIndex m (fst h) eface 1 ;; v1 <- inpoel m (fst h) k1 ;;
    Some (l ++ [if negb (v0 =? b0 bf) || negb (v1 =? b1 bf)
                then mkbf (b1 bf) (b0 bf) (btg bf) else bf])) []) as (l & El & Ll & I).
  - split; auto. intros; lia.
  - intros k l Hk (Ll & I). destruct Hh as (Lh & Hh).
    destruct (nth_error_some _ (bfaces m) k Hk) as (bf & Eb).
    destruct (nth_error_some _ hs k) as (h & Eh); [lia|]. rewrite Eb. cbn [bind].
    rewrite (map_nth_error _ _ _ Eh). cbn [bind fst snd].
    destruct (Hh k bf h Eb Eh) as (B0 & B1 & Hi & Hf & Se & U).
    destruct (cell_valid _ _ (fst h) Hv Hi) as (Ni & Di & Bi). set (c := cell (cells m) (fst h)) in *.
    unfold getNodeEIndex. rewrite nnode_ok by auto. cbn [bind]. fold c.
    rewrite Nat.add_0_r, Nat.mod_small by auto. rewrite inpoel_ok by auto. cbn [bind]. fold c.
    rewrite inpoel_ok by (auto; apply next_lt; auto). cbn [bind]. fold c.
    eexists; split; [reflexivity|]. rewrite app_length. cbn [length]. split; [lia|].
    intros k' bf' h' Hk' Eb' Eh'. destruct (Nat.eq_dec k' k).
    + subst k'. rewrite Eb in Eb'. rewrite Eh in Eh'. inversion Eb'. inversion Eh'. subst bf' h'.
      rewrite nth_error_app2 by lia. rewrite Ll, Nat.sub_diag. cbn [nth_error]. f_equal.
      fold c. pose proof (edge_distinct c (snd h) Ni Di Hf) as De. unfold orient, edge in *. cbn [fst snd] in *.
      set (x := nth (snd h) c 0) in *. set (y := nth ((snd h + 1) mod length c) c 0) in *.
      destruct bf as [u v t]. cbn [b0 b1 btg] in *.
      destruct Se as [Se|Se]; cbn in Se; inversion Se; subst u v.
      * rewrite !Nat.eqb_refl. reflexivity.
      * destruct (Nat.eqb_spec x y); [congruence|]. reflexivity.
    + rewrite nth_error_app1 by lia. apply I; auto. lia.
  - rewrite El. cbn [lift ebind]. exists l. split; [reflexivity|]. split; auto.
    intros k bf h Eb Eh. apply I; auto. apply nth_error_Some. unfold nbface. congruence.
Qed.
