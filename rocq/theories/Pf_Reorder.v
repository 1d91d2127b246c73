(** reorder_cells and levelSchedule. *)
From Coq Require Import List Arith Lia ZArith Bool Permutation.
From Verif Require Import Base M_Mesh M_MeshUtil S_Mesh Pf_Esuel Pf_Host Pf_Topo Pf_Incid Pf_Full.
Import ListNotations.
Open Scope nat_scope.

Lemma reorder_ok : forall c perm, alen perm = alen (cr_cells c) ->
  (forall i, i < alen perm -> aat perm i < alen perm) ->
  exists C, reorder_cells c perm = Some (mkcr C (cr_regs c)) /\ alen C = alen (cr_cells c) /\
    forall i, i < alen (cr_cells c) -> aat C i = aat (cr_cells c) (aat perm i).
Proof.
  intros c perm L H. unfold reorder_cells.
  match goal with |- context [floop _ ?bb ?ss] =>
    destruct (floop_inv _ (fun i (C : arr (list nat)) => alen C = alen (cr_cells c) /\
      forall k, k < i -> aat C k = aat (cr_cells c) (aat perm k)) (alen (cr_cells c)) bb ss) as (C & E & LC & I) end.
  - split; auto. intros; lia.
  - intros i C Hi (LC & I). rewrite aget_ok by lia. cbn [bind]. specialize (H i ltac:(lia)). rewrite aget_ok by lia. cbn [bind].
    rewrite aset_ok by lia. eexists; split; [reflexivity|]. cbn. split; auto. intros k Hk. unfold upd. destruct (Nat.eqb_spec k i); subst; auto. apply I; lia.
  - rewrite E. exists C. auto.
Qed.

(** a permutation of 0..n-1 given as an array *)
Definition is_perm (n : nat) (p : arr nat) : Prop := Permutation (alist p) (seq 0 n).

Lemma perm_len n p : is_perm n p -> alen p = n.
Proof. intros H. apply Permutation_length in H. rewrite alist_length, seq_length in H. auto. Qed.
Lemma perm_bound n p i : is_perm n p -> i < n -> aat p i < n.
Proof.
  intros H Hi. assert (In (aat p i) (seq 0 n)). { eapply Permutation_in; [exact H|]. unfold alist. apply in_map. apply in_seq. rewrite (perm_len n p H). lia. }
  apply in_seq in H0. lia.
Qed.
Lemma perm_inj n p i j : is_perm n p -> i < n -> j < n -> aat p i = aat p j -> i = j.
Proof.
  intros H Hi Hj E. assert (N : NoDup (alist p)). { eapply Permutation_NoDup; [apply Permutation_sym; exact H|apply seq_NoDup]. }
  pose proof (perm_len n p H) as L. rewrite (NoDup_nth _ 0) in N. apply (N i j); rewrite ?alist_length; try lia.
  unfold alist. rewrite !(nth_indep _ 0 (aat p 0)) by (rewrite map_length, seq_length; lia). rewrite !map_nth, !seq_nth by lia. exact E.
Qed.
Lemma perm_surj n p k : is_perm n p -> k < n -> exists i, i < n /\ aat p i = k.
Proof.
  intros H Hk. assert (Hin : In k (alist p)) by (eapply Permutation_in; [apply Permutation_sym; exact H|apply in_seq; lia]).
  unfold alist in Hin. apply in_map_iff in Hin. destruct Hin as (i & E & Hi). apply in_seq in Hi. exists i. split; auto. rewrite <- (perm_len n p H). lia.
Qed.

Lemma reorder_list : forall c perm C, is_perm (alen (cr_cells c)) perm ->
  alen C = alen (cr_cells c) -> (forall i, i < alen (cr_cells c) -> aat C i = aat (cr_cells c) (aat perm i)) ->
  Permutation (alist C) (alist (cr_cells c)).
Proof.
  intros c perm C P L I.
  assert (E : alist C = map (aat (cr_cells c)) (alist perm)).
  { unfold alist. rewrite map_map, L, (perm_len _ _ P). apply map_ext_in. intros i Hi. apply in_seq in Hi. apply I. lia. }
  rewrite E. unfold alist at 2. apply Permutation_map. exact P.
Qed.

(** adjacency is the old adjacency, renamed *)
Lemma reorder_across : forall (cs cs' : list (list nat)) (p : arr nat), is_perm (length cs) p -> length cs' = length cs ->
  (forall i, i < length cs -> cell cs' i = cell cs (aat p i)) ->
  forall i f j, i < length cs -> j < length cs -> (across cs' i f j <-> across cs (aat p i) f (aat p j)).
Proof.
  intros cs cs' p P L H i f j Hi Hj. pose proof (perm_bound _ _ _ P Hi). pose proof (perm_bound _ _ _ P Hj). unfold across. rewrite L, !H by auto. split.
  - intros (_ & A2 & _ & A4 & A5). repeat split; auto. intros E. apply A4. eapply perm_inj; eauto.
  - intros (_ & A2 & _ & A4 & A5). repeat split; auto.
Qed.

(** ** levelSchedule *)
Definition nbr (cs : list (list nat)) (c d : nat) : Prop := exists f, across cs c f d.
Lemma nbr_sym cs c d : nbr cs c d -> nbr cs d c.
Proof. intros (f & A). destruct (across_sym _ _ _ _ A) as (g & B & _). exists g; auto. Qed.
Lemma nbr_irr cs c : ~ nbr cs c c.
Proof. intros (f & (_ & _ & _ & A & _)). auto. Qed.

(** consecutive entries *)
Definition steps (l : list nat) : list (nat * nat) := combine l (tl l).
Lemma steps_snoc l a x : steps (l ++ [a; x]) = steps (l ++ [a]) ++ [(a, x)].
Proof.
  unfold steps. induction l as [|y l IH]; [reflexivity|]. destruct l as [|z l]; [reflexivity|].
  cbn [app tl combine] in *. rewrite IH. reflexivity.
Qed.
Definition level_ok (ne : nat) (cs : list (list nat)) (a b : nat) : Prop :=
  a < b /\ (forall c d, a <= c < b -> a <= d < b -> ~ nbr cs c d) /\ (b < ne -> exists c, a <= c < b /\ nbr cs c b).

Lemma level_ok_correct : forall m E, nbr_ok m E -> (forall c, In c (cells m) -> length c <= maxnfael m) -> 0 < nelem m ->
  exists l, levelSchedule m E = Some l /\ hd_error l = Some 0 /\ last l 0 = nelem m /\
    forall a b, In (a, b) (steps l) -> level_ok (nelem m) (cells m) a b.
Proof.
  intros m E (R & Cl & HE) Hmax Hne. unfold levelSchedule. cbv zeta. set (ne := nelem m) in *. set (cs := cells m) in *.
  match goal with |- context [floop _ ?bb ?ss] =>
    destruct (floop_inv _ (fun i (s : list nat * arr bool) => exists pre b, fst s = pre ++ [b] /\ hd_error (fst s) = Some 0 /\
       b <= i /\ alen (snd s) = ne /\
       (forall j, j < ne -> (aat (snd s) j = true <-> exists c, b <= c < i /\ (c = j \/ nbr cs c j))) /\
       (forall c d, b <= c <= i -> b <= d <= i -> ~ nbr cs c d) /\
       (forall x y, In (x, y) (steps (fst s)) -> level_ok ne cs x y)) (ne - 1) bb ss) as (s & Es & pre & b & E1 & E2 & E3 & E4 & E5 & E6 & E7) end.
  - exists [], 0. cbn. split; auto. split; auto. split; auto. split; auto. split; [|split].
    + intros j Hj. split; [discriminate|]. intros (c & Hc & _). lia.
    + intros c d Hc Hd. assert (c = 0) by lia. assert (d = 0) by lia. subst. apply nbr_irr.
    + intros x y [].
  - intros i [lv mk] Hi (pre & b & E1 & E2 & E3 & E4 & E5 & E6 & E7). cbn [fst snd] in *.
    rewrite aset_ok by lia. cbn [bind]. rewrite nnode_ok by (unfold ne in *; lia). cbn [bind]. fold cs.
    assert (Li : length (cell cs i) <= maxnfael m) by (apply Hmax; apply nth_In; change (i < ne); lia).
    match goal with |- context [floop (length _) ?bb ?ss] =>
      destruct (floop_inv _ (fun f (k : arr bool) => alen k = ne /\
         forall j, j < ne -> (aat k j = true <-> (aat mk j = true \/ j = i \/ exists g, g < f /\ across cs i g j))) (length (cell cs i)) bb ss) as (m2 & Em & Lm & Im) end.
    + cbn. split; auto. intros j Hj. unfold upd. destruct (Nat.eqb_spec j i); [tauto|]. split; [tauto|]. intros [?|[?|(g & Hg & _)]]; auto; lia.
    + intros f k Hf (Lk & Ik). rewrite get2_ok by lia. cbn [bind].
      destruct (HE i f ltac:(lia) Hf) as (z & Ez & Az). rewrite Ez. destruct (Z.ltb_spec (Z.of_nat z) (Z.of_nat ne)).
      * destruct (Z.ltb_spec (Z.of_nat z) 0); [lia|]. rewrite Nat2Z.id. rewrite aset_ok by lia. eexists; split; [reflexivity|]. cbn. split; auto.
        intros j Hj. unfold upd. destruct (Nat.eqb_spec j z).
        -- subst j. split; auto. intros _. right; right. exists f. split; [lia|]. apply Az; auto.
        -- rewrite Ik by auto. split.
           ++ intros [?|[?|(g & Hg & A)]]; auto. right; right. exists g. split; [lia|auto].
           ++ intros [?|[?|(g & Hg & A)]]; auto. destruct (Nat.eq_dec g f); [subst g|right; right; exists g; split; [lia|auto]].
              apply (Az j Hj) in A. congruence.
      * eexists; split; [reflexivity|]. split; auto. intros j Hj. rewrite Ik by auto. split.
        -- intros [?|[?|(g & Hg & A)]]; auto. right; right. exists g. split; [lia|auto].
        -- intros [?|[?|(g & Hg & A)]]; auto. destruct (Nat.eq_dec g f); [subst g|right; right; exists g; split; [lia|auto]].
           apply (Az j Hj) in A. lia.
    + rewrite Em. cbn [bind]. rewrite aget_ok by lia. cbn [bind].
      assert (Im' : forall j, j < ne -> (aat m2 j = true <-> exists c, b <= c < i + 1 /\ (c = j \/ nbr cs c j))).
      { intros j Hj. rewrite Im, E5 by auto. split.
        - intros [(c & Hc & K)|[->|(g & Hg & A)]]; [exists c; split; [lia|auto]|exists i; split; [lia|auto]|].
          exists i. split; [lia|]. right. exists g; auto.
        - intros (c & Hc & K). destruct (Nat.eq_dec c i); [subst c|left; exists c; split; [lia|auto]]. right.
          destruct K as [K|(g & A)]; auto. right. exists g. split; auto. apply A. }
      destruct (aat m2 (i + 1)) eqn:Eb.
      * eexists; split; [reflexivity|]. cbn [fst snd]. exists (pre ++ [b]), (i + 1).
        split; [rewrite E1; reflexivity|]. split; [destruct lv; [discriminate|exact E2]|]. split; auto. split; auto. split; [|split].
        -- intros j Hj. cbn. split; [discriminate|]. intros (c & Hc & _). lia.
        -- intros c d Hc Hd. assert (c = i + 1) by lia. assert (d = i + 1) by lia. subst. apply nbr_irr.
        -- intros x y Hxy. rewrite E1, <- app_assoc in Hxy. cbn [app] in Hxy. rewrite steps_snoc, <- E1 in Hxy. apply in_app_iff in Hxy.
           destruct Hxy as [Hxy|[Hxy|[]]]; auto. inversion Hxy; subst x y. split; [lia|]. split.
           ++ intros c d Hc Hd. apply E6; lia.
           ++ intros _. apply Im' in Eb; [|lia]. destruct Eb as (c & Hc & [K|K]); [lia|]. exists c. split; [lia|auto].
      * eexists; split; [reflexivity|]. cbn [fst snd]. exists pre, b. split; auto. split; auto. split; [lia|]. split; auto. split; auto. split; auto.
        intros c d Hc Hd Hn.
        assert (NN : forall c, b <= c < i + 1 -> ~ nbr cs c (i + 1)).
        { intros c0 Hc0 K. assert (aat m2 (i + 1) = true); [|congruence]. apply Im'; [lia|]. exists c0. split; auto. }
        destruct (Nat.eq_dec c (i + 1)) as [->|]; destruct (Nat.eq_dec d (i + 1)) as [->|].
        -- apply (nbr_irr _ _ Hn).
        -- apply (NN d); [lia|]. apply nbr_sym; auto.
        -- apply (NN c); [lia|]. auto.
        -- apply (E6 c d); auto; lia.
  - rewrite Es. cbn [bind]. eexists. split; [reflexivity|]. rewrite E1 in *. split.
    + destruct pre; cbn in *; auto.
    + split; [rewrite last_last; reflexivity|]. intros x y Hxy. rewrite <- app_assoc in Hxy. cbn [app] in Hxy. rewrite steps_snoc in Hxy.
      apply in_app_iff in Hxy. destruct Hxy as [Hxy|[Hxy|[]]]; auto. inversion Hxy; subst x y. split; [lia|]. split; [|lia].
      intros c d Hc Hd. apply E6; lia.
Qed.
