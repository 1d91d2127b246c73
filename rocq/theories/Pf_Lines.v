(** Line and hybrid orderings (meshordering.cpp). *)
From Coq Require Import Reals List Arith Lia ZArith Bool Permutation.
From Verif Require Import Base BaseR M_Mesh M_MeshUtil S_Mesh Pf_Esup Pf_Esuel Pf_Full Pf_Reorder Pf_Periodic.
Import ListNotations.
Open Scope nat_scope.

(** What the line search needs to know about the anisotropy tables. *)
Record la_ok (m : umesh) (E : arr2 Z) (la : locanis) : Prop := {
  lo_ar : rows (la_aniso la) = nelem m; lo_ac : cols (la_aniso la) = maxnfael m;
  lo_fr : rows (la_face la) = nelem m; lo_fc : cols (la_face la) = maxnfael m;
  lo_n : alen (la_n la) = nelem m;
  lo_le : forall i, i < nelem m -> aat (la_n la) i <= maxnfael m;
  lo_row : forall i j, i < nelem m -> j < aat (la_n la) i ->
    exists f d, at2 (la_face la) i j = Z.of_nat f /\ f < length (cell (cells m) i) /\
      at2 E i f = Z.of_nat d /\ d < nelem m /\ across (cells m) i f d }.

Lemma NoDup_app_iff_ : forall l l' : list nat, NoDup l -> NoDup l' -> (forall x, In x l -> ~ In x l') -> NoDup (l ++ l').
Proof.
  induction l as [|x l IH]; intros l' N1 N2 H; cbn; auto. inversion N1; subst. constructor.
  - rewrite in_app_iff. intros [?|?]; auto. apply (H x); auto. left; auto.
  - apply IH; auto. intros y Hy. apply H. right; auto.
Qed.

Section Weights.
Variable m : umesh.
Variable E : arr2 Z.
Hypothesis HE : nbr_ok m E.
Hypothesis Hmx : forall c, In c (cells m) -> length c <= maxnfael m.
Variable wt : nat -> nat -> R.
Variable srt : list (R * nat) -> list (R * nat).
Hypothesis Hsrt : forall l, Permutation (srt l) l.

Lemma cell_weights_ok i : i < nelem m -> exists l, cell_weights m E wt srt i = Some l /\
  Permutation (map snd l) (filter (fun f => at2 E i f <? Z.of_nat (nelem m))%Z (seq 0 (length (cell (cells m) i)))).
Proof.
  intros Hi. destruct HE as (R1 & R2 & R3). unfold cell_weights. rewrite nnode_ok by auto. cbn [bind].
  assert (Lm : length (cell (cells m) i) <= maxnfael m) by (apply Hmx; apply nth_In; auto).
  match goal with |- context [floop _ ?bb ?ss] =>
    destruct (floop_inv _ (fun j s => map snd (fst s) = filter (fun f => at2 E i f <? Z.of_nat (nelem m))%Z (seq 0 j)) (length (cell (cells m) i)) bb ss) as (r & Er & I) end.
  - reflexivity.
  - intros j [l mn] Hj I. cbn [fst] in I. rewrite get2_ok by lia. cbn [bind]. destruct (R3 i j Hi Hj) as (z & Ez & _). rewrite seq_app, filter_app. cbn [filter seq plus]. rewrite Ez in *.
    destruct (Z.leb_spec (Z.of_nat (nelem m)) (Z.of_nat z)); destruct (Z.ltb_spec (Z.of_nat z) (Z.of_nat (nelem m))); try lia.
    + eexists; split; [reflexivity|]. rewrite app_nil_r. auto.
    + destruct (Z.ltb_spec (Z.of_nat z) 0); [lia|]. eexists; split; [reflexivity|]. cbn [fst]. rewrite map_app, I. auto.
  - destruct r as [l mn]. rewrite Er. cbn [bind]. cbn [fst] in I. eexists. split; [reflexivity|].
    eapply Permutation_trans; [apply Permutation_map; apply Hsrt|]. rewrite map_map. cbn. change (map (fun x : R * nat => snd x) l) with (map snd l). rewrite I. apply Permutation_refl.
Qed.

Lemma computeWeights_ok ja : exists la, computeWeights m E wt srt ja = Some la /\ la_ok m E la.
Proof.
  destruct HE as (R1 & R2 & R3). unfold computeWeights. cbv zeta.
  match goal with |- context [floop _ ?bb ?ss] =>
    destruct (floop_inv _ (fun k la => (rows (la_aniso la) = nelem m /\ cols (la_aniso la) = maxnfael m) /\ (rows (la_face la) = nelem m /\ cols (la_face la) = maxnfael m) /\
       alen (la_n la) = nelem m /\ (forall i, i < k -> aat (la_n la) i <= maxnfael m /\
         forall j, j < aat (la_n la) i -> exists f, at2 (la_face la) i j = Z.of_nat f /\ f < length (cell (cells m) i) /\ (at2 E i f < Z.of_nat (nelem m))%Z)) (nelem m) bb ss) as (la & El & I) end.
  - cbn. repeat split; auto. lia. intros; lia.
  - intros i la Hi (A & B & C & D). destruct (cell_weights_ok i Hi) as (l & El & Pl). rewrite El. cbn [bind]. rewrite aset_ok by lia. cbn [bind].
    assert (Lm : length (cell (cells m) i) <= maxnfael m) by (apply Hmx; apply nth_In; auto).
    assert (Ll : length l <= length (cell (cells m) i)).
    { rewrite <- (map_length snd), (Permutation_length Pl).
      assert (FL : forall (q : nat -> bool) s, length (filter q s) <= length s). { induction s as [|x s IHs]; cbn; [lia|]. destruct (q x); cbn; lia. }
      eapply Nat.le_trans; [apply FL|]. rewrite seq_length. lia. }
    set (n' := mkarr (alen (la_n la)) (upd (aat (la_n la)) i (length l))).
    match goal with |- context [floop (length l) ?bb ?ss] =>
      destruct (floop_inv _ (fun k lb => (rows (la_aniso lb) = nelem m /\ cols (la_aniso lb) = maxnfael m) /\ (rows (la_face lb) = nelem m /\ cols (la_face lb) = maxnfael m) /\
         la_n lb = n' /\ (forall p q, p <> i -> at2 (la_face lb) p q = at2 (la_face la) p q) /\
         (forall j, j < k -> at2 (la_face lb) i j = Z.of_nat (snd (nth j l (0%R, 0))))) (length l) bb ss) as (lb & Eb & J) end.
    + cbn. repeat split; try tauto. lia.
    + intros j lb Hj (A1 & B1 & C1 & D1 & F1). assert (Ex : nth_error l j = Some (nth j l (0%R, 0))) by (apply nth_error_nth'; auto). rewrite Ex. cbn [bind].
      rewrite set2_ok by lia. cbn [bind]. rewrite set2_ok by lia. cbn [bind]. eexists; split; [reflexivity|]. cbn. split; [tauto|]. split; [tauto|]. split; [auto|]. split.
      * intros p q Hp. rewrite upd2_ne by auto. auto.
      * intros j' Hj'. unfold upd2. rewrite Nat.eqb_refl. cbn. destruct (Nat.eqb_spec j' j) as [->|]; auto. apply F1; lia.
    + exists lb. split; [exact Eb|]. destruct J as (A1 & B1 & C1 & D1 & F1). split; [auto|]. split; [auto|]. rewrite C1. unfold n'. cbn. split; [auto|].
      intros p Hp. unfold upd. destruct (Nat.eqb_spec p i) as [->|Hn].
      * split; [lia|]. intros j Hj. rewrite F1 by auto. exists (snd (nth j l (0%R, 0))). split; auto.
        assert (Hin : In (snd (nth j l (0%R, 0))) (map snd l)) by (apply in_map; apply nth_In; auto).
        apply (Permutation_in _ Pl) in Hin. apply filter_In in Hin. destruct Hin as (H1 & H2). apply in_seq in H1. apply Z.ltb_lt in H2. split; [lia|auto].
      * destruct (D p) as (D2 & D3); [lia|]. split; auto. intros j Hj. destruct (D3 j Hj) as (f & Hf). exists f. rewrite D1; auto.
  - exists la. split; [exact El|]. destruct I as ((A1 & A2) & (B1 & B2) & C & D). split; auto.
    + intros i Hi. apply D; auto.
    + intros i j Hi Hj. destruct (D i Hi) as (_ & D2). destruct (D2 j Hj) as (f & F1 & F2 & F3). destruct (R3 i f Hi F2) as (z & Ez & Hz).
      rewrite Ez in F3. assert (z < nelem m) by lia. exists f, z. repeat split; auto; apply Hz; auto.
Qed.
End Weights.

(** consecutive members are neighbours *)
Definition linked (cs : list (list nat)) (l : list nat) : Prop := forall a b, In (a, b) (steps l) -> nbr cs a b.

Section Lines.
Variable m : umesh.
Variable E : arr2 Z.
Variable la : locanis.
Variable thr : R.
Hypothesis HE : nbr_ok m E.
Hypothesis Hla : la_ok m E la.
Hypothesis Hmx : forall c, In c (cells m) -> length c <= maxnfael m.
Hypothesis Hpos : 0 < maxnfael m.
Notation ne := (nelem m).

Lemma nodup_len (l : list nat) n : NoDup l -> (forall x, In x l -> x < n) -> length l <= n.
Proof. intros N H. rewrite <- (seq_length n 0). apply NoDup_incl_length; auto. intros x Hx. apply in_seq. specialize (H x Hx). lia. Qed.

(** the cells of the line hold its number, the others what they held before *)
Definition overlay (k : nat) (cl0 cl : arr Z) (lin : list nat) : Prop :=
  alen cl = ne /\ (forall c, c < ne -> In c lin -> aat cl c = Z.of_nat k) /\ (forall c, c < ne -> ~ In c lin -> aat cl c = aat cl0 c).

Lemma grow_ok k cl0 : forall fuel cl lin cur,
  ne + 1 <= fuel + length lin -> overlay k cl0 cl lin -> cur < ne -> aat cl cur = (-1)%Z ->
  NoDup lin -> (forall x, In x lin -> x < ne /\ aat cl0 x = (-1)%Z /\ (thr < at2 (la_aniso la) x 0)%R) -> linked (cells m) (lin ++ [cur]) ->
  exists cl' lin', grow E la thr k fuel cl lin cur = Some (cl', lin') /\ overlay k cl0 cl' lin' /\ NoDup lin' /\
    (forall x, In x lin' -> x < ne /\ aat cl0 x = (-1)%Z /\ (thr < at2 (la_aniso la) x 0)%R) /\ linked (cells m) lin'.
Proof.
  destruct Hla as [L1 L2 L3 L4 L5 L6 L7]. destruct HE as (R1 & R2 & R3).
  induction fuel as [|fuel IH]; intros cl lin cur Hf (O1 & O2 & O3) Hc Hcm Hnd Hl Hk.
  - exfalso. assert (length lin <= ne) by (apply nodup_len; auto; intros x Hx; apply Hl; auto). lia.
  - cbn [grow]. rewrite get2_ok by lia. cbn [bind].
    assert (Nc : ~ In cur lin). { intros H. rewrite (O2 cur Hc H) in Hcm. lia. }
    assert (Kl : linked (cells m) lin).
    { intros a b Hab. apply Hk. clear -Hab. unfold steps in *. destruct lin as [|x l]; [contradiction|]. cbn [tl] in *. cbn [app tl].
      revert x Hab. induction l as [|y l IHl]; intros x Hab; [contradiction|]. cbn in *. destruct Hab; auto. }
    destruct (Rltb_spec thr (at2 (la_aniso la) cur 0)) as [Ha|Ha].
    2:{ exists cl, lin. split; [auto|]. split; [repeat split; auto|]. auto. }
    rewrite aset_ok by lia. cbn [bind]. rewrite aget_ok by lia. cbn [bind].
    set (cl1 := mkarr (alen cl) (upd (aat cl) cur (Z.of_nat k))).
    assert (NB : forall j, j < aat (la_n la) cur -> exists d, d < ne /\ nbr (cells m) cur d /\
      (f <- get2 (la_face la) cur j ;; if (f <? 0)%Z then None else nb <- get2 E cur (Z.to_nat f) ;; if (nb <? 0)%Z then None else Some (Z.to_nat nb)) = Some d).
    { intros j Hj. destruct (L7 cur j Hc Hj) as (f & d & Ef & Hf1 & Ed & Hd & Ac). exists d. split; auto. split. exists f; auto.
      specialize (L6 cur Hc). rewrite get2_ok by lia. cbn [bind]. rewrite Ef. destruct (Z.ltb_spec (Z.of_nat f) 0); [lia|]. rewrite Nat2Z.id.
      assert (length (cell (cells m) cur) <= maxnfael m) by (apply Hmx; apply nth_In; auto).
      rewrite get2_ok by lia. cbn [bind]. rewrite Ed. destruct (Z.ltb_spec (Z.of_nat d) 0); [lia|]. rewrite Nat2Z.id. auto. }
    assert (OV : overlay k cl0 cl1 (lin ++ [cur])).
    { unfold cl1. split; [auto|]. cbn [aat]. unfold upd. split; intros c Hcc; rewrite in_app_iff; cbn.
      - intros [H|[H|[]]]; destruct (Nat.eqb_spec c cur); auto; congruence.
      - intros Hn. destruct (Nat.eqb_spec c cur); [exfalso; apply Hn; auto|]. apply O3; tauto. }
    assert (ND : NoDup (lin ++ [cur])).
    { apply NoDup_app_iff_; auto. repeat constructor; auto. intros x Hx [<-|[]]. auto. }
    assert (HL : forall x, In x (lin ++ [cur]) -> x < ne /\ aat cl0 x = (-1)%Z /\ (thr < at2 (la_aniso la) x 0)%R).
    { intros x Hx. apply in_app_iff in Hx. destruct Hx as [Hx|[<-|[]]]; auto. rewrite <- (O3 cur Hc Nc). auto. }
    match goal with |- context [ofind _ ?pp] =>
      destruct (ofind_from_spec (aat (la_n la) cur) 0 pp (fun j =>
        match (f <- get2 (la_face la) cur j ;; if (f <? 0)%Z then None else nb <- get2 E cur (Z.to_nat f) ;; if (nb <? 0)%Z then None else Some (Z.to_nat nb)) with
        | Some d => (aat cl1 d =? -1)%Z && Rltb thr (at2 (la_aniso la) cur j) | None => false end)) as [(j & Hj & Qj & _ & Ej)|(_ & Ej)] end.
    + intros j Hj. destruct (NB j) as (d & Hd & _ & Ed); [lia|]. rewrite Ed. cbn [bind]. rewrite aget_ok by (cbn; lia). cbn [bind].
      specialize (L6 cur Hc). rewrite get2_ok by lia. reflexivity.
    + unfold ofind. rewrite Ej. cbn [bind]. destruct (NB j) as (d & Hd & Hn & Ed); [lia|]. rewrite Ed in *. cbn [bind].
      apply andb_true_iff in Qj. destruct Qj as (Qj & _). apply Z.eqb_eq in Qj.
      destruct (IH cl1 (lin ++ [cur]) d) as (cl' & lin' & G); auto.
      * rewrite app_length. cbn. lia.
      * intros a b Hab. rewrite <- app_assoc in Hab. cbn [app] in Hab. rewrite steps_snoc in Hab. apply in_app_iff in Hab.
        destruct Hab as [Hab|[Hab|[]]]; auto. inversion Hab; subst; auto.
      * exists cl', lin'. exact G.
    + unfold ofind. rewrite Ej. cbn [bind]. exists cl1, (lin ++ [cur]). auto.
Qed.

(** celline: every cell is either in the line whose number it holds or in none *)
Definition lines_ok (cl : arr Z) (lines : list (list nat)) : Prop :=
  alen cl = ne /\
  (forall l, In l lines -> 2 <= length l /\ NoDup l /\ linked (cells m) l /\ forall x, In x l -> (thr < at2 (la_aniso la) x 0)%R) /\
  (forall k l, nth_error lines k = Some l -> forall x, In x l -> x < ne /\ aat cl x = Z.of_nat k) /\
  (forall x, x < ne -> aat cl x = (-1)%Z \/ exists k l, nth_error lines k = Some l /\ In x l).

Lemma findLines_ok nb F : nb <= alen F -> (forall i, i < nb -> f_left (aat F i) < ne) ->
  exists cl lines, findLines m nb F E la thr = Some (cl, lines) /\ lines_ok cl lines.
Proof.
  intros HF HL. unfold findLines.
  match goal with |- context [floop _ ?bb ?ss] =>
    destruct (floop_inv _ (fun i s => lines_ok (fst s) (snd s)) nb bb ss) as ([cl lines] & Er & I) end.
  - cbn. split; [auto|]. split; [intros l []|]. split; [intros k l K; destruct k; discriminate|]. auto.
  - intros i [cl lines] Hi (A & B & C & D). cbn [fst snd] in *. rewrite aget_ok by lia. cbn [bind]. specialize (HL i Hi). set (c := f_left (aat F i)) in *.
    rewrite aget_ok by lia. cbn [bind]. destruct (Z.leb_spec 0 (aat cl c)) as [Hc|Hc].
    { eexists; split; [reflexivity|]. cbn. split; auto. }
    assert (Hm : aat cl c = (-1)%Z). { destruct (D c HL) as [H|(k & l & Hk & Hx)]; auto. destruct (C k l Hk c Hx). lia. }
    destruct (grow_ok (length lines) cl (ne + 1) cl [] c) as (cl' & lin & Eg & (O1 & O2 & O3) & Nd & Pr & Lk).
    { cbn. lia. } { split; [auto|]. split; [intros ? ? []|auto]. } { auto. } { auto. } { constructor. } { intros ? []. } { intros ? ? []. }
    rewrite Eg. cbn [bind].
    assert (Old : forall k l, nth_error lines k = Some l -> forall x, In x l -> x < ne /\ ~ In x lin /\ aat cl' x = Z.of_nat k).
    { intros k l Hk x Hx. destruct (C k l Hk x Hx) as (X1 & X2). assert (~ In x lin) by (intros Hin; destruct (Pr x Hin) as (_ & Hm1 & _); lia).
      split; auto. split; auto. rewrite O3; auto. }
    destruct (Nat.ltb_spec 1 (length lin)) as [L1|L1].
    + eexists; split; [reflexivity|]. cbn. split; [auto|]. split; [|split].
      * intros l Hl. apply in_app_iff in Hl. destruct Hl as [Hl|[<-|[]]]; auto. split; [lia|]. split; auto. split; auto. intros x Hx. apply Pr; auto.
      * intros k l Hk x Hx. destruct (Nat.lt_ge_cases k (length lines)) as [Lk1|Lk1].
        -- rewrite nth_error_app1 in Hk by auto. destruct (Old k l Hk x Hx) as (? & ? & ?); auto.
        -- rewrite nth_error_app2 in Hk by auto. destruct (k - length lines) as [|z] eqn:Z; [|destruct z; discriminate]. cbn in Hk. inversion Hk; subst l.
           destruct (Pr x Hx). split; auto. rewrite O2 by auto. f_equal. lia.
      * intros x Hx. destruct (in_dec Nat.eq_dec x lin) as [Hin|Hin].
        -- right. exists (length lines), lin. split; auto. rewrite nth_error_app2, Nat.sub_diag by lia. auto.
        -- rewrite O3 by auto. destruct (D x Hx) as [?|(k & l & Hk & Hl)]; auto. right. exists k, l. split; auto. rewrite nth_error_app1; auto.
           apply nth_error_Some. congruence.
    + destruct lin as [|x [|y lin]]; cbn [length] in *; [| |lia].
      * change (0 =? 1) with false. cbv iota. eexists; split; [reflexivity|]. cbn. split; [auto|]. split; [auto|]. split.
        -- intros k l Hk x Hx. destruct (Old k l Hk x Hx) as (? & ? & ?); auto.
        -- intros x Hx. rewrite O3 by auto. auto.
      * change (1 =? 1) with true. cbv iota. cbn [nth_error bind]. destruct (Pr x) as (Px & Pm & _); [left; auto|].
        rewrite aset_ok by lia. cbn [bind]. eexists; split; [reflexivity|]. cbn [fst snd]. split; [auto|]. split; [auto|]. cbn [aat]. unfold upd. split.
        -- intros k l Hk y Hy. destruct (Old k l Hk y Hy) as (? & Nn & ?). split; auto. destruct (Nat.eqb_spec y x); auto. subst. exfalso; apply Nn; left; auto.
        -- intros y Hy. destruct (Nat.eqb_spec y x); auto. rewrite O3; auto. cbn. intuition congruence.
  - exists cl, lines. split; [exact Er|exact I].
Qed.

(** cells outside all lines, in increasing order *)
Definition singles (cl : arr Z) : list nat := filter (fun i => aat cl i =? -1)%Z (seq 0 ne).

Lemma in_concat_nth (lines : list (list nat)) x : In x (concat lines) <-> exists k l, nth_error lines k = Some l /\ In x l.
Proof.
  rewrite in_concat. split.
  - intros (l & Hl & Hx). apply In_nth_error in Hl. destruct Hl as (k & Hk). eauto.
  - intros (k & l & Hk & Hx). exists l. split; auto. eapply nth_error_In; eauto.
Qed.

Lemma concat_nodup (lines : list (list nat)) : (forall l, In l lines -> NoDup l) ->
  (forall j k l l' x, nth_error lines j = Some l -> nth_error lines k = Some l' -> In x l -> In x l' -> j = k) -> NoDup (concat lines).
Proof.
  induction lines as [|l lines IH]; intros Hn Hd; cbn; [constructor|]. apply NoDup_app_iff_.
  - apply Hn. left; auto.
  - apply IH. intros l1 Hl1. apply Hn. right; auto. intros j k l1 l2 x H1 H2 X1 X2. assert (S j = S k) by (eapply Hd; eauto). lia.
  - intros x Hx Hc. apply in_concat_nth in Hc. destruct Hc as (k & l' & Hk & Hx'). assert (0 = S k) by (apply (Hd 0 (S k) l l' x); auto). lia.
Qed.

Lemma lines_perm cl lines : lines_ok cl lines -> Permutation (concat lines ++ singles cl) (seq 0 ne).
Proof.
  intros (A & B & C & D). apply NoDup_Permutation.
  - apply NoDup_app_iff_.
    + apply concat_nodup. intros l Hl. apply B; auto. intros j k l l' x H1 H2 X1 X2. destruct (C _ _ H1 _ X1), (C _ _ H2 _ X2). lia.
    + apply NoDup_filter, seq_NoDup.
    + intros x Hx Hs. apply in_concat_nth in Hx. destruct Hx as (k & l & Hk & Hx). destruct (C _ _ Hk _ Hx). unfold singles in Hs. apply filter_In in Hs. destruct Hs as (_ & Hs). apply Z.eqb_eq in Hs. lia.
  - apply seq_NoDup.
  - intros x. rewrite in_app_iff, in_concat_nth. unfold singles. rewrite filter_In, in_seq, Z.eqb_eq. split.
    + intros [(k & l & Hk & Hx)|(H & _)]; [|auto]. destruct (C _ _ Hk _ Hx). lia.
    + intros Hx. destruct (D x) as [H|H]; [lia|right; split; auto|left; auto].
Qed.

(** writing a list into the ordering *)
Lemma put_list : forall l k (o : arr nat), k + length l <= alen o ->
  exists o', ofold (fun x s => o <- aset (snd s) (fst s) x ;; Some (fst s + 1, o)) l (k, o) = Some (k + length l, o') /\
    alen o' = alen o /\ forall t, aat o' t = if (k <=? t) && (t <? k + length l) then nth (t - k) l 0 else aat o t.
Proof.
  induction l as [|x l IH]; intros k o Hk; cbn [ofold length] in *.
  - exists o. split; [f_equal; f_equal; lia|]. split; auto. intros t. destruct (Nat.leb_spec k t); destruct (Nat.ltb_spec t (k + 0)); cbn; auto; lia.
  - cbn [fst snd]. rewrite aset_ok by lia. cbn [bind]. destruct (IH (k + 1) (mkarr (alen o) (upd (aat o) k x))) as (o' & E1 & L & At); [cbn; lia|].
    exists o'. split. rewrite E1. f_equal. f_equal. lia. split; [auto|]. intros t. rewrite At. cbn [aat]. unfold upd.
    destruct (Nat.leb_spec (k + 1) t); destruct (Nat.ltb_spec t (k + 1 + length l)); destruct (Nat.leb_spec k t); destruct (Nat.ltb_spec t (k + S (length l)));
    destruct (Nat.eqb_spec t k); cbn [andb]; try lia; auto.
    + replace (t - k) with (S (t - (k + 1))) by lia. reflexivity.
    + subst. rewrite Nat.sub_diag. reflexivity.
Qed.
Lemma put_all l (jo : nat -> nat) : exists o, ofold (fun x s => o <- aset (snd s) (fst s) x ;; Some (fst s + 1, o)) l (0, mkarr (length l) jo) = Some (length l, o) /\ alist o = l /\ alen o = length l.
Proof.
  destruct (put_list l 0 (mkarr (length l) jo)) as (o & E1 & L & At); [cbn; lia|]. exists o. split; [exact E1|]. split; [|auto].
  unfold alist. cbn in L. rewrite L. apply (nth_ext _ _ 0 0). rewrite map_length, seq_length; auto.
  intros t Ht. rewrite map_length, seq_length in Ht. rewrite (nth_indep _ 0 (aat o 0)) by (rewrite map_length, seq_length; auto). rewrite map_nth, seq_nth by auto.
  rewrite At. cbn [plus]. destruct (Nat.leb_spec 0 t); [|lia]. destruct (Nat.ltb_spec t (length l)); [|lia]. cbn. f_equal. lia.
Qed.

Lemma ofold_concat S (b : nat -> S -> option S) (ll : list (list nat)) s : ofold (fun l s => ofold b l s) ll s = ofold b (concat ll) s.
Proof. revert s. induction ll as [|l ll IH]; intros s; cbn; auto. rewrite ofold_app. destruct (ofold b l s); cbn; auto. Qed.

Lemma floop_filter S (q : nat -> bool) (b : nat -> S -> option S) (body : nat -> S -> option S) n s :
  (forall i s, i < n -> body i s = if q i then b i s else Some s) -> floop n body s = ofold b (filter q (seq 0 n)) s.
Proof.
  intros H. induction n as [|n IH]; [reflexivity|]. cbn [floop]. rewrite IH by (intros; apply H; lia).
  replace (Datatypes.S n) with (n + 1) by lia. rewrite seq_app, filter_app, ofold_app. cbn [seq plus filter].
  destruct (ofold b (filter q (seq 0 n)) s) as [s1|]; cbn [bind]; [|reflexivity]. rewrite H by lia. destruct (q n); cbn; auto. rewrite bind_ret. auto.
Qed.

Lemma lineOrdering_ok cl lines jo : lines_ok cl lines -> exists o, lineOrdering ne cl lines jo = Some o /\ alist o = concat lines ++ singles cl.
Proof.
  intros H. pose proof (lines_perm _ _ H) as P. destruct H as (A & _). unfold lineOrdering. cbv zeta. rewrite ofold_concat.
  assert (Ln : length (concat lines ++ singles cl) = ne) by (rewrite (Permutation_length P); apply seq_length).
  destruct (put_all (concat lines ++ singles cl) jo) as (o & E1 & Al & _). rewrite Ln in E1. rewrite ofold_app in E1.
  destruct (ofold _ (concat lines) (0, mkarr ne jo)) as [s1|]; cbn [bind] in *; [|discriminate].
  rewrite (floop_filter _ (fun i => (aat cl i =? -1)%Z) (fun x s => o <- aset (snd s) (fst s) x ;; Some (fst s + 1, o))).
  - unfold singles in E1. rewrite E1. cbn. eauto.
  - intros i s Hi. rewrite aget_ok by lia. reflexivity.
Qed.

Lemma graphVertices_ok cl n : alen cl = ne -> exists mp, graphVertices ne cl n = Some (singles cl, mp, map GLine (seq 0 n) ++ map GPoint (seq 0 (length (singles cl)))) /\
  alen mp = ne /\ forall i, i < length (singles cl) -> aat mp (nth i (singles cl) 0) = Z.of_nat i.
Proof.
  intros Hl. unfold graphVertices.
  match goal with |- context [floop _ ?bb ?ss] =>
    destruct (floop_inv _ (fun k s => fst s = filter (fun i => aat cl i =? -1)%Z (seq 0 k) /\ alen (snd s) = ne /\
      forall i, i < length (fst s) -> aat (snd s) (nth i (fst s) 0) = Z.of_nat i) ne bb ss) as ([pl mp] & Er & I1 & I2 & I3) end.
  - cbn. repeat split; auto. intros; lia.
  - intros k [pl mp] Hk (I1 & I2 & I3). cbn [fst snd] in *. rewrite aget_ok by lia. cbn [bind]. rewrite seq_app, filter_app. cbn [seq plus filter].
    destruct (aat cl k =? -1)%Z.
    + rewrite aset_ok by lia. cbn [bind]. eexists; split; [reflexivity|]. cbn [fst snd alen aat]. rewrite <- I1. split; [auto|]. split; [auto|].
      intros i Hi. rewrite app_length in *. cbn in Hi. unfold upd. destruct (Nat.lt_ge_cases i (length pl)).
      * rewrite app_nth1 by auto. assert (Hin : In (nth i pl 0) pl) by (apply nth_In; auto). rewrite I1 in Hin at 2. apply filter_In in Hin. destruct Hin as (Hin & _). apply in_seq in Hin.
        destruct (Nat.eqb_spec (nth i pl 0) k); [lia|]. auto.
      * replace i with (length pl) by lia. rewrite app_nth2, Nat.sub_diag by lia. cbn. rewrite Nat.eqb_refl. lia.
    + eexists; split; [reflexivity|]. cbn. rewrite app_nil_r. auto.
  - rewrite Er. cbn [bind fst snd] in *. exists mp. subst pl. split; [reflexivity|]. split; auto.
Qed.

(** cells of one graph vertex *)
Definition vcells (lines : list (list nat)) (points : list nat) (g : nat) : list nat :=
  if g <? length lines then nth g lines [] else [nth (g - length lines) points 0].

Lemma hybrid_ok cl lines jo gro : lines_ok cl lines -> 
  Permutation gro (seq 0 (length lines + length (singles cl))) ->
  exists o, hybridOrdering ne lines (singles cl) (map GLine (seq 0 (length lines)) ++ map GPoint (seq 0 (length (singles cl)))) gro jo = Some o /\
    alist o = flat_map (vcells lines (singles cl)) gro /\ Permutation (alist o) (seq 0 ne).
Proof.
  intros H Hg. pose proof (lines_perm _ _ H) as P.
  assert (FM : flat_map (vcells lines (singles cl)) (seq 0 (length lines + length (singles cl))) = concat lines ++ singles cl).
  { rewrite seq_app, flat_map_app. f_equal.
    - transitivity (flat_map (fun x => x) lines); [|rewrite flat_map_concat_map, map_id; auto].
      assert (G : forall (f : nat -> list nat) (ll : list (list nat)) k, (forall i, i < length ll -> f (k + i) = nth i ll []) -> flat_map f (seq k (length ll)) = flat_map (fun x => x) ll).
      { clear. intros f. induction ll as [|l ll IH]; intros k Hf; cbn; auto. f_equal. specialize (Hf 0). rewrite Nat.add_0_r in Hf. apply Hf. cbn; lia.
        apply IH. intros i Hi. specialize (Hf (S i)). cbn in Hf. rewrite <- Hf by lia. f_equal. lia. }
      apply G. intros i Hi. cbn [plus]. unfold vcells. destruct (Nat.ltb_spec i (length lines)); [auto|lia].
    - assert (G : forall (f : nat -> list nat) (l : list nat) k, (forall i, i < length l -> f (k + i) = [nth i l 0]) -> flat_map f (seq k (length l)) = l).
      { clear. intros f. induction l as [|x l IH]; intros k Hf; cbn; auto. pose proof (Hf 0) as H0. rewrite Nat.add_0_r in H0. rewrite H0 by (cbn; lia). cbn. f_equal.
        apply IH. intros i Hi. specialize (Hf (S i)). cbn in Hf. rewrite <- Hf by lia. f_equal. lia. }
      apply G. intros i Hi. cbn [plus]. unfold vcells. destruct (Nat.ltb_spec (length lines + i) (length lines)); [lia|]. do 2 f_equal. lia. }
  assert (PF : Permutation (flat_map (vcells lines (singles cl)) gro) (seq 0 ne)).
  { eapply Permutation_trans; [|exact P]. rewrite <- FM. apply Permutation_flat_map. exact Hg. }
  assert (Ln : length (flat_map (vcells lines (singles cl)) gro) = ne) by (rewrite (Permutation_length PF); apply seq_length).
  unfold hybridOrdering. cbv zeta.
  destruct (put_all (flat_map (vcells lines (singles cl)) gro) jo) as (o & E1 & Al & _). rewrite Ln in E1.
  assert (Q : forall l s, (forall g, In g l -> g < length lines + length (singles cl)) ->
    ofold (fun g s => v <- nth_error (map GLine (seq 0 (length lines)) ++ map GPoint (seq 0 (length (singles cl)))) g ;;
         match v with
         | GLine i => lin <- nth_error lines i ;; ofold (fun x s => o <- aset (snd s) (fst s) x ;; Some (fst s + 1, o)) lin s
         | GPoint i => x <- nth_error (singles cl) i ;; o <- aset (snd s) (fst s) x ;; Some (fst s + 1, o)
         end) l s = ofold (fun x s => o <- aset (snd s) (fst s) x ;; Some (fst s + 1, o)) (flat_map (vcells lines (singles cl)) l) s).
  { induction l as [|g l IH]; intros s Hb; cbn [ofold flat_map]; [reflexivity|]. rewrite ofold_app.
    assert (Hgb : g < length lines + length (singles cl)) by (apply Hb; left; auto).
    assert (EQ : forall s, (v <- nth_error (map GLine (seq 0 (length lines)) ++ map GPoint (seq 0 (length (singles cl)))) g ;;
         match v with
         | GLine i => lin <- nth_error lines i ;; ofold (fun x s => o <- aset (snd s) (fst s) x ;; Some (fst s + 1, o)) lin s
         | GPoint i => x <- nth_error (singles cl) i ;; o <- aset (snd s) (fst s) x ;; Some (fst s + 1, o)
         end) = ofold (fun x s => o <- aset (snd s) (fst s) x ;; Some (fst s + 1, o)) (vcells lines (singles cl) g) s).
    { clear s. intros s. unfold vcells. destruct (Nat.ltb_spec g (length lines)) as [L|L].
      - rewrite nth_error_app1 by (rewrite map_length, seq_length; auto).
        rewrite (nth_error_nth' _ (GLine 0)) by (rewrite map_length, seq_length; auto). rewrite map_nth, seq_nth by auto. cbn [bind plus].
        rewrite (nth_error_nth' _ []) by auto. reflexivity.
      - rewrite nth_error_app2 by (rewrite map_length, seq_length; auto). rewrite map_length, seq_length.
        rewrite (nth_error_nth' _ (GPoint 0)) by (rewrite map_length, seq_length; lia). rewrite map_nth, seq_nth by lia. cbn [bind plus].
        rewrite (nth_error_nth' _ 0) by lia. cbn [bind ofold]. rewrite bind_ret. reflexivity. }
    rewrite EQ. destruct (ofold _ (vcells lines (singles cl) g) s); cbn [bind]; [|reflexivity]. apply IH. intros; apply Hb; right; auto. }
  rewrite Q. 2:{ intros g Hgg. apply (Permutation_in _ Hg) in Hgg. apply in_seq in Hgg. lia. }
  rewrite E1. cbn. exists o. rewrite Al. auto.
Qed.

(** The graph of lines and points *)
Section Graph.
Variables (cl : arr Z) (lines : list (list nat)) (mp : arr Z).
Hypothesis HL : lines_ok cl lines.
Hypothesis Hmp : alen mp = ne /\ forall i, i < length (singles cl) -> aat mp (nth i (singles cl) 0) = Z.of_nat i.
Notation nv := (length lines + length (singles cl)).
Notation vc := (vcells lines (singles cl)).

Definition vidx (d : nat) : Z := if (0 <=? aat cl d)%Z then aat cl d else (aat mp d + Z.of_nat (length lines))%Z.
Lemma vidx_ok d : d < ne -> exists g, g < nv /\ vidx d = Z.of_nat g /\ In d (vc g).
Proof.
  intros Hd. destruct HL as (A & B & C & D). destruct (D d Hd) as [H|(k & l & Hk & Hx)].
  - assert (Hs : In d (singles cl)) by (apply filter_In; split; [apply in_seq; lia|apply Z.eqb_eq; auto]).
    apply (In_nth _ _ 0) in Hs. destruct Hs as (i & Hi & Ei). exists (i + length lines). split; [lia|]. unfold vidx, vcells. rewrite H.
    destruct (Z.leb_spec 0 (-1)); [lia|]. split. rewrite <- Ei. rewrite (proj2 Hmp) by auto. lia.
    destruct (Nat.ltb_spec (i + length lines) (length lines)); [lia|]. replace (i + length lines - length lines) with i by lia. left; auto.
  - destruct (C k l Hk d Hx) as (_ & E1). assert (k < length lines) by (apply nth_error_Some; congruence). exists k. split; [lia|]. unfold vidx, vcells. rewrite E1.
    destruct (Z.leb_spec 0 (Z.of_nat k)); [|lia]. split; auto. destruct (Nat.ltb_spec k (length lines)); [|lia]. rewrite (nth_error_nth _ _ [] Hk). auto.
Qed.
Lemma vc_bound g d : g < nv -> In d (vc g) -> d < ne.
Proof.
  intros Hg. destruct HL as (A & B & C & D). unfold vcells. destruct (Nat.ltb_spec g (length lines)) as [L|L].
  - intros Hd. apply (C g (nth g lines [])); auto. apply nth_error_nth'; auto.
  - intros [<-|[]]. assert (Hin : In (nth (g - length lines) (singles cl) 0) (singles cl)) by (apply nth_In; lia).
    apply filter_In in Hin. destruct Hin as (Hin & _). apply in_seq in Hin. lia.
Qed.
Lemma vc_unique g h d : g < nv -> h < nv -> In d (vc g) -> In d (vc h) -> g = h.
Proof.
  intros Hg Hh. destruct HL as (A & B & C & D).
  assert (G : forall g, g < nv -> In d (vc g) -> vidx d = Z.of_nat g).
  { clear g h Hg Hh. intros g Hg. unfold vcells. destruct (Nat.ltb_spec g (length lines)) as [L|L].
    - intros Hd. destruct (C g (nth g lines [])) with (x := d) as (_ & E1); auto. apply nth_error_nth'; auto. unfold vidx. rewrite E1. destruct (Z.leb_spec 0 (Z.of_nat g)); auto; lia.
    - intros [<-|[]]. assert (Hi : g - length lines < length (singles cl)) by lia. assert (Hin : In (nth (g - length lines) (singles cl) 0) (singles cl)) by (apply nth_In; lia).
      apply filter_In in Hin. destruct Hin as (_ & Hin). apply Z.eqb_eq in Hin. unfold vidx. rewrite Hin. destruct (Z.leb_spec 0 (-1)); [lia|].
      rewrite (proj2 Hmp) by auto. lia. }
  intros H1 H2. apply G in H1; auto. apply G in H2; auto. lia.
Qed.

(** columns of the row entries of one cell *)
Definition cols_of (c : nat) : list Z :=
  map (fun f => vidx (Z.to_nat (at2 E c f))) (filter (fun f => at2 E c f <? Z.of_nat ne)%Z (seq 0 (length (cell (cells m) c)))).
Lemma cols_in c g : c < ne -> g < nv -> (In (Z.of_nat g) (cols_of c) <-> exists d, In d (vc g) /\ nbr (cells m) c d).
Proof.
  intros Hc Hg. destruct HE as (R1 & R2 & R3). unfold cols_of. rewrite in_map_iff. split.
  - intros (f & Ef & Hf). apply filter_In in Hf. destruct Hf as (Hf & Hz). apply in_seq in Hf. apply Z.ltb_lt in Hz.
    destruct (R3 c f) as (z & Ez & Hzz); [auto|lia|]. rewrite Ez in *. rewrite Nat2Z.id in Ef. assert (Hzn : z < ne) by lia.
    destruct (vidx_ok z Hzn) as (h & Hh & E1 & Hin). assert (h = g) by lia. subst h. exists z. split; auto. exists f. apply Hzz; auto.
  - intros (d & Hd & f & Ha). assert (Hdn := vc_bound g d Hg Hd). assert (Hf : f < length (cell (cells m) c)) by (unfold across in Ha; tauto).
    destruct (R3 c f Hc Hf) as (z & Ez & Hz). apply (Hz d Hdn) in Ha. subst z. exists f. rewrite Ez, Nat2Z.id. split.
    + destruct (vidx_ok d Hdn) as (h & Hh & E1 & Hin). rewrite E1. f_equal. eapply vc_unique; eauto.
    + apply filter_In. split; [apply in_seq; lia|]. apply Z.ltb_lt. rewrite Ez. lia.
Qed.
Lemma cols_range c z : c < ne -> In z (cols_of c) -> exists g, g < nv /\ z = Z.of_nat g.
Proof.
  intros Hc Hz. destruct HE as (R1 & R2 & R3). unfold cols_of in Hz. apply in_map_iff in Hz. destruct Hz as (f & Ef & Hf). apply filter_In in Hf. destruct Hf as (Hf & Hz). apply in_seq in Hf. apply Z.ltb_lt in Hz.
  destruct (R3 c f) as (d & Ed & _); [auto|lia|]. rewrite Ed in *. rewrite Nat2Z.id in Ef. destruct (vidx_ok d) as (g & Hg & E1 & _); [lia|]. exists g. split; auto. congruence.
Qed.

Definition row_of (v : nat) : list (nat * Z) := (v, Z.of_nat v) :: flat_map (fun c => map (fun k => (v, k)) (cols_of c)) (vc v).

Lemma graph_list : graphEntries m E cl mp lines (singles cl) = Some (flat_map row_of (seq 0 nv)).
Proof.
  destruct HL as (A & B & C & D). destruct HE as (R1 & R2 & R3).
  unfold graphEntries. cbv zeta.
  set (row := graph_row m E cl mp (length lines)).
  assert (ROW : forall v c s, c < ne -> row v c s = Some (s ++ map (fun k => (v, k)) (cols_of c))).
  { intros v c s Hc. unfold row, graph_row. rewrite nnode_ok by auto. cbn [bind].
    assert (Lm : length (cell (cells m) c) <= maxnfael m) by (apply Hmx; apply nth_In; auto).
    match goal with |- context [floop _ ?bb ?ss] =>
      destruct (floop_inv _ (fun j s' => s' = s ++ map (fun k => (v, k)) (map (fun f => vidx (Z.to_nat (at2 E c f))) (filter (fun f => at2 E c f <? Z.of_nat ne)%Z (seq 0 j))))
        (length (cell (cells m) c)) bb ss) as (r & Er & I) end.
    - cbn. rewrite app_nil_r. auto.
    - intros j s1 Hj ->. unfold graph_nbr. rewrite get2_ok by lia. cbn [bind]. destruct (R3 c j Hc Hj) as (z & Ez & _). rewrite seq_app, filter_app, !map_app. cbn [seq plus filter map]. rewrite Ez.
      destruct (Z.leb_spec (Z.of_nat ne) (Z.of_nat z)); destruct (Z.ltb_spec (Z.of_nat z) (Z.of_nat ne)); try lia.
      + cbn [bind]. eexists; split; [reflexivity|]. cbn. rewrite app_nil_r. auto.
      + destruct (Z.ltb_spec (Z.of_nat z) 0); [lia|]. rewrite Nat2Z.id. rewrite aget_ok by lia. cbn [bind]. eexists. split.
        * assert (V : (if (0 <=? aat cl z)%Z then Some (Some (aat cl z)) else (k <- aget mp z ;; Some (Some (k + Z.of_nat (length lines))%Z))) = Some (Some (vidx z))).
          { unfold vidx. destruct (0 <=? aat cl z)%Z; auto. rewrite aget_ok by (destruct Hmp; lia). auto. }
          rewrite V. cbn [bind]. reflexivity.
        * rewrite app_assoc. cbn [map]. rewrite Ez, Nat2Z.id. auto.
    - rewrite Er, I. reflexivity. }
  assert (ROWS : forall v l s, (forall c, In c l -> c < ne) -> ofold (row v) l s = Some (s ++ flat_map (fun c => map (fun k => (v, k)) (cols_of c)) l)).
  { intros v. induction l as [|c l IH]; intros s Hb; cbn [ofold flat_map]; [rewrite app_nil_r; auto|]. rewrite ROW by (apply Hb; left; auto). cbn [bind].
    rewrite IH by (intros; apply Hb; right; auto). rewrite app_assoc. auto. }
  match goal with |- context [floop (length lines) ?bb ?ss] =>
    destruct (floop_inv _ (fun k s => s = flat_map row_of (seq 0 k)) (length lines) bb ss) as (r1 & Er & I) end.
  - reflexivity.
  - intros i s1 Hi ->. rewrite (nth_error_nth' _ []) by auto. cbn [bind]. rewrite ROWS.
    + eexists; split; [reflexivity|]. rewrite seq_app, flat_map_app. cbn [seq plus flat_map]. rewrite app_nil_r, <- app_assoc. f_equal. unfold row_of. cbn [app]. f_equal.
      unfold vcells. destruct (Nat.ltb_spec i (length lines)); [auto|lia].
    + intros c Hc. apply (vc_bound i); [lia|]. unfold vcells. destruct (Nat.ltb_spec i (length lines)); [auto|lia].
  - rewrite Er. cbn [bind]. subst r1. 
    match goal with |- context [floop _ ?bb ?ss] =>
      destruct (floop_inv _ (fun k s => s = flat_map row_of (seq 0 (length lines + k))) (length (singles cl)) bb ss) as (r2 & Er2 & I2) end.
    + rewrite Nat.add_0_r. reflexivity.
    + intros i s1 Hi ->. rewrite (nth_error_nth' _ 0) by auto. cbn [bind]. rewrite ROW.
      * eexists; split; [reflexivity|]. rewrite Nat.add_assoc. rewrite (seq_app (length lines + i) 1), flat_map_app. cbn [seq plus flat_map]. rewrite app_nil_r, <- app_assoc. f_equal. unfold row_of. cbn [app].
        rewrite (Nat.add_comm i). f_equal. unfold vcells. destruct (Nat.ltb_spec (length lines + i) (length lines)); [lia|]. cbn [flat_map]. rewrite app_nil_r.
        replace (length lines + i - length lines) with i by lia. auto.
      * apply (vc_bound (length lines + i)); [lia|]. unfold vcells. destruct (Nat.ltb_spec (length lines + i) (length lines)); [lia|]. left. f_equal. lia.
    + rewrite Er2, I2. reflexivity.
Qed.

Lemma graph_ok : exists ent, graphEntries m E cl mp lines (singles cl) = Some ent /\
  (forall v z, In (v, z) ent -> v < nv /\ exists w, w < nv /\ z = Z.of_nat w) /\
  (forall v w, v < nv -> w < nv -> (In (v, Z.of_nat w) ent <-> v = w \/ exists c d, In c (vc v) /\ In d (vc w) /\ nbr (cells m) c d)).
Proof.
  eexists. split; [exact graph_list|]. split.
  - intros v z H. apply in_flat_map in H. destruct H as (v' & Hv & [H|H]); apply in_seq in Hv.
    + inversion H; subst. split; [lia|]. exists v. split; [lia|auto].
    + apply in_flat_map in H. destruct H as (c & Hc & H). apply in_map_iff in H. destruct H as (k & E1 & Hk). inversion E1; subst.
      split; [lia|]. apply (cols_range c); auto. apply (vc_bound v); [lia|auto].
  - intros v w Hv Hw. rewrite in_flat_map. split.
    + intros (v' & Hv' & [H|H]).
      * inversion H. left. lia.
      * apply in_flat_map in H. destruct H as (c & Hc & H). apply in_map_iff in H. destruct H as (k & E1 & Hk). inversion E1; subst.
        right. assert (Hcn : c < ne) by (apply (vc_bound v); auto). apply (cols_in c w Hcn Hw) in Hk. destruct Hk as (d & Hd & N). exists c, d. auto.
    + intros [->|(c & d & Hc & Hd & N)].
      * exists w. split; [apply in_seq; lia|]. left; auto.
      * exists v. split; [apply in_seq; lia|]. right. apply in_flat_map. exists c. split; auto. apply in_map_iff. exists (Z.of_nat w). split; auto.
        assert (Hcn : c < ne) by (apply (vc_bound v); auto). apply (cols_in c w Hcn Hw). exists d. auto.
Qed.
End Graph.
End Lines.
