(** Proofs about compute_elementsSurroundingElements. *)
From Coq Require Import List Arith Lia ZArith Bool.
From Verif Require Import Base M_Mesh S_Mesh Pf_Esup.
Import ListNotations.

Lemma nnode_ok : forall m i, i < nelem m -> nnode m i = Some (length (cell (cells m) i)).
Proof. intros. unfold nnode, cell. rewrite (nth_error_nth' _ []) by auto. reflexivity. Qed.
Lemma inpoel_ok : forall m i j, i < nelem m -> j < length (cell (cells m) i) ->
  inpoel m i j = Some (nth j (cell (cells m) i) 0).
Proof.
  intros. unfold inpoel, cell in *. rewrite (nth_error_nth' _ []) by auto. apply nth_error_nth'. auto.
Qed.
Lemma cell_valid : forall np cs i, valid_cells np cs -> i < length cs ->
  3 <= length (cell cs i) /\ NoDup (cell cs i) /\ (forall v, In v (cell cs i) -> v < np).
Proof. intros. apply H. unfold cell. apply nth_In. auto. Qed.
Lemma cells_around_in : forall cs p j, In j (cells_around cs p) <-> j < length cs /\ In p (cell cs j).
Proof.
  intros. unfold cells_around, cell. rewrite in_flat_map. split.
  - intros (i & Hi & H). apply in_seq in Hi. pose proof (repeat_spec _ _ _ H). subst j.
    split; [lia|]. apply (count_occ_In Nat.eq_dec). destruct (count_occ Nat.eq_dec (nth i cs []) p); [destruct H|lia].
  - intros (Hj & H). exists j. split; [apply in_seq; lia|]. apply (count_occ_In Nat.eq_dec) in H.
    destruct (count_occ Nat.eq_dec (nth j cs []) p); [lia|]. left. auto.
Qed.
Lemma aslice_in : forall A (a : arr A) lo hi x, In x (aslice a lo hi) <-> exists k, lo <= k < hi /\ aat a k = x.
Proof.
  intros. unfold aslice. rewrite in_map_iff. split.
  - intros (k & E & H). apply in_seq in H. exists k. split; [lia|auto].
  - intros (k & H & E). exists k. split; auto. apply in_seq. lia.
Qed.
Lemma esup_ok_range : forall np cs p e k, esup_ok np cs p e -> k < np -> aat p k <= aat p (k + 1) <= alen e.
Proof.
  intros np cs p e k (L & Z0 & Le & S1 & _) Hk. split. rewrite S1 by auto; lia.
  rewrite Le. assert (G : forall d, k + 1 + d <= np -> aat p (k + 1) <= aat p (k + 1 + d)).
  { induction d; intros. rewrite Nat.add_0_r; auto. specialize (IHd ltac:(lia)).
    replace (k + 1 + S d) with (k + 1 + d + 1) by lia. rewrite (S1 (k + 1 + d)) by lia. lia. }
  specialize (G (np - (k + 1)) ltac:(lia)). replace (k + 1 + (np - (k + 1))) with np in G by lia. exact G.
Qed.

(** local indices *)
Lemma next_lt : forall f n, 3 <= n -> (f + 1) mod n < n.
Proof. intros. apply Nat.mod_upper_bound. lia. Qed.
Lemma next_ne : forall f n, 3 <= n -> f < n -> (f + 1) mod n <> f.
Proof.
  intros. destruct (Nat.eq_dec (f + 1) n).
  - rewrite e, Nat.mod_same by lia. lia.
  - rewrite Nat.mod_small by lia. lia.
Qed.
Lemma next_next_ne : forall f n, 3 <= n -> f < n -> ((f + 1) mod n + 1) mod n <> f.
Proof.
  intros. destruct (Nat.eq_dec (f + 1) n).
  - rewrite e, Nat.mod_same by lia. rewrite Nat.mod_small by lia. lia.
  - rewrite (Nat.mod_small (f + 1)) by lia. destruct (Nat.eq_dec (f + 2) n).
    + replace (f + 1 + 1) with n by lia. rewrite Nat.mod_same by lia. lia.
    + rewrite Nat.mod_small by lia. lia.
Qed.
Lemma NoDup_nth_inj : forall (c : list nat) i j, NoDup c -> i < length c -> j < length c ->
  nth i c 0 = nth j c 0 -> i = j.
Proof. intros. eapply (proj1 (NoDup_nth c 0)); eauto. Qed.
Lemma edge_distinct : forall c f, 3 <= length c -> NoDup c -> f < length c -> fst (edge c f) <> snd (edge c f).
Proof.
  intros c f H H0 H1 E. cbn in E. apply NoDup_nth_inj in E; auto.
  - symmetry in E. apply next_ne in E; auto.
  - apply next_lt; auto.
Qed.
(** an edge occurs at one place of a cell only *)
Lemma same_edge_sym : forall e e', same_edge e e' -> same_edge e' e.
Proof. intros [a b] [c d] [H|H]; cbn in H; inversion H; subst; [left|right]; reflexivity. Qed.
Lemma same_edge_trans : forall e e' e'', same_edge e e' -> same_edge e' e'' -> same_edge e e''.
Proof.
  intros [a b] [c d] [x y] [H|H] [K|K]; cbn in *; inversion H; inversion K; subst; [left|right|right|left]; reflexivity.
Qed.
Lemma edge_unique : forall c f g, 3 <= length c -> NoDup c -> f < length c -> g < length c ->
  same_edge (edge c f) (edge c g) -> f = g.
Proof.
  intros c f g H H0 H1 H2 [E|E]; unfold edge in E; cbn in E; inversion E as [[E1 E2]].
  - apply NoDup_nth_inj in E1; auto.
  - exfalso. apply NoDup_nth_inj in E1; auto; [|apply next_lt; auto].
    apply NoDup_nth_inj in E2; auto; [|apply next_lt; auto].
    rewrite E1 in E2. apply next_next_ne in E2; auto.
Qed.

Lemma across_sym : forall cs i f j, across cs i f j ->
  exists g, across cs j g i /\ same_edge (edge (cell cs i) f) (edge (cell cs j) g).
Proof.
  intros cs i f j (H1 & H2 & H3 & H4 & g & H5 & H6). exists g. split; auto.
  unfold across. repeat split; auto. exists f. split; auto. apply same_edge_sym; auto.
Qed.

Section Esuel.
Variable m : umesh.
Hypothesis Hv : valid_cells (npoin m) (cells m).
Hypothesis Hmax : forall c, In c (cells m) -> length c <= maxnfael m.
Let cs := cells m.
Let ne := nelem m.

(** entries of the neighbour table are right or still unset *)
Definition sound (E : arr2 Z) : Prop :=
  rows E = ne /\ cols E = maxnfael m /\
  forall i f, i < ne -> f < maxnfael m ->
    at2 E i f = (-1)%Z \/ exists j, at2 E i f = Z.of_nat j /\ across cs i f j.
Definition kept (E E' : arr2 Z) : Prop := forall i f, at2 E i f <> (-1)%Z -> at2 E' i f <> (-1)%Z.
Definition allzero (l : arr nat) : Prop := alen l = npoin m /\ forall k, k < npoin m -> aat l k = 0.

Lemma init_esuel : forall junk, exists E,
  floop ne (fun ii E => floop (maxnfael m) (fun jj E => set2 E ii jj (-1)%Z) E)
    (mk2 ne (maxnfael m) junk) = Some E /\
  rows E = ne /\ cols E = maxnfael m /\ forall i f, i < ne -> f < maxnfael m -> at2 E i f = (-1)%Z.
Proof.
  intros junk.
  apply (floop_inv _ (fun k E => rows E = ne /\ cols E = maxnfael m /\
     forall i f, i < k -> f < maxnfael m -> at2 E i f = (-1)%Z)).
  - cbn. repeat split; auto. intros; lia.
  - intros k E Hk (R & C & D).
    destruct (floop_inv _ (fun h E => rows E = ne /\ cols E = maxnfael m /\
      (forall i f, i < k -> f < maxnfael m -> at2 E i f = (-1)%Z) /\ (forall f, f < h -> at2 E k f = (-1)%Z))
      (maxnfael m) (fun jj E => set2 E k jj (-1)%Z) E) as (E' & EE & R' & C' & D' & F').
    + repeat split; auto. intros; lia.
    + intros h E1 Hh (R1 & C1 & D1 & F1). rewrite set2_ok by lia. eexists; split; [reflexivity|]. cbn [rows cols at2].
      repeat split; auto.
      * intros. rewrite upd2_spec. destruct ((i =? k) && (f =? h)); auto.
      * intros. rewrite upd2_spec. destruct (Nat.eqb_spec k k); [|lia]. cbn. destruct (Nat.eqb_spec f h); auto. apply F1. lia.
    + exists E'. split; auto. repeat split; auto. intros i f Hi Hf. destruct (Nat.eq_dec i k); subst; auto. apply D'; lia.
Qed.

Lemma len_max : forall i, i < ne -> length (cell cs i) <= maxnfael m.
Proof. intros. apply Hmax. unfold cell. apply nth_In. auto. Qed.

Lemma marks : forall (lp : arr nat) a b k,
  (forall k, k < npoin m -> aat lp k = if (k =? a) || (k =? b) then 1 else 0) -> k < npoin m ->
  (aat lp k =? 1) = (k =? a) || (k =? b).
Proof. intros. rewrite H by auto. destruct ((k =? a) || (k =? b)); reflexivity. Qed.

(** the scan over the faces of one candidate neighbour (517-538) *)
Lemma face_scan : forall i f j lp E,
  i < ne -> f < length (cell cs i) -> j < ne -> j <> i ->
  alen lp = npoin m ->
  (forall k, k < npoin m -> aat lp k = if (k =? fst (edge (cell cs i) f)) || (k =? snd (edge (cell cs i) f)) then 1 else 0) ->
  sound E ->
  exists E', floop (length (cell cs j)) (fun jfael E =>
          j0 <- inpoel m j ((jfael + 0) mod length (cell cs j)) ;; a0 <- aget lp j0 ;;
          j1 <- inpoel m j ((jfael + 1) mod length (cell cs j)) ;; a1 <- aget lp j1 ;;
          let icoun := (if a0 =? 1 then 1 else 0) + (if a1 =? 1 then 1 else 0) in
          if icoun =? 2 then
            E1 <- set2 E i f (Z.of_nat j) ;; set2 E1 j jfael (Z.of_nat i)
          else Some E) E = Some E' /\
    sound E' /\ kept E E' /\ (across cs i f j -> at2 E' i f <> (-1)%Z).
Proof.
  intros i f j lp E Hi Hf Hj Hji Ll Lm S0.
  destruct (cell_valid _ _ i Hv Hi) as (Ni & Di & Bi). destruct (cell_valid _ _ j Hv Hj) as (Nj & Dj & Bj). fold cs in Ni, Di, Bi, Nj, Dj, Bj.
  pose proof (edge_distinct _ _ Ni Di Hf) as De.
  pose proof (len_max i Hi) as Mi. pose proof (len_max j Hj) as Mj.
  destruct (floop_inv _ (fun g E' => sound E' /\ kept E E' /\
     (forall g', g' < g -> same_edge (edge (cell cs i) f) (edge (cell cs j) g') -> at2 E' i f <> (-1)%Z))
     (length (cell cs j)) (fun jfael E =>
          j0 <- inpoel m j ((jfael + 0) mod length (cell cs j)) ;; a0 <- aget lp j0 ;;
          j1 <- inpoel m j ((jfael + 1) mod length (cell cs j)) ;; a1 <- aget lp j1 ;;
          let icoun := (if a0 =? 1 then 1 else 0) + (if a1 =? 1 then 1 else 0) in
          if icoun =? 2 then
            E1 <- set2 E i f (Z.of_nat j) ;; set2 E1 j jfael (Z.of_nat i)
          else Some E) E) as (E' & EE & S1 & K1 & D1).
  - split; auto. split; [intros ? ? ?; auto|]. intros; lia.
  - intros g E1 Hg (S1 & K1 & D1).
    pose proof (next_lt g _ Nj) as Hg1.
    rewrite Nat.add_0_r, (Nat.mod_small g) by auto.
    rewrite inpoel_ok by auto. cbn [bind].
    rewrite aget_ok by (rewrite Ll; apply Bj; apply nth_In; auto). cbn [bind].
    rewrite inpoel_ok by auto. cbn [bind].
    rewrite aget_ok by (rewrite Ll; apply Bj; apply nth_In; auto). cbn [bind]. cbv zeta.
    rewrite !(marks lp _ _ _ Lm) by (apply Bj; apply nth_In; auto).
    fold cs.
    assert (Q : ((if (nth g (cell cs j) 0 =? fst (edge (cell cs i) f)) || (nth g (cell cs j) 0 =? snd (edge (cell cs i) f)) then 1 else 0) +
      (if (nth ((g + 1) mod length (cell cs j)) (cell cs j) 0 =? fst (edge (cell cs i) f)) ||
          (nth ((g + 1) mod length (cell cs j)) (cell cs j) 0 =? snd (edge (cell cs i) f)) then 1 else 0) =? 2) = true
       <-> same_edge (edge (cell cs i) f) (edge (cell cs j) g)).
    { pose proof (edge_distinct _ _ Nj Dj Hg) as Dg. rewrite Nat.eqb_eq. revert De Dg. unfold same_edge.
      change (nth g (cell cs j) 0) with (fst (edge (cell cs j) g)).
      change (nth ((g + 1) mod length (cell cs j)) (cell cs j) 0) with (snd (edge (cell cs j) g)).
      destruct (edge (cell cs i) f) as [a b]. destruct (edge (cell cs j) g) as [x y]. cbn. intros De Dg.
      destruct (Nat.eqb_spec x a); destruct (Nat.eqb_spec x b); destruct (Nat.eqb_spec y a); destruct (Nat.eqb_spec y b); cbn;
        subst; split; intros HH; try lia; try (now left); try (now right);
        try (destruct HH as [HH|HH]; inversion HH; subst; congruence). }
    destruct (_ =? 2) eqn:B.
    + apply proj1 in Q. specialize (Q eq_refl). destruct S1 as (R1 & C1 & V1).
      rewrite set2_ok by (try rewrite R1; try rewrite C1; lia). cbn [bind].
      rewrite set2_ok by (cbn [rows cols]; try rewrite R1; try rewrite C1; lia).
      eexists; split; [reflexivity|].
      assert (A1 : across cs i f j) by (repeat split; auto; exists g; auto).
      assert (A2 : across cs j g i) by (repeat split; auto; exists f; split; auto; apply same_edge_sym; auto).
      cbn [rows cols at2]. split; [|split].
      * split; [auto|]. split; [auto|]. cbn [at2]. intros p q Hp Hq. rewrite upd2_spec.
        destruct ((p =? j) && (q =? g)) eqn:B1.
        { apply andb_true_iff in B1. rewrite !Nat.eqb_eq in B1. destruct B1 as [-> ->]. right. exists i. auto. }
        rewrite upd2_spec. destruct ((p =? i) && (q =? f)) eqn:B2; [|apply V1; auto].
        apply andb_true_iff in B2. rewrite !Nat.eqb_eq in B2. destruct B2 as [-> ->]. right. exists j. auto.
      * intros p q Hpq. cbn [at2]. rewrite !upd2_spec. destruct ((p =? j) && (q =? g)); [lia|].
        destruct ((p =? i) && (q =? f)); [lia|]. apply K1; auto.
      * intros g' _ _. cbn [at2]. rewrite !upd2_spec. destruct ((i =? j) && (f =? g)); [lia|].
        rewrite !Nat.eqb_refl. cbn. lia.
    + eexists; split; [reflexivity|]. split; auto. split; auto. intros g' Hg' Sg.
      destruct (Nat.eq_dec g' g). { subst. apply Q in Sg. discriminate. } apply (D1 g'); auto. lia.
  - exists E'. split; auto. split; auto. split; auto. intros (_ & _ & _ & _ & g & Hg & Sg). apply (D1 g); auto.
Qed.

Variables esup_p esup : arr nat.
Hypothesis Hes : esup_ok (npoin m) cs esup_p esup.

Definition face_step (ielem n ifael : nat) (s : arr2 Z * arr nat) : option (arr2 Z * arr nat) :=
      h0 <- inpoel m ielem ((ifael + 0) mod n) ;; l1 <- aset (snd s) h0 1 ;;
      h1 <- inpoel m ielem ((ifael + 1) mod n) ;; lp <- aset l1 h1 1 ;;
      lo <- aget esup_p h0 ;; hi <- aget esup_p (h0 + 1) ;;
      E' <- frange lo hi (fun istor E =>
        jelem <- aget esup istor ;;
        if jelem =? ielem then Some E else
        nj <- nnode m jelem ;;
        floop nj (fun jfael E =>
          j0 <- inpoel m jelem ((jfael + 0) mod nj) ;; a0 <- aget lp j0 ;;
          j1 <- inpoel m jelem ((jfael + 1) mod nj) ;; a1 <- aget lp j1 ;;
          let icoun := (if a0 =? 1 then 1 else 0) + (if a1 =? 1 then 1 else 0) in
          if icoun =? 2 then
            E1 <- set2 E ielem ifael (Z.of_nat jelem) ;; set2 E1 jelem jfael (Z.of_nat ielem)
          else Some E) E) (fst s) ;;
      l2 <- aset lp h0 0 ;; l3 <- aset l2 h1 0 ;;
      Some (E', l3).

Lemma face_step_ok : forall i f s, i < ne -> f < length (cell cs i) -> sound (fst s) -> allzero (snd s) ->
  exists s', face_step i (length (cell cs i)) f s = Some s' /\
   sound (fst s') /\ allzero (snd s') /\ kept (fst s) (fst s') /\
   (forall j, across cs i f j -> at2 (fst s') i f <> (-1)%Z).
Proof.
  intros i f [E l] Hi Hf S0 [Ll Lz]. cbn [fst snd] in *.
  destruct (cell_valid _ _ i Hv Hi) as (Ni & Di & Bi). fold cs in Ni, Di, Bi.
  pose proof (next_lt f _ Ni) as Hf1.
  set (h0 := nth f (cell cs i) 0). set (h1 := nth ((f + 1) mod length (cell cs i)) (cell cs i) 0).
  assert (H0 : h0 < npoin m) by (apply Bi; apply nth_In; auto).
  assert (H1 : h1 < npoin m) by (apply Bi; apply nth_In; auto).
  unfold face_step. cbn [fst snd]. rewrite Nat.add_0_r, (Nat.mod_small f) by auto.
  rewrite inpoel_ok by auto. cbn [bind]. fold cs. fold h0.
  rewrite aset_ok by lia. cbn [bind].
  rewrite inpoel_ok by auto. cbn [bind]. fold cs. fold h1.
  rewrite aset_ok by (cbn; lia). cbn [bind alen aat].
  set (lp := mkarr (alen l) (upd (upd (aat l) h0 1) h1 1)).
  pose proof Hes as (Lp & _ & Le & _ & SL).
  pose proof (esup_ok_range _ _ _ _ h0 Hes H0) as Rg.
  rewrite (aget_ok _ esup_p) by lia. cbn [bind]. rewrite (aget_ok _ esup_p) by lia. cbn [bind].
  assert (Lm : forall k, k < npoin m -> aat lp k = if (k =? fst (edge (cell cs i) f)) || (k =? snd (edge (cell cs i) f)) then 1 else 0).
  { intros k Hk. cbn. fold h0 h1. unfold upd. destruct (Nat.eqb_spec k h1); destruct (Nat.eqb_spec k h0); cbn; auto. }
  match goal with |- context [frange ?lo ?hi ?b ?s0] =>
    destruct (frange_inv _ (fun k E' => sound E' /\ kept E E' /\
      (forall k', aat esup_p h0 <= k' < k -> across cs i f (aat esup k') -> at2 E' i f <> (-1)%Z)) lo hi b s0)
      as (E' & EE & S1 & K1 & D1) end.
  - lia.
  - split; auto. split; [intros ? ? ?; auto|]. intros; lia.
  - intros k E1 Hk (S1 & K1 & D1). rewrite (aget_ok _ esup) by lia. cbn [bind].
    assert (Hin : In (aat esup k) (cells_around cs h0)).
    { rewrite <- SL by auto. apply aslice_in. exists k. auto. }
    apply cells_around_in in Hin. destruct Hin as (Hj & _).
    destruct (Nat.eqb_spec (aat esup k) i) as [Ei|Ei].
    + eexists; split; [reflexivity|]. split; auto. split; auto. intros k' Hk' A.
      destruct (Nat.eq_dec k' k). { subst k'. destruct A as (_ & _ & _ & A & _). congruence. } apply (D1 k'); auto. lia.
    + rewrite nnode_ok by exact Hj. cbn [bind]. fold cs.
      destruct (face_scan i f (aat esup k) lp E1 Hi Hf Hj Ei Ll Lm S1) as (E2 & EE & S2 & K2 & D2).
      exists E2. split; [exact EE|]. split; auto. split; [intros ? ? ?; auto|].
      intros k' Hk' A. destruct (Nat.eq_dec k' k). { subst; auto. } apply K2. apply (D1 k'); auto. lia.
  - rewrite EE. cbn [bind]. rewrite aset_ok by (cbn; lia). cbn [bind]. rewrite aset_ok by (cbn; lia). cbn [bind].
    eexists; split; [reflexivity|]. cbn [fst snd]. split; auto. split.
    + split; [auto|]. cbn [aat lp]. intros k Hk. unfold upd.
      destruct (Nat.eqb_spec k h1); destruct (Nat.eqb_spec k h0); auto.
    + split; auto. intros j A.
      assert (In j (cells_around cs h0)).
      { apply cells_around_in. destruct A as (_ & _ & A3 & _ & g & Hg & Sg). split; auto.
        pose proof (cell_valid _ _ j Hv A3) as (Nj & _ & _). fold cs in Nj.
        destruct Sg as [Sg|Sg]; unfold edge in Sg; cbn in Sg; inversion Sg as [[E1 E2]]; unfold h0; rewrite E1; apply nth_In; auto.
        apply next_lt; auto. }
      rewrite <- SL in H by auto. apply aslice_in in H. destruct H as (k & Hk & <-). apply (D1 k); auto.
Qed.

Lemma esuel_partial : forall junk, exists E, elementsSurroundingElements m esup_p esup junk = Some E /\ sound E /\
  forall i f j, across cs i f j -> at2 E i f <> (-1)%Z.
Proof.
  intros junk. unfold elementsSurroundingElements. cbv zeta.
  destruct (init_esuel junk) as (E0 & EE0 & R0 & C0 & D0). fold ne. rewrite EE0. cbn [bind].
  match goal with |- context [floop ne ?bb ?ss] =>
  destruct (floop_inv _ (fun k s => sound (fst s) /\ allzero (snd s) /\
     forall i f j, i < k -> across cs i f j -> at2 (fst s) i f <> (-1)%Z) ne bb ss) as (s1 & E1 & S1 & _ & D1) end.
  - cbn [fst snd]. split. { split; auto. } split. { split; auto. } intros; lia.
  - intros i s Hi (S0 & Z0 & D). rewrite nnode_ok by exact Hi. cbn [bind]. fold cs.
    destruct (floop_inv _ (fun f s' => sound (fst s') /\ allzero (snd s') /\ kept (fst s) (fst s') /\
       forall f' j, f' < f -> across cs i f' j -> at2 (fst s') i f' <> (-1)%Z)
       (length (cell cs i)) (face_step i (length (cell cs i))) s) as (s2 & E2 & S2 & Z2 & K2 & D2).
    + split; auto. split; auto. split; [intros ? ? ?; auto|]. intros; lia.
    + intros f s' Hf (S' & Z' & K' & D').
      destruct (face_step_ok i f s' Hi Hf S' Z') as (s3 & E3 & S3 & Z3 & K3 & D3).
      exists s3. split; [exact E3|]. split; auto. split; auto. split; [intros ? ? ?; auto|].
      intros f' j Hf' A. destruct (Nat.eq_dec f' f). { subst. eauto. } apply K3. apply (D' f' j); auto. lia.
    + exists s2. split; [exact E2|]. split; auto. split; auto. intros i' f j Hi' A.
      destruct (Nat.eq_dec i' i). { subst. destruct A as (A1 & A2 & A3). eapply D2; eauto. split; eauto. }
      apply K2. apply (D i' f j); auto. lia.
  - rewrite E1. cbn [bind]. exists (fst s1). split; auto. split; auto. intros i f j A. apply (D1 i f j); auto. apply A.
Qed.
End Esuel.

(** What the table must contain. *)
Definition esuel_ok (ne mx : nat) (cs : list (list nat)) (E : arr2 Z) : Prop :=
  rows E = ne /\ cols E = mx /\
  forall i f, i < ne -> f < mx ->
    (forall j, at2 E i f = Z.of_nat j <-> across cs i f j) /\
    (at2 E i f = (-1)%Z <-> ~ exists j, across cs i f j).

Lemma esuel_correct : forall m, valid_cells (npoin m) (cells m) -> conforming (cells m) ->
  (forall c, In c (cells m) -> length c <= maxnfael m) -> forall p e junk,
  esup_ok (npoin m) (cells m) p e ->
  exists E, elementsSurroundingElements m p e junk = Some E /\ esuel_ok (nelem m) (maxnfael m) (cells m) E.
Proof.
  intros m Hv Hc Hm p e junk He.
  destruct (esuel_partial m Hv Hm p e He junk) as (E & EE & (R & C & V) & D).
  exists E. split; auto. split; auto. split; auto. intros i f Hi Hf. destruct (V i f Hi Hf) as [M|(j & M & A)].
  - split.
    + intros j. split; intros; [lia|]. exfalso. apply (D i f j); auto.
    + split; auto. intros _ (j & A). apply (D i f j); auto.
  - split.
    + intros j'. split.
      * intros K. assert (j' = j) by lia. subst; auto.
      * intros A'. rewrite (Hc i f j' j A' A). auto.
    + split; [lia|]. intros N. exfalso. apply N. exists j. auto.
Qed.
