(** Property C11, continued: what the lines are, and that they do not depend on memory that was never written. Vocabulary: S_Mesh.v
    (cells, across), Pf_Reorder.v (nbr, steps), Pf_Lines2.v (in_line). *)
From Coq Require Import Reals Lra List Arith Lia ZArith Bool Permutation Sorted.
From Verif Require Import Base BaseR M_Mesh M_Geom M_MeshUtil S_Mesh Pf_Esup Pf_Esuel Pf_Host Pf_Faces Pf_Topo Pf_Incid Pf_Full P_Geom
  Pf_Reorder Pf_Periodic Pf_Lines P_MeshUtil Pf_Lines2 ChkMesh.
Import ListNotations.
Open Scope nat_scope.

(** [b] is a neighbour of [a] whose weight exceeds [thr] times the least weight among the neighbours of [a] *)
Definition strong (m : umesh) (wt : nat -> nat -> R) (thr : R) (a b : nat) : Prop :=
  nbr (cells m) a b /\ exists d, nbr (cells m) a d /\ (forall d', nbr (cells m) a d' -> (wt a d <= wt a d')%R) /\ (thr * wt a d < wt a b)%R.
(** the line cannot go on from [c]: every strong neighbour is in a line already, or is beaten by one that is at least as strong and has no strong
    neighbour itself, at which the search breaks off *)
Definition stops (m : umesh) (wt : nat -> nat -> R) (thr : R) (lines : list (list nat)) (c : nat) : Prop :=
  forall d, strong m wt thr c d -> in_line lines d \/
    exists d0, strong m wt thr c d0 /\ (wt c d <= wt c d0)%R /\ ~ in_line lines d0 /\ forall e, ~ strong m wt thr d0 e.
(** std::sort with the comparison of meshordering.cpp 321-323: some ordering by falling weight *)
Definition sorts_down (srt : list (R * nat) -> list (R * nat)) : Prop :=
  forall l, Permutation (srt l) l /\ StronglySorted (fun x y => (fst y <= fst x)%R) (srt l).

Lemma ss_nth_le (l : list (R * nat)) : StronglySorted (fun x y => (fst y <= fst x)%R) l -> forall i j, i <= j -> j < length l ->
  (fst (nth j l (0%R, 0%nat)) <= fst (nth i l (0%R, 0%nat)))%R.
Proof.
  induction 1 as [|x l S IH F]; intros i j Hij Hj; [cbn in Hj; lia|]. destruct i as [|i], j as [|j]; cbn in *; try lra; try lia.
  - rewrite Forall_forall in F. apply F, nth_In. lia.
  - apply IH; lia.
Qed.

Section One.
Variable m : umesh.
Variable E : arr2 Z.
Hypothesis HE : nbr_ok m E.
Hypothesis Hmx : forall c, In c (cells m) -> length c <= maxnfael m.
Hypothesis Hpos : 0 < maxnfael m.
Variable wt : nat -> nat -> R.
Variable srt : list (R * nat) -> list (R * nat).
Hypothesis Hs : sorts_down srt.
Hypothesis Hwt : forall a b, nbr (cells m) a b -> (0 < wt a b < 10 ^ 20)%R.
Variable ja : nat -> nat -> R.
Variable la : locanis.
Hypothesis El : computeWeights m E wt srt ja = Some la.

Lemma row_mean i : i < nelem m ->
  (forall j, j < aat (la_n la) i -> exists d, d = nb E la i j /\ nbr (cells m) i d /\
     exists d0, nbr (cells m) i d0 /\ (forall d', nbr (cells m) i d' -> (wt i d0 <= wt i d')%R) /\ at2 (la_aniso la) i j = (wt i d / wt i d0)%R) /\
  (forall d, nbr (cells m) i d -> exists j, j < aat (la_n la) i /\ nb E la i j = d) /\
  (forall j j', j <= j' -> j' < aat (la_n la) i -> (at2 (la_aniso la) i j' <= at2 (la_aniso la) i j)%R).
Proof.
  intros Hi. assert (Hp : forall l, Permutation (srt l) l) by (intros l; apply Hs).
  destruct (computeWeights_rows m E HE Hmx wt srt Hp ja) as (la' & El' & HR). assert (la' = la) by congruence. subst la'.
  destruct (HR i Hi) as (l & Ec & En & Hl). destruct (cell_weights_row m E HE Hmx wt srt i Hi) as (mn & Ec' & M1 & M2).
  rewrite Ec in Ec'. inversion Ec' as [Es]. clear Ec'. set (raw := map (fun f => ((wt i (fnb E i f) / mn)%R, f)) (real_faces m E i)) in *.
  destruct (Hs raw) as (P & S). rewrite <- Es in P, S. rewrite En.
  assert (NB : forall j, j < length l -> exists f, In f (real_faces m E i) /\ nth j l (0%R, 0) = ((wt i (fnb E i f) / mn)%R, f)).
  { intros j Hj. assert (Hin : In (nth j l (0%R, 0)) raw) by (apply (Permutation_in _ P), nth_In; auto). unfold raw in Hin. apply in_map_iff in Hin. destruct Hin as (f & Ef & Hf). eauto. }
  assert (MN : forall f, In f (real_faces m E i) -> exists d0, nbr (cells m) i d0 /\ (forall d', nbr (cells m) i d' -> (wt i d0 <= wt i d')%R) /\ mn = wt i d0).
  { intros f Hf. destruct M2 as [M2|(f0 & Hf0 & M2)].
    - exfalso. assert (N : nbr (cells m) i (fnb E i f)) by (apply (real_nbr m E HE i); auto; eauto). specialize (Hwt _ _ N). specialize (M1 f Hf). lra.
    - exists (fnb E i f0). split; [apply (real_nbr m E HE i); auto; eauto|]. split; auto. intros d' Hd'. apply (real_nbr m E HE i) in Hd'; auto. destruct Hd' as (f' & Hf' & <-). rewrite <- M2. auto. }
  split; [|split].
  - intros j Hj. destruct (NB j Hj) as (f & Hf & Ef). destruct (Hl j Hj) as (A1 & A2). rewrite Ef in A1, A2. cbn [fst snd] in *. destruct (MN f Hf) as (d0 & D1 & D2 & D3).
    assert (Enb : nb E la i j = fnb E i f) by (unfold nb; rewrite A2, Nat2Z.id; auto).
    exists (nb E la i j). split; auto. rewrite Enb. split; [apply (real_nbr m E HE i); auto; eauto|]. exists d0. split; auto. split; auto. rewrite A1, D3. auto.
  - intros d Hd. apply (real_nbr m E HE i) in Hd; auto. destruct Hd as (f & Hf & <-).
    assert (Hin : In ((wt i (fnb E i f) / mn)%R, f) l). { apply (Permutation_in _ (Permutation_sym P)). unfold raw. apply (in_map (fun f => ((wt i (fnb E i f) / mn)%R, f))). auto. }
    apply (In_nth _ _ (0%R, 0)) in Hin. destruct Hin as (j & Hj & Ej). exists j. split; auto. destruct (Hl j Hj) as (A1 & A2). rewrite Ej in A2. cbn [snd] in A2. unfold nb. rewrite A2, Nat2Z.id. reflexivity.
  - intros j j' Hjj Hj'. destruct (Hl j) as (-> & _); [lia|]. destruct (Hl j') as (-> & _); [lia|]. apply ss_nth_le; auto.
Qed.

Lemma strong_place thr i j : i < nelem m -> j < aat (la_n la) i -> ((thr < at2 (la_aniso la) i j)%R <-> strong m wt thr i (nb E la i j)).
Proof.
  intros Hi Hj. destruct (row_mean i Hi) as (R1 & R2 & R3). destruct (R1 j Hj) as (d & -> & N & d0 & D1 & D2 & ->).
  assert (P0 : (0 < wt i d0)%R) by (apply Hwt; auto). split.
  - intros H. split; auto. exists d0. split; auto. split; auto. apply (Rmult_lt_compat_r (wt i d0)) in H; auto. unfold Rdiv in H. rewrite Rmult_assoc, Rinv_l, Rmult_1_r in H by lra. auto.
  - intros (_ & d1 & E1 & E2 & E3). assert (wt i d1 = wt i d0) by (apply Rle_antisym; auto). rewrite H in E3.
    apply (Rmult_lt_reg_r (wt i d0)); auto. unfold Rdiv. rewrite Rmult_assoc, Rinv_l, Rmult_1_r by lra. auto.
Qed.
Lemma order_place i j j' : i < nelem m -> j < aat (la_n la) i -> j' < aat (la_n la) i ->
  ((at2 (la_aniso la) i j <= at2 (la_aniso la) i j')%R <-> (wt i (nb E la i j) <= wt i (nb E la i j'))%R).
Proof.
  intros Hi Hj Hj'. destruct (row_mean i Hi) as (R1 & R2 & R3). destruct (R1 j Hj) as (d & -> & N & d0 & D1 & D2 & ->). destruct (R1 j' Hj') as (d' & -> & N' & d1 & E1 & E2 & ->).
  assert (wt i d1 = wt i d0) by (apply Rle_antisym; auto). rewrite H. assert (P0 : (0 < wt i d0)%R) by (apply Hwt; auto). unfold Rdiv.
  assert (0 < / wt i d0)%R by (apply Rinv_0_lt_compat; auto). split; intros Q.
  - apply Rmult_le_reg_r in Q; auto.
  - apply Rmult_le_compat_r; auto. lra.
Qed.
Lemma weak_place thr x : x < nelem m -> 0 < aat (la_n la) x -> (at2 (la_aniso la) x 0 <= thr)%R -> forall e, ~ strong m wt thr x e.
Proof.
  intros Hx Hn Hw e Hst. destruct (row_mean x Hx) as (R1 & R2 & R3). destruct (R2 e) as (j & Hj & Ej); [apply Hst|]. rewrite <- Ej in Hst. apply (strong_place thr x j Hx Hj) in Hst.
  specialize (R3 0 j ltac:(lia) Hj). lra.
Qed.
Lemma block_stops thr lines c : c < nelem m -> la_ok m E la -> blockedA E la thr (in_line lines) c -> stops m wt thr lines c.
Proof.
  intros Hc Hla B d Hd. destruct (row_mean c Hc) as (R1 & R2 & R3). destruct (R2 d) as (j & Hj & Ej); [apply Hd|]. rewrite <- Ej in Hd |- *.
  assert (Hd2 := Hd). apply (strong_place thr c j Hc Hj) in Hd2. destruct (B j Hj Hd2) as [?|(j0 & J1 & J2 & J3 & J4)]; auto. right. exists (nb E la c j0).
  assert (Hj0 : j0 < aat (la_n la) c) by lia. destruct (nb_ok m E la HE Hla Hmx Hpos c j0 Hc Hj0) as (N1 & N2 & _).
  split; [apply strong_place; auto|]. split; [apply order_place; auto|]. split; auto. apply weak_place; auto.
  destruct (row_mean (nb E la c j0) N1) as (_ & R2' & _). destruct (R2' c) as (jj & Hjj & _); [apply nbr_sym; auto|]. lia.
Qed.
End One.

Lemma bnd_left m hs p e ni s il : tiled m hs -> topo m hs p e ni s il -> forall i, i < nbface m -> exists f, nth_error hs i = Some (f_left (aat (intfac s) i), f).
Proof.
  intros T TP i Hi. pose proof (gm_hosts _ _ (tl_good _ _ T)) as (Lh & _). destruct (to_ranges _ _ _ _ _ _ _ TP) as (bl & cl & EF & Lb & _ & Hb & _).
  destruct (nth_error_some _ (bfaces m) i Hi) as (bf & Eb). destruct (nth_error_some _ hs i) as ((c & f) & Eh); [lia|]. exists f. rewrite Eh. do 2 f_equal.
  specialize (Hb i bf (c, f) Eb Eh). pose proof (to_len _ _ _ _ _ _ _ TP) as Ln.
  assert (Q : nth_error (alist (intfac s)) i = Some (bface_entry m i bf (c, f))) by (rewrite EF, nth_error_app1 by (rewrite Lb; auto); auto).
  apply (nth_error_nth _ _ (aat (intfac s) 0)) in Q. rewrite nth_alist in Q by lia. rewrite Q. reflexivity.
Qed.

(** C11: each line starts at a cell with a boundary face, goes from a cell to a strong neighbour none stronger of which is still free, and ends where it
    cannot go on; a boundary cell is left out only if no line can start there. *)
Theorem C11_lines_meaning : forall m hs j0 jf je jt wt srt ja thr, tiled m hs -> 0 < maxnfael m -> sorts_down srt ->
  (forall a b, nbr (cells m) a b -> (0 < wt a b < 10 ^ 20)%R) ->
  exists p e ni s la cl lines,
  compute_topological m j0 jf je jt = Some (Val (p, e, (ni, s))) /\
  computeWeights m (esuel s) wt srt ja = Some la /\
  findLines m (nbface m) (intfac s) (esuel s) la thr = Some (cl, lines) /\
  (forall l, In l lines -> 2 <= length l /\ In (hd 0 l) (map fst hs) /\
     (forall a b, In (a, b) (steps l) -> strong m wt thr a b /\ forall d, strong m wt thr a d -> (wt a b < wt a d)%R -> in_line lines d) /\
     stops m wt thr lines (last l 0)) /\
  (forall c, In c (map fst hs) -> ~ in_line lines c -> stops m wt thr lines c).
Proof.
  intros m hs j0 jf je jt wt srt ja thr T Hp Hs Hwt. destruct (topo_full m hs T j0 jf je jt) as (p & e & ni & s & il & Et & TP).
  pose proof (to_nbr _ _ _ _ _ _ _ TP) as NB. pose proof (tl_max m hs T) as MX.
  destruct (computeWeights_ok m (esuel s) NB MX wt srt (fun l => proj1 (Hs l)) ja) as (la & El & Hla).
  pose proof (row_mean m (esuel s) NB MX Hp wt srt Hs Hwt ja la El) as RM.
  destruct (findLines_meaning m (esuel s) la thr NB Hla MX Hp (nbface m) (intfac s)) as (cl & lines & Ef & HL & M1 & M2).
  { rewrite (to_len _ _ _ _ _ _ _ TP). lia. } { intros i Hi. eapply face_left_lt; eauto. rewrite (to_len _ _ _ _ _ _ _ TP). lia. }
  { intros c j j' Hc. apply RM; auto. }
  exists p, e, ni, s, la, cl, lines. split; [auto|]. split; [auto|]. split; [auto|]. pose proof HL as (A & B & C & D).
  assert (Lt : forall l x, In l lines -> In x l -> x < nelem m). { intros l x Hl Hx. apply In_nth_error in Hl. destruct Hl as (k & Hk). apply (C k l Hk x Hx). }
  split.
  - intros l Hl. destruct (B l Hl) as (B1 & _). destruct (M1 l Hl) as ((i & Hi & Eh) & St & Bk). split; auto. split; [|split].
    + destruct (bnd_left m hs p e ni s il T TP i Hi) as (f & Hf). rewrite Eh. change (f_left (aat (intfac s) i)) with (fst (f_left (aat (intfac s) i), f)). apply in_map. eapply nth_error_In; eauto.
    + intros a b Hab. assert (Ha : a < nelem m) by (apply (Lt l); auto; unfold steps in Hab; apply in_combine_l in Hab; auto).
      destruct (St a b Hab) as (j & J1 & J2 & J3 & J4). rewrite <- J2. split; [apply (strong_place m (esuel s) NB MX Hp wt srt Hs Hwt ja la El); auto|].
      intros d Hd Hlt. destruct (RM a Ha) as (_ & R2 & R3). destruct (R2 d) as (j' & Hj' & Ej'); [apply Hd|]. rewrite <- Ej' in *.
      apply (strong_place m (esuel s) NB MX Hp wt srt Hs Hwt ja la El) in Hd; auto. apply J4; auto.
      destruct (Nat.lt_ge_cases j' j); auto. exfalso. specialize (R3 j j' ltac:(lia) Hj').
      apply (order_place m (esuel s) NB MX Hp wt srt Hs Hwt ja la El) in R3; auto. lra.
    + apply (block_stops m (esuel s) NB MX Hp wt srt Hs Hwt ja la El); auto. apply (Lt l); auto. destruct l as [|x l]; [cbn in B1; lia|].
      clear. generalize x. induction l as [|y l IH]; intros z; [left; auto|]. right. apply IH.
  - intros c Hc Hn. apply in_map_iff in Hc. destruct Hc as ((c' & f) & <- & Hc). cbn [fst] in *. apply In_nth_error in Hc. destruct Hc as (i & Hi).
    assert (Li : i < nbface m). { pose proof (gm_hosts _ _ (tl_good _ _ T)) as (Lh & _). rewrite <- Lh. apply nth_error_Some. congruence. }
    destruct (bnd_left m hs p e ni s il T TP i Li) as (f' & Hf'). rewrite Hi in Hf'. inversion Hf'; subst.
    destruct (M2 i Li) as [Q|Q]; [contradiction|]. apply (block_stops m (esuel s) NB MX Hp wt srt Hs Hwt ja la El); auto.
    eapply face_left_lt; eauto. rewrite (to_len _ _ _ _ _ _ _ TP). lia.
Qed.
Print Assumptions C11_lines_meaning.
(** a sort by falling weight *)
Fixpoint dinsert (x : R * nat) (l : list (R * nat)) : list (R * nat) :=
  match l with [] => [x] | y :: r => if Rltb (fst x) (fst y) then y :: dinsert x r else x :: l end.
Fixpoint dsort (l : list (R * nat)) : list (R * nat) := match l with [] => [] | x :: r => dinsert x (dsort r) end.
Lemma dinsert_perm x l : Permutation (dinsert x l) (x :: l).
Proof. induction l as [|y l IH]; cbn; auto. destruct (Rltb (fst x) (fst y)); auto. rewrite IH. apply perm_swap. Qed.
Lemma dsort_sorts : sorts_down dsort.
Proof.
  intros l. induction l as [|x l (IP & IS)]; cbn; [split; [auto|constructor]|]. split; [rewrite dinsert_perm, IP; auto|]. clear IP. induction IS as [|y r Sr IH F]; cbn.
  - repeat constructor.
  - destruct (Rltb_spec (fst x) (fst y)) as [Lt|Ge].
    + constructor; auto. rewrite Forall_forall in *. intros z Hz. apply (Permutation_in _ (dinsert_perm x r)) in Hz. destruct Hz as [<-|Hz]; [lra|auto].
    + constructor; [constructor; auto|]. rewrite Forall_forall in *. intros z [<-|Hz]; [lra|]. specialize (F z Hz). lra.
Qed.
Definition ex_wt (a b : nat) : R := INR (a + b + 1).
Lemma ex_nbr a b : nbr (cells exo) a b -> In (a, b) [(0, 2); (0, 1); (1, 0); (2, 0)].
Proof. intros (f & H). apply (ex_across a f b) in H. cbn in H |- *. intuition congruence. Qed.
Example C11_meaning_ex : tiled exo exh /\ 0 < maxnfael exo /\ sorts_down dsort /\ (forall a b, nbr (cells exo) a b -> (0 < ex_wt a b < 10 ^ 20)%R) /\
  strong exo ex_wt 1 0 2 /\ ~ strong exo ex_wt 1 0 1.
Proof.
  assert (N1 : nbr (cells exo) 0 1) by (exists 2; apply acrossb_ok; reflexivity). assert (N2 : nbr (cells exo) 0 2) by (exists 1; apply acrossb_ok; reflexivity).
  split; [exact exo_tiled|]. split; [cbn; lia|]. split; [exact dsort_sorts|]. split; [|split].
  - intros a b H. apply ex_nbr in H. cbn in H. unfold ex_wt.
    destruct H as [H|[H|[H|[H|[]]]]]; inversion H; subst; cbn [plus INR]; lra.
  - split; auto. exists 1. split; auto. split; [|unfold ex_wt; cbn; lra].
    intros d' H. apply ex_nbr in H. cbn in H. unfold ex_wt. destruct H as [H|[H|[H|[H|[]]]]]; inversion H; subst; cbn [plus INR]; lra.
  - intros (_ & d & H & _ & Q). apply ex_nbr in H. cbn in H. unfold ex_wt in Q. destruct H as [H|[H|[H|[H|[]]]]]; inversion H; subst; cbn [plus INR] in Q; lra.
Qed.

(** ** The lines depend on nothing that was never written *)
Section Two.
Variable m : umesh.
Variables E1 E2 : arr2 Z.
Hypothesis H1 : nbr_ok m E1.
Hypothesis H2 : nbr_ok m E2.
Hypothesis Hmx : forall c, In c (cells m) -> length c <= maxnfael m.
Hypothesis Hpos : 0 < maxnfael m.
Variable wt : nat -> nat -> R.
Variable srt : list (R * nat) -> list (R * nat).
Hypothesis Hs : forall l, Permutation (srt l) l.
Notation ne := (nelem m).

Lemma cell_weights_same i : i < ne -> cell_weights m E1 wt srt i = cell_weights m E2 wt srt i.
Proof.
  intros Hi. destruct H1 as (R1 & R2 & R3). destruct H2 as (Q1 & Q2 & Q3). unfold cell_weights. rewrite nnode_ok by auto. cbn [bind].
  match goal with |- bind ?a _ = bind ?b _ => assert (Q : a = b) end; [|rewrite Q; reflexivity].
  assert (Lm : length (cell (cells m) i) <= maxnfael m) by (apply Hmx; apply nth_In; auto).
  apply floop_ext. intros j [l mn] Hj. rewrite !get2_ok by lia. cbn [bind]. destruct (R3 i j Hi Hj) as (z & Ez & Hz). destruct (Q3 i j Hi Hj) as (z' & Ez' & Hz'). rewrite Ez, Ez'.
  assert (Sm : z < ne \/ z' < ne -> z = z'). { intros [L|L]; [symmetry; apply Hz'; auto; apply Hz; auto|apply Hz; auto; apply Hz'; auto]. }
  destruct (Z.leb_spec (Z.of_nat ne) (Z.of_nat z)), (Z.leb_spec (Z.of_nat ne) (Z.of_nat z')); auto; assert (z = z') by (apply Sm; lia); subst z'; auto; lia.
Qed.

Variables la1 la2 : locanis.
Variables ja1 ja2 : nat -> nat -> R.
Hypothesis L1 : computeWeights m E1 wt srt ja1 = Some la1.
Hypothesis L2 : computeWeights m E2 wt srt ja2 = Some la2.
Variable thr : R.

Lemma row_same i : i < ne -> aat (la_n la1) i = aat (la_n la2) i /\ (forall j, j < aat (la_n la1) i -> at2 (la_aniso la1) i j = at2 (la_aniso la2) i j /\ nb E1 la1 i j = nb E2 la2 i j) /\
  (forall d, nbr (cells m) i d -> 0 < aat (la_n la1) i).
Proof.
  intros Hi. destruct (computeWeights_rows m E1 H1 Hmx wt srt Hs ja1) as (x & Ex & HR1). destruct (computeWeights_rows m E2 H2 Hmx wt srt Hs ja2) as (y & Ey & HR2).
  assert (x = la1) by congruence. assert (y = la2) by congruence. subst x y. destruct (HR1 i Hi) as (l & C1 & N1 & P1). destruct (HR2 i Hi) as (l' & C2 & N2 & P2).
  rewrite cell_weights_same in C1 by auto. assert (l' = l) by congruence. subst l'. split; [congruence|].
  destruct (computeWeights_ok m E1 H1 Hmx wt srt Hs ja1) as (x & Ex' & O1). assert (x = la1) by congruence. subst x.
  destruct (computeWeights_ok m E2 H2 Hmx wt srt Hs ja2) as (x & Ex'' & O2). assert (x = la2) by congruence. subst x.
  split.
  - intros j Hj. rewrite N1 in Hj. destruct (P1 j Hj) as (-> & A1). destruct (P2 j Hj) as (-> & A2). split; auto. unfold nb. rewrite A1, A2.
    destruct (lo_row _ _ _ O1 i j Hi) as (f & d & Ef & Lf & Ed & Hd & Ac); [lia|]. destruct (lo_row _ _ _ O2 i j Hi) as (f' & d' & Ef' & Lf' & Ed' & Hd' & Ac'); [lia|].
    rewrite A1 in Ef. rewrite A2 in Ef'. rewrite Ef in Ef'. assert (f' = f) by lia. subst f'. rewrite Ef, Nat2Z.id, Ed, Ed'.
    destruct H1 as (_ & _ & R3). destruct (R3 i f Hi Lf) as (z & Ez & Hz). apply Hz in Ac'; auto. congruence.
  - intros d Hd. apply (real_nbr m E2 H2 i) in Hd; auto. destruct Hd as (f & Hf & _). destruct (cell_weights_row m E2 H2 Hmx wt srt i Hi) as (mn & C3 & _).
    rewrite C1 in C3. inversion C3. rewrite N1. rewrite H0, (Permutation_length (Hs _)), map_length. destruct (real_faces m E2 i); [destruct Hf|cbn; lia].
Qed.

Definition same (c1 c2 : arr Z) : Prop := alen c1 = ne /\ alen c2 = ne /\ forall x, x < ne -> aat c1 x = aat c2 x /\ (-1 <= aat c1 x)%Z.
Lemma ofind_from_ext p q : forall fuel lo, (forall j, lo <= j < lo + fuel -> p j = q j) -> ofind_from fuel lo p = ofind_from fuel lo q.
Proof. induction fuel as [|n IH]; intros lo H; cbn; auto. rewrite H by lia. destruct (q lo) as [[]|]; cbn; auto. apply IH. intros j Hj. apply H. lia. Qed.

Lemma grow_same k : forall fuel c1 c2 lin cur c1' l1, same c1 c2 -> cur < ne -> 0 < aat (la_n la1) cur ->
  grow E1 la1 thr k fuel c1 lin cur = Some (c1', l1) -> exists c2', grow E2 la2 thr k fuel c2 lin cur = Some (c2', l1) /\ same c1' c2'.
Proof.
  destruct (computeWeights_ok m E1 H1 Hmx wt srt Hs ja1) as (x & Ex' & O1). assert (x = la1) by congruence. subst x.
  destruct (computeWeights_ok m E2 H2 Hmx wt srt Hs ja2) as (x & Ex'' & O2). assert (x = la2) by congruence. subst x.
  pose proof O1 as [A1 A2 A3 A4 A5 A6 A7]. pose proof O2 as [B1 B2 B3 B4 B5 B6 B7].
  induction fuel as [|fuel IH]; intros c1 c2 lin cur c1' l1 S Hc Hn Eg; [discriminate|]. cbn [grow] in Eg |- *. pose proof S as (S1 & S2 & S3).
  destruct (row_same cur Hc) as (N & P & _).
  rewrite get2_ok in Eg |- * by lia. cbn [bind] in Eg |- *. destruct (P 0 Hn) as (Q0 & _). rewrite Q0 in Eg. destruct (Rltb thr (at2 (la_aniso la2) cur 0)); [|inversion Eg; subst; exists c2; auto].
  rewrite aset_ok in Eg |- * by lia. cbn [bind] in Eg |- *. rewrite aget_ok in Eg |- * by lia. cbn [bind] in Eg |- *. rewrite <- N.
  set (d1 := mkarr (alen c1) (upd (aat c1) cur (Z.of_nat k))) in *. set (d2 := mkarr (alen c2) (upd (aat c2) cur (Z.of_nat k))) in *.
  assert (SD : same d1 d2). { unfold d1, d2. split; [auto|]. split; [auto|]. intros y Hy. cbn. unfold upd. destruct (y =? cur); auto. split; [auto|lia]. }
  pose proof (A6 cur Hc).
  assert (G1 := fun j (Hj : j < aat (la_n la1) cur) => nb_ok m E1 la1 H1 O1 Hmx Hpos cur j Hc Hj).
  assert (G2 : forall j, j < aat (la_n la1) cur -> _) by (intros j Hj; rewrite N in Hj; exact (nb_ok m E2 la2 H2 O2 Hmx Hpos cur j Hc Hj)). cbv beta in G2.
  match type of Eg with context [ofind ?n ?p1] => match goal with |- context [ofind n ?p2] => assert (Q : ofind n p1 = ofind n p2) end end.
  { unfold ofind. apply ofind_from_ext. intros j Hj. destruct (G1 j) as (X1 & _ & ->); [lia|]. destruct (G2 j) as (Y0 & _ & ->); [lia|]. cbn [bind]. destruct (P j) as (P1 & P2); [lia|].
    destruct SD as (D1 & D2 & D3). rewrite !aget_ok, !get2_ok by lia. cbn [bind]. rewrite P1, P2. destruct (D3 (nb E2 la2 cur j) Y0) as (-> & _). reflexivity. }
  rewrite <- Q. apply bind_some in Eg. destruct Eg as (r & Er & Eg). rewrite Er. cbn [bind]. destruct r as [j|].
  - assert (Hj : j < aat (la_n la1) cur).
    { clear - Er. unfold ofind in Er. assert (forall p fuel lo r, ofind_from fuel lo p = Some (Some r) -> r < lo + fuel) as W.
      { induction fuel as [|n IH]; intros lo r H; cbn in H; [discriminate|]. apply bind_some in H. destruct H as (b & _ & H). destruct b; [inversion H; lia|]. apply IH in H. lia. }
      apply W in Er. lia. }
    destruct (G1 j Hj) as (X1 & X2 & X3). destruct (G2 j Hj) as (Y1 & Y2 & Y3). rewrite X3 in Eg. rewrite Y3. cbn [bind] in *. destruct (P j Hj) as (_ & P2). rewrite <- P2.
    eapply IH; eauto. apply (proj2 (proj2 (row_same _ X1)) cur). apply nbr_sym; auto.
  - inversion Eg; subst. exists d2. auto.
Qed.

Lemma grow_alone k fuel c1 cur : alen c1 = ne -> cur < ne -> aat (la_n la1) cur = 0 ->
  grow E1 la1 thr k (S fuel) c1 [] cur = Some (c1, []) \/ grow E1 la1 thr k (S fuel) c1 [] cur = Some (mkarr (alen c1) (upd (aat c1) cur (Z.of_nat k)), [cur]).
Proof.
  intros Lc Hc Hn. destruct (computeWeights_ok m E1 H1 Hmx wt srt Hs ja1) as (x & Ex' & O1). assert (x = la1) by congruence. subst x.
  pose proof O1 as [A1 A2 A3 A4 A5 A6 A7]. cbn [grow]. rewrite get2_ok by lia. cbn [bind]. destruct (Rltb thr _); auto. rewrite aset_ok by lia. cbn [bind]. rewrite aget_ok by lia. cbn [bind].
  rewrite Hn. cbn. auto.
Qed.
End Two.

Lemma floop_rel A B (Q : A -> B -> Prop) b1 b2 : forall n s1 s2, Q s1 s2 ->
  (forall i x y x', i < n -> Q x y -> b1 i x = Some x' -> exists y', b2 i y = Some y' /\ Q x' y') ->
  forall x, floop n b1 s1 = Some x -> exists y, floop n b2 s2 = Some y /\ Q x y.
Proof.
  induction n as [|n IH]; intros s1 s2 H0 Hb x Ex; cbn in *; [inversion Ex; subst; eauto|]. apply bind_some in Ex. destruct Ex as (x0 & Ex0 & Ex).
  destruct (IH s1 s2 H0 ltac:(intros i a b a' Hi; apply Hb; lia) x0 Ex0) as (y0 & Ey0 & Q0). rewrite Ey0. cbn [bind]. eapply Hb; eauto.
Qed.
Lemma findLines_same m E1 E2 wt srt la1 la2 ja1 ja2 thr n F1 F2 : nbr_ok m E1 -> nbr_ok m E2 -> (forall c, In c (cells m) -> length c <= maxnfael m) -> 0 < maxnfael m ->
  (forall l, Permutation (srt l) l) -> computeWeights m E1 wt srt ja1 = Some la1 -> computeWeights m E2 wt srt ja2 = Some la2 ->
  n <= alen F1 -> n <= alen F2 -> (forall i, i < n -> f_left (aat F1 i) = f_left (aat F2 i) /\ f_left (aat F1 i) < nelem m) ->
  exists c1 c2 lines, findLines m n F1 E1 la1 thr = Some (c1, lines) /\ findLines m n F2 E2 la2 thr = Some (c2, lines) /\ same m c1 c2.
Proof.
  intros H1 H2 Hmx Hpos Hs L1 L2 N1 N2 HF. unfold findLines.
  destruct (computeWeights_ok m E1 H1 Hmx wt srt Hs ja1) as (x & Ex' & O1). assert (x = la1) by congruence. subst x. clear Ex'.
  destruct (findLines_ok m E1 la1 thr H1 O1 Hmx Hpos n F1 N1) as (c1 & lines & Ef & _); [intros i Hi; apply HF; auto|]. unfold findLines in Ef. pose proof Ef as Ef0.
  eapply (floop_rel _ (arr Z * list (list nat)) (fun x y => snd x = snd y /\ same m (fst x) (fst y))) in Ef.
  { destruct Ef as ((c2 & l2) & E2' & Q1 & Q2). cbn [fst snd] in Q1, Q2. subst l2. exists c1, c2, lines. split; [|split; [exact E2'|exact Q2]]. exact Ef0. }
  { split; [reflexivity|]. split; [reflexivity|]. split; [reflexivity|]. cbn. split; [reflexivity|lia]. }
  intros i [x lx] [y ly] [x' lx'] Hi (Ql & S) Eb. cbn [fst snd] in *. subst ly. destruct (HF i Hi) as (FE & FL). pose proof S as (S1 & S2 & S3).
  rewrite aget_ok in Eb |- * by lia. cbn [bind] in Eb |- *. rewrite <- FE. set (c := f_left (aat F1 i)) in *. rewrite aget_ok in Eb |- * by lia. cbn [bind] in Eb |- *.
  destruct (S3 c FL) as (SC & SG). rewrite <- SC. destruct (Z.leb_spec 0 (aat x c)); [inversion Eb; subst; eexists; split; [reflexivity|]; auto|].
  destruct (Nat.eq_dec (aat (la_n la1) c) 0) as [Z0|NZ].
  - (* a cell without neighbours: the value read for it decides nothing that stays *)
    destruct (row_same m E1 E2 H1 H2 Hmx Hpos wt srt Hs la1 la2 ja1 ja2 L1 L2 c FL) as (NN & _).
    assert (R1 : lx' = lx /\ alen x' = nelem m /\ forall z, z < nelem m -> aat x' z = aat x z).
    { rewrite (Nat.add_comm (nelem m) 1) in Eb. destruct (grow_alone m E1 H1 Hmx Hpos wt srt Hs la1 ja1 L1 thr (length lx) (nelem m) x c S1 FL Z0) as [G|G]; cbn [plus] in Eb; rewrite G in Eb; cbn in Eb.
      - inversion Eb; subst. auto.
      - rewrite aset_ok in Eb by (cbn; lia). cbn in Eb. inversion Eb; subst. cbn. split; auto. split; auto. intros z Hz. unfold upd. destruct (Nat.eqb_spec z c); auto. subst z. lia. }
    destruct R1 as (-> & A1 & A2). rewrite (Nat.add_comm (nelem m) 1).
    destruct (grow_alone m E2 H2 Hmx Hpos wt srt Hs la2 ja2 L2 thr (length lx) (nelem m) y c S2 FL ltac:(lia)) as [G|G]; cbn [plus]; rewrite G; cbn.
    + eexists; split; [reflexivity|]. cbn. split; auto. split; auto. split; auto. intros z Hz. rewrite A2 by auto. auto.
    + rewrite aset_ok by (cbn; lia). cbn. eexists; split; [reflexivity|]. cbn. split; auto. split; auto. split; auto. intros z Hz. rewrite A2 by auto. cbn. unfold upd.
      destruct (S3 z Hz). destruct (Nat.eqb_spec z c); auto. subst z. lia.
  - apply bind_some in Eb. destruct Eb as ((g1 & lin) & Eg & Eb).
    destruct (grow_same m E1 E2 H1 H2 Hmx Hpos wt srt Hs la1 la2 ja1 ja2 L1 L2 thr (length lx) _ x y [] c g1 lin S FL ltac:(lia) Eg) as (g2 & Eg2 & SG2). rewrite Eg2. cbn [bind].
    destruct (1 <? length lin); [inversion Eb; subst; eexists; split; [reflexivity|]; auto|].
    destruct (length lin =? 1); [|inversion Eb; subst; eexists; split; [reflexivity|]; auto].
    apply bind_some in Eb. destruct Eb as (w & Ew & Eb). rewrite Ew. cbn [bind]. apply bind_some in Eb. destruct Eb as (g3 & Eg3 & Eb). inversion Eb; subst.
    destruct SG2 as (T1 & T2 & T3). unfold aset in *. rewrite T1 in Eg3. rewrite T2. destruct (w <? nelem m); [|discriminate]. cbn [bind]. inversion Eg3; subst. eexists; split; [reflexivity|].
    cbn. split; auto. split; auto. split; auto. intros z Hz. cbn. unfold upd. destruct (z =? w); [split; [auto|lia]|auto].
Qed.

(** C11: none of the memory the constructors leave unwritten decides the lines: neither that of the mesh tables nor that of the weight table, of which
    the first entry of a cell without neighbours is read. *)
Theorem C11_lines_determined : forall m hs wt srt thr j0 jf je jt ja j0' jf' je' jt' ja', tiled m hs -> 0 < maxnfael m -> (forall l, Permutation (srt l) l) ->
  exists p e ni s la cl p' e' ni' s' la' cl' lines,
  compute_topological m j0 jf je jt = Some (Val (p, e, (ni, s))) /\ compute_topological m j0' jf' je' jt' = Some (Val (p', e', (ni', s'))) /\
  computeWeights m (esuel s) wt srt ja = Some la /\ computeWeights m (esuel s') wt srt ja' = Some la' /\
  findLines m (nbface m) (intfac s) (esuel s) la thr = Some (cl, lines) /\ findLines m (nbface m) (intfac s') (esuel s') la' thr = Some (cl', lines) /\
  forall c, c < nelem m -> aat cl c = aat cl' c.
Proof.
  intros m hs wt srt thr j0 jf je jt ja j0' jf' je' jt' ja' T Hp Hs.
  destruct (topo_full m hs T j0 jf je jt) as (p & e & ni & s & il & Et & TP). destruct (topo_full m hs T j0' jf' je' jt') as (p' & e' & ni' & s' & il' & Et' & TP').
  pose proof (to_nbr _ _ _ _ _ _ _ TP) as NB. pose proof (to_nbr _ _ _ _ _ _ _ TP') as NB'. pose proof (tl_max m hs T) as MX.
  destruct (computeWeights_ok m (esuel s) NB MX wt srt Hs ja) as (la & El & _). destruct (computeWeights_ok m (esuel s') NB' MX wt srt Hs ja') as (la' & El' & _).
  destruct (findLines_same m (esuel s) (esuel s') wt srt la la' ja ja' thr (nbface m) (intfac s) (intfac s')) as (c1 & c2 & lines & F1 & F2 & S1 & S2 & S3); auto.
  { rewrite (to_len _ _ _ _ _ _ _ TP). lia. } { rewrite (to_len _ _ _ _ _ _ _ TP'). lia. }
  { intros i Hi. split; [|eapply face_left_lt; eauto; rewrite (to_len _ _ _ _ _ _ _ TP); lia].
    destruct (bnd_left m hs p e ni s il T TP i Hi) as (f & Q1). destruct (bnd_left m hs p' e' ni' s' il' T TP' i Hi) as (f' & Q2). congruence. }
  exists p, e, ni, s, la, c1, p', e', ni', s', la', c2, lines. repeat (split; [assumption|]). intros c Hc. apply S3; auto.
Qed.
Print Assumptions C11_lines_determined.
