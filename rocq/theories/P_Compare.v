(** C94: comparison of meshes, and the debug check of constructMesh on one rank (mesh/ameshutils.cpp 126-133). *)
From Coq Require Import Reals Lra List Arith Lia ZArith Bool Sorted.
From Verif Require Import Base BaseR M_Mesh M_Part M_Compare Pf_Periodic S_Mesh Pf_Incid Pf_Part Pf_Restrict ChkMesh P_Part.
Import ListNotations.
Open Scope nat_scope.

(** ** Specification *)
(** arrays of the right size: a coordinate pair for every point, the same number of tags for every boundary face *)
Definition stored (nbtag : nat) (m : umesh) (X : arr v2) : Prop := alen X = npoin m /\ forall b, In b (bfaces m) -> List.length (btg b) = nbtag.
Definition near (eps : R) (x y : v2) : Prop := (Rabs (vx x - vx y) <= eps)%R /\ (Rabs (vy x - vy y) <= eps)%R.
Definition all_near (eps : R) (n : nat) (X1 X2 : arr v2) : Prop := forall i, i < n -> near eps (aat X1 i) (aat X2 i).

(** ** Loops *)
Lemma rowdiff_ok n d q : (forall j, j < n -> d j = Some (q j)) -> exists b, rowdiff n d = Some b /\ (b = false <-> forall j, j < n -> q j = false).
Proof.
  intros H. unfold rowdiff. destruct (ofind_from_spec n 0 d q) as [(i & A & B & C & D)|(A & B)].
  - intros. apply H. lia.
  - rewrite D. exists true. split; [reflexivity|]. split; [discriminate|]. intros Q. rewrite Q in B by lia. discriminate.
  - rewrite B. exists false. split; [reflexivity|]. split; auto. intros _ j Hj. apply A. lia.
Qed.
(** a loop that only lowers a flag *)
Lemma flag_loop n (body : nat -> bool -> option bool) (q : nat -> Prop) :
  (forall i e, i < n -> exists b : bool, body i e = Some (if b then false else e) /\ (b = false <-> q i)) ->
  exists e, floop n body true = Some e /\ (e = true <-> forall i, i < n -> q i).
Proof.
  intros H. destruct (floop_inv bool (fun k e => e = true <-> forall i, i < k -> q i) n body true) as (e & E & P).
  - split; auto. intros; lia.
  - intros k e Hk P. destruct (H k e Hk) as (b & B & Q). eexists. split; [exact B|]. destruct b.
    + split; [discriminate|]. intros A. assert (true = false) by (apply Q, A; lia). discriminate.
    + rewrite P. assert (q k) by (apply Q; auto). split; intros A i Hi; [|apply A; lia]. destruct (Nat.eq_dec i k) as [->|]; auto. apply A. lia.
  - eauto.
Qed.
(** what a loop reads, it can read *)
Lemma floop_defined S n (body : nat -> S -> option S) s s' : floop n body s = Some s' -> forall i, i < n -> exists a b, body i a = Some b.
Proof.
  revert s'. induction n as [|n IH]; intros s' E i Hi; [lia|]. cbn [floop] in E.
  destruct (floop n body s) as [s1|] eqn:E1; [|discriminate]. cbn [bind] in E. destruct (Nat.eq_dec i n) as [->|]; eauto. apply (IH s1); auto. lia.
Qed.

Lemma list_nth_eq A (l1 l2 : list A) : List.length l1 = List.length l2 -> (forall i, i < List.length l1 -> nth_error l1 i = nth_error l2 i) -> l1 = l2.
Proof.
  revert l2. induction l1 as [|x l1 IH]; intros [|y l2] L H; cbn in *; auto; try lia. f_equal.
  - specialize (H 0 ltac:(lia)). cbn in H. congruence.
  - apply IH; [lia|]. intros i Hi. apply (H (S i)). lia.
Qed.
Lemma nth_lt A (l : list A) i : i < List.length l -> exists x, nth_error l i = Some x.
Proof. intros H. destruct (nth_error l i) eqn:E; eauto. apply nth_error_None in E. lia. Qed.

(** ** Points *)
Lemma cmp_points_ok eps n X1 X2 : n <= alen X1 -> n <= alen X2 ->
  exists e, floop n (cmp_point eps X1 X2) true = Some e /\ (e = true <-> all_near eps n X1 X2).
Proof.
  intros L1 L2. apply flag_loop. intros i e Hi. unfold cmp_point.
  destruct (rowdiff_ok 2 (fun j => a <- coord_at X1 i j ;; b <- coord_at X2 i j ;; Some (if Rlt_dec eps (Rabs (a - b)) then true else false))
    (fun j => if Rlt_dec eps (Rabs ((if j =? 0 then vx (aat X1 i) else vy (aat X1 i)) - (if j =? 0 then vx (aat X2 i) else vy (aat X2 i)))) then true else false)) as (b & B & Q).
  - intros j Hj. unfold coord_at. rewrite !aget_ok by lia. reflexivity.
  - rewrite B. cbn [bind]. exists b. split; [reflexivity|]. rewrite Q. unfold near. split.
    + intros A. pose proof (A 0 ltac:(lia)) as A0. pose proof (A 1 ltac:(lia)) as A1. cbv beta in A0, A1. change (0 =? 0) with true in A0. change (1 =? 0) with false in A1. cbv iota in A0, A1.
      destruct (Rlt_dec _ _) as [|N0] in A0; [discriminate|]. destruct (Rlt_dec _ _) as [|N1] in A1; [discriminate|]. lra.
    + intros (A0 & A1) j Hj. destruct (Rlt_dec _ _) as [N|]; auto. exfalso. destruct (j =? 0); lra.
Qed.

(** ** Boundary faces *)
Lemma cmp_bfaces_ok nbtag m1 m2 : (forall b, In b (bfaces m1) -> List.length (btg b) = nbtag) -> (forall b, In b (bfaces m2) -> List.length (btg b) = nbtag) -> nbface m1 <= nbface m2 ->
  exists e, floop (nbface m1) (cmp_bface nbtag m1 m2) true = Some e /\ (e = true <-> forall i, i < nbface m1 -> nth_error (bfaces m1) i = nth_error (bfaces m2) i).
Proof.
  intros T1 T2 L. apply flag_loop. intros i e Hi. unfold cmp_bface.
  destruct (nth_lt _ (bfaces m1) i Hi) as (x & Ex). destruct (nth_lt _ (bfaces m2) i ltac:(unfold nbface in *; lia)) as (y & Ey).
  pose proof (T1 x (nth_error_In _ _ Ex)) as Lx. pose proof (T2 y (nth_error_In _ _ Ey)) as Ly.
  set (at_ := fun (b : bfrec) j => match j with 0 => Z.of_nat (b0 b) | 1 => Z.of_nat (b1 b) | S (S k) => nth k (btg b) 0%Z end).
  destruct (rowdiff_ok (2 + nbtag) (fun j => a <- bface_at m1 i j ;; b <- bface_at m2 i j ;; Some (negb (a =? b)%Z)) (fun j => negb (at_ x j =? at_ y j)%Z)) as (b & B & Q).
  - intros j Hj. unfold bface_at. rewrite Ex, Ey. cbn [bind]. destruct j as [|[|k]]; cbn [bind at_]; auto.
    rewrite (nth_error_nth' (btg x) 0%Z), (nth_error_nth' (btg y) 0%Z) by lia. reflexivity.
  - rewrite B. cbn [bind]. exists b. split; [reflexivity|]. rewrite Q, Ex, Ey. split.
    + intros A. assert (A' : forall j, j < 2 + nbtag -> at_ x j = at_ y j) by (intros j Hj; apply Z.eqb_eq, negb_false_iff, A, Hj). clear A.
      pose proof (A' 0 ltac:(lia)) as A0. pose proof (A' 1 ltac:(lia)) as A1. cbn in A0, A1. destruct x as [x0 x1 xt], y as [y0 y1 yt]. cbn in *. do 2 f_equal; try lia.
      apply (nth_ext _ _ 0%Z 0%Z); [lia|]. intros k Hk. apply (A' (S (S k))). lia.
    + intros A j Hj. injection A as ->. rewrite Z.eqb_refl. reflexivity.
Qed.

(** ** Cells *)
Definition ncell (m : umesh) (i : nat) : nat := List.length (cell (cells m) i).
(** all cells before [k] have the same number of nodes in both meshes *)
Definition alike (m1 m2 : umesh) (k : nat) : Prop := forall i, i < k -> ncell m1 i = ncell m2 i.
Lemma nnode_ncell m i : i < nelem m -> nnode m i = Some (ncell m i).
Proof. intros H. unfold nnode. destruct (nth_lt _ (cells m) i H) as (c & E). rewrite E. unfold ncell, cell. rewrite (nth_error_nth _ _ [] E). reflexivity. Qed.
Lemma inpoel_cell m i j : i < nelem m -> j < ncell m i -> inpoel m i j = Some (nth j (cell (cells m) i) 0).
Proof.
  intros H Hj. unfold inpoel. destruct (nth_lt _ (cells m) i H) as (c & E). rewrite E. unfold ncell, cell in *. rewrite (nth_error_nth _ _ [] E) in *. apply nth_error_nth', Hj.
Qed.

(** invariant of the loop over cells *)
Definition cells_inv (m1 m2 : umesh) (k : nat) (s : bool * bool * bool) : Prop :=
  let '(e3, e5, stop) := s in
  if stop then e3 = false /\ exists i, i < k /\ alike m1 m2 i /\ ncell m1 i <> ncell m2 i /\ (e5 = true <-> forall j, j < i -> cell (cells m1) j = cell (cells m2) j)
  else e3 = true /\ alike m1 m2 k /\ (e5 = true <-> forall j, j < k -> cell (cells m1) j = cell (cells m2) j).
Lemma cmp_cell_step m1 m2 k s : k < nelem m1 -> k < nelem m2 \/ snd s = true -> cells_inv m1 m2 k s -> exists s', cmp_cell m1 m2 k s = Some s' /\ cells_inv m1 m2 (k + 1) s'.
Proof.
  intros K1 K2 I0. destruct s as ((e3, e5), stop). unfold cmp_cell. destruct stop.
  - eexists. split; [reflexivity|]. destruct I0 as (A & i & B & C). split; auto. exists i. split; [lia|]. exact C.
  - destruct I0 as (-> & A & F). destruct K2 as [K2|K2]; [|discriminate]. rewrite !nnode_ncell by auto. cbn [bind].
    destruct (Nat.eqb_spec (ncell m1 k) (ncell m2 k)) as [E|E]; cbn [negb].
    + destruct (rowdiff_ok (ncell m1 k) (fun j => a <- inpoel m1 k j ;; b <- inpoel m2 k j ;; Some (negb (a =? b)))
        (fun j => negb (nth j (cell (cells m1) k) 0 =? nth j (cell (cells m2) k) 0))) as (b & B & Q).
      { intros j Hj. rewrite !inpoel_cell by lia. reflexivity. }
      rewrite B. cbn [bind]. eexists. split; [reflexivity|]. unfold cells_inv. split; auto. split.
      { intros i Hi. destruct (Nat.eq_dec i k) as [->|]; auto. apply A. lia. }
      assert (Q' : b = false <-> cell (cells m1) k = cell (cells m2) k).
      { rewrite Q. split.
        - intros C. apply (nth_ext _ _ 0 0); [exact E|]. intros j Hj. apply Nat.eqb_eq, negb_false_iff, C, Hj.
        - intros C j _. rewrite C, Nat.eqb_refl. reflexivity. }
      destruct b.
      * split; [discriminate|]. intros C. assert (true = false) by (apply Q', C; lia). discriminate.
      * rewrite F. assert (cell (cells m1) k = cell (cells m2) k) by (apply Q'; auto). split; intros C j Hj; [|apply C; lia]. destruct (Nat.eq_dec j k) as [->|]; auto. apply C. lia.
    + eexists. split; [reflexivity|]. cbn. split; auto. exists k. split; [lia|]. auto.
Qed.
Lemma cmp_cells_ok m1 m2 : nelem m1 <= nelem m2 -> exists s, floop (nelem m1) (cmp_cell m1 m2) (true, true, false) = Some s /\ cells_inv m1 m2 (nelem m1) s.
Proof.
  intros L. apply floop_inv.
  - cbn. split; auto. split; [intros i Hi; lia|]. split; auto. intros; lia.
  - intros k s Hk I0. apply cmp_cell_step; auto. left. lia.
Qed.

(** ** C94 *)
(** The eight flags, for meshes of which the second has at least the sizes of the first: the last two and the fourth say what they should, the sixth
    is about the cells before the first one with another number of nodes; and they are all true exactly when the meshes are equal up to eps in the coordinates. *)
Theorem C94_flags : forall eps nbtag m1 X1 m2 X2, stored nbtag m1 X1 -> stored nbtag m2 X2 -> nelem m1 <= nelem m2 -> npoin m1 <= npoin m2 -> nbface m1 <= nbface m2 ->
  exists fl, compareMeshes eps nbtag m1 X1 m2 X2 = Some fl /\ List.length fl = 8 /\
  (nth 0 fl false = true <-> nelem m1 = nelem m2) /\ (nth 1 fl false = true <-> npoin m1 = npoin m2) /\ (nth 2 fl false = true <-> nbface m1 = nbface m2) /\
  (nth 3 fl false = true <-> forall i, i < nelem m1 -> ncell m1 i = ncell m2 i) /\
  (nth 5 fl false = true <-> forall k, k < nelem m1 -> (forall i, i <= k -> ncell m1 i = ncell m2 i) -> cell (cells m1) k = cell (cells m2) k) /\
  (nth 6 fl false = true <-> forall i, i < nbface m1 -> nth_error (bfaces m1) i = nth_error (bfaces m2) i) /\
  (nth 7 fl false = true <-> all_near eps (npoin m1) X1 X2) /\
  ((forall i, i < 8 -> nth i fl false = true) <-> cells m1 = cells m2 /\ npoin m1 = npoin m2 /\ bfaces m1 = bfaces m2 /\ all_near eps (npoin m1) X1 X2).
Proof.
  intros eps nbtag m1 X1 m2 X2 (A1 & T1) (A2 & T2) Le Lp Lb.
  destruct (cmp_cells_ok m1 m2 Le) as (((e3, e5), stop) & Ec & Ic). destruct (cmp_points_ok eps (npoin m1) X1 X2) as (e7 & E7 & I7); [lia|lia|].
  destruct (cmp_bfaces_ok nbtag m1 m2 T1 T2 Lb) as (e6 & E6 & I6).
  unfold compareMeshes. rewrite Ec. cbn [bind]. rewrite E7. cbn [bind]. rewrite E6. cbn [bind]. eexists. split; [reflexivity|]. split; [reflexivity|]. cbn [nth].
  assert (I3 : e3 = true <-> forall i, i < nelem m1 -> ncell m1 i = ncell m2 i).
  { destruct stop; cbn in Ic.
    - destruct Ic as (-> & i & Hi & B & C & D). split; [discriminate|]. intros F. contradiction (C (F i Hi)).
    - destruct Ic as (-> & A & _). split; auto. }
  assert (I5 : e5 = true <-> forall k, k < nelem m1 -> (forall i, i <= k -> ncell m1 i = ncell m2 i) -> cell (cells m1) k = cell (cells m2) k).
  { destruct stop; cbn in Ic.
    - destruct Ic as (_ & i & Hi & B & C & D). rewrite D. split.
      + intros F k Hk G. apply F. destruct (Nat.lt_ge_cases k i); auto. contradiction C. apply G. lia.
      + intros F j Hj. apply F; [lia|]. intros l Hl. apply B. lia.
    - destruct Ic as (_ & A & F). rewrite F. split; [auto|]. intros G j Hj. apply G; auto. intros l Hl. apply A. lia. }
  rewrite !Nat.eqb_eq. split; [reflexivity|]. split; [reflexivity|]. split; [reflexivity|]. split; [exact I3|]. split; [exact I5|]. split; [exact I6|]. split; [exact I7|]. split.
  - intros F. pose proof (F 0 ltac:(lia)) as F0. pose proof (F 1 ltac:(lia)) as F1. pose proof (F 2 ltac:(lia)) as F2. pose proof (F 3 ltac:(lia)) as F3.
    pose proof (F 5 ltac:(lia)) as F5. pose proof (F 6 ltac:(lia)) as F6. pose proof (F 7 ltac:(lia)) as F7. cbn [nth] in *. apply Nat.eqb_eq in F0, F1, F2.
    split; [|split; [auto|split; [|apply I7; auto]]].
    + apply (nth_ext _ _ [] []); [exact F0|]. intros i Hi. apply (proj1 I5 F5); auto. intros j Hj. apply (proj1 I3 F3). unfold nelem. lia.
    + apply list_nth_eq; [exact F2|]. apply I6, F6.
  - intros (B1 & B2 & B3 & B4). assert (N3 : e3 = true). { apply I3. intros. unfold ncell. rewrite B1. auto. }
    assert (N5 : e5 = true). { apply I5. intros. rewrite B1. auto. } assert (N6 : e6 = true). { apply I6. intros. rewrite B3. auto. } assert (N7 : e7 = true) by (apply I7; auto).
    intros i Hi. do 8 (destruct i as [|i]; cbn [nth]; auto; try (apply Nat.eqb_eq; unfold nelem, nbface; congruence)). lia.
Qed.
Print Assumptions C94_flags.

(** A second mesh with fewer points or boundary faces, or with fewer cells that all have the nodes numbers of the first mesh's, is read out of bounds. *)
Theorem C94_smaller : forall eps nbtag m1 X1 m2 X2, stored nbtag m1 X1 -> stored nbtag m2 X2 ->
  npoin m2 < npoin m1 \/ nbface m2 < nbface m1 \/ (nelem m2 < nelem m1 /\ forall i, i < nelem m2 -> ncell m1 i = ncell m2 i) ->
  compareMeshes eps nbtag m1 X1 m2 X2 = None.
Proof.
  intros eps nbtag m1 X1 m2 X2 (A1 & T1) (A2 & T2) H. unfold compareMeshes.
  destruct (floop (nelem m1) (cmp_cell m1 m2) (true, true, false)) as [((e3, e5), stop)|] eqn:Ec; cbn [bind]; auto.
  destruct (floop (npoin m1) (cmp_point eps X1 X2) true) as [e7|] eqn:Ep; cbn [bind]; auto.
  destruct (floop (nbface m1) (cmp_bface nbtag m1 m2) true) as [e6|] eqn:Eb; cbn [bind]; auto. exfalso. destruct H as [H|[H|(H & Q)]].
  - destruct (floop_defined _ _ _ _ _ Ep (npoin m2) H) as (a & b & E). unfold cmp_point, rowdiff, ofind_from, coord_at in E.
    rewrite aget_ok in E by lia. unfold aget in E. destruct (Nat.ltb_spec (npoin m2) (alen X2)); [lia|]. discriminate.
  - destruct (floop_defined _ _ _ _ _ Eb (nbface m2) H) as (a & b & E). unfold cmp_bface, rowdiff in E. cbn [Nat.add ofind_from] in E. unfold bface_at at 1 2 in E.
    destruct (nth_lt _ (bfaces m1) (nbface m2) H) as (x & Ex). rewrite Ex in E. assert (Ey : nth_error (bfaces m2) (nbface m2) = None) by (apply nth_error_None; unfold nbface; lia).
    rewrite Ey in E. discriminate.
  - destruct (floop_inv _ (fun k s => cells_inv m1 m2 k s) (nelem m2) (cmp_cell m1 m2) (true, true, false)) as (s & E & I0).
    { cbn. split; auto. split; [intros i Hi; lia|]. split; auto. intros; lia. }
    { intros k s Hk I0. apply cmp_cell_step; auto. lia. }
    assert (ES : floop (S (nelem m2)) (cmp_cell m1 m2) (true, true, false) = None).
    { cbn [floop]. rewrite E. cbn [bind]. destruct s as ((e3', e5'), stop'). unfold cells_inv in I0. destruct stop'.
      - destruct I0 as (_ & i & Hi & _ & N & _). contradiction (N (Q i Hi)).
      - unfold cmp_cell. rewrite nnode_ncell by auto. cbn [bind]. unfold nnode. assert (Ey : nth_error (cells m2) (nelem m2) = None) by (apply nth_error_None; unfold nelem; lia). rewrite Ey. reflexivity. }
    assert (M : forall n, S (nelem m2) <= n -> floop n (cmp_cell m1 m2) (true, true, false) = None).
    { induction 1; auto. cbn [floop]. rewrite IHle. reflexivity. }
    rewrite M in Ec by lia. discriminate.
Qed.
Print Assumptions C94_smaller.

(** ** The check of constructMesh on one rank *)
Definition used (m : umesh) (p : nat) : Prop := exists c, In c (cells m) /\ In p c.
Lemma ss_nth l : StronglySorted lt l -> forall i j, i < j -> j < List.length l -> nth i l 0 < nth j l 0.
Proof.
  induction 1 as [|x l S IH F]; intros i j Hij Hj; cbn in *; [lia|]. destruct j as [|j]; [lia|]. destruct i as [|i].
  - rewrite Forall_forall in F. apply F, nth_In. lia.
  - apply IH; lia.
Qed.
Lemma ss_ext l1 : StronglySorted lt l1 -> forall l2, StronglySorted lt l2 -> (forall x, In x l1 <-> In x l2) -> l1 = l2.
Proof.
  induction 1 as [|x l1 S1 IH F1]; intros l2 S2 E.
  - destruct l2 as [|y l2]; auto. contradiction (proj2 (E y) (or_introl eq_refl)).
  - destruct S2 as [|y l2 S2 F2]; [contradiction (proj1 (E x) (or_introl eq_refl))|]. rewrite Forall_forall in F1, F2.
    assert (x = y). { destruct (proj1 (E x) (or_introl eq_refl)) as [|G]; auto. destruct (proj2 (E y) (or_introl eq_refl)) as [|G']; auto. specialize (F2 _ G). specialize (F1 _ G'). lia. }
    subst y. f_equal. apply IH; auto. intros z. split; intros Z.
    + destruct (proj1 (E z) (or_intror Z)) as [<-|]; auto. specialize (F1 _ Z). lia.
    + destruct (proj2 (E z) (or_intror Z)) as [<-|]; auto. specialize (F2 _ Z). lia.
Qed.
Lemma seq_ss a n : StronglySorted lt (seq a n).
Proof. revert a. induction n; intros a; cbn; constructor; auto. apply Forall_forall. intros x Hx. apply in_seq in Hx. lia. Qed.
Lemma filter_all A (p : A -> bool) l : (forall x, In x l -> p x = true) -> filter p l = l.
Proof. induction l as [|x l IH]; intros H; cbn; auto. rewrite H by (left; auto). f_equal. apply IH. intros. apply H. right. auto. Qed.

Lemma idx_seq n x : x < n -> idx (seq 0 n) x = x.
Proof. intros H. assert (K : nth x (seq 0 n) 0 = x) by (rewrite seq_nth by lia; reflexivity). rewrite <- K at 1. apply idx_nth; [apply seq_NoDup|]. rewrite seq_length. exact H. Qed.
Lemma trivial_one ne je : exists d, trivial_partition ne 1 je = Some d /\ alen d = ne /\ forall i, i < ne -> aat d i = 0.
Proof. destruct (C14_trivial_partition ne 1 je ltac:(lia)) as (d & E & L & B & _). exists d. split; auto. split; auto. intros i Hi. specialize (B i Hi). lia. Qed.

(** On one rank the trivial partition and the restriction give back the mesh when every point belongs to a cell, and the check passes; with a point
    that belongs to no cell the restricted mesh has fewer points and the check reads past its end. *)
Theorem C94_one_rank : forall g hs nbtag eps je jc jr ji jx j0, global_ok g hs -> (forall b, In b (bfaces (g_m g)) -> List.length (btg b) = nbtag) -> (0 <= eps)%R ->
  exists d lm, trivial_partition (nelem (g_m g)) 1 je = Some d /\ restrictMesh g d 0 jc jr ji jx j0 = Some (Val lm) /\
  ((forall p, p < npoin (g_m g) -> used (g_m g) p) ->
     cells (l_m lm) = cells (g_m g) /\ npoin (l_m lm) = npoin (g_m g) /\ bfaces (l_m lm) = bfaces (g_m g) /\ alist (l_X lm) = alist (g_X g) /\
     alist (l_regs lm) = alist (g_regs g) /\ alist (l_eglob lm) = seq 0 (nelem (g_m g)) /\
     compareMeshes eps nbtag (g_m g) (g_X g) (l_m lm) (l_X lm) = Some [true; true; true; true; true; true; true; true]) /\
  (forall p, p < npoin (g_m g) -> ~ used (g_m g) p ->
     npoin (l_m lm) < npoin (g_m g) /\ compareMeshes eps nbtag (g_m g) (g_X g) (l_m lm) (l_X lm) = None).
Proof.
  intros g hs nbtag eps je jc jr ji jx j0 G T Heps. destruct (trivial_one (nelem (g_m g)) je) as (d & Ed & Ld & D0).
  destruct (restrict_ok g hs G d 0 Ld jc jr ji jx j0) as (E & B & lm & HE & HB1 & HB2 & R & M & X & Rg & L & P).
  assert (Own : own g d 0 = seq 0 (nelem (g_m g))). { apply filter_all. intros i Hi. apply in_seq in Hi. apply Nat.eqb_eq, D0. lia. }
  assert (LX : alen (l_X lm) = List.length (pts g d 0)) by (rewrite <- alist_length, X, map_length; reflexivity).
  assert (Obf : owned_bf g d 0 hs = combine (bfaces (g_m g)) hs).
  { apply filter_all. intros (bf & h) Hx. apply Nat.eqb_eq, D0. apply in_combine_nth in Hx. destruct Hx as (q & Q1 & Q2). apply (hosts' g hs G q bf h Q1 Q2). }
  assert (LH : List.length hs = nbface (g_m g)) by apply (hosts g hs G).
  assert (Fst : map fst (combine (bfaces (g_m g)) hs) = bfaces (g_m g)).
  { unfold nbface in LH. clear -LH. revert LH. generalize hs. generalize (bfaces (g_m g)). induction l as [|x l IH]; intros [|y h] LH; cbn in *; auto; try lia. rewrite IH; auto. }
  assert (Bf : bfaces (l_m lm) = map (rename_bf g d 0) (bfaces (g_m g))).
  { rewrite M. cbn [bfaces]. unfold lbl. rewrite Obf. rewrite <- Fst at 2. rewrite map_map. reflexivity. }
  assert (St : stored nbtag (l_m lm) (l_X lm)).
  { split; [rewrite M; exact LX|]. intros b Hb. rewrite Bf in Hb. apply in_map_iff in Hb. destruct Hb as (b' & <- & Hb). apply (T b' Hb). }
  assert (Sg : stored nbtag (g_m g) (g_X g)) by (split; [apply (gl_X _ _ G)|exact T]).
  assert (PU : forall x, In x (pts g d 0) <-> used (g_m g) x).
  { intros x. rewrite pts_in, Own. split.
    - intros (i & Hi & Hx). apply in_seq in Hi. exists (cell (cells (g_m g)) i). split; auto. apply nth_In. unfold nelem in Hi. lia.
    - intros (c & Hc & Hx). destruct (In_nth _ _ [] Hc) as (i & Hi & Ei). exists i. split; [apply in_seq; unfold nelem; lia|]. unfold cell. rewrite Ei. exact Hx. }
  assert (V : forall c v, In c (cells (g_m g)) -> In v c -> v < npoin (g_m g)) by (intros c v Hc Hv; apply (gv g hs G c Hc), Hv).
  exists d, lm. split; [exact Ed|]. split; [exact R|]. split.
  - intros U. assert (Pts : pts g d 0 = seq 0 (npoin (g_m g))).
    { apply ss_ext; [apply pts_ss|apply seq_ss|]. intros x. rewrite PU, in_seq. split; [|intros; apply U; lia]. intros (c & Hc & Hx). specialize (V c x Hc Hx). lia. }
    assert (C1 : cells (l_m lm) = cells (g_m g)).
    { rewrite M. cbn [cells]. unfold lcells. rewrite Own. transitivity (map (cell (cells (g_m g))) (seq 0 (nelem (g_m g)))).
      - apply map_ext_in. intros i Hi. apply in_seq in Hi. rewrite <- (map_id (cell (cells (g_m g)) i)) at 2. apply map_ext_in. intros v Hv. rewrite Pts. apply idx_seq.
        apply (V (cell (cells (g_m g)) i)); auto. apply nth_In. unfold nelem in Hi. lia.
      - apply (nth_ext _ _ [] []); [rewrite map_length, seq_length; reflexivity|]. intros i Hi. rewrite map_length, seq_length in Hi.
        rewrite (map_nth_in _ _ (cell (cells (g_m g))) (seq 0 (nelem (g_m g))) i [] 0) by (rewrite seq_length; lia). rewrite seq_nth by lia. reflexivity. }
    assert (C2 : npoin (l_m lm) = npoin (g_m g)) by (rewrite M; cbn [npoin]; rewrite Pts; apply seq_length).
    assert (C3 : bfaces (l_m lm) = bfaces (g_m g)).
    { rewrite Bf. rewrite <- (map_id (bfaces (g_m g))) at 2. apply map_ext_in. intros bf Hb. rewrite <- Fst in Hb. apply in_map_iff in Hb. destruct Hb as ((bf' & h) & E1 & Hx). cbn in E1. subst bf'.
      rewrite <- Obf in Hx. destruct (ob_host g hs G d 0 bf h Hx) as (A1 & A2 & A3 & A4 & A5). destruct (edge_in _ _ A4) as (P1 & P2). rewrite <- A5 in P1, P2. cbn [fst snd] in P1, P2.
      assert (Ic : In (cell (cells (g_m g)) (fst h)) (cells (g_m g))) by (apply nth_In, A3).
      unfold rename_bf. destruct bf as [x y t]. cbn in *. rewrite Pts, !idx_seq by eauto. reflexivity. }
    assert (C4 : alist (l_X lm) = alist (g_X g)) by (rewrite X, Pts; unfold alist; rewrite (gl_X _ _ G); reflexivity).
    split; [exact C1|]. split; [exact C2|]. split; [exact C3|]. split; [exact C4|]. split; [rewrite Rg, Own; unfold alist; rewrite (gl_regs _ _ G); reflexivity|]. split; [rewrite L; exact Own|].
    assert (N : all_near eps (npoin (g_m g)) (g_X g) (l_X lm)).
    { intros i Hi. assert (Ei : aat (g_X g) i = aat (l_X lm) i).
      { assert (K : nth i (alist (l_X lm)) vzero = nth i (alist (g_X g)) vzero) by congruence. unfold alist in K. rewrite (gl_X _ _ G), LX, Pts, seq_length in K.
        rewrite !(map_nth_in _ _ _ (seq 0 (npoin (g_m g))) i vzero 0) in K by (rewrite seq_length; lia). rewrite !seq_nth in K by lia. cbn in K. auto. }
      rewrite Ei. unfold near. rewrite !Rminus_diag_eq, Rabs_R0 by auto. auto. }
    destruct (C94_flags eps nbtag (g_m g) (g_X g) (l_m lm) (l_X lm) Sg St) as (fl & F & L8 & _ & _ & _ & _ & _ & _ & _ & All); [unfold nelem; rewrite C1; lia|lia|unfold nbface; rewrite C3; lia|].
    rewrite F. f_equal. apply (nth_ext _ _ false false); [exact L8|]. intros i Hi. rewrite L8 in Hi. rewrite (proj2 All); auto. do 8 (destruct i as [|i]; [reflexivity|]). lia.
  - intros p Hp Np. assert (Lt : npoin (l_m lm) < npoin (g_m g)).
    { rewrite M. cbn [npoin]. assert (LL : List.length (p :: pts g d 0) <= List.length (seq 0 (npoin (g_m g)))); [|cbn in LL; rewrite seq_length in LL; lia].
      apply NoDup_incl_length.
      - constructor; [|apply pts_nodup]. intros I0. apply Np, PU, I0.
      - intros x [<-|I0]; apply in_seq; [lia|]. apply PU in I0. destruct I0 as (c & Hc & Hx). specialize (V c x Hc Hx). lia. }
    split; [exact Lt|]. apply C94_smaller; auto.
Qed.
Print Assumptions C94_one_rank.

(** The hypotheses hold: the ring mesh of C17 uses all its points; with a seventh point it is still a mesh, and that point is unused *)
Definition ring7 : umesh := mkmesh 7 (cells ring) (maxnfael ring) (bfaces ring) [].
Lemma ring7_tiled : tiled ring7 ring_h. Proof. apply tiledb_ok. vm_compute. reflexivity. Qed.
Example C94_hyp : exists g, global_ok g ring_h /\ g_m g = ring /\ (forall b, In b (bfaces (g_m g)) -> List.length (btg b) = 1) /\ forall p, p < npoin (g_m g) -> used (g_m g) p.
Proof.
  destruct (global_of ring ring_h ring_tiled eq_refl (mkarr 6 (fun _ => vzero)) (mkarr 7 (fun _ => [])) eq_refl eq_refl) as (t & G). eexists. split; [exact G|]. split; [reflexivity|]. split.
  - intros b Hb. cbn in Hb. decompose [or] Hb; subst; try reflexivity; contradiction.
  - intros p Hp. cbn in Hp. destruct p as [|[|[|[|[|[|p]]]]]]; [| | | | | |lia].
    all: first [exists [0;1;2]; cbn; tauto | exists [3;4;1]; cbn; tauto | exists [4;5;2]; cbn; tauto].
Qed.
Theorem C94_orphan_point_refuted : exists g, global_ok g ring_h /\ forall eps je jc jr ji jx j0, (0 <= eps)%R -> exists d lm, trivial_partition (nelem (g_m g)) 1 je = Some d /\
  restrictMesh g d 0 jc jr ji jx j0 = Some (Val lm) /\ compareMeshes eps 1 (g_m g) (g_X g) (l_m lm) (l_X lm) = None.
Proof.
  destruct (global_of ring7 ring_h ring7_tiled eq_refl (mkarr 7 (fun _ => vzero)) (mkarr 7 (fun _ => [])) eq_refl eq_refl) as (t & G). eexists. split; [exact G|].
  intros eps je jc jr ji jx j0 He. destruct (C94_one_rank _ _ 1 eps je jc jr ji jx j0 G) as (d & lm & A & B & _ & C); auto.
  - intros b Hb. cbn in Hb. decompose [or] Hb; subst; try reflexivity; contradiction.
  - exists d, lm. split; [exact A|]. split; [exact B|]. apply (C 6); [cbn; lia|]. intros (c & Hc & Hx). cbn in Hc. decompose [or] Hc; subst; cbn in Hx; intuition discriminate.
Qed.
Print Assumptions C94_orphan_point_refuted.
(** two meshes that differ in a node; and two that also differ in the number of nodes of an earlier cell: the difference in nodes is not seen *)
Example C94_example :
  let X := mkarr 4 (fun i => mkv (INR i) 0) in let b := [mkbf 0 1 [3%Z]] in
  exists f1 f2, compareMeshes 0 1 (mkmesh 4 [[0;1;2]; [0;2;3]] 3 b []) X (mkmesh 4 [[0;1;2]; [0;3;2]] 3 b []) X = Some f1 /\ nth 5 f1 false <> true /\ nth 3 f1 false = true /\
    compareMeshes 0 1 (mkmesh 4 [[0;1;2]; [0;2;3]] 3 b []) X (mkmesh 4 [[0;1;2;3]; [0;3;2]] 3 b []) X = Some f2 /\ nth 5 f2 false = true /\ nth 3 f2 false <> true.
Proof.
  cbv zeta.
  destruct (C94_flags 0 1 (mkmesh 4 [[0;1;2]; [0;2;3]] 3 [mkbf 0 1 [3%Z]] []) (mkarr 4 (fun i => mkv (INR i) 0)) (mkmesh 4 [[0;1;2]; [0;3;2]] 3 [mkbf 0 1 [3%Z]] []) (mkarr 4 (fun i => mkv (INR i) 0)))
    as (f1 & E1 & _ & _ & _ & _ & A3 & A5 & _); try (cbn; lia). 1, 2: split; [reflexivity|intros b' [<-|[]]; reflexivity].
  destruct (C94_flags 0 1 (mkmesh 4 [[0;1;2]; [0;2;3]] 3 [mkbf 0 1 [3%Z]] []) (mkarr 4 (fun i => mkv (INR i) 0)) (mkmesh 4 [[0;1;2;3]; [0;3;2]] 3 [mkbf 0 1 [3%Z]] []) (mkarr 4 (fun i => mkv (INR i) 0)))
    as (f2 & E2 & L2 & _ & _ & _ & B3 & B5 & _); try (cbn; lia). 1, 2: split; [reflexivity|intros b' [<-|[]]; reflexivity].
  exists f1, f2. split; [exact E1|]. split; [|split; [|split; [exact E2|split]]].
  - intros F. pose proof (proj1 A5 F 1 ltac:(cbn; lia)) as K. assert (K' : [0;2;3] = [0;3;2]). { apply K. intros i Hi. destruct i as [|[|i]]; reflexivity. } discriminate.
  - apply A3. intros i Hi. destruct i as [|[|i]]; reflexivity.
  - apply B5. intros k Hk Q. specialize (Q 0 ltac:(lia)). discriminate.
  - intros F. specialize (proj1 B3 F 0 ltac:(cbn; lia)). discriminate.
Qed.
