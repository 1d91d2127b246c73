(** Property C24: Array2d, views and inclusive_scan. *)
From Coq Require Import List Arith Bool Lia.
From Verif Require Import Base M_Array Pf_Array M_Part Pf_Part.
Import ListNotations.

(** Value semantics: a program on Array2d objects that is correct as a program on independent matrices runs without undefined behaviour and gives
    the same results, however the objects are copied, moved, assigned, resized and destroyed; in release builds self-assignment is excluded. *)
Theorem C24_value_semantics : forall T (t0 t1 : T) close debug prog s o,
  (debug = false -> forall x, ~ In (Assign x x) prog) ->
  sexec_all t0 t1 close prog (fun _ => None) = Some (s, o) ->
  exists m, exec_all t0 t1 close debug prog empty_memory = Some (m, o) /\
    (forall x, vars m x = None <-> s x = None) /\
    (forall p, heap m p <> None -> exists x ob, vars m x = Some ob /\ o_elems ob = Some p).
Proof.
  intros T t0 t1 close debug prog s o ND H. destruct (sim_all t0 t1 close debug prog empty_memory (fun _ => None) s o sim_empty ND H) as (m & E & S). exists m. split; auto. split.
  - intros x. pose proof (sm_vars _ _ S x) as V. destruct (vars m x); destruct (s x); split; intros; try discriminate; auto; destruct V.
  - apply (sm_leak _ _ S).
Qed.
Print Assumptions C24_value_semantics.

(** When every object has been destroyed no storage is left allocated. *)
Theorem C24_no_leak : forall T (t0 t1 : T) close debug prog s o,
  (debug = false -> forall x, ~ In (Assign x x) prog) -> sexec_all t0 t1 close prog (fun _ => None) = Some (s, o) -> (forall x, s x = None) ->
  exists m, exec_all t0 t1 close debug prog empty_memory = Some (m, o) /\ forall p, heap m p = None.
Proof.
  intros T t0 t1 close debug prog s o ND H Z. destruct (C24_value_semantics T t0 t1 close debug prog s o ND H) as (m & E & V & L). exists m. split; auto.
  intros p. destruct (heap m p) eqn:Hp; auto. destruct (L p) as (x & ob & Vx & _); [congruence|]. apply V in Z || (specialize (proj2 (V x) (Z x)) as Q; congruence).
Qed.
Print Assumptions C24_no_leak.

(** Self-assignment in a release build: whatever has been stored in a non-empty array is lost; reading any entry afterwards reads
    uninitialised storage. In a debug build it has no effect. *)
Theorem C24_self_assignment_refuted : forall T (t0 t1 : T) close nr nc A i j, i < nr -> j < nc -> nr * nc <= alen A ->
  let prog := [New 0 nr nc; SetData 0 A (nr * nc); Assign 0 0; Get 0 i j] in
  (exists s, sexec_all t0 t1 close prog (fun _ => None) = Some (s, [OVal (aat A (i * nc + j))])) /\
  exec_all t0 t1 close false prog empty_memory = None /\
  (exists m, exec_all t0 t1 close true prog empty_memory = Some (m, [OVal (aat A (i * nc + j))])).
Proof.
  intros T t0 t1 close nr nc A i j Hi Hj LA prog. pose proof (idx_lt _ _ _ _ Hi Hj) as LI.
  assert (SP : exists s, sexec_all t0 t1 close prog (fun _ => None) = Some (s, [OVal (aat A (i * nc + j))])).
  { unfold prog. repeat (cbn; rewrite ?upd_eq, ?Nat.eqb_refl, ?(proj2 (Nat.leb_le _ _) LA), ?(proj2 (Nat.ltb_lt _ _) Hi), ?(proj2 (Nat.ltb_lt _ _) Hj)). eauto. }
  split; auto. split.
  - destruct SP as (s & SP). unfold prog in *.
    assert (P2 : exists s2, sexec_all t0 t1 close [New 0 nr nc; SetData 0 A (nr * nc)] (fun _ => None) = Some (s2, []) /\ exists a, s2 0 = Some a /\ sr a = nr /\ sc a = nc).
    { repeat (cbn; rewrite ?upd_eq, ?Nat.eqb_refl, ?(proj2 (Nat.leb_le _ _) LA)). eexists; split; [reflexivity|]. rewrite upd_eq. eexists; split; [reflexivity|]. auto. }
    destruct P2 as (s2 & P2 & a & Sa & Ra & Ca).
    destruct (sim_all t0 t1 close false [New 0 nr nc; SetData 0 A (nr * nc)] empty_memory (fun _ => None) s2 [] sim_empty ltac:(intros _ x [Q|[Q|[]]]; discriminate) P2) as (m & E & S).
    cbn [exec_all] in E |- *. destruct (exec1 t0 t1 close false (New 0 nr nc) empty_memory) as [[m1 o1]|]; [|discriminate]. cbn [bind] in *.
    destruct (exec1 t0 t1 close false (SetData 0 A (nr * nc)) m1) as [[m2 o2]|]; [|discriminate]. cbn [bind] in *. assert (m2 = m) by congruence. subst m2. clear E.
    destruct (sim_var _ _ _ _ S Sa) as (o & V & W1 & W2 & W3 & W4). cbn [exec1]. unfold assign. rewrite V. cbn [bind andb]. rewrite ?V. cbn [bind setvar vars].
    repeat (rewrite !upd_eq; cbn [bind setvar vars o_nrows o_ncols o_size o_elems]). rewrite W1, W2, Ra, Ca.
    rewrite Ra, Ca in W4. destruct (o_elems o) as [p|]; [|lia]. destruct W4 as (b & Hb & Lb & _).
    match goal with |- context [free ?z _] => set (mv := z) end. cbn [free]. change (heap mv p) with (heap m p). rewrite Hb. cbn [bind alloc nextp heap vars].
    match goal with |- context [floop ?n ?bb ?ss] => destruct (floop_inv _ (fun k (m' : memory) => exists oo b', vars m' 0 = Some oo /\ o_ncols oo = nc /\ o_elems oo = Some (nextp m) /\ heap m' (nextp m) = Some b' /\ alen b' = nr * nc /\ forall z, aat b' z = None) n bb ss) as (m' & E & oo & b' & I1 & I2 & I3 & I4 & I5 & I6) end.
    + cbn. rewrite upd_eq. eexists. eexists. split; [reflexivity|]. cbn. rewrite upd_eq. split; auto.
    + intros k m1' Hk (oo & b' & I1 & I2 & I3 & I4 & I5 & I6). rewrite I1. cbn [bind]. rewrite I3. rewrite (hget_ok _ _ b') by (auto; lia). cbn [bind]. rewrite (hset_ok _ _ b') by (auto; lia). eexists; split; [reflexivity|]. cbn.
      exists oo. rewrite upd_eq. eexists. split; auto. split; auto. split; auto. split; [reflexivity|]. cbn. split; auto. intros z. unfold upd. rewrite !I6. destruct (z =? k); auto.
    + unfold noout. rewrite E. cbn [bind]. unfold get. rewrite I1. cbn [bind]. rewrite I2, I3. rewrite (hget_ok _ _ b') by (auto; lia). cbn [bind]. rewrite I6. reflexivity.
  - destruct SP as (s & SP). destruct (C24_value_semantics T t0 t1 close true prog s _ ltac:(discriminate) SP) as (m & E & _). eauto.
Qed.
Print Assumptions C24_self_assignment_refuted.

(** Storage is row-major: entry (i,j) of an nr x nc array is the (i*nc+j)-th element handed to setdata, and distinct entries have distinct places. *)
Theorem C24_row_major : forall nr nc, (forall i j, i < nr -> j < nc -> i * nc + j < nr * nc) /\
  (forall i j i' j', j < nc -> j' < nc -> i * nc + j = i' * nc + j' -> i = i' /\ j = j') /\ (forall k, k < nr * nc -> exists i j, i < nr /\ j < nc /\ k = i * nc + j).
Proof. intros nr nc. split; [intros; apply Pf_Array.idx_lt; auto|]. split; [intros; eapply Pf_Array.idx_inj; eauto|intros; apply idx_all; auto]. Qed.
Print Assumptions C24_row_major.

(** A column index past the end is not noticed when assertions are off: it addresses the next row. *)
Theorem C24_column_overrun : forall T (t0 t1 : T) close nr nc A i j k, i + 1 < nr -> j < nc -> k = nc + j -> nr * nc <= alen A ->
  exists m, exec_all t0 t1 close false [New 0 nr nc; SetData 0 A (nr * nc); Get 0 i k] empty_memory = Some (m, [OVal (aat A ((i + 1) * nc + j))]).
Proof.
  intros T t0 t1 close nr nc A i j k Hi Hj -> LA.
  assert (SP : exists s, sexec_all t0 t1 close [New 0 nr nc; SetData 0 A (nr * nc); Get 0 (i + 1) j] (fun _ => None) = Some (s, [OVal (aat A ((i + 1) * nc + j))])).
  { repeat (cbn; rewrite ?upd_eq, ?Nat.eqb_refl, ?(proj2 (Nat.leb_le _ _) LA), ?(proj2 (Nat.ltb_lt _ _) Hi), ?(proj2 (Nat.ltb_lt _ _) Hj)). eauto. }
  destruct SP as (s & SP). destruct (C24_value_semantics T t0 t1 close false [New 0 nr nc; SetData 0 A (nr * nc); Get 0 (i + 1) j] s _ ltac:(intros _ x [Q|[Q|[Q|[]]]]; discriminate) SP) as (m & E & _). exists m. rewrite <- E.
  cbn [exec_all]. destruct (exec1 t0 t1 close false (New 0 nr nc) empty_memory) as [[m1 o1]|] eqn:E1; [|reflexivity]. cbn [bind].
  destruct (exec1 t0 t1 close false (SetData 0 A (nr * nc)) m1) as [[m2 o2]|] eqn:E2; [|reflexivity]. cbn [bind exec1].
  assert (P2 : exists s2, sexec_all t0 t1 close [New 0 nr nc; SetData 0 A (nr * nc)] (fun _ => None) = Some (s2, []) /\ exists a, s2 0 = Some a /\ sr a = nr /\ sc a = nc).
  { repeat (cbn; rewrite ?upd_eq, ?Nat.eqb_refl, ?(proj2 (Nat.leb_le _ _) LA)). eexists; split; [reflexivity|]. rewrite upd_eq. eexists; split; [reflexivity|]. auto. }
  destruct P2 as (s2 & P2 & a & Sa & Ra & Ca). destruct (sim_all t0 t1 close false [New 0 nr nc; SetData 0 A (nr * nc)] empty_memory (fun _ => None) s2 [] sim_empty ltac:(intros _ x [Q|[Q|[]]]; discriminate) P2) as (m' & E' & S).
  cbn [exec_all] in E'. rewrite E1 in E'. cbn [bind] in E'. rewrite E2 in E'. cbn [bind] in E'. assert (m2 = m') by congruence. subst m2.
  destruct (sim_var _ _ _ _ S Sa) as (o & V & W1 & W2 & W3 & W4). unfold get. rewrite V. cbn [bind]. rewrite W2, Ca. replace (i * nc + (nc + j)) with ((i + 1) * nc + j) by lia. reflexivity.
Qed.
Print Assumptions C24_column_overrun.

(** inclusive_scan replaces every entry by the sum of the entries up to and including it. *)
Theorem C24_inclusive_scan : forall v, exists w, inclusive_scan v = Some w /\ alen w = alen v /\
  forall i, i < alen v -> aat w i = list_sum (map (aat v) (seq 0 (i + 1))).
Proof. exact scan_ok. Qed.
Print Assumptions C24_inclusive_scan.

(** ** Example: copies are independent *)
Example C24_ex : exists m, exec_all 0 1 Nat.eqb false
  [New 0 2 3; Zeros 0; Set_ 0 1 2 7; Copy 1 0; Set_ 1 0 0 9; Move 2 1; Get 2 1 2; Get 2 0 0; Get 0 0 0; Rows 1; Equal 0 2; Assign 0 2; Equal 0 2; Del 0; Del 1; Del 2] empty_memory
  = Some (m, [OVal 7; OVal 9; OVal 0; ONat 0; OBool false; OBool true]) /\ forall p, heap m p = None.
Proof.
  destruct (C24_no_leak nat 0 1 Nat.eqb false [New 0 2 3; Zeros 0; Set_ 0 1 2 7; Copy 1 0; Set_ 1 0 0 9; Move 2 1; Get 2 1 2; Get 2 0 0; Get 0 0 0; Rows 1; Equal 0 2; Assign 0 2; Equal 0 2; Del 0; Del 1; Del 2]
    (match sexec_all 0 1 Nat.eqb [New 0 2 3; Zeros 0; Set_ 0 1 2 7; Copy 1 0; Set_ 1 0 0 9; Move 2 1; Get 2 1 2; Get 2 0 0; Get 0 0 0; Rows 1; Equal 0 2; Assign 0 2; Equal 0 2; Del 0; Del 1; Del 2] (fun _ => None) with Some (s, _) => s | None => fun _ => None end)
    [OVal 7; OVal 9; OVal 0; ONat 0; OBool false; OBool true]) as (m & E & L).
  - intros _ x H. cbn in H. repeat destruct H as [H|H]; try discriminate H; auto. injection H as H1 H2. rewrite <- H2 in H1. discriminate.
  - reflexivity.
  - intros x. vm_compute. destruct x as [|[|[|x]]]; reflexivity.
  - exists m. auto.
Qed.
