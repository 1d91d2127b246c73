(** C92: the VTU writers. *)
From Coq Require Import List Arith ZArith Bool String Lia.
From Verif Require Import Base M_Gmsh M_Vtu Pf_Gmsh Pf_GmshW.
Import ListNotations.
Open Scope nat_scope.

(** ** Specification: what a VTU file means (VTK file formats) *)
Section Spec.
Context {C : Type} (c0 : C).
(** cell [i] is the part of the connectivity between its predecessor's offset and its own *)
Definition off (v : vtu (C := C)) (i : nat) : nat := match i with 0 => 0 | S k => Z.to_nat (nth k (v_off v) 0%Z) end.
Definition vtk_cell (v : vtu (C := C)) (i : nat) : list Z := firstn (off v (S i) - off v i) (skipn (off v i) (v_conn v)).
(** numbers of nodes of VTK's cell types: triangle, quadrilateral, quadratic triangle, quadratic quadrilateral, biquadratic quadrilateral *)
Definition vtk_nodes (t : Z) : option nat :=
  if (t =? 5)%Z then Some 3 else if (t =? 9)%Z then Some 4 else if (t =? 22)%Z then Some 6 else if (t =? 23)%Z then Some 8 else if (t =? 28)%Z then Some 9 else None.
Definition mcell (m : gmesh C) (i : nat) : list Z := map (at2 (g_inpoel m) i) (seq 0 (aat (g_nnode m) i)).
(** the file describes the mesh: points, cells, and cell types with the right number of nodes *)
Definition describes (v : vtu (C := C)) (m : gmesh C) : Prop :=
  v_npoin v = g_npoin m /\ v_ncell v = g_nelem m /\
  v_pts v = flat_map (fun i => [at2 (g_coords m) i 0; at2 (g_coords m) i 1; c0]) (seq 0 (g_npoin m)) /\
  List.length (v_off v) = g_nelem m /\ List.length (v_ty v) = g_nelem m /\ List.length (v_conn v) = off v (g_nelem m) /\
  (forall i, i < g_nelem m -> vtk_cell v i = mcell m i /\ vtk_nodes (nth i (v_ty v) 0%Z) = Some (List.length (mcell m i))).
(** a mesh as the program holds it, with cells VTK knows *)
Definition vmesh_ok (m : gmesh C) : Prop :=
  rows (g_coords m) = g_npoin m /\ cols (g_coords m) = 2 /\ rows (g_inpoel m) = g_nelem m /\ alen (g_nnode m) = g_nelem m /\
  forall i, i < g_nelem m -> aat (g_nnode m) i <= cols (g_inpoel m) /\ In (aat (g_nnode m) i) [3; 4; 6; 8; 9].
(** values of a column *)
Definition column (n : nat) (x : arr2 C) (k : nat) : list C := map (fun i => at2 x i k) (seq 0 n).

(** ** The pieces *)
Lemma v_points_ok (m : gmesh C) : vmesh_ok m -> v_points c0 m = Some (flat_map (fun i => [at2 (g_coords m) i 0; at2 (g_coords m) i 1; c0]) (seq 0 (g_npoin m))).
Proof.
  intros (A & B & _). unfold v_points. rewrite (olist_ok _ (fun i => [at2 (g_coords m) i 0; at2 (g_coords m) i 1; c0])).
  - cbn [bind]. rewrite flat_map_concat_map. reflexivity.
  - intros i Hi. rewrite !get2_ok by lia. reflexivity.
Qed.
Lemma v_connect_ok (m : gmesh C) : vmesh_ok m -> v_connect m = Some (flat_map (mcell m) (seq 0 (g_nelem m))).
Proof.
  intros (_ & _ & A & B & D). unfold v_connect. rewrite (olist_ok _ (mcell m)).
  - cbn [bind]. rewrite flat_map_concat_map. reflexivity.
  - intros i Hi. rewrite aget_ok by lia. cbn [bind]. apply olist_ok. intros j Hj. specialize (D i Hi). apply get2_ok; lia.
Qed.
(** nodes of the cells before [i] *)
Definition before (m : gmesh C) (i : nat) : nat := list_sum (map (aat (g_nnode m)) (seq 0 i)).
Lemma before_S m i : before m (S i) = before m i + aat (g_nnode m) i.
Proof. unfold before. rewrite seq_S, map_app, list_sum_app. cbn. lia. Qed.
Lemma v_offsets_ok (m : gmesh C) : vmesh_ok m -> v_offsets m = Some (map (fun i => Z.of_nat (before m (S i))) (seq 0 (g_nelem m))).
Proof.
  intros (_ & _ & _ & B & _). unfold v_offsets.
  match goal with |- context [floop ?n ?b ?s0] => destruct (floop_inv _ (fun k (s : list Z * nat) => fst s = map (fun i => Z.of_nat (before m (S i))) (seq 0 k) /\ snd s = before m k) n b s0) as ((l & t) & E & P & Q) end.
  - split; reflexivity.
  - intros k (l & t) Hk (P & Q). cbn [fst snd] in *. subst. rewrite aget_ok by lia. cbn [bind]. eexists. split; [reflexivity|]. cbn [fst snd].
    rewrite Nat.add_1_r, before_S. split; [|reflexivity]. rewrite seq_S, map_app. cbn [map Nat.add]. rewrite before_S. reflexivity.
  - rewrite E. cbn [bind fst] in *. subst l. reflexivity.
Qed.
Lemma v_types_ok code (m : gmesh C) : vmesh_ok m -> v_types code m = Some (map (fun i => code (aat (g_nnode m) i)) (seq 0 (g_nelem m))).
Proof. intros (_ & _ & _ & B & _). unfold v_types. apply olist_ok. intros i Hi. rewrite aget_ok by lia. reflexivity. Qed.
Lemma v_offsets_mesh_ok (m : gmesh C) : vmesh_ok m -> v_offsets_mesh m = Some (map (fun i => Z.of_nat (aat (g_nnode m) i * (i + 1))) (seq 0 (g_nelem m))).
Proof. intros (_ & _ & _ & B & _). unfold v_offsets_mesh. apply olist_ok. intros i Hi. rewrite aget_ok by lia. reflexivity. Qed.

Lemma nth_map_seq {A} (f : nat -> A) n i d : i < n -> nth i (map f (seq 0 n)) d = f i.
Proof. intros H. rewrite (nth_indep _ d (f 0)) by (rewrite map_length, seq_length; auto). rewrite map_nth, seq_nth by auto. reflexivity. Qed.
Lemma conn_len m k : List.length (flat_map (mcell m) (seq 0 k)) = before m k.
Proof. induction k; [reflexivity|]. rewrite seq_S, flat_map_app, app_length, before_S, IHk. cbn. rewrite app_nil_r. unfold mcell. rewrite map_length, seq_length. reflexivity. Qed.
Lemma slice_ok m n i : i < n -> firstn (before m (S i) - before m i) (skipn (before m i) (flat_map (mcell m) (seq 0 n))) = mcell m i.
Proof.
  intros H. replace n with (i + S (n - S i)) by lia. rewrite seq_app, flat_map_app. rewrite skipn_app, conn_len, Nat.sub_diag.
  rewrite (skipn_all2 (flat_map _ (seq 0 i))) by (rewrite conn_len; lia). cbn [app skipn seq flat_map Nat.add]. rewrite before_S. replace (before m i + aat (g_nnode m) i - before m i) with (List.length (mcell m i)) by (unfold mcell; rewrite map_length, seq_length; lia).
  rewrite firstn_app, Nat.sub_diag, firstn_all. cbn [firstn]. apply app_nil_r.
Qed.
Lemma mcell_len m i : List.length (mcell m i) = aat (g_nnode m) i.
Proof. unfold mcell. rewrite map_length, seq_length. reflexivity. Qed.

Lemma described np nc a b d (m : gmesh C) : vmesh_ok m -> np = g_npoin m -> nc = g_nelem m ->
  describes (mkvtu np nc a b d (flat_map (fun i => [at2 (g_coords m) i 0; at2 (g_coords m) i 1; c0]) (seq 0 (g_npoin m)))
    (flat_map (mcell m) (seq 0 (g_nelem m))) (map (fun i => Z.of_nat (before m (S i))) (seq 0 (g_nelem m))) (map (fun i => elemcode (aat (g_nnode m) i)) (seq 0 (g_nelem m)))) m.
Proof.
  intros Ok -> ->. set (v := mkvtu _ _ _ _ _ _ _ _ _).
  assert (HO : forall i, i <= g_nelem m -> off v i = before m i).
  { intros [|i] Hi; [reflexivity|]. unfold off. subst v. cbn [v_off]. rewrite nth_map_seq by lia. apply Nat2Z.id. }
  unfold describes. subst v. cbn [v_npoin v_ncell v_pts v_off v_ty v_conn]. rewrite !map_length, !seq_length. repeat (split; [reflexivity|]).
  split. { rewrite conn_len. rewrite HO by lia. reflexivity. }
  intros i Hi. split.
  - unfold vtk_cell. rewrite !HO by lia. cbn [v_conn]. apply slice_ok. exact Hi.
  - rewrite nth_map_seq by auto. rewrite mcell_len. destruct Ok as (_ & _ & _ & _ & K). destruct (K i Hi) as (_ & I). cbn [In] in I.
    destruct I as [<-|[<-|[<-|[<-|[<-|[]]]]]]; reflexivity.
Qed.

(** ** C92 *)
(** what the data section has to hold: every column of [x] under its name, then the rows of [y] as triples *)
Definition data_of (n : nat) (x : arr2 C) (names : list string) (y : arr2 C) (vecname : string) : list varray :=
  map (fun k => mkva (nth k names ""%string) 1 (column n x k)) (seq 0 (cols x)) ++
  [mkva vecname 3 (flat_map (fun i => [at2 y i 0; at2 y i 1; c0]) (seq 0 n))].

(** With scalars and planar vectors both writers produce a file that describes the mesh, and every value is found under its name *)
Lemma data_ok : forall n m x names y vecname, vmesh_ok m -> 0 < n ->
  rows x = n -> 0 < cols x <= List.length names -> rows y = n -> cols y = 2 ->
  exists v, writeVtuData c0 n m x names y vecname = Some v /\ describes v m /\ v_data v = data_of n x names y vecname /\ v_scal v = nth_error names 0 /\ v_vect v = Some vecname.
Proof.
  intros n m x names y vecname Ok Hn Rx Cx Ry Cy. unfold writeVtuData, v_attr. rewrite Rx, Ry, Cy.
  rewrite (proj2 (Nat.eqb_neq (n * cols x) 0)) by (intros E; apply Nat.eq_mul_0 in E; lia). rewrite (proj2 (Nat.eqb_neq (n * 2) 0)) by lia.
  destruct names as [|s0 names]; [cbn in Cx; lia|]. cbn [nth_error bind].
  unfold v_scalars, v_vectors. rewrite Rx, Ry, Cy. rewrite (proj2 (Nat.eqb_neq (n * cols x) 0)) by (intros E; apply Nat.eq_mul_0 in E; lia). rewrite (proj2 (Nat.eqb_neq (n * 2) 0)) by lia.
  rewrite (olist_ok _ (fun k => mkva (nth k (s0 :: names) ""%string) 1 (column n x k))).
  2:{ intros k Hk. rewrite (nth_error_nth' _ ""%string) by lia. cbn [bind]. rewrite (olist_ok _ (fun i => at2 x i k)) by (intros i Hi; apply get2_ok; lia). reflexivity. }
  cbn [bind]. rewrite (olist_ok _ (fun i => [at2 y i 0; at2 y i 1; c0])).
  2:{ intros i Hi. rewrite (olist_ok _ (fun d => at2 y i d)) by (intros d Hd; apply get2_ok; lia). reflexivity. }
  cbn [bind]. rewrite v_points_ok, v_connect_ok, v_offsets_ok, v_types_ok by auto. cbn [bind]. eexists. split; [reflexivity|]. split; [apply described; auto|].
  cbn [v_data v_scal v_vect]. split; [|split; reflexivity]. unfold data_of. rewrite flat_map_concat_map. reflexivity.
Qed.

Theorem C92_cell_data : forall m x names y vecname, vmesh_ok m -> 0 < g_nelem m -> rows x = g_nelem m -> 0 < cols x <= List.length names -> rows y = g_nelem m -> cols y = 2 ->
  exists v, writeScalarsVectorToVtu_CellData c0 m x names y vecname = Some v /\ describes v m /\ v_data v = data_of (g_nelem m) x names y vecname /\ v_scal v = nth_error names 0 /\ v_vect v = Some vecname.
Proof. intros. apply data_ok; auto. Qed.
Theorem C92_point_data : forall m x names y vecname, vmesh_ok m -> 0 < g_npoin m -> rows x = g_npoin m -> 0 < cols x <= List.length names -> rows y = g_npoin m -> cols y = 2 ->
  exists v, writeScalarsVectorToVtu_PointData c0 m x names y vecname = Some v /\ describes v m /\ v_data v = data_of (g_npoin m) x names y vecname /\ v_scal v = nth_error names 0 /\ v_vect v = Some vecname.
Proof. intros. apply data_ok; auto. Qed.

(** Without data the mesh alone is written *)
Theorem C92_no_data : forall n m x names y vecname, vmesh_ok m -> rows x * cols x = 0 -> rows y * cols y = 0 ->
  exists v, writeVtuData c0 n m x names y vecname = Some v /\ describes v m /\ v_data v = [] /\ v_scal v = None /\ v_vect v = None.
Proof.
  intros n m x names y vecname Ok Ex Ey. unfold writeVtuData, v_attr, v_scalars, v_vectors. rewrite Ex, Ey. cbn [Nat.eqb bind]. rewrite Nat.eqb_refl. cbn [bind].
  rewrite v_points_ok, v_connect_ok, v_offsets_ok, v_types_ok by auto. cbn [bind]. eexists. split; [reflexivity|]. split; [apply described; auto|]. repeat split.
Qed.

(** Too few rows or names are read out of range *)
Theorem C92_short_data : forall n m x names y vecname, 0 < rows x -> 0 < cols x -> rows x < n \/ List.length names < cols x ->
  writeVtuData c0 n m x names y vecname = None.
Proof.
  intros n m x names y vecname Hr Hc H. unfold writeVtuData. destruct (v_attr x _); [|reflexivity]. cbn [bind]. destruct (v_attr y _); [|reflexivity]. cbn [bind].
  assert (E : v_scalars n x names = None).
  { unfold v_scalars. rewrite (proj2 (Nat.eqb_neq _ _)) by (intros E; apply Nat.eq_mul_0 in E; lia).
    assert (G : forall {A} N (f : nat -> option A) i, i < N -> f i = None -> olist N f = None).
    { intros A N f i. unfold olist. induction N; intros Hi F; [lia|]. cbn [floop]. destruct (Nat.eq_dec i N) as [->|Ne].
      - destruct (floop N _ _); [|reflexivity]. cbn [bind]. rewrite F. reflexivity.
      - rewrite IHN by (auto; lia). reflexivity. }
    destruct H as [H|H].
    - apply (G _ _ _ 0 Hc). destruct (nth_error names 0); [|reflexivity]. cbn [bind]. rewrite (G _ n _ (rows x) H); [reflexivity|]. unfold get2. rewrite (proj2 (Nat.ltb_ge _ _)) by lia. reflexivity.
    - apply (G _ _ _ (List.length names) H). rewrite (proj2 (nth_error_None _ _)) by lia. reflexivity. }
  rewrite E. reflexivity.
Qed.

Lemma nn3 m i : vmesh_ok m -> i < g_nelem m -> 3 <= aat (g_nnode m) i.
Proof. intros (_ & _ & _ & _ & Q) Hi. destruct (Q i Hi) as (_ & I1). cbn [In] in I1. lia. Qed.
Lemma before_lt m k n : vmesh_ok m -> k < n -> n <= g_nelem m -> before m k < before m n.
Proof. intros Ok Hk. induction n; intros Hn; [lia|]. rewrite before_S. pose proof (nn3 m n Ok ltac:(lia)). destruct (Nat.eq_dec k n) as [->|N]; [lia|]. specialize (IHn ltac:(lia) ltac:(lia)). lia. Qed.

(** The writer of the mesh alone counts the nodes of the cells before as if all cells were alike: its file describes the mesh exactly when all cells
    have the same number of nodes, and not nine *)
Theorem C92_mesh_only : forall m, vmesh_ok m ->
  exists v, writeMeshToVtu c0 m = Some v /\
    (describes v m <-> forall i, i < g_nelem m -> aat (g_nnode m) i = aat (g_nnode m) 0 /\ aat (g_nnode m) i <> 9).
Proof.
  intros m Ok. unfold writeMeshToVtu. rewrite v_points_ok, v_connect_ok, v_offsets_mesh_ok, v_types_ok by auto. cbn [bind]. eexists. split; [reflexivity|].
  set (v := mkvtu _ _ _ _ _ _ _ _ _).
  assert (HO : forall i, i < g_nelem m -> off v (S i) = aat (g_nnode m) i * (i + 1)).
  { intros i Hi. unfold off. subst v. cbn [v_off]. rewrite nth_map_seq by lia. apply Nat2Z.id. }
  assert (TY : forall i, i < g_nelem m -> nth i (v_ty v) 0%Z = elemcode_mesh (aat (g_nnode m) i)).
  { intros i Hi. subst v. cbn [v_ty]. rewrite nth_map_seq by lia. reflexivity. }
  split.
  - intros (_ & _ & _ & _ & _ & LC & K).
    assert (N9 : forall i, i < g_nelem m -> aat (g_nnode m) i <> 9).
    { intros i Hi E. destruct (K i Hi) as (_ & T). rewrite TY, mcell_len, E in T by auto. discriminate. }
    assert (LC' : before m (g_nelem m) = off v (g_nelem m)) by (rewrite <- LC; subst v; cbn [v_conn]; symmetry; apply conn_len).
    assert (P : forall i, i < g_nelem m -> aat (g_nnode m) i = aat (g_nnode m) 0 /\ before m (S i) = aat (g_nnode m) 0 * (i + 1)).
    { intros i. induction i as [|i IH]; intros Hi; [split; [reflexivity|rewrite before_S; cbn; lia]|]. destruct (IH ltac:(lia)) as (E1 & E2).
      destruct (K (S i) Hi) as (T & _). apply (f_equal (@List.length _)) in T. unfold vtk_cell in T. rewrite firstn_length, skipn_length, mcell_len, LC, <- LC' in T.
      rewrite !HO, E1 in T by lia.
      assert (Hq : aat (g_nnode m) (S i) = aat (g_nnode m) 0).
      { assert (Z1 : 3 <= aat (g_nnode m) (S i)) by (apply nn3; auto).
        destruct (Nat.eq_dec (g_nelem m) (S (S i))) as [En|En].
        - rewrite LC', En, HO in T by lia. replace (S i + 1) with (i + 2) in T by lia. rewrite Nat.min_id in T.
          set (q := aat (g_nnode m) (S i)) in *. set (c := aat (g_nnode m) 0) in *. nia.
        - pose proof (before_lt m (S (S i)) (g_nelem m) Ok ltac:(lia) ltac:(lia)) as B. rewrite before_S, E2 in B.
          set (q := aat (g_nnode m) (S i)) in *. set (c := aat (g_nnode m) 0) in *. nia. }
      split; [exact Hq|]. rewrite before_S, E2, Hq. lia. }
    intros i Hi. split; [apply P; auto|apply N9; auto].
  - intros H.
    assert (B : forall i, i <= g_nelem m -> before m i = aat (g_nnode m) 0 * i).
    { intros i. induction i; intros Hi; [cbn; lia|]. rewrite before_S, IHi by lia. rewrite (proj1 (H i ltac:(lia))). lia. }
    pose proof (described (g_npoin m) (g_nelem m) None None [] m Ok eq_refl eq_refl) as D.
    replace v with (mkvtu (g_npoin m) (g_nelem m) None None [] (flat_map (fun i => [at2 (g_coords m) i 0; at2 (g_coords m) i 1; c0]) (seq 0 (g_npoin m)))
      (flat_map (mcell m) (seq 0 (g_nelem m))) (map (fun i => Z.of_nat (before m (S i))) (seq 0 (g_nelem m))) (map (fun i => elemcode (aat (g_nnode m) i)) (seq 0 (g_nelem m)))); [exact D|].
    subst v. f_equal; apply map_ext_in; intros i Hi; apply in_seq in Hi.
    + f_equal. rewrite B by lia. rewrite (proj1 (H i ltac:(lia))). lia.
    + destruct (H i ltac:(lia)) as (_ & N). unfold elemcode, elemcode_mesh. rewrite (proj2 (Nat.eqb_neq _ 9) N). reflexivity.
Qed.
End Spec.

(** ** Examples *)
Definition tq_coords : arr2 Z := mk2 5 2 (fun i j => nth (2 * i + j) [0;0; 1;0; 2;0; 0;1; 1;1]%Z 0%Z).
Definition tq : gmesh Z := mkg 5 tq_coords 0 2 (mkarr 2 (fun i => if i =? 0 then 4 else 3)) (mkarr 2 (fun i => if i =? 0 then 4 else 3)) 4 4 2 0 0
  (mk2 2 4 (fun i j => nth (4 * i + j) [0;1;4;3; 1;2;4;-1]%Z 0%Z)) (mk2 0 2 (fun _ _ => 0%Z)) (mk2 0 0 (fun _ _ => 0%Z)).
Example C92_mesh_ok : vmesh_ok tq.
Proof. repeat split; cbn; intros; destruct i as [|[|i]]; cbn; try lia; auto. Qed.
Example C92_example : exists v, writeScalarsVectorToVtu_PointData 0%Z tq (mk2 5 1 (fun i _ => Z.of_nat (10 * i))) ["rho"%string] (mk2 5 2 (fun i j => Z.of_nat (i + j))) "vel" = Some v /\
  v_off v = [4; 7]%Z /\ v_ty v = [9; 5]%Z /\ vtk_cell v 1 = [1; 2; 4]%Z /\ map (@va_vals Z) (v_data v) = [[0; 10; 20; 30; 40]; [0; 1; 0; 1; 2; 0; 2; 3; 0; 3; 4; 0; 4; 5; 0]]%Z.
Proof. eexists. split; [vm_compute; reflexivity|]. repeat split; vm_compute; reflexivity. Qed.
(** a quadrilateral and a triangle: the last offset is 6 instead of 7 *)
Theorem C92_hybrid_mesh_refuted : exists v, writeMeshToVtu 0%Z tq = Some v /\ ~ describes 0%Z v tq /\ v_off v = [4; 6]%Z /\ List.length (v_conn v) = 7 /\ vtk_cell v 1 = [1; 2]%Z.
Proof.
  destruct (C92_mesh_only 0%Z tq C92_mesh_ok) as (v & E & D). exists v. split; [exact E|]. split.
  - intros H. destruct (proj1 D H 1) as (K & _); [cbn; lia|]. discriminate.
  - vm_compute in E. injection E as <-. repeat split; vm_compute; reflexivity.
Qed.

Print Assumptions C92_cell_data.
Print Assumptions C92_point_data.
Print Assumptions C92_no_data.
Print Assumptions C92_short_data.
Print Assumptions C92_mesh_only.
Print Assumptions C92_hybrid_mesh_refuted.
