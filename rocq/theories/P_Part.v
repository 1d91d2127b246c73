(** Properties C14-C18 and C84. Vocabulary: S_Mesh.v (cells, edges, across), Pf_Incid.v (tiled), Pf_Part2.v (rank_bnd, interface,
    seen), Pf_Restrict.v (global_ok). *)
From Coq Require Import Reals List Arith Lia ZArith Bool Permutation Sorted.
From Verif Require Import Base BaseR M_Mesh M_Part S_Mesh Pf_Esup Pf_Esuel Pf_Host Pf_Faces Pf_Topo Pf_Incid Pf_Full Pf_Lines Pf_Part Pf_Restrict Pf_Part2 ChkMesh.
Import ListNotations.
Open Scope nat_scope.

(** C14 *)
Theorem C14_trivial_partition : forall ne nr je, 0 < nr -> exists d, trivial_partition ne nr je = Some d /\ alen d = ne /\
  (forall i, i < ne -> aat d i < nr) /\
  (forall i j, i <= j -> j < ne -> aat d i <= aat d j) /\
  (nr <= ne -> forall r, r < nr -> exists i, i < ne /\ aat d i = r).
Proof.
  intros ne nr je Hn. destruct (trivial_ok ne nr je Hn) as (d & E & L & I). exists d. split; auto. split; auto.
  set (q := ne / nr) in *. assert (Hq : nr * q <= ne) by (apply Nat.mul_div_le; lia).
  assert (B : forall i, i < nr * q -> i / q < nr). { intros i Hi. apply Nat.div_lt_upper_bound; nia. }
  split; [|split].
  - intros i Hi. rewrite I by auto. destruct (Nat.ltb_spec i (nr * q)); [auto|lia].
  - intros i j Hij Hj. rewrite !I by lia. destruct (Nat.ltb_spec i (nr * q)); destruct (Nat.ltb_spec j (nr * q)); try lia.
    + apply Nat.div_le_mono; nia.
    + specialize (B i H). lia.
  - intros Hle r Hr. assert (1 <= q) by (apply Nat.div_le_lower_bound; lia). exists (r * q). assert (r * q < nr * q) by nia. split; [lia|].
    rewrite I by lia. destruct (Nat.ltb_spec (r * q) (nr * q)); [|lia]. apply Nat.div_mul. lia.
Qed.
Print Assumptions C14_trivial_partition.
Theorem C14_constructor : forall ne nr, partitioner_ctor ne nr = Exn <-> ne < nr.
Proof. intros. unfold partitioner_ctor. destruct (Nat.ltb_spec ne nr); split; intros; auto; try discriminate; lia. Qed.
Print Assumptions C14_constructor.
Example C14_ex : exists d, trivial_partition 7 3 (fun _ => 9) = Some d /\ alist d = [0;0;1;1;2;2;2].
Proof. eexists; split; [reflexivity|]. reflexivity. Qed.

(** point v of the local mesh, in global numbering *)
Definition back (lm : lmesh) (v : nat) : nat := nth v (l_p2g lm) 0.
Definition back_bf (lm : lmesh) (bf : bfrec) : bfrec := mkbf (back lm (b0 bf)) (back lm (b1 bf)) (btg bf).
(** the cells of a rank *)
Definition cells_of (dist : arr nat) (ne rank : nat) : list nat := filter (fun i => aat dist i =? rank) (seq 0 ne).

Lemma map_back l idxs : (forall x, In x l -> In x idxs) -> map (fun v => nth v idxs 0) (map (idx idxs) l) = l.
Proof.
  intros H. rewrite map_map. induction l as [|x l IH]; cbn; auto. rewrite IH by (intros; apply H; right; auto). f_equal. apply idx_ok. apply H; left; auto.
Qed.

(** C15: the restriction never fails; local cell l is global cell eglob(l), node by node; local points are exactly the points of the
    rank's cells, numbered increasingly; coordinates and region tags are the global ones; boundary faces are those hosted by cells of
    the rank. *)
Theorem C15_restriction : forall g hs dist rank, global_ok g hs -> alen dist = nelem (g_m g) -> forall jc jr ji jx j0, exists lm,
  restrictMesh g dist rank jc jr ji jx j0 = Some (Val lm) /\
  alist (l_eglob lm) = cells_of dist (nelem (g_m g)) rank /\
  map (map (back lm)) (cells (l_m lm)) = map (cell (cells (g_m g))) (alist (l_eglob lm)) /\
  (forall c v, In c (cells (l_m lm)) -> In v c -> v < npoin (l_m lm)) /\
  npoin (l_m lm) = length (l_p2g lm) /\ StronglySorted lt (l_p2g lm) /\
  (forall x, In x (l_p2g lm) <-> exists i, In i (alist (l_eglob lm)) /\ In x (cell (cells (g_m g)) i)) /\
  alist (l_X lm) = map (aat (g_X g)) (l_p2g lm) /\
  alist (l_regs lm) = map (aat (g_regs g)) (alist (l_eglob lm)) /\
  map (back_bf lm) (bfaces (l_m lm)) = map fst (filter (fun x => aat dist (fst (snd x)) =? rank) (combine (bfaces (g_m g)) hs)).
Proof.
  intros g hs dist rank G Hd jc jr ji jx j0. destruct (restrict_ok g hs G dist rank Hd jc jr ji jx j0) as (E & B & lm & HE & HB1 & HB2 & R & M & X & Rg & L & P).
  exists lm. split; auto. rewrite M. cbn [cells npoin bfaces]. split; auto. split; [|split; [|split; [|split; [|split; [|split; [|split]]]]]].
  - rewrite L. unfold lcells, back. rewrite P, map_map. apply map_ext_in. intros i Hi. apply map_back. intros x Hx. apply pts_in. eauto.
  - intros c v Hc Hv. eapply (lvalid g hs G dist rank); eauto.
  - rewrite P. auto.
  - rewrite P. apply pts_ss.
  - intros x. rewrite P, L. apply pts_in.
  - rewrite P. auto.
  - rewrite L. auto.
  - unfold lbl. rewrite map_map. unfold owned_bf. apply map_ext_in. intros (bf & h) Hx. cbn [fst]. change (In (bf, h) (owned_bf g dist rank hs)) in Hx.
    destruct (ob_host g hs G dist rank bf h Hx) as (A1 & A2 & A3 & A4 & A5). destruct (edge_in _ _ A4) as (P1 & P2). rewrite <- A5 in P1, P2. cbn [fst snd] in P1, P2. rewrite <- A2 in P1, P2.
    unfold back_bf, back, rename_bf. cbn. rewrite P. destruct bf as [x y t]. cbn in *. f_equal; apply idx_ok; eapply cell_pts; eauto.
Qed.
Print Assumptions C15_restriction.

Lemma part_perm (A : Type) (key : A -> nat) (l : list A) n : (forall x, In x l -> key x < n) ->
  Permutation (flat_map (fun r => filter (fun x => key x =? r) l) (seq 0 n)) l.
Proof.
  revert l. induction n as [|n IH]; intros l H.
  - destruct l as [|x l]; [constructor|]. specialize (H x (or_introl eq_refl)). lia.
  - rewrite seq_S, flat_map_app. cbn [flat_map plus]. rewrite app_nil_r.
    set (l1 := filter (fun x => negb (key x =? n)) l).
    assert (E1 : flat_map (fun r => filter (fun x => key x =? r) l) (seq 0 n) = flat_map (fun r => filter (fun x => key x =? r) l1) (seq 0 n)).
    { apply flat_map_ext_in. intros r Hr. apply in_seq in Hr. unfold l1. clear -Hr. induction l as [|x l IHl]; cbn; auto.
      destruct (Nat.eqb_spec (key x) n); destruct (Nat.eqb_spec (key x) r); cbn; try lia; rewrite IHl; auto.
      - destruct (Nat.eqb_spec (key x) r); [|lia]. auto.
      - destruct (Nat.eqb_spec (key x) r); [lia|]. auto. }
    rewrite E1. rewrite (IH l1).
    + unfold l1. clear. induction l as [|x l IHl]; cbn; auto. destruct (key x =? n); cbn; auto. rewrite <- Permutation_middle. auto.
    + intros x Hx. apply filter_In in Hx. destruct Hx as (Hx & Hk). apply negb_true_iff, Nat.eqb_neq in Hk. specialize (H x Hx). lia.
Qed.

(** C15, all ranks together: every cell is on exactly one rank *)
Theorem C15_union : forall g hs dist nr, global_ok g hs -> alen dist = nelem (g_m g) -> (forall i, i < nelem (g_m g) -> aat dist i < nr) ->
  forall (lm : nat -> lmesh) jc jr ji jx j0, (forall r, r < nr -> restrictMesh g dist r (jc r) (jr r) (ji r) (jx r) (j0 r) = Some (Val (lm r))) ->
  Permutation (flat_map (fun r => alist (l_eglob (lm r))) (seq 0 nr)) (seq 0 (nelem (g_m g))).
Proof.
  intros g hs dist nr G Hd Hr lm jc jr ji jx j0 R. rewrite <- (part_perm _ (aat dist) (seq 0 (nelem (g_m g))) nr).
  2:{ intros x Hx. apply in_seq in Hx. apply Hr. lia. }
  erewrite flat_map_ext_in; [apply Permutation_refl|]. intros r Hr'. apply in_seq in Hr'.
  destruct (C15_restriction g hs dist r G Hd (jc r) (jr r) (ji r) (jx r) (j0 r)) as (lm' & R' & L & _). rewrite R in R' by lia. injection R' as <-. exact L.
Qed.
Print Assumptions C15_union.

(** C16: the boundary faces of all ranks, translated back, are the global boundary faces with their tags, each once; and a rank has a
    face exactly when it has the host cell (C15_restriction, last clause). *)
Theorem C16_boundary_faces : forall g hs dist nr, global_ok g hs -> alen dist = nelem (g_m g) -> (forall i, i < nelem (g_m g) -> aat dist i < nr) ->
  forall (lm : nat -> lmesh) jc jr ji jx j0, (forall r, r < nr -> restrictMesh g dist r (jc r) (jr r) (ji r) (jx r) (j0 r) = Some (Val (lm r))) ->
  Permutation (flat_map (fun r => map (back_bf (lm r)) (bfaces (l_m (lm r)))) (seq 0 nr)) (bfaces (g_m g)).
Proof.
  intros g hs dist nr G Hd Hr lm jc jr ji jx j0 R.
  assert (LH : length hs = nbface (g_m g)) by apply (hosts g hs G).
  assert (E : bfaces (g_m g) = map fst (combine (bfaces (g_m g)) hs)).
  { unfold nbface in LH. clear -LH. revert LH. generalize hs. generalize (bfaces (g_m g)). induction l as [|x l IH]; intros [|y h] LH; cbn in *; auto; try lia. rewrite <- IH; auto. }
  rewrite E. rewrite <- (part_perm _ (fun x => aat dist (fst (snd x))) (combine (bfaces (g_m g)) hs) nr).
  2:{ intros (bf & h) Hx. cbn. apply in_combine_nth in Hx. destruct Hx as (q & Q1 & Q2). destruct (hosts' g hs G q bf h Q1 Q2) as (_ & _ & D & _). apply Hr. exact D. }
  rewrite (flat_map_concat_map _ (seq 0 nr)), (flat_map_concat_map _ (seq 0 nr)), concat_map, map_map. 
  erewrite map_ext_in; [apply Permutation_refl|]. intros r Hr'. apply in_seq in Hr'.
  destruct (C15_restriction g hs dist r G Hd (jc r) (jr r) (ji r) (jx r) (j0 r)) as (lm' & R' & _ & _ & _ & _ & _ & _ & _ & _ & L). rewrite R in R' by lia. injection R' as <-. exact L.
Qed.
Print Assumptions C16_boundary_faces.

(** C17: the connectivity faces are exactly the interfaces that the code can see, each once, with the neighbour's rank, its global
    number and the global number of the face; a local mesh in which every interface is seen is completely tiled, so that all the
    topology and geometry theorems apply to it. *)
Theorem C17_connectivity_faces : forall g hs dist rank, global_ok g hs -> alen dist = nelem (g_m g) -> forall jc jr ji jx j0, exists lm,
  restrictMesh g dist rank jc jr ji jx j0 = Some (Val lm) /\
  NoDup (map (fun cf => (cf_elem cf, cf_face cf)) (conns (l_m lm))) /\
  (forall cf, In cf (conns (l_m lm)) <-> exists i j f q, cf = mkcf i f (Z.of_nat (aat dist j)) (Z.of_nat j) (Z.of_nat q) /\
     i < nelem (l_m lm) /\ let gi := aat (l_eglob lm) i in
     interface g dist rank gi f j /\ seen g hs dist rank gi f /\ q = at2 (elemface (g_t g)) gi f) /\
  ((forall i f j, interface g dist rank i f j -> seen g hs dist rank i f) -> exists lhs, tiled (l_m lm) lhs).
Proof.
  intros g hs dist rank G Hd jc jr ji jx j0. destruct (restrict_ok g hs G dist rank Hd jc jr ji jx j0) as (E & B & lm & HE & HB1 & HB2 & R & M & X & Rg & L & P).
  exists lm. split; auto. rewrite M. cbn [conns]. split; [apply cfaces_nodup|]. split.
  - intros cf. rewrite (rec_iff g hs G dist rank Hd E HE B HB1 HB2). unfold nelem. cbn [cells]. rewrite lcells_len.
    assert (LL : alen (l_eglob lm) = length (own g dist rank)) by (rewrite <- alist_length, L; auto).
    assert (AL : forall l, l < length (own g dist rank) -> aat (l_eglob lm) l = gc g dist rank l).
    { intros l Hl. unfold gc. rewrite <- L. unfold alist. rewrite (map_nth_in _ _ (aat (l_eglob lm)) (seq 0 (alen (l_eglob lm))) l 0 0) by (rewrite seq_length; lia). rewrite seq_nth by lia. auto. }
    split.
    + intros (l & f & j & Hl & I & S & ->). exists l, j, f, (at2 (elemface (g_t g)) (gc g dist rank l) f). split; auto. split; auto. cbv zeta. rewrite AL by auto. auto.
    + intros (l & j & f & q & -> & Hl & H). cbv zeta in H. rewrite AL in H by auto. destruct H as (I & S & ->). exists l, f, j. auto.
  - intros HS. exists (lhs g hs dist rank). apply (local_tiled g hs G dist rank Hd E HE B HB1 HB2 HS).
Qed.
Print Assumptions C17_connectivity_faces.

(** C17, two ranks: if every interface is seen from both sides, the records match one to one through the global face number. *)
Theorem C17_matching : forall g hs dist r r', global_ok g hs -> alen dist = nelem (g_m g) -> forall jc jr ji jx j0 jc' jr' ji' jx' j0' lm lm',
  restrictMesh g dist r jc jr ji jx j0 = Some (Val lm) -> restrictMesh g dist r' jc' jr' ji' jx' j0' = Some (Val lm') ->
  (forall i f j, interface g dist r' i f j -> seen g hs dist r' i f) ->
  forall cf, In cf (conns (l_m lm)) -> cf_rank cf = Z.of_nat r' ->
  exists cf', In cf' (conns (l_m lm')) /\ cf_rank cf' = Z.of_nat r /\ cf_gface cf' = cf_gface cf /\
    cf_gelem cf = Z.of_nat (aat (l_eglob lm') (cf_elem cf')) /\ cf_gelem cf' = Z.of_nat (aat (l_eglob lm) (cf_elem cf)) /\
    let e := edge (cell (cells (l_m lm)) (cf_elem cf)) (cf_face cf) in let e' := edge (cell (cells (l_m lm')) (cf_elem cf')) (cf_face cf') in
    same_edge (back lm (fst e), back lm (snd e)) (back lm' (fst e'), back lm' (snd e')).
Proof.
  intros g hs dist r r' G Hd jc jr ji jx j0 jc' jr' ji' jx' j0' lm lm' R R' HS cf Hcf Hr.
  destruct (restrict_ok g hs G dist r Hd jc jr ji jx j0) as (E & B & lm1 & HE & HB1 & HB2 & R1 & M & X & Rg & L & P). rewrite R in R1. injection R1 as <-.
  destruct (restrict_ok g hs G dist r' Hd jc' jr' ji' jx' j0') as (E' & B' & lm1 & HE' & HB1' & HB2' & R1 & M' & X' & Rg' & L' & P'). rewrite R' in R1. injection R1 as <-.
  rewrite M in Hcf. cbn [conns] in Hcf. apply (rec_iff g hs G dist r Hd E HE B HB1 HB2) in Hcf. destruct Hcf as (l & f & j & Hl & I & S & ->). cbn [cf_rank cf_gface cf_gelem cf_elem cf_face] in *.
  apply Nat2Z.inj in Hr. destruct I as (A & I1 & I2). destruct (same_gface g hs G _ f j A) as (h & A' & Se & Q).
  assert (Hj : j < nelem (g_m g)) by apply A. destruct (gc_onto g dist r' j Hj Hr) as (K1 & K2). set (l' := idx (own g dist r') j) in *.
  assert (I' : interface g dist r' (gc g dist r' l') h (gc g dist r l)). { rewrite K2. split; auto. split; auto. congruence. }
  assert (AL : forall rk lk, alist (l_eglob lk) = own g dist rk -> forall l, l < length (own g dist rk) -> aat (l_eglob lk) l = gc g dist rk l).
  { intros rk lk Lk k Hk. assert (LL : alen (l_eglob lk) = length (own g dist rk)) by (rewrite <- alist_length, Lk; auto). unfold gc. rewrite <- Lk. unfold alist. rewrite (map_nth_in _ _ (aat (l_eglob lk)) (seq 0 (alen (l_eglob lk))) k 0 0) by (rewrite seq_length; lia). rewrite seq_nth by lia. auto. }
  exists (mkcf l' h (Z.of_nat (aat dist (gc g dist r l))) (Z.of_nat (gc g dist r l)) (Z.of_nat (at2 (elemface (g_t g)) (gc g dist r' l') h))).
  cbn [cf_rank cf_gface cf_gelem cf_elem cf_face]. split.
  - rewrite M'. cbn [conns]. apply (rec_iff g hs G dist r' Hd E' HE' B' HB1' HB2'). exists l', h, (gc g dist r l). split; auto. split; auto. split; auto. eapply HS; eauto.
  - split; [congruence|]. split; [rewrite K2; congruence|]. rewrite (AL r' lm' L' l' K1), (AL r lm L l Hl), K2. split; auto. split; auto. rewrite M, M'. cbn [cells].
    assert (Hf : f < length (cell (cells (g_m g)) (gc g dist r l))) by apply A. assert (Hh : h < length (cell (cells (g_m g)) (gc g dist r' l'))) by (rewrite K2; apply A').
    rewrite (ledge g dist r l f Hl Hf), (ledge g dist r' l' h K1 Hh). cbn [fst snd]. unfold back. rewrite P, P'.
    destruct (edge_pts g dist r l f Hl Hf) as (E1 & E2), (edge_pts g dist r' l' h K1 Hh) as (E3 & E4).
    rewrite (proj2 (idx_ok _ _ E1)), (proj2 (idx_ok _ _ E2)), (proj2 (idx_ok _ _ E3)), (proj2 (idx_ok _ _ E4)), K2. rewrite <- !pair_eta. exact Se.
Qed.
Print Assumptions C17_matching.

(** ** Examples *)
(** A triangle of rank 1 inside a ring of six triangles of rank 0. *)
Definition ring : umesh := mkmesh 6 [[0;1;2]; [0;3;1]; [3;4;1]; [1;4;2]; [4;5;2]; [2;5;0]; [5;3;0]] 4
  [mkbf 3 4 [1%Z]; mkbf 4 5 [2%Z]; mkbf 5 3 [3%Z]] [].
Definition ring_h : list (nat * nat) := [(2,0); (4,0); (6,0)].
Lemma ring_tiled : tiled ring ring_h. Proof. apply tiledb_ok. vm_compute. reflexivity. Qed.
Definition ring_d : arr nat := mkarr 7 (fun i => if i =? 0 then 1 else 0).
(** Four triangles; rank 1 owns the second. *)
Definition wit : umesh := mkmesh 5 [[0;1;2]; [1;0;3]; [3;0;4]; [1;3;4]] 4 [mkbf 1 2 [1%Z]; mkbf 2 0 [1%Z]; mkbf 0 4 [2%Z]; mkbf 4 1 [3%Z]] [].
Definition wit_h : list (nat * nat) := [(0,1); (0,2); (2,1); (3,2)].
Lemma wit_tiled : tiled wit wit_h. Proof. apply tiledb_ok. vm_compute. reflexivity. Qed.
Definition wit_d : arr nat := mkarr 4 (fun i => if i =? 1 then 1 else 0).

(** every tiled serial mesh with coordinates and regions of the right length gives a [global_ok] input *)
Lemma global_of m hs : tiled m hs -> conns m = [] -> forall X Rg, alen X = npoin m -> alen Rg = nelem m -> exists t, global_ok (mkgm m t X Rg) hs.
Proof.
  intros T C X Rg HX HR. destruct (topo_full m hs T (fun _ _ => 0%Z) (fun _ => mkface 0 0 0 0) (fun _ _ => 0) (fun _ => [])) as (p & e & ni & s & il & _ & TP).
  exists s. split; cbn; auto. exists p, e, ni, il. exact TP.
Qed.
Definition ringb (r v : nat) : bool := existsb (fun x => (aat ring_d (fst (snd x)) =? r) && ((v =? b0 (fst x)) || (v =? b1 (fst x)))) (combine (bfaces ring) ring_h).
Example C17_ex : exists g, global_ok g ring_h /\ alen ring_d = nelem (g_m g) /\
  (exists i f j, interface g ring_d 1 i f j) /\
  (forall i f j, interface g ring_d 1 i f j -> seen g ring_h ring_d 1 i f) /\
  (forall i f j, interface g ring_d 0 i f j -> seen g ring_h ring_d 0 i f).
Proof.
  destruct (global_of ring ring_h ring_tiled eq_refl (mkarr 6 (fun _ => vzero)) (mkarr 7 (fun _ => [])) eq_refl eq_refl) as (t & G).
  exists (mkgm ring t (mkarr 6 (fun _ => vzero)) (mkarr 7 (fun _ => []))). split; auto. split; [reflexivity|]. split.
  - exists 0, 0, 1. split; [|split; [reflexivity|cbn; discriminate]]. apply acrossb_ok. vm_compute. reflexivity.
  - assert (RB : forall r v, rank_bnd (mkgm ring t (mkarr 6 (fun _ => vzero)) (mkarr 7 (fun _ => []))) ring_h ring_d r v -> 3 <= v).
    { intros r v (q & bf & h & Q1 & Q2 & _ & Q4). cbn [g_m] in Q1. destruct q as [|[|[|q]]]; cbn in Q1; try (destruct q; discriminate); inversion Q1; subst; cbn in Q4; lia. }
    split.
    + intros i f j ((A & Hf & _) & I1 & _). cbn [g_m] in *. unfold ring_d in I1. cbn in I1. destruct (Nat.eqb_spec i 0); [subst|discriminate].
      intros (S1 & _). apply RB in S1. cbn in Hf. destruct f as [|[|[|f]]]; cbn in S1; lia.
    + intros i f j (A & I1 & I2). cbn [g_m] in *. unfold ring_d in I2. cbn in I2. destruct (Nat.eqb_spec j 0) as [->|]; [|congruence].
      intros (S1 & _). apply RB in S1. apply acrossb_ok in A.
      assert (Hi : i < 7). { apply acrossb_ok in A. destruct A as (A & _). exact A. }
      assert (Hf : f < 3). { apply acrossb_ok in A. destruct A as (_ & A & _). cbn [ring cells cell] in A. do 7 (destruct i as [|i]; [exact A|]). lia. }
      do 7 (destruct i as [|i]; [do 3 (destruct f as [|f]; [vm_compute in A; try discriminate A; cbn in S1; lia|]); lia|]). lia.
Qed.

Lemma wit_bnd t X Rg v : v < 5 -> v <> 3 -> rank_bnd (mkgm wit t X Rg) wit_h wit_d 0 v.
Proof.
  intros Hv H3. destruct v as [|[|[|[|[|v]]]]]; try lia.
  - exists 1, (mkbf 2 0 [1%Z]), (0, 2). cbn. auto 10.
  - exists 0, (mkbf 1 2 [1%Z]), (0, 1). cbn. auto 10.
  - exists 0, (mkbf 1 2 [1%Z]), (0, 1). cbn. auto 10.
  - exists 2, (mkbf 0 4 [2%Z]), (2, 1). cbn. auto 10.
Qed.
Lemma wit_bnd1 t X Rg v : ~ rank_bnd (mkgm wit t X Rg) wit_h wit_d 1 v.
Proof.
  intros (q & bf & h & _ & Q2 & Q3 & _). destruct q as [|[|[|[|q]]]]; cbn in Q2; try (destruct q; discriminate); inversion Q2; subst; cbn in Q3; discriminate.
Qed.

(** The claim that partition interfaces are all found is false: with four triangles of which rank 1 owns one, the rank owning the rest
    drops one of the three interfaces because both its points are boundary points, while the other rank keeps it. The two ranks then
    disagree about the number of faces to exchange. *)
Theorem C17_interfaces_refuted : exists g hs dist, global_ok g hs /\ alen dist = nelem (g_m g) /\ forall jc jr ji jx j0 jc' jr' ji' jx' j0', exists l0 l1 cf,
  restrictMesh g dist 0 jc jr ji jx j0 = Some (Val l0) /\ restrictMesh g dist 1 jc' jr' ji' jx' j0' = Some (Val l1) /\
  interface g dist 0 0 0 1 /\ In cf (conns (l_m l1)) /\ cf_rank cf = 0%Z /\ cf_gelem cf = 0%Z /\
  (forall cf', In cf' (conns (l_m l0)) -> cf_gface cf' <> cf_gface cf /\ cf_elem cf' <> 0).
Proof.
  destruct (global_of wit wit_h wit_tiled eq_refl (mkarr 5 (fun _ => vzero)) (mkarr 4 (fun _ => [])) eq_refl eq_refl) as (t & G).
  set (g := mkgm wit t _ _) in *. exists g, wit_h, wit_d. split; auto. split; [reflexivity|]. intros jc jr ji jx j0 jc' jr' ji' jx' j0'.
  destruct (C17_connectivity_faces g wit_h wit_d 0 G eq_refl jc jr ji jx j0) as (l0 & R0 & _ & C0 & _).
  destruct (C17_connectivity_faces g wit_h wit_d 1 G eq_refl jc' jr' ji' jx' j0') as (l1 & R1 & _ & C1 & _).
  destruct (C15_restriction g wit_h wit_d 0 G eq_refl jc jr ji jx j0) as (l0' & R0' & G0 & M0 & _). rewrite R0 in R0'. injection R0' as <-.
  destruct (C15_restriction g wit_h wit_d 1 G eq_refl jc' jr' ji' jx' j0') as (l1' & R1' & G1 & M1 & _). rewrite R1 in R1'. injection R1' as <-.
  assert (X0 : alist (l_eglob l0) = [0;2;3]) by (rewrite G0; reflexivity). assert (X1 : alist (l_eglob l1) = [1]) by (rewrite G1; reflexivity).
  assert (N0 : nelem (l_m l0) = 3). { unfold nelem. rewrite <- (map_length (map (back l0))), M0, map_length, X0. reflexivity. }
  assert (N1 : nelem (l_m l1) = 1). { unfold nelem. rewrite <- (map_length (map (back l1))), M1, map_length, X1. reflexivity. }
  assert (L1 : aat (l_eglob l1) 0 = 1). { assert (K := alist_length _ (l_eglob l1)). rewrite X1 in K. cbn in K. unfold alist in X1. rewrite <- K in X1. cbn in X1. congruence. }
  assert (L0 : aat (l_eglob l0) 0 = 0 /\ aat (l_eglob l0) 1 = 2 /\ aat (l_eglob l0) 2 = 3). { assert (K := alist_length _ (l_eglob l0)). rewrite X0 in K. cbn in K. unfold alist in X0. rewrite <- K in X0. cbn in X0. inversion X0. auto. }
  assert (A01 : across (cells (g_m g)) 0 0 1) by (apply acrossb_ok; vm_compute; reflexivity).
  assert (A10 : across (cells (g_m g)) 1 0 0) by (apply acrossb_ok; vm_compute; reflexivity).
  destruct (same_gface g wit_h G 0 0 1 A01) as (h & Ah & Sh & Qh).
  assert (h = 0). { assert (Hh : h < 3) by apply Ah. apply sameb_ok in Sh. destruct h as [|[|[|h]]]; auto; vm_compute in Sh; try discriminate; lia. } subst h.
  exists l0, l1, (mkcf 0 0 0 0 (Z.of_nat (at2 (elemface t) 1 0))). split; auto. split; auto. split. { split; auto. split; [reflexivity|vm_compute; discriminate]. }
  split; [|split; [reflexivity|split; [reflexivity|]]].
  - apply C1. exists 0, 0, 0, (at2 (elemface t) 1 0). split; auto. split; [lia|]. cbv zeta. rewrite L1. split; [split; [auto|split; [reflexivity|vm_compute; discriminate]]|]. split; auto.
    intros (K & _). apply (wit_bnd1 _ _ _ _ K).
  - intros cf' H. apply C0 in H. destruct H as (i & j & f & q & -> & Hi & H). cbv zeta in H. destruct H as (I & S & ->). cbn [cf_gface cf_elem].
    assert (Hne : i <> 0).
    { intros ->. rewrite (proj1 L0) in *. destruct I as (A & _ & Ij). assert (Hf : f < 3) by apply A. assert (Hj : j < 4) by apply A. apply acrossb_ok in A.
      apply S. split; apply wit_bnd; (destruct f as [|[|[|f]]]; [| | |lia]); vm_compute; lia. }
    split; auto. rewrite Qh || idtac. intros Q. apply Nat2Z.inj in Q. change (at2 (elemface t) 1 0) with (at2 (elemface (g_t g)) 1 0) in Q. 
    (* the face of the record belongs to cell 2 or 3, not to the edge 0-1 *)
    destruct (gl_topo _ _ G) as (p & e & ni & il & T). destruct I as (A & _ & Ij).
    pose proof (to_good _ _ _ _ _ _ _ T _ f (proj1 A) (proj1 (proj2 A))) as (_ & S1 & _). pose proof (to_good _ _ _ _ _ _ _ T 1 0 (proj1 Ah) (proj1 (proj2 Ah))) as (_ & S2 & _).
    rewrite Q in S1. pose proof (same_edge_trans _ _ _ (same_edge_sym _ _ S1) S2) as S3. apply sameb_ok in S3. rewrite N0 in Hi.
    assert (Hf := proj1 (proj2 A)). destruct L0 as (L00 & L01 & L02). clear -Hne Hi Hf S3 L00 L01 L02.
    destruct i as [|[|[|i]]]; try lia; [rewrite L01 in *|rewrite L02 in *]; cbn in Hf; destruct f as [|[|[|f]]]; try lia; vm_compute in S3; discriminate.
Qed.
Print Assumptions C17_interfaces_refuted.

(** C18 *)
Theorem C18_adjacency : forall m hs j0 jf je jt jp js, tiled m hs -> exists p e ni s xp st,
  compute_topological m j0 jf je jt = Some (Val (p, e, (ni, s))) /\ getCellAdjLists m (esuel s) jp js = Some (xp, st) /\
  alen xp = nelem m + 1 /\ aat xp 0 = 0 /\ aat xp (nelem m) = alen st /\
  forall i, i < nelem m -> aat xp i <= aat xp (i + 1) /\
    (forall z, In z (aslice st (aat xp i) (aat xp (i + 1))) <-> exists j f, z = Z.of_nat j /\ across (cells m) i f j) /\
    aat xp (i + 1) - aat xp i = length (filter (fun f => some (nelem m) (acrossb (cells m) i f)) (seq 0 (length (cell (cells m) i)))).
Proof.
  intros m hs j0 jf je jt jp js T. destruct (topo_full m hs T j0 jf je jt) as (p & e & ni & s & il & E & TP).
  assert (HM : forall i, i < nelem m -> length (cell (cells m) i) <= maxnfael m) by (intros i Hi; apply (gm_max _ _ (tl_good _ _ T)); apply nth_In; auto).
  pose proof (to_nbr _ _ _ _ _ _ _ TP) as NB.
  destruct (adj_ok m (esuel s) NB HM jp js) as (xp & st & E2 & L & P & LS & I). exists p, e, ni, s, xp, st. split; auto. split; auto. split; auto.
  split. rewrite P by lia. reflexivity. split. rewrite P by lia. auto.
  intros i Hi. split; [rewrite !P by lia; apply offs_mono; lia|]. rewrite I by auto. split.
  - intros z. split.
    + intros Hz. destruct (reals_range m (esuel s) i z Hz) as (j & Hj & ->). apply reals_in in Hz; auto. destruct Hz as (f & A). exists j, f. auto.
    + intros (j & f & -> & A). apply reals_in; auto. apply A. eauto.
  - rewrite !P by lia. rewrite offs_S. replace (offs m (esuel s) i + length (reals m (esuel s) i) - offs m (esuel s) i) with (length (reals m (esuel s) i)) by lia.
    rewrite reals_len. f_equal. apply filter_ext_in. intros f Hf. apply in_seq in Hf. destruct NB as (_ & _ & NB). destruct (NB i f Hi ltac:(lia)) as (z & Z1 & Z2). rewrite Z1.
    unfold is_real. apply eq_true_iff_eq. rewrite andb_true_iff, Z.leb_le, Z.ltb_lt, some_ok. split.
    + intros (_ & Hz). exists z. split; [lia|]. apply acrossb_ok. apply Z2; lia.
    + intros (j & Hj & A). apply acrossb_ok in A. apply Z2 in A; auto. subst. lia.
Qed.
Print Assumptions C18_adjacency.
(** the graph of C18 is symmetric and has no self loop *)
Theorem C18_symmetric : forall m i j, (exists f, across (cells m) i f j) -> i <> j /\ exists h, across (cells m) j h i.
Proof. intros m i j (f & A). split. intros ->. destruct A as (_ & _ & _ & H & _). auto. destruct (across_sym _ _ _ _ A) as (h & H). exists h. apply H. Qed.
Print Assumptions C18_symmetric.
Example C18_ex : tiled ring ring_h. Proof. exact ring_tiled. Qed.

(** C84: reordering a restricted mesh *)
Lemma reorder_l_ok lm p : alen p = nelem (l_m lm) -> (forall i, i < nelem (l_m lm) -> aat p i < nelem (l_m lm)) -> exists lm', reorder_lmesh lm p = Some lm' /\
  nelem (l_m lm') = nelem (l_m lm) /\ (forall i, i < nelem (l_m lm) -> cell (cells (l_m lm')) i = cell (cells (l_m lm)) (aat p i)) /\
  conns (l_m lm') = conns (l_m lm) /\ l_eglob lm' = l_eglob lm /\ l_p2g lm' = l_p2g lm.
Proof.
  intros HL HP. unfold reorder_lmesh. cbv zeta. set (n := nelem (l_m lm)) in *. cbn [alen].
  match goal with |- context [floop _ ?bb ?ss] =>
    destruct (floop_inv _ (fun k (C : arr (list nat)) => alen C = n /\ forall i, i < k -> aat C i = cell (cells (l_m lm)) (aat p i)) n bb ss) as (C & E & L & I) end.
  - split; auto. intros; lia.
  - intros i C Hi (L & I). rewrite aget_ok by lia. cbn [bind]. rewrite aget_ok by (cbn; auto). cbn [bind aat]. rewrite aset_ok by lia. eexists; split; [reflexivity|]. cbn. split; auto.
    intros k Hk. unfold upd. destruct (Nat.eqb_spec k i); [subst; reflexivity|apply I; lia].
  - rewrite E. cbn [bind]. eexists; split; [reflexivity|]. cbn. split; [unfold nelem; cbn; rewrite alist_length; auto|]. split; auto.
    intros i Hi. rewrite <- I by auto. unfold cell. unfold alist. rewrite (map_nth_in _ _ (aat C) _ i [] 0) by (rewrite seq_length; lia). rewrite seq_nth by lia. auto.
Qed.
(** After the restriction a mesh reorder (option -mesh_reorder) invalidates the distributed data: the recorded global number of a local
    cell is no longer the number of that cell, and a connectivity record names an edge which is not an edge of the neighbour cell. *)
Theorem C84_reorder_after_restriction_refuted : exists g hs dist rank p, global_ok g hs /\ alen dist = nelem (g_m g) /\
  forall jc jr ji jx j0, exists lm lm', restrictMesh g dist rank jc jr ji jx j0 = Some (Val lm) /\
  Permutation (alist p) (seq 0 (nelem (l_m lm))) /\ reorder_lmesh lm p = Some lm' /\
  (exists l, l < nelem (l_m lm') /\ map (back lm') (cell (cells (l_m lm')) l) <> cell (cells (g_m g)) (aat (l_eglob lm') l)) /\
  (exists cf, In cf (conns (l_m lm')) /\ let e := edge (cell (cells (l_m lm')) (cf_elem cf)) (cf_face cf) in
     forall h, h < length (cell (cells (g_m g)) (Z.to_nat (cf_gelem cf))) -> ~ same_edge (back lm' (fst e), back lm' (snd e)) (edge (cell (cells (g_m g)) (Z.to_nat (cf_gelem cf))) h)).
Proof.
  destruct (global_of ring ring_h ring_tiled eq_refl (mkarr 6 (fun _ => vzero)) (mkarr 7 (fun _ => [])) eq_refl eq_refl) as (t & G).
  set (g := mkgm ring t _ _) in *. exists g, ring_h, ring_d, 0, (mkarr 6 (fun i => 5 - i)). split; auto. split; [reflexivity|]. intros jc jr ji jx j0.
  destruct (C17_connectivity_faces g ring_h ring_d 0 G eq_refl jc jr ji jx j0) as (lm & R & _ & C & _).
  destruct (C15_restriction g ring_h ring_d 0 G eq_refl jc jr ji jx j0) as (lm1 & R1 & G1 & M1 & _). rewrite R in R1. injection R1 as <-.
  assert (X0 : alist (l_eglob lm) = [1;2;3;4;5;6]) by (rewrite G1; reflexivity).
  assert (N0 : nelem (l_m lm) = 6). { unfold nelem. rewrite <- (map_length (map (back lm))), M1, map_length, X0. reflexivity. }
  destruct (reorder_l_ok lm (mkarr 6 (fun i => 5 - i))) as (lm' & E & N & K & CE & EE & PE); [auto|rewrite N0; cbn [aat]; intros; lia|].
  assert (L0 : aat (l_eglob lm) 0 = 1). { assert (Q := alist_length _ (l_eglob lm)). rewrite X0 in Q. cbn in Q. unfold alist in X0. rewrite <- Q in X0. cbn in X0. inversion X0. auto. }
  assert (BK : map (back lm) (cell (cells (l_m lm)) 5) = [5;3;0]).
  { assert (Q : nth 5 (map (map (back lm)) (cells (l_m lm))) [] = [5;3;0]) by (rewrite M1, X0; reflexivity). unfold cell. rewrite <- Q. symmetry. exact (map_nth (map (back lm)) (cells (l_m lm)) [] 5). }
  assert (B' : forall v, back lm' v = back lm v) by (intros v; unfold back; rewrite PE; auto).
  exists lm, lm'. split; auto. split. { rewrite N0. apply Permutation_sym. change (alist (mkarr 6 (fun i => 5 - i))) with (rev (seq 0 6)). apply Permutation_rev. } split; auto. split.
  - exists 0. rewrite N, N0. split; [lia|]. rewrite K by lia. rewrite EE, L0. change (aat (mkarr 6 (fun i => 5 - i)) 0) with 5.
    rewrite (map_ext _ _ B'), BK. vm_compute. discriminate.
  - assert (A : across (cells (g_m g)) 1 2 0) by (apply acrossb_ok; vm_compute; reflexivity).
    exists (mkcf 0 2 1 0 (Z.of_nat (at2 (elemface t) 1 2))). rewrite CE. split.
    + apply C. exists 0, 0, 2, (at2 (elemface t) 1 2). split; auto. split; [lia|]. cbv zeta. rewrite L0. split; [split; [auto|split; [reflexivity|vm_compute; discriminate]]|]. split; auto.
      intros (S1 & _). destruct S1 as (q & bf & h & Q1 & _ & _ & Q4). destruct q as [|[|[|q]]]; cbn in Q1; try (destruct q; discriminate); inversion Q1; subst; vm_compute in Q4; lia.
    + cbv zeta. cbn [cf_elem cf_face cf_gelem]. rewrite K by lia. change (aat (mkarr 6 (fun i => 5 - i)) 0) with 5. rewrite !B'.
      assert (L5 : length (cell (cells (l_m lm)) 5) = 3) by (rewrite <- (map_length (back lm)), BK; auto).
      assert (EM := edge_map (back lm) (cell (cells (l_m lm)) 5) 2 ltac:(lia)). rewrite BK in EM. rewrite <- EM.
      intros h Hh S. apply sameb_ok in S. cbn in Hh. destruct h as [|[|[|h]]]; try lia; vm_compute in S; discriminate.
Qed.
Print Assumptions C84_reorder_after_restriction_refuted.
