(** Properties C06-C08, C81 and the half-face theorem C82. Vocabulary: S_Mesh.v, S_Geom.v. *)
From Coq Require Import Reals Lra List Arith Lia Permutation ZArith.
From Verif Require Import Base BaseR BaseSum M_Mesh M_Geom S_Mesh S_Geom Pf_Esup Pf_Esuel Pf_Host Pf_Faces Pf_Topo Pf_Incid Pf_Geom.
Import ListNotations.
Open Scope R_scope.

(** an example: the mesh of Pf_Topo.v with coordinates *)
Definition exX : arr v2 := mkarr 6 (fun k => nth k [mkv 0 0; mkv 1 0; mkv 1 1; mkv 0 1; mkv 2 0; mkv 2 1] vzero).
Definition exo : umesh := mkmesh 6 [[0;1;2]; [0;2;3]; [1;4;5;2]]%nat 4
  [mkbf 0 1 [1%Z]; mkbf 1 4 [2%Z]; mkbf 4 5 [2%Z]; mkbf 5 2 [3%Z]; mkbf 2 3 [3%Z]] [mkcf 1 2 0 0 0].
Lemma exo_tiled : tiled exo exh.
Proof.
  assert (C : cells exo = cells exm) by reflexivity.
  split.
  - split.
    + exact ex_valid.
    + exact ex_conf.
    + exact (gm_max _ _ ex_good).
    + split; [reflexivity|]. intros k bf h Eb Eh. destruct ex_good as [_ _ _ [_ Hh] _].
      destruct (nth_error (bfaces exm) k) as [bf0|] eqn:E0.
      2:{ apply nth_error_None in E0. assert (k < 5)%nat by (apply (proj1 (nth_error_Some (bfaces exo) k)); congruence). cbn in E0. lia. }
      specialize (Hh k bf0 h E0 Eh). rewrite C. change (npoin exo) with (npoin exm).
      destruct k as [|[|[|[|[|k]]]]]; cbn in Eb, E0, Eh; try (destruct k; discriminate); inversion Eb; inversion E0; subst; try exact Hh.
      cbn [b0 b1] in *. inversion Eh; subst. cbn [fst snd] in *. destruct Hh as (A & B & H1 & H2 & H3 & H4). split; [lia|]. split; [auto|].
      split; auto. split; auto. split. left; reflexivity. intros j (J1 & J2 & J3). apply H4. split; auto.
    + exact (gm_conns _ _ ex_good).
  - exact ex_oriented.
  - intros k bf h Eb Eh. destruct k as [|[|[|[|[|k]]]]]; cbn in Eb, Eh; try (destruct k; discriminate); inversion Eb; inversion Eh; reflexivity.
  - cbn. repeat constructor; cbn; intuition discriminate.
  - intros cf j [<-|[]] A. rewrite C in A. apply ex_across in A. cbn in A. intuition discriminate.
  - intros i f Hi Hf.
    assert (D : forall i f j, (i < 3 -> j < 3 -> f < length (cell (cells exo) i) -> j <> i ->
      (exists g, g < length (cell (cells exo) j) /\ same_edge (edge (cell (cells exo) i) f) (edge (cell (cells exo) j) g)) -> across (cells exo) i f j)%nat).
    { intros. repeat split; auto. }
    cbn in Hi. destruct i as [|[|[|i]]]; try lia; cbn in Hf; destruct f as [|[|[|[|f]]]]; try lia.
    all: try (right; left; cbn; tauto).
    all: try (right; right; eexists; split; [left; reflexivity|reflexivity]).
    + left. exists 2%nat. apply D; cbn; try lia. exists 3%nat. split; [lia|]. right; reflexivity.
    + left. exists 1%nat. apply D; cbn; try lia. exists 0%nat. split; [lia|]. right; reflexivity.
    + left. exists 0%nat. apply D; cbn; try lia. exists 2%nat. split; [lia|]. right; reflexivity.
    + left. exists 0%nat. apply D; cbn; try lia. exists 1%nat. split; [lia|]. right; reflexivity.
Qed.
Definition distinct_ends (m : umesh) (X : arr v2) : Prop :=
  forall i f, (i < nelem m)%nat -> (f < length (cell (cells m) i))%nat ->
    aat X (fst (edge (cell (cells m) i) f)) <> aat X (snd (edge (cell (cells m) i) f)).
Lemma exX_distinct : distinct_ends exo exX.
Proof.
  intros i f Hi Hf. cbn in Hi. destruct i as [|[|[|i]]]; try lia; cbn in Hf; destruct f as [|[|[|[|f]]]]; try lia; cbn; intros E; inversion E; lra.
Qed.

(** C06: for every face list whose points exist and every face with distinct end points *)
Theorem C06_face_normals : forall (X : arr v2) (F : arr face) jm,
  (forall k, (k < alen F)%nat -> (f_a (aat F k) < alen X)%nat /\ (f_b (aat F k) < alen X)%nat) ->
  exists M, compute_face_data X F jm = Some M /\ alen M = alen F /\
  forall k, (k < alen F)%nat ->
    let a := aat X (f_a (aat F k)) in let b := aat X (f_b (aat F k)) in
    let n := fm_n (aat M k) in let len := fm_len (aat M k) in
    a <> b ->
    len = norm2 (vsub b a) /\ 0 < len /\
    dot2 n n = 1 /\ dot2 n (vsub b a) = 0 /\ cross (vsub b a) n < 0 /\
    vscal len n = rot_right (vsub b a).
Proof.
  intros X F jm H. destruct (face_data_ok X F jm H) as (M & E & L & I). exists M. split; auto. split; auto.
  intros k Hk a b n len Hab. subst n len. rewrite (I k Hk). fold a b.
  pose proof (metric_right a b Hab) as (P1 & P2). pose proof (norm2_pos _ (vsub_ne a b Hab)) as P3. rewrite <- metric_len in P3.
  split; [apply metric_len|]. split; auto. split; [apply metric_unit; auto|]. split; auto. split; [rewrite P2; lra|]. apply metric_scaled; auto.
Qed.
Print Assumptions C06_face_normals.
Example C06_ex : aat exX 0 <> aat exX 2. Proof. cbn. intros E; inversion E; lra. Qed.

(** C07: over the whole face list built by compute_topological *)
Theorem C07_closed_cells : forall m hs X j0 jf je jt jm, tiled m hs -> alen X = npoin m -> distinct_ends m X ->
  exists p e ni s M, compute_topological m j0 jf je jt = Some (Val (p, e, (ni, s))) /\
    compute_face_data X (intfac s) jm = Some M /\
    forall i, (i < nelem m)%nat ->
      vsum (fun k => let fc := aat (intfac s) k in let a := vscal (fm_len (aat M k)) (fm_n (aat M k)) in
                     if (f_left fc =? i)%nat then a else if (f_right fc =? i)%nat then vneg a else vzero)
           (seq 0 (alen (intfac s))) = vzero.
Proof.
  intros m hs X j0 jf je jt jm T LX DX. destruct (topo_ranges m hs (tl_good _ _ T) j0 jf je jt) as (p & e & s & il & E & HR).
  assert (Hb : forall k, (k < alen (intfac s))%nat -> (f_a (aat (intfac s) k) < alen X)%nat /\ (f_b (aat (intfac s) k) < alen X)%nat).
  { intros k Hk. assert (Hin : In (aat (intfac s) k) (alist (intfac s))) by (unfold alist; apply in_map; apply in_seq; lia).
    destruct (face_points m hs _ il T HR _ Hin) as (j & f & Hj & Hf & El & Ee).
    pose proof (gm_valid _ _ (tl_good _ _ T)) as Hv. destruct (cell_valid _ _ j Hv Hj) as (_ & _ & Hn).
    destruct (edge_in _ _ j f Hv Hj Hf) as (I1 & I2). rewrite <- Ee in I1, I2. rewrite LX. split; apply Hn; auto. }
  destruct (face_data_ok X (intfac s) jm Hb) as (M & EM & LM & IM).
  exists p, e, (length il), s, M. split; auto. split; auto. intros i Hi.
  apply (closed m hs X (intfac s) il M i T HR Hi DX IM).
Qed.
Print Assumptions C07_closed_cells.
Example C07_ex : tiled exo exh /\ alen exX = npoin exo /\ distinct_ends exo exX.
Proof. split; [exact exo_tiled|]. split; [reflexivity|exact exX_distinct]. Qed.

(** C08 *)
Theorem C08_areas : forall m X ja,
  (forall c, In c (cells m) -> (length c = 3 \/ length c = 4)%nat /\ forall v, In v c -> (v < alen X)%nat) ->
  exists A, compute_areas m X ja = Some A /\ alen A = nelem m /\
    forall i, (i < nelem m)%nat -> aat A i = polygon_area (map (aat X) (cell (cells m) i)).
Proof. exact areas_ok. Qed.
Print Assumptions C08_areas.
Theorem C08_area_laws :
  (forall t p, polygon_area (map (vadd t) p) = polygon_area p) /\
  (forall a p, polygon_area (p ++ [a]) = polygon_area (a :: p)) /\
  (forall x y l1 l2, polygon_area (x :: l1 ++ [y]) + polygon_area (y :: l2 ++ [x]) = polygon_area (x :: l1 ++ y :: l2)) /\
  (forall a b c, left_of a b c -> 0 < polygon_area [a; b; c]) /\
  (forall a b c d, left_of a b c -> left_of a c d -> 0 < polygon_area [a; b; c; d]) /\
  (forall w h, polygon_area [mkv 0 0; mkv w 0; mkv w h; mkv 0 h] = w * h).
Proof.
  split; [exact polygon_translate|]. split; [exact polygon_cyclic|]. split; [exact polygon_glue|]. split; [exact tri_pos|].
  split; [exact quad_pos|]. intros w h. unfold polygon_area, cross; cbn. field.
Qed.
Print Assumptions C08_area_laws.
(** the areas of all cells add up to the area enclosed by the outer faces of the face list *)
Theorem C08_total_area : forall m hs X j0 jf je jt ja, tiled m hs ->
  (forall c, In c (cells m) -> (length c = 3 \/ length c = 4)%nat) -> alen X = npoin m ->
  exists p e ni s A, compute_topological m j0 jf je jt = Some (Val (p, e, (ni, s))) /\ compute_areas m X ja = Some A /\
    rsum (aat A) (seq 0 (nelem m)) =
    rsum (fun k => let fc := aat (intfac s) k in
            if (f_right fc <? nelem m)%nat then 0 else / 2 * cross (aat X (f_a fc)) (aat X (f_b fc))) (seq 0 (alen (intfac s))).
Proof.
  intros m hs X j0 jf je jt ja T H34 LX. destruct (topo_ranges m hs (tl_good _ _ T) j0 jf je jt) as (p & e & s & il & E & HR).
  destruct (areas_ok m X ja) as (A & EA & LA & IA).
  { intros c Hc. split; auto. rewrite LX. intros v Hv. apply (gm_valid _ _ (tl_good _ _ T) c Hc); auto. }
  exists p, e, (length il), s, A. split; auto. split; auto.
  pose proof (total_area m hs _ il (aat X) T HR) as P. rewrite rsum_alist in P. cbv zeta. rewrite <- P.
  apply rsum_ext. intros i Hi. apply in_seq in Hi. apply IA. lia.
Qed.
Print Assumptions C08_total_area.
Example C08_ex : (forall c, In c (cells exo) -> (length c = 3 \/ length c = 4)%nat /\ forall v, In v c -> (v < alen exX)%nat) /\
  left_of (mkv 0 0) (mkv 1 0) (mkv 1 1).
Proof.
  split.
  - intros c Hc. split. cbn in Hc. destruct Hc as [<-|[<-|[<-|[]]]]; cbn; auto. intros v Hv. apply (ex_valid c Hc); auto.
  - unfold left_of, cross, vsub; cbn. lra.
Qed.

(** C81: cell centres are the averages of the nodes; a linear function takes its mean value there *)
Theorem C81_cell_centres : forall m X jc, (forall c, In c (cells m) -> forall v, In v c -> (v < alen X)%nat) ->
  exists C, compute_cell_centres m X jc = Some C /\ alen C = nelem m /\
    forall i, (i < nelem m)%nat -> cell (cells m) i <> [] -> forall al be ga,
      let lin p := al + be * vx p + ga * vy p in
      lin (aat C i) = rsum (fun v => lin (aat X v)) (cell (cells m) i) / INR (length (cell (cells m) i)).
Proof.
  intros m X jc H. destruct (centres_ok m X jc H) as (C & E & L & I). exists C. split; auto. split; auto.
  intros i Hi Hne al be ga. cbv zeta. rewrite (I i Hi). cbn [vx vy]. set (c := cell (cells m) i) in *.
  assert (N : INR (length c) <> 0). { apply not_0_INR. destruct c; [congruence|discriminate]. }
  rewrite !rsum_plus, !rsum_scal.
  replace (rsum (fun _ : nat => al) c) with (INR (length c) * al).
  - cbn. field. auto.
  - clear. induction c as [|a c IH]; [cbn; lra|]. cbn [rsum length]. rewrite <- IH, S_INR. ring.
Qed.
Print Assumptions C81_cell_centres.
Example C81_ex : (forall c, In c (cells exo) -> forall v, In v c -> (v < alen exX)%nat) /\ cell (cells exo) 2 <> [].
Proof. split; [|discriminate]. intros c Hc v Hv. apply (ex_valid c Hc); auto. Qed.

(** C82: every side of every cell occurs exactly once among the sides of the face list *)
Theorem C82_half_faces : forall m hs j0 jf je jt, tiled m hs ->
  exists p e ni s, compute_topological m j0 jf je jt = Some (Val (p, e, (ni, s))) /\
    Permutation
      (flat_map (fun fc => (f_left fc, (f_a fc, f_b fc)) ::
                   if (f_right fc <? nelem m)%nat then [(f_right fc, (f_b fc, f_a fc))] else []) (alist (intfac s)))
      (flat_map (fun i => map (fun f => (i, edge (cell (cells m) i) f)) (seq 0 (length (cell (cells m) i)))) (seq 0 (nelem m))).
Proof.
  intros m hs j0 jf je jt T. destruct (topo_ranges m hs (tl_good _ _ T) j0 jf je jt) as (p & e & s & il & E & HR).
  exists p, e, (length il), s. split; auto. exact (halves_perm m hs _ il T HR).
Qed.
Print Assumptions C82_half_faces.
Example C82_ex : tiled exo exh. Proof. exact exo_tiled. Qed.
