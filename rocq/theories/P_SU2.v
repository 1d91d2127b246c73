(** C91: the SU2 reader. *)
From Coq Require Import List Arith ZArith Bool String Lia.
From Verif Require Import Base M_Gmsh M_SU2 Pf_Gmsh Pf_GmshW P_Gmsh.
Import ListNotations.
Open Scope nat_scope.

(** ** Specification: the text of an SU2 file *)
Section Text.
Context {C : Type} (inj : Z -> C).
Notation stok := (stok C).
(** a name (with comments before it), an equality sign, a number, the rest of the line (a comment) *)
Record hdr := mkh { h_pre : list stok; h_post : list stok }.
Definition hdr_ok (h : hdr) : Prop := ~ In SEq (h_pre h) /\ ~ In SNl (h_post h).
Definition htext (h : hdr) (z : Z) : list stok := h_pre h ++ [SEq; SZ z] ++ h_post h ++ [SNl].
(** cells: type, nodes, number; points: coordinates, number; boundary faces: type, nodes *)
Record scell := mksc { sc_ty : Z; sc_nodes : list Z; sc_num : Z }.
Record spoint := mksp { sp_x : C; sp_y : C; sp_num : Z }.
Record sface := mksf { sf_ty : Z; sf_a : Z; sf_b : Z }.
Record smark := mksm { mk_h1 : hdr; mk_tag : Z; mk_h2 : hdr; mk_faces : list sface }.
(** one line each *)
Definition ctext (c : scell) : list stok := (SZ (sc_ty c) :: map SZ (sc_nodes c) ++ [SZ (sc_num c)]) ++ [SNl].
Definition ptext (p : spoint) : list stok := [SC (sp_x p); SC (sp_y p); SZ (sp_num p)] ++ [SNl].
Definition ftext (f : sface) : list stok := [SZ (sf_ty f); SZ (sf_a f); SZ (sf_b f)] ++ [SNl].
Definition mtext (m : smark) : list stok :=
  htext (mk_h1 m) (mk_tag m) ++ htext (mk_h2 m) (Z.of_nat (List.length (mk_faces m))) ++ flat_map ftext (mk_faces m).
Definition su2_text (hd he hp hm : hdr) (dim : Z) (cs : list scell) (ps : list spoint) (ms : list smark) (tail : list stok) : list stok :=
  htext hd dim ++ htext he (Z.of_nat (List.length cs)) ++ flat_map ctext cs ++
  htext hp (Z.of_nat (List.length ps)) ++ flat_map ptext ps ++
  htext hm (Z.of_nat (List.length ms)) ++ flat_map mtext ms ++ tail.
(** triangles (5) with three nodes, quadrilaterals (9) with four *)
Definition cell_ok (c : scell) : Prop := (sc_ty c = 5%Z /\ List.length (sc_nodes c) = 3) \/ (sc_ty c = 9%Z /\ List.length (sc_nodes c) = 4).
Definition mark_ok (m : smark) : Prop := hdr_ok (mk_h1 m) /\ hdr_ok (mk_h2 m) /\ mk_faces m <> [].
(** boundary faces with their marker, in file order *)
Definition all_faces (ms : list smark) : list (Z * sface) := flat_map (fun m => map (fun f => (mk_tag m, f)) (mk_faces m)) ms.

(** ** Reading the pieces *)
Lemma after_eq_ok (p r : list stok) : ~ In SEq p -> after_eq (p ++ SEq :: r) = Some r.
Proof. induction p as [|x p IH]; intros H; [reflexivity|]. cbn. destruct x; try (apply IH; intros K; apply H; right; exact K). exfalso. apply H. left. reflexivity. Qed.
Lemma after_nl_ok (p r : list stok) : ~ In SNl p -> after_nl (p ++ SNl :: r) = r.
Proof. induction p as [|x p IH]; intros H; [reflexivity|]. cbn. destruct x; try (apply IH; intros K; apply H; right; exact K). exfalso. apply H. left. reflexivity. Qed.
Lemma field_ok h z r : hdr_ok h -> field (htext h z ++ r) = Some (z, r).
Proof.
  intros (A & B). unfold field, htext. rewrite <- app_assoc. cbn [app]. rewrite after_eq_ok by auto. cbn [bind after_nl]. rewrite <- app_assoc. cbn [app].
  rewrite after_nl_ok by auto. reflexivity.
Qed.
Lemma fieldN_ok h n r : hdr_ok h -> fieldN (htext h (Z.of_nat n) ++ r) = Some (n, r).
Proof. intros H. unfold fieldN. rewrite field_ok by auto. cbn [bind]. rewrite (proj2 (Z.ltb_ge _ _)) by lia. rewrite Nat2Z.id. reflexivity. Qed.

Lemma skipn_cons {A} (d : A) l i : i < List.length l -> skipn i l = nth i l d :: skipn (S i) l.
Proof. revert i. induction l as [|x l IH]; intros i Hi; [cbn in Hi; lia|]. destruct i; [reflexivity|]. cbn [skipn nth]. apply IH. cbn in Hi. lia. Qed.

(** reading [n] lines one after the other: the end of a line stays in the stream until the next read *)
Definition eol (i : nat) : list stok := if i =? 0 then [] else [SNl].
Lemma read_list {A St : Type} (d : A) (text : A -> list stok) (strm : St -> list stok) (Inv : nat -> St -> Prop) (body : nat -> St -> option St) (l : list A) tail s :
  strm s = flat_map (fun x => text x ++ [SNl]) l ++ tail -> Inv 0 s ->
  (forall i s r, i < List.length l -> Inv i s -> strm s = eol i ++ text (nth i l d) ++ r -> exists s', body i s = Some s' /\ Inv (i + 1) s' /\ strm s' = r) ->
  exists s', floop (List.length l) body s = Some s' /\ Inv (List.length l) s' /\ strm s' = eol (List.length l) ++ tail.
Proof.
  intros E0 I0 Hb.
  destruct (floop_inv St (fun i s => Inv i s /\ strm s = eol i ++ flat_map (fun x => text x ++ [SNl]) (skipn i l) ++ tail) (List.length l) body s) as (s' & E & I' & T).
  - split; auto.
  - intros i s1 Hi (I1 & E1). rewrite (skipn_cons d) in E1 by auto. cbn [flat_map] in E1. rewrite <- !app_assoc in E1.
    destruct (Hb i s1 _ Hi I1 E1) as (s2 & E2 & I2 & T2). exists s2. split; [exact E2|]. split; [exact I2|]. rewrite Nat.add_1_r in *. exact T2.
  - exists s'. split; auto. split; auto. rewrite T, skipn_all. reflexivity.
Qed.
Lemma rd_z_eol i z r : rd_z (eol i ++ SZ z :: r) = Some (z, r).
Proof. unfold eol. destruct (i =? 0); reflexivity. Qed.
Lemma rd_c_eol i c r : rd_c inj (eol i ++ SC c :: r) = Some (c, r).
Proof. unfold eol. destruct (i =? 0); reflexivity. Qed.

Context (junkI junkB : nat -> nat -> Z) (junkC : nat -> nat -> C) (junkn : nat).
Definition c_d : scell := mksc 5 [0;0;0]%Z 0.
Definition sf_d : sface := mksf 0 0 0.

Lemma nodes_read (i : nat) (ns : list Z) r : forall (Ip : arr2 Z), i < rows Ip -> List.length ns <= cols Ip ->
  exists Ip', floop (List.length ns) (fun j (s : arr2 Z * list stok) => let '(Ip, l) := s in '(z, l) <- rd_z l ;; Ip <- set2 Ip i j z ;; Some (Ip, l)) (Ip, map SZ ns ++ r) = Some (Ip', r) /\
    rows Ip' = rows Ip /\ cols Ip' = cols Ip /\ (forall j, j < List.length ns -> at2 Ip' i j = nth j ns 0%Z) /\ (forall p q, p <> i -> at2 Ip' p q = at2 Ip p q).
Proof.
  intros Ip Hi Hc.
  destruct (floop_inv (arr2 Z * list stok) (fun k s => snd s = map SZ (skipn k ns) ++ r /\
     rows (fst s) = rows Ip /\ cols (fst s) = cols Ip /\ (forall j, j < k -> at2 (fst s) i j = nth j ns 0%Z) /\ (forall p q, p <> i -> at2 (fst s) p q = at2 Ip p q))
    (List.length ns) (fun j (s : arr2 Z * list stok) => let '(Ip, l) := s in '(z, l) <- rd_z l ;; Ip <- set2 Ip i j z ;; Some (Ip, l)) (Ip, map SZ ns ++ r)) as ((Ip' & l') & E & T & A & B & D & F).
  - cbn [fst snd]. repeat split; auto. intros j Hj. lia.
  - intros k (I1 & l1) Hk (T & A & B & D & E). cbn [fst snd] in *. subst l1. rewrite (skipn_cons 0%Z) by auto. cbn [map app rd_z bind]. rewrite set2_ok by lia. cbn [bind].
    eexists. split; [reflexivity|]. cbn [fst snd rows cols at2]. rewrite Nat.add_1_r. repeat split; auto.
    + intros j Hj. destruct (Nat.eq_dec j k) as [->|N]; [rewrite upd2_eq; reflexivity|]. rewrite upd2_ne by auto. apply D. lia.
    + intros p q Hp. rewrite upd2_ne by auto. auto.
  - cbn [fst snd] in *. rewrite skipn_all in T. cbn in T. subst l'. exists Ip'. split; auto.
Qed.

Lemma cell_len c : cell_ok c -> su2_nodes (sc_ty c) = List.length (sc_nodes c) /\ (List.length (sc_nodes c) = 3 \/ List.length (sc_nodes c) = 4).
Proof. intros [(-> & ->)|(-> & ->)]; auto. Qed.

Lemma cells_read (cs : list scell) tail : (forall c, In c cs -> cell_ok c) ->
  exists Ip nn, floop (List.length cs) rd_cell (mk2 (List.length cs) 4 junkI, aconst (List.length cs) 0, flat_map ctext cs ++ tail) = Some (Ip, nn, eol (List.length cs) ++ tail) /\
    rows Ip = List.length cs /\ cols Ip = 4 /\ alen nn = List.length cs /\
    (forall i, i < List.length cs -> aat nn i = List.length (sc_nodes (nth i cs c_d)) /\ forall j, j < List.length (sc_nodes (nth i cs c_d)) -> at2 Ip i j = nth j (sc_nodes (nth i cs c_d)) 0%Z).
Proof.
  intros Hok.
  destruct (read_list c_d (fun c => SZ (sc_ty c) :: map SZ (sc_nodes c) ++ [SZ (sc_num c)]) (fun s : arr2 Z * arr nat * list stok => snd s)
    (fun k s => let '(Ip, nn, _) := s in rows Ip = List.length cs /\ cols Ip = 4 /\ alen nn = List.length cs /\
       forall i, i < k -> aat nn i = List.length (sc_nodes (nth i cs c_d)) /\ forall j, j < List.length (sc_nodes (nth i cs c_d)) -> at2 Ip i j = nth j (sc_nodes (nth i cs c_d)) 0%Z)
    rd_cell cs tail (mk2 (List.length cs) 4 junkI, aconst (List.length cs) 0, flat_map ctext cs ++ tail)) as (((Ip & nn) & l') & E & I' & T).
  - reflexivity.
  - repeat split; auto; lia.
  - intros k ((I1 & n1) & l1) r Hk (A & B & D & F) T. cbn [snd] in T. subst l1. unfold rd_cell. cbn [app]. rewrite rd_z_eol. cbn [bind].
    set (c := nth k cs c_d) in *. destruct (cell_len c) as (L1 & L2); [apply Hok, nth_In; auto|]. rewrite L1.
    rewrite aset_ok by lia. cbn [bind]. rewrite <- app_assoc.
    destruct (nodes_read k (sc_nodes c) ([SZ (sc_num c)] ++ r) I1) as (I2 & E2 & R2 & C2 & V2 & O2); [lia|lia|]. rewrite E2. cbn [bind app rd_z].
    eexists. split; [reflexivity|]. cbn [snd]. split; [|reflexivity]. cbn [alen aat]. repeat split; try lia.
    + destruct (Nat.eq_dec i k) as [->|N]; [rewrite upd_eq; reflexivity|]. rewrite upd_ne by auto. apply F. lia.
    + intros j Hj. destruct (Nat.eq_dec i k) as [->|N]; [apply V2; exact Hj|]. rewrite O2 by auto. apply F; [lia|auto].
  - cbn [snd] in T. subst l'. exists Ip, nn. destruct I' as (A & B & D & F). split; [exact E|]. auto.
Qed.

Context (p_d : spoint).
Lemma points_read (ps : list spoint) tail :
  exists X, floop (List.length ps) (rd_point inj) (mk2 (List.length ps) 2 junkC, flat_map ptext ps ++ tail) = Some (X, eol (List.length ps) ++ tail) /\
    rows X = List.length ps /\ cols X = 2 /\ forall i, i < List.length ps -> at2 X i 0 = sp_x (nth i ps p_d) /\ at2 X i 1 = sp_y (nth i ps p_d).
Proof.
  destruct (read_list p_d (fun p => [SC (sp_x p); SC (sp_y p); SZ (sp_num p)]) (fun s : arr2 C * list stok => snd s)
    (fun k s => let '(X, _) := s in rows X = List.length ps /\ cols X = 2 /\ forall i, i < k -> at2 X i 0 = sp_x (nth i ps p_d) /\ at2 X i 1 = sp_y (nth i ps p_d))
    (rd_point inj) ps tail (mk2 (List.length ps) 2 junkC, flat_map ptext ps ++ tail)) as ((X & l') & E & I' & T).
  - reflexivity.
  - repeat split; auto; lia.
  - intros k (X1 & l1) r Hk (A & B & F) T. cbn [snd] in T. subst l1. unfold rd_point. cbn [app]. rewrite rd_c_eol. cbn [bind].
    rewrite set2_ok by lia. cbn [bind rd_c]. rewrite set2_ok by (cbn [rows cols]; lia). cbn [bind rd_z]. eexists. split; [reflexivity|]. cbn [snd rows cols at2]. split; [|reflexivity].
    split; auto. split; auto. intros i Hi. destruct (Nat.eq_dec i k) as [->|N].
    + rewrite upd2_eq, upd2_ne by auto. rewrite upd2_eq. auto.
    + rewrite !upd2_ne by auto. apply F. lia.
  - cbn [snd] in T. subst l'. exists X. destruct I' as (A & B & F). auto.
Qed.

Lemma faces_read (fs : list sface) tail :
  floop (List.length fs) rd_face ([], flat_map ftext fs ++ tail) = Some (map (fun f => (sf_a f, sf_b f)) fs, eol (List.length fs) ++ tail).
Proof.
  destruct (read_list sf_d (fun f => [SZ (sf_ty f); SZ (sf_a f); SZ (sf_b f)]) (fun s : list (Z * Z) * list stok => snd s)
    (fun k s => fst s = map (fun f => (sf_a f, sf_b f)) (firstn k fs)) rd_face fs tail ([], flat_map ftext fs ++ tail)) as ((q & l') & E & I' & T).
  - reflexivity.
  - reflexivity.
  - intros k (q & l1) r Hk A T. cbn [snd fst] in *. subst l1 q. unfold rd_face. cbn [app]. rewrite rd_z_eol. cbn [bind rd_z]. eexists. split; [reflexivity|]. cbn [fst snd]. split; [|reflexivity].
    assert (HS : firstn (k + 1) fs = firstn k fs ++ [nth k fs sf_d]).
    { clear - Hk. revert k Hk. induction fs as [|x l IH]; intros k Hk; [cbn in Hk; lia|]. destruct k; [reflexivity|]. cbn [firstn nth app Nat.add]. f_equal. apply IH. cbn in Hk. lia. }
    rewrite HS, map_app. reflexivity.
  - cbn [fst snd] in *. subst. rewrite firstn_all in E. exact E.
Qed.

Definition m_d : smark := mksm (mkh [] []) 0 (mkh [] []) [].
Definition mval (m : smark) : Z * list (Z * Z) := (mk_tag m, map (fun f => (sf_a f, sf_b f)) (mk_faces m)).
Lemma marks_read (ms : list smark) tail : (forall m, In m ms -> mark_ok m) ->
  exists r, floop (List.length ms) (rd_marker (List.length ms)) ([], flat_map mtext ms ++ tail) = Some (map mval ms, r).
Proof.
  intros Hok.
  destruct (floop_inv (list (Z * list (Z * Z)) * list stok) (fun k s => fst s = map mval (firstn k ms) /\ (k < List.length ms -> snd s = flat_map mtext (skipn k ms) ++ tail))
    (List.length ms) (rd_marker (List.length ms)) ([], flat_map mtext ms ++ tail)) as ((q & l') & E & A & _).
  - split; auto.
  - intros k (q & l1) Hk (A & T). cbn [fst snd] in *. subst q. specialize (T Hk). rewrite (skipn_cons m_d) in T by auto. cbn [flat_map] in T. subst l1.
    set (m := nth k ms m_d) in *. destruct (Hok m) as (H1 & H2 & H3); [apply nth_In; auto|].
    unfold rd_marker, mtext. rewrite <- !app_assoc. rewrite field_ok by auto. cbn [bind]. rewrite fieldN_ok by auto. cbn [bind]. rewrite faces_read. cbn [bind].
    eexists. split; [reflexivity|]. cbn [fst snd]. split.
    + assert (HS : firstn (k + 1) ms = firstn k ms ++ [m]).
      { clear - Hk. subst m. revert k Hk. induction ms as [|x l IH]; intros k Hk; [cbn in Hk; lia|]. destruct k; [reflexivity|]. cbn [firstn nth app Nat.add]. f_equal. apply IH. cbn in Hk. lia. }
      rewrite HS, map_app. reflexivity.
    + intros Hk'. rewrite (proj2 (Nat.ltb_lt _ _)) by lia. destruct (mk_faces m) as [|f fs]; [contradiction|]. rewrite Nat.add_1_r. reflexivity.
  - exists l'. cbn [fst] in A. rewrite firstn_all in A. subst q. exact E.
Qed.

Lemma ofold_pairs (ms : list smark) (s : arr2 Z * nat) :
  ofold (fun m s => ofold (put_face (fst m)) (snd m) s) (map mval ms) s = ofold (fun p => put_face (fst p) (sf_a (snd p), sf_b (snd p))) (all_faces ms) s.
Proof.
  unfold all_faces. rewrite ofold_flat_map, ofold_map. apply ofold_ext. intros m s1 _. unfold mval. cbn [fst snd]. rewrite !ofold_map. reflexivity.
Qed.
Lemma nfaces_sum (ms : list smark) : list_sum (map (fun m : Z * list (Z * Z) => List.length (snd m)) (map mval ms)) = List.length (all_faces ms).
Proof. unfold all_faces. rewrite map_map. induction ms as [|m l IH]; [reflexivity|]. cbn. rewrite app_length, !map_length. f_equal. exact IH. Qed.
Definition bf_d : Z * sface := (0%Z, sf_d).
Lemma faces_put (fs : list (Z * sface)) (nc : nat) : 3 <= nc \/ fs = [] ->
  exists B, ofold (fun p => put_face (fst p) (sf_a (snd p), sf_b (snd p))) fs (mk2 (List.length fs) nc junkB, 0) = Some (B, List.length fs) /\
    rows B = List.length fs /\ cols B = nc /\
    forall i, i < List.length fs -> at2 B i 0 = sf_a (snd (nth i fs bf_d)) /\ at2 B i 1 = sf_b (snd (nth i fs bf_d)) /\ at2 B i 2 = fst (nth i fs bf_d).
Proof.
  intros Hnc.
  destruct (ofold_inv (Z * sface) (arr2 Z * nat) (fun pre s => snd s = List.length pre /\ rows (fst s) = List.length fs /\ cols (fst s) = nc /\
    forall i, i < List.length pre -> at2 (fst s) i 0 = sf_a (snd (nth i pre bf_d)) /\ at2 (fst s) i 1 = sf_b (snd (nth i pre bf_d)) /\ at2 (fst s) i 2 = fst (nth i pre bf_d))
    (fun p => put_face (fst p) (sf_a (snd p), sf_b (snd p))) fs (mk2 (List.length fs) nc junkB, 0)) as ((B & k) & E & A & R1 & C1 & F).
  - cbn. repeat split; auto; lia.
  - intros pre (t & f) post (B & k) -> (A & R1 & C1 & F). cbn [fst snd] in *. subst k. destruct Hnc as [Hnc|Hn]; [|destruct pre; discriminate].
    assert (HL : List.length pre < List.length (pre ++ (t, f) :: post)) by (rewrite app_length; cbn; lia).
    unfold put_face. cbn [fst snd]. rewrite set2_ok by lia. cbn [bind]. rewrite set2_ok by (cbn [rows cols]; lia). cbn [bind]. rewrite set2_ok by (cbn [rows cols]; lia). cbn [bind].
    eexists. split; [reflexivity|]. cbn [fst snd rows cols at2]. rewrite app_length. split; [reflexivity|]. split; [exact R1|]. split; [exact C1|]. cbn [List.length].
    intros i Hi. destruct (Nat.eq_dec i (List.length pre)) as [->|N].
    + rewrite app_nth2, Nat.sub_diag by lia. cbn [nth fst snd]. repeat split; repeat (rewrite upd2_eq || rewrite upd2_ne by lia); reflexivity.
    + rewrite app_nth1 by lia. rewrite !upd2_ne by auto. apply F. lia.
  - cbn [fst snd] in *. exists B. subst k. auto.
Qed.

(** ** C91 *)
(** what the mesh of the file is *)
Definition mesh_of_file (cs : list scell) (ps : list spoint) (ms : list smark) (g : gmesh C) : Prop :=
  g_npoin g = List.length ps /\ rows (g_coords g) = List.length ps /\ cols (g_coords g) = 2 /\
  (forall i, i < List.length ps -> at2 (g_coords g) i 0 = sp_x (nth i ps p_d) /\ at2 (g_coords g) i 1 = sp_y (nth i ps p_d)) /\
  g_nelem g = List.length cs /\ alen (g_nnode g) = List.length cs /\ g_nfael g = g_nnode g /\ rows (g_inpoel g) = List.length cs /\ cols (g_inpoel g) = 4 /\
  (forall i, i < List.length cs -> aat (g_nnode g) i = List.length (sc_nodes (nth i cs c_d)) /\
     forall j, j < List.length (sc_nodes (nth i cs c_d)) -> at2 (g_inpoel g) i j = nth j (sc_nodes (nth i cs c_d)) 0%Z) /\
  g_nbface g = List.length (all_faces ms) /\ rows (g_bface g) = List.length (all_faces ms) /\ g_nbtag g = 1 /\ g_ndtag g = 0 /\ cols (g_regions g) = 0 /\ cols (g_bface g) = g_nnofa g + 1 /\
  (forall i, i < List.length (all_faces ms) -> at2 (g_bface g) i 0 = sf_a (snd (nth i (all_faces ms) bf_d)) /\
     at2 (g_bface g) i 1 = sf_b (snd (nth i (all_faces ms) bf_d)) /\ at2 (g_bface g) i 2 = fst (nth i (all_faces ms) bf_d)).

Definition file_ok (hd he hp hm : hdr) (cs : list scell) (ps : list spoint) (ms : list smark) : Prop :=
  hdr_ok hd /\ hdr_ok he /\ hdr_ok hp /\ hdr_ok hm /\ cs <> [] /\ ps <> [] /\ (forall c, In c cs -> cell_ok c) /\ (forall m, In m ms -> mark_ok m).

(** A file whose sections come in the order dimension, cells, points, markers, whose cells are triangles and quadrilaterals and whose markers have
    at least one face each, is read as it stands: every cell, point, boundary face and marker, and nothing after the last face matters.
    The number of nodes per boundary face is right as soon as there is a marker; without one it is whatever the storage held. *)
Theorem C91_read : forall hd he hp hm dim cs ps ms tail, file_ok hd he hp hm cs ps ms ->
  exists g, readSU2 inj junkI junkB junkC junkn (su2_text hd he hp hm dim cs ps ms tail) = Some g /\ mesh_of_file cs ps ms g /\
    (ms <> [] -> g_nnofa g = 2) /\ (ms = [] -> g_nnofa g = junkn).
Proof.
  intros hd he hp hm dim cs ps ms tail (H1 & H2 & H3 & H4 & Ncs & Nps & Hc & Hm). unfold readSU2, su2_text.
  rewrite field_ok by auto. cbn [bind]. rewrite fieldN_ok by auto. cbn [bind].
  match goal with |- context [flat_map ctext cs ++ ?t] => destruct (cells_read cs t Hc) as (Ip & nn & E1 & A1 & A2 & A3 & A4) end. rewrite E1. cbn [bind].
  assert (EO : forall {A} (l : list A) t, l <> [] -> after_nl (eol (List.length l) ++ t) = t) by (intros A [|x l] t Hl; [contradiction|reflexivity]).
  rewrite EO by auto. rewrite fieldN_ok by auto. cbn [bind].
  match goal with |- context [flat_map ptext ps ++ ?t] => destruct (points_read ps t) as (X & E2 & B1 & B2 & B3) end. rewrite E2. cbn [bind].
  rewrite EO by auto. rewrite fieldN_ok by auto. cbn [bind].
  destruct (marks_read ms tail Hm) as (r & E3). rewrite E3. cbn [bind]. rewrite nfaces_sum, ofold_pairs.
  set (nofa := if List.length ms =? 0 then junkn else 2).
  destruct (faces_put (all_faces ms) (nofa + 1)) as (B & E4 & D1 & D2 & D3).
  { destruct ms; [right; reflexivity|left; subst nofa; change (3 <= 2 + 1); lia]. }
  rewrite E4. cbn [bind]. eexists. split; [reflexivity|]. split.
  - unfold mesh_of_file. cbn. repeat (split; [first [assumption|reflexivity]|]). exact D3.
  - cbn. subst nofa. split; intros Q; destruct ms; try contradiction; try discriminate; reflexivity.
Qed.

(** From SU2 to Gmsh: what is read is a mesh the writer accepts, and reading the written file back gives the same mesh, up to the second tag
    the writer adds. *)
Theorem C91_conversion : forall hd he hp hm dim cs ps ms tail (c0 : C) junkE junkI' junkB' junkR junkC' jn bface0, file_ok hd he hp hm cs ps ms -> ms <> [] ->
  exists g file g', readSU2 inj junkI junkB junkC junkn (su2_text hd he hp hm dim cs ps ms tail) = Some g /\
    writeGmsh2 c0 g = Some file /\ readGmsh2 junkE junkI' junkB' junkR junkC' jn bface0 file = Some g' /\
    g_npoin g' = List.length ps /\ (forall i, i < List.length ps -> at2 (g_coords g') i 0 = sp_x (nth i ps p_d) /\ at2 (g_coords g') i 1 = sp_y (nth i ps p_d)) /\
    g_nelem g' = List.length cs /\
    (forall i, i < List.length cs -> aat (g_nnode g') i = List.length (sc_nodes (nth i cs c_d)) /\
       forall j, j < List.length (sc_nodes (nth i cs c_d)) -> at2 (g_inpoel g') i j = nth j (sc_nodes (nth i cs c_d)) 0%Z) /\
    g_nbface g' = List.length (all_faces ms) /\ g_nnofa g' = 2 /\
    (forall i, i < List.length (all_faces ms) -> at2 (g_bface g') i 0 = sf_a (snd (nth i (all_faces ms) bf_d)) /\
       at2 (g_bface g') i 1 = sf_b (snd (nth i (all_faces ms) bf_d)) /\ at2 (g_bface g') i 2 = fst (nth i (all_faces ms) bf_d)).
Proof.
  intros hd he hp hm dim cs ps ms tail c0 junkE junkI' junkB' junkR junkC' jn bface0 Hf Nm.
  destruct (C91_read hd he hp hm dim cs ps ms tail Hf) as (g & E & M & K & _). specialize (K Nm).
  destruct M as (M1 & M2 & M3 & M4 & M5 & M6 & M7 & M8 & M9 & M10 & M11 & M12 & M13 & M14 & M15 & M16 & M17).
  destruct Hf as (_ & _ & _ & _ & Ncs & Nps & Hc & _).
  assert (HL : forall i, i < List.length cs -> aat (g_nnode g) i = 3 \/ aat (g_nnode g) i = 4).
  { intros i Hi. rewrite (proj1 (M10 i Hi)). apply cell_len. apply Hc, nth_In. auto. }
  assert (Ok : mesh_ok g).
  { constructor.
    1-3: congruence. 1: rewrite M16, M13; reflexivity. 1-2: congruence.
    - rewrite M5. intros i Hi. specialize (HL i Hi). lia.
    - rewrite M14. lia.
    - congruence.
    - left. split; auto. rewrite M5. intros i Hi. destruct (HL i Hi) as [->| ->]; cbn; auto.
    - rewrite M5. destruct cs; [contradiction|cbn; lia].
    - rewrite K, M13. cbn. lia.
    - rewrite M5. intros i Hi. specialize (HL i Hi). rewrite M14. cbn. lia. }
  destruct (C21_round_trip c0 g junkE junkI' junkB' junkR junkC' jn bface0 Ok) as (file & g' & W & Rd & P1 & P2 & P3 & P4 & P5 & P6 & P7 & P8 & P9 & _).
  exists g, file, g'. split; [exact E|]. split; [exact W|]. split; [exact Rd|]. split; [congruence|].
  split. { intros i Hi. destruct (P2 i) as (-> & ->); [lia|]. apply M4, Hi. }
  split; [congruence|].
  split. { intros i Hi. rewrite P7 by lia. destruct (M10 i Hi) as (Q1 & Q2). split; [exact Q1|]. intros j Hj. rewrite P8 by lia. apply Q2, Hj. }
  split; [congruence|]. split; [congruence|].
  intros i Hi. rewrite !P9 by lia. apply M17, Hi.
Qed.

(** The reader takes the second number after an equality sign as the number of cells, whatever the name before it says *)
Theorem C91_names_ignored : forall h1 h2 z n r g, hdr_ok h1 -> hdr_ok h2 ->
  readSU2 inj junkI junkB junkC junkn (htext h1 z ++ htext h2 (Z.of_nat n) ++ r) = Some g -> g_nelem g = n.
Proof.
  intros h1 h2 z n r g H1 H2. unfold readSU2. rewrite field_ok by auto. cbn [bind]. rewrite fieldN_ok by auto. cbn [bind].
  destruct (floop n rd_cell _) as [((Ip & nn) & l)|]; [|discriminate]. cbn [bind].
  destruct (fieldN (after_nl l)) as [(np & l2)|]; [|discriminate]. cbn [bind].
  destruct (floop np _ _) as [(X & l3)|]; [|discriminate]. cbn [bind].
  destruct (fieldN (after_nl l3)) as [(nb & l4)|]; [|discriminate]. cbn [bind].
  destruct (floop nb _ _) as [(ms & l5)|]; [|discriminate]. cbn [bind].
  destruct (ofold _ _ _) as [(B & k)|]; [|discriminate]. cbn [bind]. intros E. injection E as <-. reflexivity.
Qed.
End Text.

(** ** Examples and counterexamples (coordinates: integers) *)
Definition H0 (s : string) : @hdr Z := mkh [SW s] [].
Definition sq_cells : list scell := [mksc 5 [0; 1; 2] 0; mksc 5 [0; 2; 3] 1]%Z.
Definition sq_points : list (@spoint Z) := [mksp 0 0 0; mksp 1 0 1; mksp 1 1 2; mksp 0 1 3]%Z.
Definition sq_marks : list (@smark Z) :=
  [mksm (H0 "MARKER_TAG") 7 (H0 "MARKER_ELEMS") [mksf 3 0 1; mksf 3 1 2]; mksm (H0 "MARKER_TAG") 9 (mkh [SW "% comment"; SNl; SW "MARKER_ELEMS"] [SW "% two"]) [mksf 3 2 3; mksf 3 3 0]]%Z.
Definition j2 {A} (a : A) (_ _ : nat) : A := a.
Definition su2_zero (l : list (stok Z)) := readSU2 (fun z => z) (j2 (-7)%Z) (j2 (-8)%Z) (j2 (-9)%Z) 77 l.

Ltac nin := let K := fresh in intros K; cbn in K; repeat destruct K as [K|K]; (discriminate || contradiction).
Lemma nameok s : hdr_ok (H0 s).
Proof. split; nin. Qed.
Example C91_file_ok : file_ok (H0 "NDIME") (H0 "NELEM") (H0 "NPOIN") (H0 "NMARK") sq_cells sq_points sq_marks.
Proof.
  unfold file_ok. repeat (split; [apply nameok|]). split; [discriminate|]. split; [discriminate|]. split.
  - intros c [<-|[<-|[]]]; left; auto.
  - intros m [<-|[<-|[]]]; (split; [split; nin|]; split; [split; nin|discriminate]).
Qed.
Example C91_example : exists g, su2_zero (su2_text (H0 "NDIME") (H0 "NELEM") (H0 "NPOIN") (H0 "NMARK") 2 sq_cells sq_points sq_marks []) = Some g /\
  (g_nelem g, g_npoin g, g_nbface g, map (fun i => at2 (g_bface g) i 2) (seq 0 4), map (at2 (g_inpoel g) 1) (seq 0 3)) = (2, 4, 4, [7; 7; 9; 9]%Z, [0; 2; 3]%Z).
Proof. eexists. split; [vm_compute; reflexivity|]. vm_compute. reflexivity. Qed.

(** The same mesh with the section of points before that of cells, which the format allows: the reader returns a mesh of four cells without nodes and of
    two points, with coordinates taken from the connectivity, and reports nothing *)
Definition sq_swapped : list (stok Z) :=
  htext (H0 "NDIME") 2 ++ htext (H0 "NPOIN") 4 ++ flat_map (fun p => [SZ (sp_x p); SZ (sp_y p); SZ (sp_num p); SNl]) sq_points ++
  htext (H0 "NELEM") 2 ++ flat_map ctext sq_cells ++ htext (H0 "NMARK") 2 ++ flat_map mtext sq_marks.
Theorem C91_section_order_refuted : exists g, su2_zero sq_swapped = Some g /\ g_nelem g = 4 /\ g_npoin g = 2 /\ (forall i, i < 4 -> aat (g_nnode g) i = 0) /\
  (at2 (g_coords g) 0 0, at2 (g_coords g) 0 1) = (5, 0)%Z /\ (at2 (g_coords g) 1 0, at2 (g_coords g) 1 1) = (2, 0)%Z.
Proof.
  eexists. split; [vm_compute; reflexivity|]. split; [reflexivity|]. split; [reflexivity|]. split; [|split; reflexivity].
  intros i Hi. do 4 (destruct i; [vm_compute; reflexivity|]). lia.
Qed.

(** A marker without faces: the line after it is skipped, and a file that is right otherwise is refused *)
Definition empty_marks : list (@smark Z) :=
  [mksm (H0 "MARKER_TAG") 7 (H0 "MARKER_ELEMS") []; mksm (H0 "MARKER_TAG") 9 (H0 "MARKER_ELEMS") [mksf 3 2 3; mksf 3 3 0]]%Z.
Theorem C91_empty_marker_refuted : su2_zero (su2_text (H0 "NDIME") (H0 "NELEM") (H0 "NPOIN") (H0 "NMARK") 2 sq_cells sq_points empty_marks []) = None /\
  (* the same file with the empty marker last is read *)
  (exists g, su2_zero (su2_text (H0 "NDIME") (H0 "NELEM") (H0 "NPOIN") (H0 "NMARK") 2 sq_cells sq_points (rev empty_marks) []) = Some g /\ g_nbface g = 2).
Proof. split; [vm_compute; reflexivity|]. eexists. split; [vm_compute; reflexivity|]. reflexivity. Qed.

(** A cell of another type (here a segment, 3, with two nodes) is taken to have no nodes: its nodes are read as the next cell. The file of one segment
    and one triangle gives two cells without nodes *)
Definition seg_cells : list scell := [mksc 3 [0; 1] 0; mksc 5 [0; 1; 2] 1]%Z.
Theorem C91_unknown_type_refuted : exists g, su2_zero (su2_text (H0 "NDIME") (H0 "NELEM") (H0 "NPOIN") (H0 "NMARK") 2 seg_cells sq_points sq_marks []) = Some g /\
  g_nelem g = 2 /\ aat (g_nnode g) 0 = 0 /\ aat (g_nnode g) 1 = 0.
Proof. eexists. split; [vm_compute; reflexivity|]. repeat split; vm_compute; reflexivity. Qed.

(** Without a marker (for example a mesh on a torus) the number of nodes per face is not set *)
Theorem C91_no_marker_refuted : forall n, exists g, readSU2 (fun z : Z => z) (j2 0%Z) (j2 0%Z) (j2 0%Z) n (su2_text (H0 "NDIME") (H0 "NELEM") (H0 "NPOIN") (H0 "NMARK") 2 sq_cells sq_points [] []) = Some g /\ g_nnofa g = n.
Proof.
  intros n. destruct (C91_read (fun z : Z => z) (j2 0%Z) (j2 0%Z) (j2 0%Z) n (mksp 0 0 0)%Z (H0 "NDIME") (H0 "NELEM") (H0 "NPOIN") (H0 "NMARK") 2 sq_cells sq_points [] []) as (g & E & _ & _ & K).
  - destruct C91_file_ok as (A & B & D & F & G & H & J & _). unfold file_ok. repeat (split; [assumption|]). intros m [].
  - exists g. split; [exact E|]. apply K. reflexivity.
Qed.

Print Assumptions C91_read.
Print Assumptions C91_conversion.
Print Assumptions C91_names_ignored.
Print Assumptions C91_section_order_refuted.
Print Assumptions C91_empty_marker_refuted.
Print Assumptions C91_unknown_type_refuted.
Print Assumptions C91_no_marker_refuted.
