(** Properties C09-C13 and C83. Vocabulary: S_Mesh.v (cells, edges, across), Pf_Reorder.v (is_perm, nbr, steps, level_ok),
    Pf_Lines.v (linked), Pf_Periodic.v (tagged, centre, close), Pf_Psup.v (joined). *)
From Coq Require Import Reals Lra List Arith Lia Permutation ZArith Bool.
From Verif Require Import Base BaseR M_Mesh M_Geom M_MeshUtil S_Mesh Pf_Esup Pf_Esuel Pf_Host Pf_Faces Pf_Topo Pf_Incid Pf_Full P_Geom
  Pf_Reorder Pf_Periodic Pf_Psup Pf_Lines.
Import ListNotations.
Open Scope nat_scope.

Lemma nth_alist A (a : arr A) i d : i < alen a -> nth i (alist a) d = aat a i.
Proof.
  intros H. unfold alist. rewrite (nth_indep _ d (aat a 0)) by (rewrite map_length, seq_length; auto). rewrite map_nth, seq_nth by auto. reflexivity.
Qed.

(** C09: cell i of the reordered mesh is the old cell p[i]; nothing is lost; adjacency is the old one renamed;
    the region tags are not touched. *)
Theorem C09_reorder_cells : forall c p, is_perm (alen (cr_cells c)) p -> exists C,
  reorder_cells c p = Some (mkcr C (cr_regs c)) /\ alen C = alen (cr_cells c) /\
  (forall i, i < alen C -> aat C i = aat (cr_cells c) (aat p i)) /\
  Permutation (alist C) (alist (cr_cells c)) /\
  forall i f j, i < alen C -> j < alen C -> (across (alist C) i f j <-> across (alist (cr_cells c)) (aat p i) f (aat p j)).
Proof.
  intros c p P. destruct (reorder_ok c p) as (C & E & L & I). { apply perm_len; auto. } { intros i Hi. rewrite (perm_len _ _ P) in *. apply perm_bound; auto. }
  exists C. split; auto. split; auto. rewrite L. split; auto. split. eapply reorder_list; eauto.
  intros i f j Hi Hj. apply reorder_across; rewrite ?alist_length; auto.
  intros k Hk. unfold cell. rewrite !nth_alist by (try lia; rewrite ?L; try lia; apply perm_bound; auto). apply I; auto.
Qed.
Print Assumptions C09_reorder_cells.
Definition ex_cr : cellsregs := mkcr (mkarr 3 (fun i => nth i [[0;1;2]; [0;2;3]; [1;4;5;2]] [])) (mkarr 3 (fun i => [Z.of_nat i + 10]%Z)).
Definition ex_p : arr nat := mkarr 3 (fun i => nth i [2;0;1] 0).
Example C09_ex : is_perm (alen (cr_cells ex_cr)) ex_p.
Proof. unfold is_perm. cbn. apply NoDup_Permutation. repeat constructor; cbn; intuition discriminate. repeat constructor; cbn; intuition discriminate. intros x. cbn. intuition. Qed.
(** the documented claim that all per-cell data follow the cells is false for the region tags *)
Theorem C09_regions_refuted : exists c p c' i, is_perm (alen (cr_cells c)) p /\ reorder_cells c p = Some c' /\ i < alen (cr_cells c) /\
  aat (cr_cells c') i = aat (cr_cells c) (aat p i) /\ aat (cr_regs c') i <> aat (cr_regs c) (aat p i).
Proof.
  destruct (C09_reorder_cells ex_cr ex_p C09_ex) as (C & E & L & I & _). exists ex_cr, ex_p, (mkcr C (cr_regs ex_cr)), 0.
  split. exact C09_ex. split. exact E. split. cbn; lia. split. apply I. rewrite L; cbn; lia. cbn. discriminate.
Qed.
Print Assumptions C09_regions_refuted.

Lemma tl_max m hs : tiled m hs -> forall c, In c (cells m) -> length c <= maxnfael m.
Proof. intros T. exact (gm_max _ _ (tl_good _ _ T)). Qed.

(** C10: the level boundaries start at 0, end at nelem, are increasing; no two cells of a level are neighbours; the next cell could
    not have been added. *)
Theorem C10_level_schedule : forall m hs j0 jf je jt, tiled m hs -> 0 < nelem m -> exists p e ni s l,
  compute_topological m j0 jf je jt = Some (Val (p, e, (ni, s))) /\
  levelSchedule m (esuel s) = Some l /\ hd_error l = Some 0 /\ last l 0 = nelem m /\
  forall a b, In (a, b) (steps l) -> a < b /\
    (forall c d, a <= c < b -> a <= d < b -> ~ nbr (cells m) c d) /\
    (b < nelem m -> exists c, a <= c < b /\ nbr (cells m) c b).
Proof.
  intros m hs j0 jf je jt T Hn. destruct (topo_full m hs T j0 jf je jt) as (p & e & ni & s & il & E & TP).
  destruct (level_ok_correct m (esuel s) (to_nbr _ _ _ _ _ _ _ TP) (tl_max m hs T) Hn) as (l & El & H1 & H2 & H3).
  exists p, e, ni, s, l. auto.
Qed.
Print Assumptions C10_level_schedule.
Example C10_ex : tiled exo exh /\ 0 < nelem exo. Proof. split. exact exo_tiled. cbn; lia. Qed.

(** C11: for every weight, threshold and unspecified sorting of ties the line search ends; the orderings are permutations of
    all cells; they keep the lines in one piece; lines have at least two cells, consecutive cells are neighbours. *)
Definition in_pieces (lines : list (list nat)) (o : list nat) : Prop :=
  forall l, In l lines -> exists a b, o = a ++ l ++ b.

Lemma flat_map_pieces A (f : nat -> list A) l g : In g l -> exists a b, flat_map f l = a ++ f g ++ b.
Proof. intros H. apply in_split in H. destruct H as (x & y & ->). exists (flat_map f x), (flat_map f y). rewrite flat_map_app. reflexivity. Qed.
Lemma concat_pieces A (lines : list (list A)) l r : In l lines -> exists a b, concat lines ++ r = a ++ l ++ b.
Proof. intros H. apply in_split in H. destruct H as (x & y & ->). exists (concat x), (concat y ++ r). rewrite concat_app. cbn. rewrite <- !app_assoc. reflexivity. Qed.

Lemma face_left_lt m hs p e ni s il : tiled m hs -> topo m hs p e ni s il -> forall i, i < alen (intfac s) -> f_left (aat (intfac s) i) < nelem m.
Proof.
  intros T TP i Hi.
  destruct (origin_of m hs (alist (intfac s)) il T (to_ranges _ _ _ _ _ _ _ TP) (aat (intfac s) i) (f_left (aat (intfac s) i))
    (f_a (aat (intfac s) i), f_b (aat (intfac s) i))) as (f & H & _); auto.
  - unfold alist. apply in_map. apply in_seq. lia.
  - unfold halves. left. auto.
Qed.

Theorem C11_line_orderings : forall m hs j0 jf je jt wt srt ja thr, tiled m hs -> 0 < maxnfael m -> (forall l, Permutation (srt l) l) ->
  exists p e ni s la cl lines,
  compute_topological m j0 jf je jt = Some (Val (p, e, (ni, s))) /\
  computeWeights m (esuel s) wt srt ja = Some la /\
  findLines m (nbface m) (intfac s) (esuel s) la thr = Some (cl, lines) /\
  (forall l, In l lines -> 2 <= length l /\ forall a b, In (a, b) (steps l) -> nbr (cells m) a b) /\
  (forall j k x, j < length lines -> k < length lines -> In x (nth j lines []) -> In x (nth k lines []) -> j = k) /\
  (forall jo, exists o, lineOrdering (nelem m) cl lines jo = Some o /\ is_perm (nelem m) o /\ in_pieces lines (alist o)) /\
  (exists points mp gv, graphVertices (nelem m) cl (length lines) = Some (points, mp, gv) /\
    forall gro jo, Permutation gro (seq 0 (length gv)) ->
      exists o, hybridOrdering (nelem m) lines points gv gro jo = Some o /\ is_perm (nelem m) o /\ in_pieces lines (alist o)).
Proof.
  intros m hs j0 jf je jt wt srt ja thr T Hp Hs. destruct (topo_full m hs T j0 jf je jt) as (p & e & ni & s & il & E & TP).
  pose proof (to_nbr _ _ _ _ _ _ _ TP) as NB. pose proof (tl_max m hs T) as MX.
  destruct (computeWeights_ok m (esuel s) NB MX wt srt Hs ja) as (la & El & Hla).
  destruct (findLines_ok m (esuel s) la thr NB Hla MX Hp (nbface m) (intfac s)) as (cl & lines & Ef & HL).
  { rewrite (to_len _ _ _ _ _ _ _ TP). lia. } { intros i Hi. eapply face_left_lt; eauto. rewrite (to_len _ _ _ _ _ _ _ TP). lia. }
  exists p, e, ni, s, la, cl, lines. split; [auto|]. split; [auto|]. split; [auto|]. pose proof HL as (A & B & C & D).
  split. { intros l Hl. destruct (B l Hl) as (B1 & B2 & B3 & B4). split; auto. }
  split. { intros j k x Hj Hk X1 X2. destruct (C j (nth j lines []) (nth_error_nth' _ _ Hj) x X1), (C k (nth k lines []) (nth_error_nth' _ _ Hk) x X2). lia. }
  pose proof (lines_perm m la thr Hp cl lines HL) as PP. split.
  - intros jo. destruct (lineOrdering_ok m la thr Hp cl lines jo HL) as (o & Eo & Al). exists o. split; auto. unfold is_perm, in_pieces. rewrite Al. split; auto.
    intros l Hl. apply concat_pieces; auto.
  - destruct (graphVertices_ok m Hp cl (length lines) A) as (mp & Eg & _). exists (singles m cl), mp, (map GLine (seq 0 (length lines)) ++ map GPoint (seq 0 (length (singles m cl)))).
    split; auto. rewrite app_length, !map_length, !seq_length. intros gro jo Hg.
    destruct (hybrid_ok m la thr Hp cl lines jo gro HL Hg) as (o & Eo & Al & Po). exists o. split; auto. split; auto. unfold in_pieces. rewrite Al.
    intros l Hl. apply (In_nth _ _ []) in Hl. destruct Hl as (k & Hk & <-).
    destruct (flat_map_pieces _ (vcells lines (singles m cl)) gro k) as (a & b & Eab). { apply (Permutation_in _ (Permutation_sym Hg)). apply in_seq. lia. }
    exists a, b. rewrite Eab. unfold vcells at 1. destruct (Nat.ltb_spec k (length lines)); [auto|lia].
Qed.
Print Assumptions C11_line_orderings.
Example C11_ex : tiled exo exh /\ 0 < maxnfael exo /\ (forall l : list (R * nat), Permutation (rev l) l).
Proof. split. exact exo_tiled. split. cbn; lia. intros. apply Permutation_sym, Permutation_rev. Qed.

(** C83: the graph of lines and single cells handed to PETSc: entry (v,w) is set exactly when v = w or a cell of v is a neighbour of
    a cell of w; so the graph is symmetric and has a full diagonal. [vcells] are the cells of a vertex. *)
Theorem C83_line_graph : forall m hs j0 jf je jt wt srt ja thr, tiled m hs -> 0 < maxnfael m -> (forall l, Permutation (srt l) l) ->
  exists p e ni s la cl lines points mp gv ent,
  compute_topological m j0 jf je jt = Some (Val (p, e, (ni, s))) /\
  computeWeights m (esuel s) wt srt ja = Some la /\
  findLines m (nbface m) (intfac s) (esuel s) la thr = Some (cl, lines) /\
  graphVertices (nelem m) cl (length lines) = Some (points, mp, gv) /\
  graphEntries m (esuel s) cl mp lines points = Some ent /\
  length gv = length lines + length points /\
  (forall v z, In (v, z) ent -> v < length gv /\ (0 <= z < Z.of_nat (length gv))%Z) /\
  (forall v w, v < length gv -> w < length gv ->
     (In (v, Z.of_nat w) ent <-> v = w \/ exists c d, In c (vcells lines points v) /\ In d (vcells lines points w) /\ nbr (cells m) c d)) /\
  (forall v w, v < length gv -> w < length gv -> In (v, Z.of_nat w) ent -> In (w, Z.of_nat v) ent).
Proof.
  intros m hs j0 jf je jt wt srt ja thr T Hp Hs. destruct (topo_full m hs T j0 jf je jt) as (p & e & ni & s & il & E & TP).
  pose proof (to_nbr _ _ _ _ _ _ _ TP) as NB. pose proof (tl_max m hs T) as MX.
  destruct (computeWeights_ok m (esuel s) NB MX wt srt Hs ja) as (la & El & Hla).
  destruct (findLines_ok m (esuel s) la thr NB Hla MX Hp (nbface m) (intfac s)) as (cl & lines & Ef & HL).
  { rewrite (to_len _ _ _ _ _ _ _ TP). lia. } { intros i Hi. eapply face_left_lt; eauto. rewrite (to_len _ _ _ _ _ _ _ TP). lia. }
  pose proof HL as (A & _). destruct (graphVertices_ok m Hp cl (length lines) A) as (mp & Eg & Hmp).
  destruct (graph_ok m (esuel s) la thr NB MX Hp cl lines mp HL Hmp) as (ent & Ee & G1 & G2).
  exists p, e, ni, s, la, cl, lines, (singles m cl), mp, (map GLine (seq 0 (length lines)) ++ map GPoint (seq 0 (length (singles m cl)))), ent.
  repeat (split; [assumption|]). rewrite app_length, !map_length, !seq_length. split; auto. split. { intros v z H. destruct (G1 v z H) as (? & w & ? & ->). lia. }
  split; [exact G2|]. intros v w Hv Hw H. apply G2 in H; auto. apply G2; auto. destruct H as [->|(c & d & Hc & Hd & N)]; auto. right. exists d, c. repeat split; auto. apply nbr_sym; auto.
Qed.
Print Assumptions C83_line_graph.

(** C12 *)
Theorem C12_periodic_map : forall nb F T X bcm axis,
  nb <= alen F -> (alen T = nb /\ forall i, i < nb -> aat T i <> []) ->
  (forall i, i < nb -> f_a (aat F i) < alen X /\ f_b (aat F i) < alen X) -> (0 <= bcm)%Z -> (axis = 0%Z \/ axis = 1%Z) ->
  (forall i j k, i < nb -> j < nb -> k < nb -> tagged T bcm i -> tagged T bcm j -> tagged T bcm k ->
     close F X axis i j -> close F X axis j k -> close F X axis i k) ->
  exists G pm, compute_periodic_map nb F T X bcm axis = Some (G, pm) /\ alen G = alen F /\ alen pm = nb /\
  (* left cells and points are unchanged; faces without a partner are unchanged *)
  (forall k, f_left (aat G k) = f_left (aat F k) /\ f_a (aat G k) = f_a (aat F k) /\ f_b (aat G k) = f_b (aat F k)) /\
  (forall k, nb <= k \/ aat pm k = (-1)%Z -> aat G k = aat F k) /\
  (* a paired face has another tagged face at the same height as partner, the pairing is mutual, and the cell on the
     right is the partner's interior cell *)
  (forall k, k < nb -> aat pm k <> (-1)%Z -> exists j, j < nb /\ j <> k /\ aat pm k = Z.of_nat j /\ aat pm j = Z.of_nat k /\
     tagged T bcm k /\ tagged T bcm j /\ close F X axis k j /\ f_right (aat G k) = f_left (aat F j) /\ f_right (aat G j) = f_left (aat F k)) /\
  (* a tagged face stays unpaired only if no unpaired tagged face is at the same height *)
  (forall k j, k < nb -> j < nb -> k <> j -> tagged T bcm k -> tagged T bcm j -> aat pm k = (-1)%Z -> aat pm j = (-1)%Z -> ~ close F X axis k j).
Proof.
  intros nb F T X bcm axis H1 H2 H3 H4 H5 H6. destruct (periodic_ok nb F T X bcm axis H1 H2 H3 H4 H5 H6) as (G & pm & E & I).
  exists G, pm. split; auto. destruct I as [[S1 S2] L Fr Ou Pa Fi Le]. cbn [fst snd] in *. repeat (split; [assumption|]). split.
  { intros k [K|K]; auto. destruct (Nat.lt_ge_cases k nb); auto. }
  split.
  - intros k Hk K. destruct (Pa k Hk K) as (j & J1 & J2 & J3 & J4 & J5 & J6 & J7 & J8 & _). exists j. repeat (split; auto).
    destruct (Pa j J1) as (k' & K1 & K2 & K3 & K4 & K5 & K6 & K7 & K8 & _). lia. assert (k' = k) by lia. subst. auto.
  - intros k j Hk Hj Hn Tk Tj K J C. destruct (Nat.lt_ge_cases k j). apply (Le k j); auto. apply (Le j k); auto. lia. apply close_sym; auto.
Qed.
Print Assumptions C12_periodic_map.
(** four faces, two heights *)
Definition exF : arr face := mkarr 4 (fun i => nth i [mkface 0 10 0 1; mkface 1 11 1 2; mkface 2 12 3 4; mkface 3 13 4 5] (mkface 0 0 0 0)).
Definition exPX : arr v2 := mkarr 6 (fun i => nth i [mkv 0 0; mkv 0 1; mkv 0 2; mkv 5 0; mkv 5 1; mkv 5 2] (mkv 0 0)).
Definition exT : arr (list Z) := mkarr 4 (fun _ => [7]%Z).
Lemma small : (0 < / 10 ^ 8)%R. Proof. apply Rinv_0_lt_compat. apply pow_lt. lra. Qed.
Lemma small1 : (/ 10 ^ 8 < 1 / 2)%R. Proof. lra. Qed.
Example C12_ex : 4 <= alen exF /\ (alen exT = 4 /\ forall i, i < 4 -> aat exT i <> []) /\
  (forall i, i < 4 -> f_a (aat exF i) < alen exPX /\ f_b (aat exF i) < alen exPX) /\
  (forall i j k, i < 4 -> j < 4 -> k < 4 -> tagged exT 7 i -> tagged exT 7 j -> tagged exT 7 k ->
     close exF exPX 0 i j -> close exF exPX 0 j k -> close exF exPX 0 i k) /\ close exF exPX 0 0 2 /\ ~ close exF exPX 0 0 1.
Proof.
  pose proof small as S0. pose proof small1 as S1.
  assert (CL : forall i j, i < 4 -> j < 4 -> (close exF exPX 0 i j <-> i mod 2 = j mod 2)).
  { intros i j Hi Hj. unfold close, centre, along. revert S0 S1. set (e := (/ 10 ^ 8)%R). clearbody e. intros S0 S1. split.
    - intros H. destruct i as [|[|[|[|i]]]]; destruct j as [|[|[|[|j]]]]; try lia; try reflexivity; exfalso; cbn -[Rabs Rminus Rdiv Rplus] in H;
      match type of H with (Rabs ?a <= _)%R => first [replace a with 1%R in H by lra; rewrite Rabs_R1 in H; lra | replace a with (-1)%R in H by lra; rewrite Rabs_left in H by lra; lra] end.
    - intros H. destruct i as [|[|[|[|i]]]]; destruct j as [|[|[|[|j]]]]; try lia; try discriminate; cbn -[Rabs Rminus Rdiv Rplus];
      match goal with |- (Rabs ?a <= _)%R => replace a with 0%R by lra; rewrite Rabs_R0; lra end. }
  split. cbn; lia. split. split; [reflexivity|]. discriminate. split.
  { intros i Hi. destruct i as [|[|[|[|i]]]]; cbn; lia. }
  split. { intros i j k Hi Hj Hk _ _ _ H1 H2. apply CL in H1; auto. apply CL in H2; auto. apply CL; auto. congruence. }
  split. apply CL; auto; lia. intros H. apply CL in H; try lia. discriminate.
Qed.
(** Without two-by-two matching the pairing is not an involution: faces at heights 0, 2e-8, 1e-8. Face 2 is taken by face 0 and
    then again by face 1; face 0 still claims face 2. *)
Definition exF3 : arr face := mkarr 3 (fun i => nth i [mkface 0 10 0 0; mkface 1 11 1 1; mkface 2 12 2 2] (mkface 0 0 0 0)).
Definition exX3 : arr v2 := mkarr 3 (fun i => nth i [mkv 0 0; mkv 0 (2 * / 10 ^ 8); mkv 5 (/ 10 ^ 8)] (mkv 0 0)).
Definition exT3 : arr (list Z) := mkarr 3 (fun _ => [7]%Z).
Theorem C12_double_pairing_refuted : exists nb F T X bcm axis G pm, compute_periodic_map nb F T X bcm axis = Some (G, pm) /\
  (forall i, i < nb -> tagged T bcm i) /\
  exists k j, k < nb /\ aat pm k = Z.of_nat j /\ aat pm j <> Z.of_nat k /\ f_right (aat G k) = f_left (aat F j) /\ f_right (aat G j) <> f_left (aat F k).
Proof.
  pose proof small as S0.
  assert (RL : forall a, (Rabs a <= / 10 ^ 8)%R -> Rleb (Rabs a) (/ 10 ^ 8) = true).
  { intros a H. destruct (Rleb_spec (Rabs a) (/ 10 ^ 8)); auto; lra. }
  assert (RF : forall a, (/ 10 ^ 8 < Rabs a)%R -> Rleb (Rabs a) (/ 10 ^ 8) = false).
  { intros a H. destruct (Rleb_spec (Rabs a) (/ 10 ^ 8)); auto; lra. }
  set (e := (/ 10 ^ 8)%R) in *.
  assert (X3 : exX3 = mkarr 3 (fun i => nth i [mkv 0 0; mkv 0 (2 * e); mkv 5 e] (mkv 0 0))) by reflexivity.
  exists 3, exF3, exT3, exX3, 7%Z, 0%Z. do 2 eexists. split.
  - unfold compute_periodic_map. rewrite X3. fold e. clearbody e.
    cbv -[Rleb Rabs Rminus Rdiv Rplus Rmult IZR].
    rewrite (RF ((0 + 0) / 2 - (2 * e + 2 * e) / 2)%R) by (rewrite Rabs_left; lra).
    cbv -[Rleb Rabs Rminus Rdiv Rplus Rmult IZR].
    rewrite (RL ((0 + 0) / 2 - (e + e) / 2)%R) by (rewrite Rabs_left; lra).
    cbv -[Rleb Rabs Rminus Rdiv Rplus Rmult IZR].
    rewrite (RL ((2 * e + 2 * e) / 2 - (e + e) / 2)%R) by (rewrite Rabs_right; lra).
    cbv -[Rleb Rabs Rminus Rdiv Rplus Rmult IZR]. reflexivity.
  - split. { intros i Hi. exists []. reflexivity. }
    exists 0, 2. cbn. repeat split; auto; try lia; discriminate.
Qed.
Print Assumptions C12_double_pairing_refuted.

(** C13 *)
Theorem C13_points_around_points : forall m jp, valid_cells (npoin m) (cells m) -> (forall c, In c (cells m) -> length c = 3 \/ length c = 4) ->
  exists p e P Q, elementsSurroundingPoints m = Some (p, e) /\ pointsSurroundingPoints m p e jp = Some (P, Q) /\
  alen P = npoin m + 1 /\ aat P 0 = 0 /\ aat P (npoin m) = alen Q /\
  forall k, k < npoin m -> aat P k <= aat P (k + 1) /\ NoDup (aslice Q (aat P k) (aat P (k + 1))) /\
    forall q, In q (aslice Q (aat P k) (aat P (k + 1))) <-> joined (cells m) k q.
Proof.
  intros m jp Hv H34. destruct (esup_correct m) as (p & e & E & Hes).
  { intros c v Hc Hvv. apply (In_nth _ _ []) in Hc. destruct Hc as (i & Hi & Ei). destruct (cell_valid _ _ i Hv Hi) as (_ & _ & Hb). unfold cell in Hb. rewrite Ei in Hb. auto. }
  destruct (psup_correct m Hv H34 p e Hes jp) as (P & Q & EP & H1 & H2 & H3 & H4 & H5).
  exists p, e, P, Q. split; auto. split; auto. split; auto. split; auto. split; auto. intros k Hk. destruct (H5 k Hk). destruct (H4 k Hk). auto.
Qed.
Print Assumptions C13_points_around_points.
Example C13_ex : valid_cells (npoin exo) (cells exo) /\ (forall c, In c (cells exo) -> length c = 3 \/ length c = 4) /\ joined (cells exo) 2 5 /\ ~ joined (cells exo) 1 5.
Proof.
  split. exact ex_valid. split. { intros c [<-|[<-|[<-|[]]]]; cbn; auto. } split.
  - exists 2, 2. cbn. repeat split; try lia. right. reflexivity.
  - intros (i & f & Hi & Hf & S). cbn in Hi. destruct i as [|[|[|i]]]; try lia; cbn in Hf; destruct f as [|[|[|[|f]]]]; try lia; destruct S as [S|S]; cbn in S; discriminate.
Qed.
