(** Lemmas about the Gmsh reader. *)
From Coq Require Import List Arith ZArith Bool Lia.
From Verif Require Import Base M_Gmsh.
Import ListNotations.
Open Scope nat_scope.

(** Element records of a file *)
Record grec := mkrec { q_id : Z; q_ty : Z; q_tags : list Z; q_nodes : list Z }.
Definition t_edge (t : Z) : bool := let '(e, _, _, _) := etype t in e.
Definition t_nn (t : Z) : nat := let '(_, n, _, _) := etype t in n.
Definition t_nf (t : Z) : nat := let '(_, _, f, _) := etype t in f.
Definition t_nofa (t : Z) : nat := let '(_, _, _, o) := etype t in o.
Definition edge_rec (r : grec) : bool := t_edge (q_ty r).
(** number of nodes and faces the reader stores for a record: none for boundary faces *)
Definition st_nn (r : grec) : nat := if edge_rec r then 0 else t_nn (q_ty r).
Definition st_nf (r : grec) : nat := if edge_rec r then 0 else t_nf (q_ty r).
Definition wf_rec (r : grec) : Prop := length (q_nodes r) = t_nn (q_ty r).
(** the row of the record table: nodes, then tags, then whatever was there *)
Definition rowv (r : grec) (junk : nat -> Z) (j : nat) : Z :=
  if j <? t_nn (q_ty r) then nth j (q_nodes r) 0%Z else if j <? t_nn (q_ty r) + length (q_tags r) then nth (j - t_nn (q_ty r)) (q_tags r) 0%Z else junk j.
Definition nrec0 : grec := mkrec 0 0 [] [].
Definition rnth (rs : list grec) i := nth i rs nrec0.
Definition btags (rs : list grec) : nat := list_max (map (fun r => length (q_tags r)) (filter edge_rec rs)).
Definition dtags (rs : list grec) : nat := list_max (map (fun r => length (q_tags r)) (filter (fun r => negb (edge_rec r)) rs)).
Definition nedges (rs : list grec) : nat := length (filter edge_rec rs).

Lemma etype_eta t : etype t = (t_edge t, t_nn t, t_nf t, t_nofa t).
Proof. unfold t_edge, t_nn, t_nf, t_nofa. destruct (etype t) as [[[? ?] ?] ?]. auto. Qed.
Lemma skipn_nth {A} (d : A) : forall l k, k < length l -> skipn k l = nth k l d :: skipn (k + 1) l.
Proof. induction l; intros k Hk; cbn in *; [lia|]. destruct k; auto. cbn. apply IHl. lia. Qed.
Lemma firstn_snoc {A} (d : A) : forall l k, k < length l -> firstn (k + 1) l = firstn k l ++ [nth k l d].
Proof. induction l; intros k Hk; cbn in *; [lia|]. destruct k; auto. cbn. f_equal. apply IHl. lia. Qed.
Lemma list_max_app : forall l x, list_max (l ++ [x]) = max (list_max l) x.
Proof. unfold list_max. induction l; intros x; cbn [app fold_right]; [lia|]. rewrite IHl. lia. Qed.

Section G.
Context {C : Type} (c0 : C).
Notation tok := (tok C). Notation gmesh := (gmesh C).
Definition enc (r : grec) : list tok := [TZ (q_id r); TZ (q_ty r); TZ (Z.of_nat (length (q_tags r)))] ++ map TZ (q_tags r) ++ map TZ (q_nodes r).

Lemma rd_list (E : arr2 Z) i off : forall (l : list Z) (rest : list tok), i < rows E -> off + length l <= cols E ->
  exists E', floop (length l) (fun j s => let '(E, l) := s in '(z, l) <- rdZ l ;; E <- set2 E i (j + off) z ;; Some (E, l)) (E, map TZ l ++ rest) = Some (E', rest) /\
    rows E' = rows E /\ cols E' = cols E /\ (forall p j, p <> i \/ j < off \/ off + length l <= j -> at2 E' p j = at2 E p j) /\ (forall j, j < length l -> at2 E' i (off + j) = nth j l 0%Z).
Proof.
  intros l rest Hi Hc.
  match goal with |- context [floop _ ?bb ?ss] => destruct (floop_inv _ (fun k (s : arr2 Z * list tok) => snd s = map TZ (skipn k l) ++ rest /\ rows (fst s) = rows E /\ cols (fst s) = cols E /\
    (forall p j, p <> i \/ j < off \/ off + k <= j -> at2 (fst s) p j = at2 E p j) /\ (forall j, j < k -> at2 (fst s) i (off + j) = nth j l 0%Z)) (length l) bb ss) as ((E' & l') & F & I1 & I2 & I3 & I4 & I5) end.
  - cbn. repeat split; auto. intros; lia.
  - intros k (E1 & l1) Hk (I1 & I2 & I3 & I4 & I5). cbn [fst snd] in *. subst l1.
    rewrite (skipn_nth 0%Z) by auto. cbn [map app rdZ bind]. rewrite set2_ok by lia. cbn [bind]. eexists; split; [reflexivity|]. cbn [fst snd rows cols at2].
    replace (S k) with (k + 1) by lia. repeat split; auto.
    + intros p j H. rewrite upd2_ne by lia. apply I4. lia.
    + intros j Hj. destruct (Nat.eq_dec j k) as [->|]; [rewrite Nat.add_comm, upd2_eq; auto|]. rewrite upd2_ne by lia. apply I5. lia.
  - cbn [fst snd] in *. exists E'. rewrite skipn_all in I1. cbn in I1. subst l'. auto.
Qed.

Lemma rd_record_ok i (s : @rstate C) r rest : r_toks s = enc r ++ rest -> wf_rec r -> i < rows (r_elms s) -> t_nn (q_ty r) + length (q_tags r) <= cols (r_elms s) ->
  i < alen (r_nnodes s) -> i < alen (r_nfaels s) -> aat (r_nnodes s) i = 0 -> aat (r_nfaels s) i = 0 ->
  exists s', rd_record i s = Some s' /\ r_toks s' = rest /\ rows (r_elms s') = rows (r_elms s) /\ cols (r_elms s') = cols (r_elms s) /\
    (forall p j, p <> i -> at2 (r_elms s') p j = at2 (r_elms s) p j) /\ (forall j, at2 (r_elms s') i j = rowv r (at2 (r_elms s) i) j) /\
    alen (r_nnodes s') = alen (r_nnodes s) /\ alen (r_nfaels s') = alen (r_nfaels s) /\
    (forall p, aat (r_nnodes s') p = if p =? i then st_nn r else aat (r_nnodes s) p) /\ (forall p, aat (r_nfaels s') p = if p =? i then st_nf r else aat (r_nfaels s) p) /\
    r_nnofa s' = t_nofa (q_ty r) /\ r_nbface s' = r_nbface s + (if edge_rec r then 1 else 0) /\ r_nelem s' = r_nelem s + (if edge_rec r then 0 else 1) /\
    r_nbtag s' = (if edge_rec r then max (r_nbtag s) (length (q_tags r)) else r_nbtag s) /\ r_ndtag s' = (if edge_rec r then r_ndtag s else max (r_ndtag s) (length (q_tags r))).
Proof.
  intros Ht Wf Hi Hc Hn Hf Zn Zf. unfold rd_record. rewrite Ht. unfold enc. cbn [app rdZ bind]. rewrite etype_eta.
  assert (E1 : (if t_edge (q_ty r) then Some (r_nnodes s) else aset (r_nnodes s) i (t_nn (q_ty r))) = Some (if t_edge (q_ty r) then r_nnodes s else mkarr (alen (r_nnodes s)) (upd (aat (r_nnodes s)) i (t_nn (q_ty r))))) by (destruct (t_edge (q_ty r)); auto; apply aset_ok; auto).
  assert (E2 : (if t_edge (q_ty r) then Some (r_nfaels s) else aset (r_nfaels s) i (t_nf (q_ty r))) = Some (if t_edge (q_ty r) then r_nfaels s else mkarr (alen (r_nfaels s)) (upd (aat (r_nfaels s)) i (t_nf (q_ty r))))) by (destruct (t_edge (q_ty r)); auto; apply aset_ok; auto).
  rewrite E1, E2. cbn [bind]. rewrite Nat2Z.id. rewrite <- app_assoc.
  destruct (rd_list (r_elms s) i (t_nn (q_ty r)) (q_tags r) (map TZ (q_nodes r) ++ rest) Hi ltac:(lia)) as (Ea & Fa & A1 & A2 & A3 & A4). rewrite Fa. cbn [bind].
  destruct (rd_list Ea i 0 (q_nodes r) rest) as (Eb & Fb & B1 & B2 & B3 & B4); [lia|rewrite Wf; lia|]. rewrite Wf in *.
  assert (Fb' : floop (t_nn (q_ty r)) (fun j s => let '(E, l) := s in '(z, l) <- rdZ l ;; E <- set2 E i j z ;; Some (E, l)) (Ea, map TZ (q_nodes r) ++ rest) = Some (Eb, rest)).
  { rewrite <- Fb. apply floop_ext. intros k [E l] Hk. rewrite Nat.add_0_r. auto. }
  rewrite Fb'. cbn [bind]. eexists; split; [reflexivity|].
  assert (EL : forall p j, at2 Eb p j = if p =? i then rowv r (at2 (r_elms s) i) j else at2 (r_elms s) p j).
  { intros p j. destruct (Nat.eqb_spec p i) as [->|N]; [|rewrite B3, A3 by auto; auto]. unfold rowv. destruct (Nat.ltb_spec j (t_nn (q_ty r))) as [L|L].
    - apply (B4 j). auto.
    - rewrite B3 by lia. destruct (Nat.ltb_spec j (t_nn (q_ty r) + length (q_tags r))).
      + replace j with (t_nn (q_ty r) + (j - t_nn (q_ty r))) at 1 by lia. apply A4. lia.
      + apply A3. lia. }
  unfold st_nn, st_nf, edge_rec.
  destruct (t_edge (q_ty r)); cbn [r_toks r_elms r_nnodes r_nfaels r_nnofa r_nbface r_nelem r_nbtag r_ndtag].
  - split; auto. split; [lia|]. split; [lia|]. split; [intros p j N; rewrite EL, (proj2 (Nat.eqb_neq p i)); auto|]. split; [intros j; rewrite EL, Nat.eqb_refl; auto|].
    split; auto. split; auto. split; [intros p; destruct (Nat.eqb_spec p i) as [->|]; auto|]. split; [intros p; destruct (Nat.eqb_spec p i) as [->|]; auto|]. split; auto. split; [lia|]. split; [lia|].
    split; auto. destruct (Nat.ltb_spec (r_nbtag s) (length (q_tags r))); lia.
  - split; auto. split; [lia|]. split; [lia|]. split; [intros p j N; rewrite EL, (proj2 (Nat.eqb_neq p i)); auto|]. split; [intros j; rewrite EL, Nat.eqb_refl; auto|].
    split; auto. split; auto. split; [intros p; unfold upd; cbn; destruct (Nat.eqb_spec p i) as [->|]; auto|]. split; [intros p; unfold upd; cbn; destruct (Nat.eqb_spec p i) as [->|]; auto|]. split; auto. split; [lia|]. split; [lia|].
    split; auto. destruct (Nat.ltb_spec (r_ndtag s) (length (q_tags r))); lia.
Qed.

Lemma rd_records_ok (rs : list grec) tail junkE jn : (forall r, In r rs -> wf_rec r /\ t_nn (q_ty r) + length (q_tags r) <= 25) ->
  let n := length rs in
  exists s, floop n rd_record (mkrs (mk2 n 25 junkE) (aconst n 0) (aconst n 0) jn 0 0 0 0 (concat (map enc rs) ++ tail)) = Some s /\
    r_toks s = tail /\ rows (r_elms s) = n /\ cols (r_elms s) = 25 /\ (forall i j, i < n -> at2 (r_elms s) i j = rowv (rnth rs i) (junkE i) j) /\
    alen (r_nnodes s) = n /\ alen (r_nfaels s) = n /\ (forall i, i < n -> aat (r_nnodes s) i = st_nn (rnth rs i)) /\ (forall i, i < n -> aat (r_nfaels s) i = st_nf (rnth rs i)) /\
    (0 < n -> r_nnofa s = t_nofa (q_ty (rnth rs (n - 1)))) /\ r_nbface s = nedges rs /\ r_nelem s = n - nedges rs /\ r_nbtag s = btags rs /\ r_ndtag s = dtags rs.
Proof.
  intros Hr n.
  match goal with |- context [floop _ ?bb ?ss] => destruct (floop_inv _ (fun k (s : @rstate C) => r_toks s = concat (map enc (skipn k rs)) ++ tail /\ rows (r_elms s) = n /\ cols (r_elms s) = 25 /\
    (forall i j, i < n -> at2 (r_elms s) i j = if i <? k then rowv (rnth rs i) (junkE i) j else junkE i j) /\ alen (r_nnodes s) = n /\ alen (r_nfaels s) = n /\
    (forall i, i < n -> aat (r_nnodes s) i = if i <? k then st_nn (rnth rs i) else 0) /\ (forall i, i < n -> aat (r_nfaels s) i = if i <? k then st_nf (rnth rs i) else 0) /\
    (0 < k -> r_nnofa s = t_nofa (q_ty (rnth rs (k - 1)))) /\ r_nbface s = nedges (firstn k rs) /\ r_nelem s + nedges (firstn k rs) = k /\ r_nbtag s = btags (firstn k rs) /\ r_ndtag s = dtags (firstn k rs))
    n bb ss) as (s & F & I1 & I2 & I3 & I4 & I5 & I6 & I7 & I8 & I9 & I10 & I11 & I12 & I13) end.
  - cbn. repeat split; auto; lia.
  - intros k s Hk (I1 & I2 & I3 & I4 & I5 & I6 & I7 & I8 & I9 & I10 & I11 & I12 & I13).
    assert (Hin : In (rnth rs k) rs) by (apply nth_In; auto). destruct (Hr _ Hin) as (W1 & W2).
    rewrite (skipn_nth nrec0) in I1 by auto. cbn [map concat] in I1. rewrite <- app_assoc in I1. change (nth k rs nrec0) with (rnth rs k) in I1.
    destruct (rd_record_ok k s (rnth rs k) _ I1 W1) as (s' & E & J1 & J2 & J3 & J4 & J5 & J6 & J7 & J8 & J9 & J10 & J11 & J12 & J13 & J14); try lia; try (rewrite ?I7, ?I8, Nat.ltb_irrefl by lia; auto).
    exists s'. split; auto. replace (S k) with (k + 1) by lia. split; [auto|]. split; [lia|]. split; [lia|].
    assert (FS : firstn (k + 1) rs = firstn k rs ++ [rnth rs k]) by (apply firstn_snoc; auto).
    assert (NE : nedges (firstn (k + 1) rs) = nedges (firstn k rs) + (if edge_rec (rnth rs k) then 1 else 0)). { rewrite FS. unfold nedges. rewrite filter_app, app_length. cbn. destruct (edge_rec (rnth rs k)); auto. }
    assert (BT : btags (firstn (k + 1) rs) = if edge_rec (rnth rs k) then max (btags (firstn k rs)) (length (q_tags (rnth rs k))) else btags (firstn k rs)).
    { rewrite FS. unfold btags. rewrite filter_app, map_app. cbn [filter]. destruct (edge_rec (rnth rs k)); cbn [map]; [apply list_max_app|rewrite app_nil_r; auto]. }
    assert (DT : dtags (firstn (k + 1) rs) = if edge_rec (rnth rs k) then dtags (firstn k rs) else max (dtags (firstn k rs)) (length (q_tags (rnth rs k)))).
    { rewrite FS. unfold dtags. rewrite filter_app, map_app. cbn [filter]. destruct (edge_rec (rnth rs k)); cbn [negb map]; [rewrite app_nil_r; auto|apply list_max_app]. }
    split; [|split; [lia|split; [lia|split; [|split; [|split; [|split; [|split; [|split]]]]]]]].
    + intros i j Hi. destruct (Nat.eq_dec i k) as [->|N].
      * rewrite J5, (proj2 (Nat.ltb_lt k (k + 1))) by lia. unfold rowv. rewrite I4, Nat.ltb_irrefl by auto. reflexivity.
      * rewrite J4, I4 by auto. destruct (Nat.ltb_spec i k), (Nat.ltb_spec i (k + 1)); auto; lia.
    + intros i Hi. rewrite J8, I7 by auto. destruct (Nat.eqb_spec i k) as [Q|Q]; destruct (Nat.ltb_spec i k); destruct (Nat.ltb_spec i (k + 1)); subst; auto; lia.
    + intros i Hi. rewrite J9, I8 by auto. destruct (Nat.eqb_spec i k) as [Q|Q]; destruct (Nat.ltb_spec i k); destruct (Nat.ltb_spec i (k + 1)); subst; auto; lia.
    + intros _. rewrite J10. replace (k + 1 - 1) with k by lia. auto.
    + rewrite J11, NE. lia.
    + rewrite J12, NE. destruct (edge_rec (rnth rs k)); lia.
    + rewrite J13, BT, I12. auto.
    + rewrite J14, DT, I13. auto.
  - exists s. split; auto. unfold n in *. rewrite skipn_all in I1. rewrite firstn_all in *. split; auto. split; auto. split; auto.
    split; [intros i j Hi; rewrite I4, (proj2 (Nat.ltb_lt _ _) Hi); auto|]. split; auto. split; auto.
    split; [intros i Hi; rewrite I7, (proj2 (Nat.ltb_lt _ _) Hi); auto|]. split; [intros i Hi; rewrite I8, (proj2 (Nat.ltb_lt _ _) Hi); auto|]. split; auto. split; auto. split; [lia|]. auto.
Qed.

(** fill loops over one row *)
Lemma fill_row (v : nat -> Z) (g : nat -> option Z) i : forall n off (B : arr2 Z), i < rows B -> off + n <= cols B -> (forall j, off <= j < off + n -> g j = Some (v j)) ->
  exists B', frange off (off + n) (fun j B => z <- g j ;; set2 B i j z) B = Some B' /\ rows B' = rows B /\ cols B' = cols B /\
    forall p j, at2 B' p j = if (p =? i) && (off <=? j) && (j <? off + n) then v j else at2 B p j.
Proof.
  intros n off B Hi Hc Hg.
  match goal with |- context [frange ?lo ?hi ?bb ?ss] => destruct (frange_inv _ (fun k (B' : arr2 Z) => rows B' = rows B /\ cols B' = cols B /\ forall p j, at2 B' p j = if (p =? i) && (off <=? j) && (j <? k) then v j else at2 B p j) lo hi bb ss) as (B' & F & I) end.
  - lia.
  - repeat split; auto. intros p j. destruct (Nat.eqb_spec p i), (Nat.leb_spec off j), (Nat.ltb_spec j off); cbn; auto; lia.
  - intros k B1 Hk (I1 & I2 & I3). rewrite Hg by lia. cbn [bind]. rewrite set2_ok by lia. eexists; split; [reflexivity|]. cbn. repeat split; auto. intros p j. unfold upd2. rewrite I3.
    destruct (Nat.eqb_spec p i), (Nat.eqb_spec j k), (Nat.leb_spec off j), (Nat.ltb_spec j k), (Nat.ltb_spec j (k + 1)); cbn; subst; auto; lia.
  - eauto.
Qed.
Lemma frange_ext S lo hi (b1 b2 : nat -> S -> option S) s : (forall i s, lo <= i < hi -> b1 i s = b2 i s) -> frange lo hi b1 s = frange lo hi b2 s.
Proof. intros H. unfold frange. apply floop_ext. intros; apply H; lia. Qed.
Lemma fill_loop (v : nat -> Z) (g : nat -> option Z) i n (B : arr2 Z) : i < rows B -> n <= cols B -> (forall j, j < n -> g j = Some (v j)) ->
  exists B', floop n (fun j B => z <- g j ;; set2 B i j z) B = Some B' /\ rows B' = rows B /\ cols B' = cols B /\
    forall p j, at2 B' p j = if (p =? i) && (j <? n) then v j else at2 B p j.
Proof.
  intros Hi Hc Hg. destruct (fill_row v g i n 0 B) as (B' & F & A1 & A2 & A3); auto. { intros; apply Hg; lia. }
  exists B'. split; [|split; [|split]]; auto.
  - rewrite <- F. unfold frange. rewrite Nat.sub_0_r. apply floop_ext. auto.
  - intros. rewrite A3. destruct (p =? i), (j <? n) eqn:J; cbn; rewrite ?J; auto.
Qed.
Lemma floop_max (f : nat -> nat) (g : nat -> option nat) : forall n m0, (forall i, i < n -> g i = Some (f i)) ->
  floop n (fun i mn => x <- g i ;; Some (if mn <? x then x else mn)) m0 = Some (max m0 (list_max (map f (seq 0 n)))).
Proof.
  intros n m0 H. match goal with |- floop _ ?bb ?ss = _ => destruct (floop_inv _ (fun k m => m = max m0 (list_max (map f (seq 0 k)))) n bb ss) as (m & F & I) end.
  - cbn. lia.
  - intros k m Hk ->. rewrite H by auto. cbn [bind]. eexists; split; [reflexivity|]. replace (k + 1) with (S k) by lia. rewrite seq_S, map_app. cbn [map]. rewrite list_max_app. cbn [Nat.add].
    destruct (Nat.ltb_spec (max m0 (list_max (map f (seq 0 k)))) (f k)); lia.
  - rewrite F, I. auto.
Qed.

(** the whole file: four header lines, the points, the element records *)
Definition pt_line (p : Z * C * C * C) : list tok := let '(i, x, y, z) := p in [TZ i; TC x; TC y; TC z].
Definition px (p : Z * C * C * C) := let '(_, x, _, _) := p in x.
Definition py (p : Z * C * C * C) := let '(_, _, y, _) := p in y.
Definition file_body (pts : list (Z * C * C * C)) (rs : list grec) (s1 s2 : list tok) : list tok :=
  TZ (Z.of_nat (length pts)) :: concat (map pt_line pts) ++ s1 ++ s2 ++ TZ (Z.of_nat (length rs)) :: concat (map enc rs).

Lemma rd_points junkC (pts : list (Z * C * C * C)) rest d : let n := length pts in
  exists X, floop n (fun i s => let '(X, l) := s in '(_, l) <- rdZ l ;; '(x, l) <- rdC l ;; X <- set2 X i 0 x ;; '(y, l) <- rdC l ;; X <- set2 X i 1 y ;; '(_, l) <- rdC l ;; Some (X, l)) (mk2 n 2 junkC, concat (map pt_line pts) ++ rest) = Some (X, rest) /\
    rows X = n /\ cols X = 2 /\ forall i, i < n -> at2 X i 0 = px (nth i pts d) /\ at2 X i 1 = py (nth i pts d).
Proof.
  intros n.
  match goal with |- context [floop _ ?bb ?ss] => destruct (floop_inv _ (fun k (s : arr2 C * list tok) => snd s = concat (map pt_line (skipn k pts)) ++ rest /\ rows (fst s) = n /\ cols (fst s) = 2 /\
    forall i, i < k -> at2 (fst s) i 0 = px (nth i pts d) /\ at2 (fst s) i 1 = py (nth i pts d)) n bb ss) as ((X & l') & F & I1 & I2 & I3 & I4) end.
  - cbn. repeat split; auto; lia.
  - intros k (X & l) Hk (I1 & I2 & I3 & I4). cbn [fst snd] in *. subst l. rewrite (skipn_nth d) by auto. cbn [map concat]. unfold pt_line at 1. destruct (nth k pts d) as [[[q x] y] z] eqn:E.
    cbn [app rdZ rdC bind]. rewrite set2_ok by lia. cbn [bind]. rewrite set2_ok by (cbn; lia). cbn [bind at2 rows cols]. eexists; split; [reflexivity|]. cbn [fst snd rows cols at2].
    split; [f_equal; f_equal; f_equal; f_equal; lia|]. split; auto. split; auto. intros i Hi. destruct (Nat.eq_dec i k) as [->|N].
    + rewrite E. cbn. split; [rewrite upd2_ne by lia; apply upd2_eq|apply upd2_eq].
    + rewrite !upd2_ne by auto. apply I4. lia.
  - cbn [fst snd] in *. unfold n in *. rewrite skipn_all in I1. cbn in I1. subst l'. eauto.
Qed.

(** Bounds under which no access of the reader leaves its arrays *)
Definition fits (rs : list grec) (q : nat) : Prop :=
  (forall r, In r rs -> wf_rec r /\ t_nn (q_ty r) + length (q_tags r) <= 25 /\ t_nofa (q_ty r) = q) /\ q + btags rs <= 25 /\
  (forall i, nedges rs <= i < length rs -> st_nn (rnth rs i) + dtags rs <= 25).
Definition maxnn (rs : list grec) : nat := list_max (map st_nn rs).
Definition maxnf (rs : list grec) : nat := list_max (map st_nf rs).

Lemma map_seq_nth {A B} (d : A) (f : A -> B) l : map (fun i => f (nth i l d)) (seq 0 (length l)) = map f l.
Proof. induction l as [|a l IH]; cbn; auto. f_equal. rewrite <- seq_shift, map_map. auto. Qed.
Lemma list_max_ge l x : In x l -> x <= list_max l.
Proof. intros H. assert (F := proj1 (list_max_le l (list_max l)) (le_n _)). rewrite Forall_forall in F. auto. Qed.
Lemma nedges_le rs : nedges rs <= length rs.
Proof. unfold nedges. induction rs; cbn; auto. destruct (edge_rec a); cbn; lia. Qed.

Theorem readGmsh2_rows junkE junkI junkB junkR junkC jn bface0 (hdr : list (list tok)) body pts rs w1 w2 tail q d :
  length hdr = 4 -> concat body = file_body pts rs [TS w1] [TS w2] ++ tail -> nedges rs < length rs -> fits rs q ->
  exists g, readGmsh2 junkE junkI junkB junkR junkC jn bface0 (hdr ++ body) = Some g /\
    let n := length rs in let nb := nedges rs in
    g_npoin g = length pts /\ rows (g_coords g) = length pts /\ cols (g_coords g) = 2 /\ (forall i, i < length pts -> at2 (g_coords g) i 0 = px (nth i pts d) /\ at2 (g_coords g) i 1 = py (nth i pts d)) /\
    g_nbface g = nb /\ g_nelem g = n - nb /\ g_nnofa g = q /\ g_nbtag g = btags rs /\ g_ndtag g = dtags rs /\ g_maxnnode g = maxnn rs /\ g_maxnfael g = maxnf rs /\
    (0 < nb -> rows (g_bface g) = nb /\ cols (g_bface g) = q + btags rs) /\
    (forall i j, i < nb -> j < q -> at2 (g_bface g) i j = (rowv (rnth rs i) (junkE i) j - 1)%Z) /\
    (forall i j, i < nb -> j < btags rs -> at2 (g_bface g) i (q + j) = rowv (rnth rs i) (junkE i) (q + j)) /\
    alen (g_nnode g) = n - nb /\ alen (g_nfael g) = n - nb /\
    (forall i, i < n - nb -> aat (g_nnode g) i = st_nn (rnth rs (i + nb)) /\ aat (g_nfael g) i = st_nf (rnth rs (i + nb))) /\
    rows (g_inpoel g) = n - nb /\ cols (g_inpoel g) = maxnn rs /\ rows (g_regions g) = n - nb /\ cols (g_regions g) = dtags rs /\
    (forall i j, i < n - nb -> j < maxnn rs -> at2 (g_inpoel g) i j = if j <? st_nn (rnth rs (i + nb)) then (rowv (rnth rs (i + nb)) (junkE (i + nb)%nat) j - 1)%Z else (-1)%Z) /\
    (forall i j, i < n - nb -> j < dtags rs -> at2 (g_regions g) i j = rowv (rnth rs (i + nb)) (junkE (i + nb)%nat) (j + st_nn (rnth rs (i + nb)))).
Proof.
  intros Hh Hb Hn (Hf & Hq & Hd). unfold readGmsh2. rewrite skipn_app, Hh, (skipn_all2 hdr) by lia. cbn [app Nat.sub skipn]. rewrite Hb. unfold file_body. cbn [app].
  assert (RN : forall k l, @rdN C (TZ (Z.of_nat k) :: l) = Some (k, l)). { intros. unfold rdN. cbn [rdZ bind]. rewrite (proj2 (Z.ltb_ge _ _)) by lia. rewrite Nat2Z.id. auto. }
  rewrite RN. cbn [bind]. rewrite <- app_assoc. cbn [app].
  match goal with |- context [concat (map pt_line pts) ++ ?r] => destruct (rd_points junkC pts r d) as (X & FX & X1 & X2 & X3) end.
  rewrite FX. cbn [bind rdS]. rewrite RN. cbn [bind].
  destruct (rd_records_ok rs tail junkE jn) as (s & FR & R1 & R2 & R3 & R4 & R5 & R6 & R7 & R8 & R9 & R10 & R11 & R12 & R13). { intros r Hr. destruct (Hf r Hr) as (? & ? & ?). auto. }
  rewrite FR. cbn [bind]. set (n := length rs) in *. set (nb := nedges rs) in *.
  assert (QQ : r_nnofa s = q). { rewrite R9 by lia. apply Hf. apply nth_In. unfold n in *. lia. }
  rewrite R10, R11, R12, R13, QQ. rewrite aget_ok by lia. cbn [bind]. rewrite aget_ok by lia. cbn [bind].
  rewrite (floop_max (fun i => st_nn (rnth rs i)) (aget (r_nnodes s))) by (intros i Hi; rewrite aget_ok, R7 by lia; auto). cbn [bind].
  rewrite (floop_max (fun i => st_nf (rnth rs i)) (aget (r_nfaels s))) by (intros i Hi; rewrite aget_ok, R8 by lia; auto). cbn [bind].
  assert (INn : forall i, i < n -> In (rnth rs i) rs) by (intros; apply nth_In; auto).
  rewrite R7, R8 by lia.
  assert (S1 : list_max (map (fun i => st_nn (rnth rs i)) (seq 0 n)) = maxnn rs) by (unfold maxnn, rnth, n; rewrite (map_seq_nth nrec0); auto).
  assert (S2 : list_max (map (fun i => st_nf (rnth rs i)) (seq 0 n)) = maxnf rs) by (unfold maxnf, rnth, n; rewrite (map_seq_nth nrec0); auto).
  rewrite S1, S2.
  assert (M1 : max (st_nn (rnth rs nb)) (maxnn rs) = maxnn rs). { apply Nat.max_r. apply list_max_ge. apply in_map. apply INn. auto. }
  assert (M2 : max (st_nf (rnth rs nb)) (maxnf rs) = maxnf rs). { apply Nat.max_r. apply list_max_ge. apply in_map. apply INn. auto. }
  rewrite M1, M2. 
  (* boundary faces *)
  set (B0 := if 0 <? nb then mk2 nb (q + btags rs) junkB else bface0).
  match goal with |- context [floop nb ?bb B0] => destruct (floop_inv _ (fun k (B : arr2 Z) => (0 < nb -> rows B = nb /\ cols B = q + btags rs) /\
    (forall i j, i < k -> j < q -> at2 B i j = (rowv (rnth rs i) (junkE i) j - 1)%Z) /\ (forall i j, i < k -> j < btags rs -> at2 B i (q + j) = rowv (rnth rs i) (junkE i) (q + j))) nb bb B0) as (B & FB & B1 & B2 & B3) end.
  { split; [|split; intros; lia]. intros H. unfold B0. rewrite (proj2 (Nat.ltb_lt _ _) H). auto. }
  { intros k B Hk (B1 & B2 & B3). destruct B1 as (B1a & B1b); [lia|].
    destruct (fill_loop (fun j => (rowv (rnth rs k) (junkE k) j - 1)%Z) (fun j => z <- get2 (r_elms s) k j ;; Some (z - 1)%Z) k q B) as (Ba & Fa & A1 & A2 & A3); try lia.
    { intros j Hj. rewrite get2_ok by lia. cbn [bind]. rewrite R4 by lia. auto. }
    assert (Fa' : floop q (fun j B => z <- get2 (r_elms s) k j ;; set2 B k j (z - 1)%Z) B = Some Ba). { rewrite <- Fa. apply floop_ext. intros j B' Hj. rewrite bind_assoc. auto. }
    rewrite Fa'. cbn [bind].
    destruct (fill_row (fun j => rowv (rnth rs k) (junkE k) j) (get2 (r_elms s) k) k (btags rs) q Ba) as (Bb & Fb & C1 & C2 & C3); try lia.
    { intros j Hj. rewrite get2_ok by lia. rewrite R4 by lia. auto. }
    rewrite Fb. eexists; split; [reflexivity|]. split; [lia|]. split.
    - intros i j Hi Hj. rewrite C3, A3. destruct (Nat.eqb_spec i k) as [->|N].
      + rewrite (proj2 (Nat.leb_gt q j)) by lia. cbn [andb]. rewrite (proj2 (Nat.ltb_lt j q)) by lia. auto.
      + cbn. apply B2; lia.
    - intros i j Hi Hj. rewrite C3, A3. destruct (Nat.eqb_spec i k) as [->|N].
      + rewrite (proj2 (Nat.leb_le q (q + j))), (proj2 (Nat.ltb_lt (q + j) (q + btags rs))) by lia. auto.
      + cbn. apply B3; lia. }
  rewrite FB. cbn [bind].
  (* cells *)
  set (mn := maxnn rs) in *. set (dt := dtags rs) in *.
  match goal with |- context [floop (n - nb) ?bb ?ss] => destruct (floop_inv _ (fun k (st : arr2 Z * arr2 Z * list nat * list nat) => let '(Ip, Rg, nn, nf) := st in
    rows Ip = n - nb /\ cols Ip = mn /\ rows Rg = n - nb /\ cols Rg = dt /\ nn = map (fun i => st_nn (rnth rs (i + nb))) (seq 0 k) /\ nf = map (fun i => st_nf (rnth rs (i + nb))) (seq 0 k) /\
    (forall i j, i < k -> j < mn -> at2 Ip i j = if j <? st_nn (rnth rs (i + nb)) then (rowv (rnth rs (i + nb)) (junkE (i + nb)%nat) j - 1)%Z else (-1)%Z) /\
    (forall i j, i < k -> j < dt -> at2 Rg i j = rowv (rnth rs (i + nb)) (junkE (i + nb)%nat) (j + st_nn (rnth rs (i + nb))))) (n - nb) bb ss) as ([[[Ip Rg] nn] nf] & FC & C1 & C2 & C3 & C4 & C5 & C6 & C7 & C8) end.
  { cbn. repeat split; auto; intros; lia. }
  { intros k [[[Ip Rg] nn] nf] Hk (C1 & C2 & C3 & C4 & C5 & C6 & C7 & C8).
    rewrite aget_ok by lia. cbn [bind]. rewrite aget_ok by lia. cbn [bind]. rewrite R7, R8 by lia. set (r := rnth rs (k + nb)) in *.
    assert (Kn : st_nn r <= mn). { apply list_max_ge. apply in_map. apply INn. lia. }
    assert (Kd : st_nn r + dt <= 25). { apply Hd. lia. }
    destruct (fill_loop (fun j => (rowv r (junkE (k + nb)%nat) j - 1)%Z) (fun j => z <- get2 (r_elms s) (k + nb) j ;; Some (z - 1)%Z) k (st_nn r) Ip) as (Ia & Fa & A1 & A2 & A3); try lia.
    { intros j Hj. rewrite get2_ok by lia. cbn [bind]. rewrite R4 by lia. auto. }
    assert (Fa' : floop (st_nn r) (fun j B => z <- get2 (r_elms s) (k + nb) j ;; set2 B k j (z - 1)%Z) Ip = Some Ia). { rewrite <- Fa. apply floop_ext. intros j B' Hj. rewrite bind_assoc. auto. }
    rewrite Fa'. cbn [bind].
    destruct (fill_row (fun _ => (-1)%Z) (fun _ => Some (-1)%Z) k (mn - st_nn r) (st_nn r) Ia) as (Ib & Fb & D1 & D2 & D3); try lia; auto.
    replace (st_nn r + (mn - st_nn r)) with mn in Fb, D3 by lia.
    assert (Fb' : frange (st_nn r) mn (fun j Ip => set2 Ip k j (-1)%Z) Ia = Some Ib). { rewrite <- Fb. apply frange_ext. auto. }
    rewrite Fb'. cbn [bind].
    destruct (fill_loop (fun j => rowv r (junkE (k + nb)%nat) (j + st_nn r)) (fun j => get2 (r_elms s) (k + nb) (j + st_nn r)) k dt Rg) as (Ra & Fr & G1 & G2 & G3); try lia.
    { intros j Hj. rewrite get2_ok by lia. rewrite R4 by lia. auto. }
    rewrite Fr. cbn [bind]. eexists; split; [reflexivity|]. cbn beta iota. replace (k + 1) with (S k) by lia.
    split; [lia|]. split; [lia|]. split; [lia|]. split; [lia|]. split; [rewrite seq_S, map_app, C5; auto|]. split; [rewrite seq_S, map_app, C6; auto|]. split.
    - intros i j Hi Hj. rewrite D3, A3. destruct (Nat.eqb_spec i k) as [->|N].
      + fold r. rewrite (proj2 (Nat.ltb_lt j mn)) by lia. destruct (Nat.leb_spec (st_nn r) j), (Nat.ltb_spec j (st_nn r)); cbn; auto; lia.
      + cbn. apply C7; lia.
    - intros i j Hi Hj. rewrite G3. destruct (Nat.eqb_spec i k) as [->|N].
      + rewrite (proj2 (Nat.ltb_lt j dt)) by lia. auto.
      + cbn. apply C8; lia. }
  rewrite FC. cbn [bind]. eexists; split; [reflexivity|]. cbn [g_npoin g_coords g_nbface g_nelem g_nnode g_nfael g_maxnnode g_maxnfael g_nnofa g_nbtag g_ndtag g_inpoel g_bface g_regions alen aat].
  rewrite C5, C6, !map_length, !seq_length.
  split; auto. split; auto. split; auto. split; auto. split; auto. split; auto. split; auto. split; auto. split; auto. split; auto. split; auto. split; auto. split; auto. split; auto. split; auto. split; auto.
  split; [|split; [auto|split; [auto|split; [auto|split; [auto|split; auto]]]]]. intros i Hi.
  rewrite !(nth_indep _ 0 (st_nn (rnth rs (0 + nb)))) by (rewrite map_length, seq_length; auto).
  rewrite (map_nth (fun i => st_nn (rnth rs (i + nb))) (seq 0 (n - nb)) 0 i). rewrite seq_nth by auto.
  split; auto. rewrite (nth_indep _ _ (st_nf (rnth rs (0 + nb)))) by (rewrite map_length, seq_length; auto).
  rewrite (map_nth (fun i => st_nf (rnth rs (i + nb))) (seq 0 (n - nb)) 0 i). rewrite seq_nth by auto. auto.
Qed.
End G.
