(** Half-faces: the face list covers every (cell, local face) exactly once. *)
From Coq Require Import List Arith Lia ZArith Bool Permutation.
From Verif Require Import Base M_Mesh S_Mesh Pf_Esup Pf_Esuel Pf_Host Pf_Faces Pf_Topo.
Import ListNotations.

(** Every local face of every cell is exactly one of: shared with another cell, on exactly one
    boundary face (whose nodes run as in the cell), on exactly one connectivity face. *)
Record tiled (m : umesh) (hs : list (nat * nat)) : Prop := {
  tl_good : good_mesh m hs;
  tl_or : oriented (cells m);
  tl_bor : forall k bf h, nth_error (bfaces m) k = Some bf -> nth_error hs k = Some h ->
             (b0 bf, b1 bf) = edge (cell (cells m) (fst h)) (snd h);
  tl_nodup : NoDup (hs ++ map (fun cf => (cf_elem cf, cf_face cf)) (conns m));
  tl_conn : forall cf j, In cf (conns m) -> ~ across (cells m) (cf_elem cf) (cf_face cf) j;
  tl_cover : forall i f, i < nelem m -> f < length (cell (cells m) i) ->
     (exists j, across (cells m) i f j) \/ In (i, f) hs \/
     (exists cf, In cf (conns m) /\ (cf_elem cf, cf_face cf) = (i, f)) }.

(** The sides of a face that belong to real cells, each with the face's points in the order in
    which that cell should run through them. *)
Definition halves (ne : nat) (fc : face) : list (nat * (nat * nat)) :=
  (f_left fc, (f_a fc, f_b fc)) :: if f_right fc <? ne then [(f_right fc, (f_b fc, f_a fc))] else [].
(** All (cell, edge of the cell) pairs. *)
Definition cell_edges (cs : list (list nat)) : list (nat * (nat * nat)) :=
  flat_map (fun i => map (fun f => (i, edge (cell cs i) f)) (seq 0 (length (cell cs i)))) (seq 0 (length cs)).

Lemma cell_edges_in : forall cs i e, In (i, e) (cell_edges cs) <-> i < length cs /\ exists f, f < length (cell cs i) /\ e = edge (cell cs i) f.
Proof.
  intros. unfold cell_edges. rewrite in_flat_map. split.
  - intros (k & Hk & H). apply in_map_iff in H. destruct H as (f & E & Hf). inversion E; subst. apply in_seq in Hk, Hf.
    split; [lia|]. exists f. split; [lia|auto].
  - intros (Hi & f & Hf & ->). exists i. split; [apply in_seq; lia|]. apply in_map_iff. exists f. split; auto. apply in_seq. lia.
Qed.
Lemma cell_edges_nodup : forall np cs, valid_cells np cs -> NoDup (cell_edges cs).
Proof.
  intros np cs Hv. apply NoDup_flat_map; [apply seq_NoDup| |].
  - intros i Hi. apply in_seq in Hi. destruct (cell_valid np cs i Hv ltac:(lia)) as (N3 & ND & _).
    rewrite (NoDup_nth _ (0, (0, 0))). intros a b Ha Hb E. rewrite map_length, seq_length in *.
    rewrite !(nth_indep _ (0,(0,0)) (i, edge (cell cs i) 0)) in E by (rewrite map_length, seq_length; auto).
    rewrite !map_nth with (f := fun f => (i, edge (cell cs i) f)) in E. rewrite !seq_nth in E by auto.
    inversion E. apply (edge_unique (cell cs i)); auto. left. unfold edge. f_equal; auto.
  - intros x y z _ _ Hx Hy. apply in_map_iff in Hx, Hy. destruct Hx as (? & <- & _), Hy as (? & E & _). inversion E; auto.
Qed.

(** the face list in its three ranges *)
Definition face_ranges (m : umesh) (hs : list (nat * nat)) (F il : list face) : Prop :=
  exists bl cl, F = bl ++ il ++ cl /\
   length bl = nbface m /\ length cl = nconnface m /\
   (forall q bf h, nth_error (bfaces m) q = Some bf -> nth_error hs q = Some h -> nth_error bl q = Some (bface_entry m q bf h)) /\
   (forall q cf, nth_error (conns m) q = Some cf -> nth_error cl q = Some (conn_entry m q cf)) /\
   NoDup il /\
   (forall fc, In fc il <-> exists f, across (cells m) (f_left fc) f (f_right fc) /\ f_left fc < f_right fc /\
      (f_a fc, f_b fc) = edge (cell (cells m) (f_left fc)) f).

Lemma map_seq_nth : forall A (l : list A) d (g : nat -> A) s, (forall k, k < length l -> g (s + k) = nth k l d) ->
  map g (seq s (length l)) = l.
Proof.
  induction l as [|x l IH]; intros d g s H; cbn; [reflexivity|]. f_equal.
  - specialize (H 0 ltac:(cbn; lia)). rewrite Nat.add_0_r in H. exact H.
  - apply (IH d). intros k Hk. specialize (H (S k) ltac:(cbn; lia)). cbn in H. rewrite <- H. f_equal. lia.
Qed.

Lemma topo_ranges : forall m hs, good_mesh m hs -> forall j0 jf je jt, exists p e s il,
  compute_topological m j0 jf je jt = Some (Val (p, e, (length il, s))) /\
  face_ranges m hs (alist (intfac s)) il.
Proof.
  intros m hs G j0 jf je jt. destruct (topo_ok m hs G j0 jf je jt) as (p & e & E & s & _ & _ & T & _ & HE & A1 & A2 & A3 & A4 & _).
  destruct G as [Hv Hc Hm Hh Hcn]. set (il := ibl (cells m) (at2 E) (ifs (cells m))) in *.
  exists p, e, s, il. split; [exact T|].
  exists (map (aat (intfac s)) (seq 0 (nbface m))), (map (aat (intfac s)) (seq (nbface m + length il) (nconnface m))).
  split; [|split; [|split; [|split; [|split; [|split]]]]].
  - unfold alist. rewrite A1. rewrite !seq_app, !map_app, <- app_assoc. f_equal. f_equal.
    apply (map_seq_nth _ il (mkface 0 0 0 0)). intros k Hk. cbn. apply A3. auto.
  - rewrite map_length, seq_length. reflexivity.
  - rewrite map_length, seq_length. reflexivity.
  - intros q bf h Eb Eh. assert (q < nbface m) by (apply nth_error_Some; congruence).
    erewrite map_nth_error by (apply nth_error_seq; auto). f_equal. apply A2; auto.
  - intros q cf Ec. assert (Hq : q < nconnface m) by (apply nth_error_Some; congruence).
    assert (Es : nth_error (seq (nbface m + length il) (nconnface m)) q = Some (nbface m + length il + q)).
    { rewrite (nth_error_nth' _ 0) by (rewrite seq_length; auto). rewrite seq_nth by auto. reflexivity. }
    erewrite map_nth_error by exact Es. f_equal. apply A4; auto.
  - apply (il_nodup m Hv E).
  - intros fc. apply (il_spec m Hm E HE).
Qed.

Section Halves.
Variables (m : umesh) (hs : list (nat * nat)) (F il : list face).
Hypothesis T : tiled m hs.
Hypothesis R : face_ranges m hs F il.
Notation cs := (cells m).
Notation ne := (nelem m).

(** what a face of the list is, seen from one of its sides *)
Definition origin (fc : face) (i f : nat) : Prop :=
  (exists q bf, nth_error (bfaces m) q = Some bf /\ nth_error hs q = Some (i, f) /\ fc = bface_entry m q bf (i, f)) \/
  (exists j, across cs i f j /\
     fc = (let e := edge (cell cs i) f in if i <? j then mkface i j (fst e) (snd e) else mkface j i (snd e) (fst e))) \/
  (exists q cf, nth_error (conns m) q = Some cf /\ cf_elem cf = i /\ cf_face cf = f /\ fc = conn_entry m q cf).

Lemma origin_of : forall fc i e, In fc F -> In (i, e) (halves ne fc) ->
  exists f, i < ne /\ f < length (cell cs i) /\ e = edge (cell cs i) f /\ origin fc i f.
Proof.
  intros fc i e Hfc He. destruct T as [[Hv Hc Hm Hh Hcn] Or Bo ND Cn Cv]. destruct R as (bl & cl & EF & Lb & Lc & Sb & Sc & Ni & Si).
  rewrite EF, !in_app_iff in Hfc. destruct Hfc as [Hb|[Hi|Hc1]].
  - apply In_nth_error in Hb. destruct Hb as (q & Eq). assert (Hq : q < nbface m) by (rewrite <- Lb; apply nth_error_Some; congruence).
    destruct (nth_error_some _ (bfaces m) q Hq) as (bf & Eb). destruct Hh as (Lh & Hh).
    destruct (nth_error_some _ hs q ltac:(lia)) as (h & Eh). pose proof (Sb q bf h Eb Eh) as Q. rewrite Eq in Q. inversion Q; subst fc. clear Q.
    unfold halves in He. cbn [f_left f_right f_a f_b bface_entry] in He.
    destruct (Nat.ltb_spec (ne + nconnface m + q) ne); [lia|]. destruct He as [He|[]]. inversion He; subst i e. clear He.
    destruct (Hh q bf h Eb Eh) as (B0 & B1 & Hi & Hf & _). exists (snd h). do 2 (split; [auto|]). split. apply (Bo q bf h Eb Eh).
    left. exists q, bf. destruct h as [h1 h2]. cbn [fst snd]. auto.
  - apply Si in Hi. destruct Hi as (f & A & Hlt & He0). pose proof A as (A1 & A2 & A3 & A4 & g & A5 & A6).
    unfold halves in He. change (length cs) with ne in A3. destruct (Nat.ltb_spec (f_right fc) ne); [|lia].
    destruct He as [He|[He|[]]]; inversion He; subst i e; clear He.
    + exists f. do 3 (split; [auto|]). right; left. exists (f_right fc). split; auto. cbv zeta. rewrite <- He0. cbn [fst snd].
      destruct (Nat.ltb_spec (f_left fc) (f_right fc)); [|lia]. destruct fc; reflexivity.
    + exists g. do 2 (split; [auto|]). pose proof (Or (f_left fc) f (f_right fc) g A1 A3 (Nat.lt_neq _ _ Hlt) A2 A5 A6) as Rv.
      rewrite Rv, <- He0. cbn [fst snd]. split; auto. right; left. exists (f_left fc). split.
      * split; auto. split; auto. split; auto. split; [lia|]. exists f. split; auto. apply same_edge_sym; auto.
      * cbv zeta. rewrite Rv, <- He0. cbn [fst snd]. destruct (Nat.ltb_spec (f_right fc) (f_left fc)); [lia|]. destruct fc; reflexivity.
  - apply In_nth_error in Hc1. destruct Hc1 as (q & Eq). assert (Hq : q < nconnface m) by (rewrite <- Lc; apply nth_error_Some; congruence).
    destruct (nth_error_some _ (conns m) q Hq) as (cf & Ec). pose proof (Sc q cf Ec) as Q. rewrite Eq in Q. inversion Q; subst fc. clear Q.
    unfold halves in He. cbn [f_left f_right f_a f_b conn_entry] in He.
    destruct (Nat.ltb_spec (ne + q) ne); [lia|]. destruct He as [He|[]]. inversion He; subst i e. clear He.
    destruct (Hcn cf (nth_error_In _ _ Ec)) as (Hi & Hf). exists (cf_face cf). do 2 (split; [auto|]). split; [symmetry; apply surjective_pairing|].
    right; right. exists q, cf. auto.
Qed.

Lemma nodup_app : forall A (l1 l2 : list A), NoDup (l1 ++ l2) -> NoDup l1 /\ NoDup l2 /\ forall x, In x l1 -> ~ In x l2.
Proof.
  induction l1 as [|a l1 IH]; cbn; intros l2 H; [repeat split; auto; constructor|]. inversion H; subst. destruct (IH l2 H3) as (A1 & A2 & A3).
  split; [constructor; auto; intros K; apply H2; apply in_or_app; auto|]. split; auto. intros x [<-|Hx]; auto.
  intros K; apply H2; apply in_or_app; auto.
Qed.

Lemma origin_unique : forall fc fc' i f, origin fc i f -> origin fc' i f -> fc = fc'.
Proof.
  intros fc fc' i f O O'. destruct T as [[Hv Hc Hm Hh Hcn] Or Bo ND Cn Cv].
  destruct (nodup_app _ _ _ ND) as (N1 & N2 & N3).
  assert (HNA : forall q j, nth_error hs q = Some (i, f) -> ~ across cs i f j) by (intros q j Hq; apply (host_no_across m Hv hs Hh q (i, f) j Hq)).
  destruct O as [(q & bf & E1 & E2 & ->)|[(j & A & ->)|(q & cf & E1 & E2 & E3 & ->)]];
  destruct O' as [(q' & bf' & E1' & E2' & ->)|[(j' & A' & ->)|(q' & cf' & E1' & E2' & E3' & ->)]].
  - assert (q = q') by (apply (proj1 (NoDup_nth_error hs) N1); [apply nth_error_Some; congruence|congruence]). subst q'. congruence.
  - exfalso. eapply HNA; eauto.
  - exfalso. apply (N3 (i, f)). eapply nth_error_In; eauto. apply in_map_iff. exists cf'. split; [congruence|]. eapply nth_error_In; eauto.
  - exfalso. eapply HNA; eauto.
  - rewrite (Hc i f j j' A A'). reflexivity.
  - exfalso. subst i f. eapply Cn; eauto. eapply nth_error_In; eauto.
  - exfalso. apply (N3 (i, f)). eapply nth_error_In; eauto. apply in_map_iff. exists cf. split; [congruence|]. eapply nth_error_In; eauto.
  - exfalso. subst i f. eapply Cn; eauto. eapply nth_error_In; eauto.
  - assert (q = q').
    { apply (proj1 (NoDup_nth_error _) N2). rewrite map_length. apply nth_error_Some. congruence.
      rewrite (map_nth_error _ _ _ E1), (map_nth_error _ _ _ E1'). congruence. }
    subst q'. congruence.
Qed.

Lemma origin_in : forall i f, i < ne -> f < length (cell cs i) -> exists fc, In fc F /\ In (i, edge (cell cs i) f) (halves ne fc).
Proof.
  intros i f Hi Hf. destruct T as [[Hv Hc Hm Hh Hcn] Or Bo ND Cn Cv]. destruct R as (bl & cl & EF & Lb & Lc & Sb & Sc & Ni & Si).
  destruct (Cv i f Hi Hf) as [(j & A)|[H|(cf & H & E)]].
  - pose proof A as (A1 & A2 & A3 & A4 & g & A5 & A6). change (length cs) with ne in A3.
    pose proof (Or i f j g A1 A3 (fun K => A4 (eq_sym K)) A2 A5 A6) as Rv.
    destruct (edge (cell cs i) f) as [a b] eqn:Ee. cbn [fst snd] in Rv.
    destruct (Nat.lt_ge_cases i j).
    + exists (mkface i j a b). split.
      * rewrite EF. apply in_or_app; right; apply in_or_app; left. apply Si. cbn [f_left f_right f_a f_b]. exists f. auto.
      * left. reflexivity.
    + exists (mkface j i b a). split.
      * rewrite EF. apply in_or_app; right; apply in_or_app; left. apply Si. cbn [f_left f_right f_a f_b]. exists g.
        split; [|split; [lia|auto]]. split; auto. split; auto. split; auto. split; [lia|]. exists f. split; auto. rewrite Ee. apply same_edge_sym; auto.
      * unfold halves. cbn [f_left f_right f_a f_b]. destruct (Nat.ltb_spec i ne); [|lia]. right; left. reflexivity.
  - apply In_nth_error in H. destruct H as (q & Eq). destruct Hh as (Lh & Hh).
    assert (Hq : q < nbface m) by (rewrite <- Lh; apply nth_error_Some; congruence).
    destruct (nth_error_some _ (bfaces m) q Hq) as (bf & Eb). exists (bface_entry m q bf (i, f)). split.
    + rewrite EF. apply in_or_app; left. eapply nth_error_In. apply Sb; eauto.
    + left. cbn [f_left f_a f_b bface_entry fst]. f_equal. apply (Bo q bf (i, f) Eb Eq).
  - inversion E; subst i f. apply In_nth_error in H. destruct H as (q & Eq). exists (conn_entry m q cf). split.
    + rewrite EF. apply in_or_app; right; apply in_or_app; right. eapply nth_error_In. apply Sc; eauto.
    + left. reflexivity.
Qed.


Lemma F_nodup : NoDup F.
Proof.
  destruct T as [[Hv Hc Hm Hh Hcn] Or Bo ND Cn Cv]. destruct R as (bl & cl & EF & Lb & Lc & Sb & Sc & Ni & Si). destruct Hh as (Lh & Hh).
  assert (Rb : forall q fc, nth_error bl q = Some fc -> f_right fc = ne + nconnface m + q).
  { intros q fc Eq. assert (Hq : q < nbface m) by (rewrite <- Lb; apply nth_error_Some; congruence).
    destruct (nth_error_some _ (bfaces m) q Hq) as (bf & Eb). destruct (nth_error_some _ hs q ltac:(lia)) as (h & Eh).
    pose proof (Sb q bf h Eb Eh) as Q. rewrite Eq in Q. inversion Q. reflexivity. }
  assert (Rc : forall q fc, nth_error cl q = Some fc -> f_right fc = ne + q /\ q < nconnface m).
  { intros q fc Eq. assert (Hq : q < nconnface m) by (rewrite <- Lc; apply nth_error_Some; congruence).
    destruct (nth_error_some _ (conns m) q Hq) as (cf & Ec). pose proof (Sc q cf Ec) as Q. rewrite Eq in Q. inversion Q. split; auto. }
  assert (Ri : forall fc, In fc il -> f_right fc < ne).
  { intros fc Hfc. apply Si in Hfc. destruct Hfc as (f & (_ & _ & A3 & _) & _). exact A3. }
  assert (NA : forall A (l1 l2 : list A), NoDup l1 -> NoDup l2 -> (forall x, In x l1 -> ~ In x l2) -> NoDup (l1 ++ l2)).
  { induction l1 as [|a l1 IH]; cbn; intros l2 K1 K2 K3; auto. inversion K1; subst. constructor.
    - rewrite in_app_iff. intros [?|?]; auto. apply (K3 a); auto.
    - apply IH; auto. }
  rewrite EF. apply NA; [|apply NA; auto|].
  - apply NoDup_nth_error. intros a b Ha E. destruct (nth_error_some _ bl a Ha) as (fc & Ea).
    pose proof (Rb a fc Ea). rewrite Ea in E. symmetry in E. apply Rb in E. lia.
  - apply NoDup_nth_error. intros a b Ha E. destruct (nth_error_some _ cl a Ha) as (fc & Ea).
    pose proof (Rc a fc Ea). rewrite Ea in E. symmetry in E. apply Rc in E. lia.
  - intros x Hx Hc1. apply Ri in Hx. apply In_nth_error in Hc1. destruct Hc1 as (q & Eq). apply Rc in Eq. lia.
  - intros x Hx. apply In_nth_error in Hx. destruct Hx as (q & Eq). apply Rb in Eq. rewrite in_app_iff. intros [Hi|Hc1].
    + apply Ri in Hi. lia.
    + apply In_nth_error in Hc1. destruct Hc1 as (q' & Eq'). apply Rc in Eq'. lia.
Qed.

Theorem halves_perm : Permutation (flat_map (halves ne) F) (cell_edges cs).
Proof.
  pose proof T as [[Hv Hc Hm Hh Hcn] Or Bo ND Cn Cv].
  apply NoDup_Permutation.
  - apply NoDup_flat_map.
    + apply F_nodup.
    + intros fc Hfc. unfold halves. destruct (Nat.ltb_spec (f_right fc) ne); repeat constructor; cbn; try tauto.
      intros [E|[]]. inversion E.
      destruct R as (bl & cl & EF & Lb & Lc & Sb & Sc & Ni & Si). rewrite EF, !in_app_iff in Hfc.
      assert (f_left fc < f_right fc); [|lia]. destruct Hfc as [Hb|[Hi|Hc1]].
      * apply In_nth_error in Hb. destruct Hb as (q & Eq). assert (Hq : q < nbface m) by (rewrite <- Lb; apply nth_error_Some; congruence).
        destruct (nth_error_some _ (bfaces m) q Hq) as (bf & Eb). destruct Hh as (Lh & _). destruct (nth_error_some _ hs q ltac:(lia)) as (h & Eh).
        pose proof (Sb q bf h Eb Eh) as Q. rewrite Eq in Q. inversion Q; subst fc. cbn in *. lia.
      * apply Si in Hi. destruct Hi as (f & _ & Hlt & _). auto.
      * apply In_nth_error in Hc1. destruct Hc1 as (q & Eq). assert (Hq : q < nconnface m) by (rewrite <- Lc; apply nth_error_Some; congruence).
        destruct (nth_error_some _ (conns m) q Hq) as (cf & Ec). pose proof (Sc q cf Ec) as Q. rewrite Eq in Q. inversion Q; subst fc. cbn in *. lia.
    + intros x y [i e] Hx Hy Zx Zy. destruct (origin_of x i e Hx Zx) as (f & Hi & Hf & E & O). destruct (origin_of y i e Hy Zy) as (g & _ & Hg & E' & O').
      destruct (cell_valid _ _ i Hv Hi) as (N3 & Nd & _).
      assert (f = g) by (apply (edge_unique (cell cs i)); auto; left; congruence). subst g. eapply origin_unique; eauto.
  - eapply cell_edges_nodup; eauto.
  - intros [i e]. rewrite cell_edges_in, in_flat_map. split.
    + intros (fc & Hfc & He). destruct (origin_of fc i e Hfc He) as (f & Hi & Hf & E & _). split; eauto.
    + intros (Hi & f & Hf & ->). apply origin_in; auto.
Qed.
End Halves.
