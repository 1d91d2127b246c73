(** Proofs about compute_faceConnectivity. *)
From Coq Require Import List Arith Lia ZArith Bool FinFun.
From Verif Require Import Base M_Mesh S_Mesh Pf_Esup Pf_Esuel Pf_Host.
Import ListNotations.

(** all (cell, local face) pairs in loop order *)
Definition ifs (cs : list (list nat)) : list (nat * nat) :=
  flat_map (fun i => map (pair i) (seq 0 (length (cell cs i)))) (seq 0 (length cs)).

Lemma ifs_in : forall cs x, In x (ifs cs) <-> fst x < length cs /\ snd x < length (cell cs (fst x)).
Proof.
  intros cs [i f]. unfold ifs. rewrite in_flat_map. cbn. split.
  - intros (k & Hk & H). apply in_map_iff in H. destruct H as (g & E & Hg). inversion E; subst.
    apply in_seq in Hk, Hg. lia.
  - intros (Hi & Hf). exists i. split; [apply in_seq; lia|]. apply in_map_iff. exists f. split; auto. apply in_seq. lia.
Qed.
Lemma NoDup_flat_map : forall A B (g : A -> list B) l, NoDup l -> (forall x, In x l -> NoDup (g x)) ->
  (forall x y z, In x l -> In y l -> In z (g x) -> In z (g y) -> x = y) -> NoDup (flat_map g l).
Proof.
  induction l as [|a l IH]; intros N1 N2 N3; cbn; [constructor|].
  inversion N1; subst.
  assert (D : forall z, In z (g a) -> ~ In z (flat_map g l)).
  { intros z Hz Hz2. apply in_flat_map in Hz2. destruct Hz2 as (y & Hy & Hz2).
    assert (a = y) by (eapply N3; eauto; [left; auto|right; auto]). subst. auto. }
  assert (N : NoDup (flat_map g l)).
  { apply IH; auto. intros; apply N2; right; auto. intros; eapply N3; eauto; right; auto. }
  assert (Na : NoDup (g a)) by (apply N2; left; auto).
  clear -D N Na. induction (g a) as [|b t IHt]; auto. cbn. inversion Na; subst. constructor.
  - rewrite in_app_iff. intros [?|?]; auto. apply (D b); auto. left; auto.
  - apply IHt; auto. intros; apply D; right; auto.
Qed.
Lemma ifs_nodup : forall cs, NoDup (ifs cs).
Proof.
  intros. unfold ifs. apply NoDup_flat_map.
  - apply seq_NoDup.
  - intros. apply Injective_map_NoDup. intros a b E; inversion E; auto. apply seq_NoDup.
  - intros x y z _ _ H1 H2. apply in_map_iff in H1, H2. destruct H1 as (? & <- & _). destruct H2 as (? & E & _). inversion E; auto.
Qed.

Lemma loop_ifs : forall S (m : umesh) (B : nat -> nat -> nat -> S -> option S) s,
  floop (nelem m) (fun i s => n <- nnode m i ;; floop n (fun f s => B i n f s) s) s
  = ofold (fun x s => B (fst x) (length (cell (cells m) (fst x))) (snd x) s) (ifs (cells m)) s.
Proof.
  intros. rewrite floop_seq. unfold ifs. rewrite ofold_flat_map. apply ofold_ext.
  intros i s1 Hi. apply in_seq in Hi. rewrite nnode_ok by (unfold nelem in *; lia). cbn [bind].
  rewrite ofold_map, floop_seq. reflexivity.
Qed.

(** the interior faces that a neighbour table gives rise to *)
Definition isint (ne : nat) (E : nat -> nat -> Z) (x : nat * nat) : bool :=
  (Z.of_nat (fst x) <? E (fst x) (snd x))%Z && (E (fst x) (snd x) <? Z.of_nat ne)%Z.
Definition mkint (cs : list (list nat)) (E : nat -> nat -> Z) (x : nat * nat) : face :=
  mkface (fst x) (Z.to_nat (E (fst x) (snd x))) (fst (edge (cell cs (fst x)) (snd x))) (snd (edge (cell cs (fst x)) (snd x))).
Definition ibl (cs : list (list nat)) (E : nat -> nat -> Z) (l : list (nat * nat)) : list face :=
  map (mkint cs E) (filter (isint (length cs) E) l).

Lemma ibl_app : forall cs E l1 l2, ibl cs E (l1 ++ l2) = ibl cs E l1 ++ ibl cs E l2.
Proof. intros. unfold ibl. rewrite filter_app, map_app. reflexivity. Qed.
Lemma ibl_one : forall cs E x, ibl cs E [x] = if isint (length cs) E x then [mkint cs E x] else [].
Proof. intros. unfold ibl. cbn. destruct (isint (length cs) E x); reflexivity. Qed.

(** ** specification of the face arrays *)
Section Faces.
Variable m : umesh.
Let cs := cells m.
Let ne := nelem m.
Let nb := nbface m.
Let nc := nconnface m.
Hypothesis Hv : valid_cells (npoin m) cs.
Hypothesis Hmax : forall c, In c cs -> length c <= maxnfael m.
Variables p e : arr nat.
Hypothesis Hes : esup_ok (npoin m) cs p e.
Variable E : arr2 Z.
Hypothesis HE : esuel_ok ne (maxnfael m) cs E.
Variable hs : list (nat * nat).
Hypothesis Hh : hosts_ok m hs.
Hypothesis Hc : forall cf, In cf (conns m) -> cf_elem cf < ne /\ cf_face cf < length (cell cs (cf_elem cf)).

Let il := ibl cs (at2 E) (ifs cs).
Let ni := length il.

Lemma maxc : forall i, i < ne -> length (cell cs i) <= maxnfael m.
Proof. intros. apply Hmax. unfold cell. apply nth_In. auto. Qed.

Lemma ifs_in2 : forall x, In x (ifs cs) -> fst x < ne /\ snd x < length (cell cs (fst x)).
Proof. intros x H. apply ifs_in in H. exact H. Qed.

Lemma count_ok : floop ne (fun ie c =>
      n <- nnode m ie ;;
      floop n (fun f c =>
        j <- get2 E ie f ;;
        Some (if (Z.of_nat ie <? j)%Z && (j <? Z.of_nat ne)%Z then c + 1 else c)) c) 0 = Some ni.
Proof.
  unfold ne at 1. rewrite (loop_ifs _ m (fun ie n f c => j <- get2 E ie f ;;
        Some (if (Z.of_nat ie <? j)%Z && (j <? Z.of_nat ne)%Z then c + 1 else c))).
  fold cs.
  destruct (ofold_inv _ _ (fun pre c => c = length (ibl cs (at2 E) pre)) (fun x c => j <- get2 E (fst x) (snd x) ;;
        Some (if (Z.of_nat (fst x) <? j)%Z && (j <? Z.of_nat ne)%Z then c + 1 else c)) (ifs cs) 0) as (c & Ec & I).
  - reflexivity.
  - intros pre x post c El ->.
    assert (Hx : In x (ifs cs)) by (rewrite El; apply in_or_app; right; left; auto).
    apply ifs_in2 in Hx. destruct Hx as (Hx1 & Hx2). destruct HE as (R & C & _).
    pose proof (maxc (fst x) Hx1). rewrite get2_ok by lia. cbn [bind]. eexists; split; [reflexivity|].
    rewrite ibl_app, app_length, ibl_one. unfold isint. fold ne.
    change (length cs) with ne. destruct (_ && _)%bool; cbn; lia.
  - rewrite Ec. subst c. reflexivity.
Qed.

Lemma hs_bound : forall k h, nth_error hs k = Some h -> fst h < ne /\ snd h < length (cell cs (fst h)).
Proof.
  intros k h Hk. destruct Hh as (L & H). assert (k < nbface m) by (rewrite <- L; apply nth_error_Some; congruence).
  destruct (nth_error_some _ (bfaces m) k H0) as (bf & Eb). destruct (H k bf h Eb Hk) as (_ & _ & A & B & _). auto.
Qed.
Lemma host_no_across : forall k h j, nth_error hs k = Some h -> ~ across cs (fst h) (snd h) j.
Proof.
  intros k h j Hk (A1 & A2 & A3 & A4 & g & A5 & A6). destruct Hh as (L & H).
  assert (Hkb : k < nbface m) by (rewrite <- L; apply nth_error_Some; congruence).
  destruct (nth_error_some _ (bfaces m) k Hkb) as (bf & Eb). destruct (H k bf h Eb Hk) as (_ & _ & B1 & B2 & B3 & U).
  apply A4. apply U. pose proof (cell_valid _ _ j Hv A3) as (Nj & _ & _). fold cs in Nj.
  pose proof (same_edge_trans _ _ _ B3 A6) as S.
  split; auto. unfold edge in S. fold cs. destruct S as [S|S]; cbn in S; inversion S as [[Q1 Q2]]; rewrite Q1, Q2; split; apply nth_In; auto; apply next_lt; auto.
Qed.

Definition bface_entry (k : nat) (bf : bfrec) (h : nat * nat) : face :=
  mkface (fst h) (ne + nc + k) (b0 bf) (b1 bf).

(** after the boundary faces *)
Definition bnd_inv (k : nat) (s : fconn) : Prop :=
  alen (intfac s) = ni + nb + nc /\ alen (btags s) = nb /\
  rows (elemface s) = ne /\ cols (elemface s) = maxnfael m /\ rows (esuel s) = ne /\ cols (esuel s) = maxnfael m /\
  (forall q bf h, q < k -> nth_error (bfaces m) q = Some bf -> nth_error hs q = Some h ->
     aat (intfac s) q = bface_entry q bf h /\ aat (btags s) q = btg bf) /\
  (forall i f, (exists q, q < k /\ nth_error hs q = Some (i, f)) ->
     exists q, q < k /\ nth_error hs q = Some (i, f) /\
       at2 (esuel s) i f = Z.of_nat (ne + nc + q) /\ at2 (elemface s) i f = q) /\
  (forall i f, (forall q, q < k -> nth_error hs q <> Some (i, f)) -> at2 (esuel s) i f = at2 E i f).

Lemma bnd_loop : forall jf je jt, exists s1,
  floop nb (fun iface s =>
      h <- nth_error (map (fun h => (fst h, Some (snd h))) hs) iface ;; k <- snd h ;; bf <- nth_error (bfaces m) iface ;;
      F <- aset (intfac s) iface (mkface (fst h) (ne + nc + iface) (b0 bf) (b1 bf)) ;;
      T <- aset (btags s) iface (btg bf) ;;
      ES <- set2 (esuel s) (fst h) k (Z.of_nat (ne + nc + iface)) ;;
      EF <- set2 (elemface s) (fst h) k iface ;;
      Some (mkfc F EF ES T))
    (mkfc (mkarr (ni + nb + nc) jf) (mk2 ne (maxnfael m) je) E (mkarr nb jt)) = Some s1 /\ bnd_inv nb s1.
Proof.
  intros. pose proof HE as (RE & CE & _). pose proof Hh as (Lh & _).
  apply (floop_inv _ bnd_inv).
  - unfold bnd_inv; cbn. repeat split; auto; intros; try lia. destruct H as (q & H & _). lia.
  - intros k s Hk (A1 & A2 & A3 & A4 & A5 & A6 & A7 & A8 & A9).
    destruct (nth_error_some _ hs k) as (h & Eh); [lia|]. destruct (nth_error_some _ (bfaces m) k Hk) as (bf & Eb).
    destruct (hs_bound k h Eh) as (H1 & H2). pose proof (maxc _ H1).
    rewrite (map_nth_error _ _ _ Eh). cbn [bind fst snd]. rewrite Eb. cbn [bind].
    rewrite !aset_ok by lia. cbn [bind]. rewrite !set2_ok by lia. cbn [bind]. eexists; split; [reflexivity|].
    unfold bnd_inv; cbn [intfac btags elemface esuel alen aat rows cols at2].
    do 6 (split; auto). split; [|split].
    + intros q bf' h' Hq Eb' Eh'. unfold upd. destruct (Nat.eqb_spec q k).
      * subst q. rewrite Eb in Eb'; rewrite Eh in Eh'; inversion Eb'; inversion Eh'; subst. split; reflexivity.
      * apply A7; auto. lia.
    + intros i f (q & Hq & Eq). rewrite !upd2_spec. destruct ((i =? fst h) && (f =? snd h)) eqn:B.
      * apply andb_true_iff in B. rewrite !Nat.eqb_eq in B. destruct B as [-> ->]. exists k. split; [lia|].
        split; auto. rewrite Eh. destruct h; auto.
      * destruct (A8 i f) as (q' & Q1 & Q2 & Q3 & Q4).
        { exists q. split; auto. assert (q <> k). { intros ->. rewrite Eh in Eq. inversion Eq; subst h. cbn in B. rewrite !Nat.eqb_refl in B. discriminate. } lia. }
        exists q'. split; [lia|]. auto.
    + intros i f N. rewrite upd2_spec. destruct ((i =? fst h) && (f =? snd h)) eqn:B.
      * apply andb_true_iff in B. rewrite !Nat.eqb_eq in B. destruct B as [-> ->]. exfalso. apply (N k); [lia|]. rewrite Eh. destruct h; auto.
      * apply A9. intros q Hq. apply N. lia.
Qed.

Definition pair_dec : forall a b : nat * nat, {a = b} + {a <> b}.
Proof. repeat decide equality. Defined.
Lemma bnd_int : forall s x, bnd_inv nb s -> In x (ifs cs) ->
  isint ne (at2 (esuel s)) x = isint ne (at2 E) x /\
  (isint ne (at2 E) x = true -> at2 (esuel s) (fst x) (snd x) = at2 E (fst x) (snd x)).
Proof.
  intros s [i f] (_ & _ & _ & _ & _ & _ & _ & A8 & A9) Hx. apply ifs_in2 in Hx. cbn [fst snd] in *. destruct Hx as (Hi & Hf).
  destruct (in_dec pair_dec (i, f) hs) as [Hin|Hnin].
  - apply In_nth_error in Hin. destruct Hin as (q & Eq).
    assert (q < nb) by (destruct Hh as (Lh & _); unfold nb; rewrite <- Lh; apply nth_error_Some; congruence).
    destruct (A8 i f) as (q' & Q1 & Q2 & Q3 & Q4); [eauto|].
    assert (EM : at2 E i f = (-1)%Z).
    { destruct HE as (_ & _ & HE'). apply HE'; auto. pose proof (maxc i Hi). lia.
      intros (j & A). exact (host_no_across q (i, f) j Eq A). }
    unfold isint; cbn [fst snd]. rewrite Q3, EM. split.
    + transitivity false; [|symmetry]; apply andb_false_iff; [right|left]; apply Z.ltb_ge; lia.
    + intros B. exfalso. apply andb_true_iff in B. destruct B as (B & _). apply Z.ltb_lt in B. lia.
  - assert (Q : at2 (esuel s) i f = at2 E i f).
    { apply A9. intros q _ Eq. apply Hnin. eapply nth_error_In; eauto. }
    unfold isint; cbn [fst snd]. rewrite Q. auto.

Qed.

(** the face named by elemface(i,f) has the points of that face and cell i on one side, and the
    cell on its other side is esuel(i,f) *)
Definition good (lim : nat) (s : fconn) (i f : nat) : Prop :=
  let fc := aat (intfac s) (at2 (elemface s) i f) in
  at2 (elemface s) i f < lim /\ same_edge (f_a fc, f_b fc) (edge (cell cs i) f) /\
  ((f_left fc = i /\ at2 (esuel s) i f = Z.of_nat (f_right fc)) \/
   (f_right fc = i /\ at2 (esuel s) i f = Z.of_nat (f_left fc))).

Definition covered (pre : list (nat * nat)) (i f : nat) : Prop :=
  (exists q, nth_error hs q = Some (i, f)) \/
  (exists x, In x pre /\ isint ne (at2 E) x = true /\
     (x = (i, f) \/ (Z.of_nat i = at2 E (fst x) (snd x) /\ f < length (cell cs i) /\
        same_edge (edge (cell cs (fst x)) (snd x)) (edge (cell cs i) f)))).

Definition int_inv (s1 : fconn) (pre : list (nat * nat)) (st : nat * fconn) : Prop :=
  let s := snd st in
  fst st = nb + length (ibl cs (at2 E) pre) /\
  alen (intfac s) = ni + nb + nc /\ esuel s = esuel s1 /\ btags s = btags s1 /\
  rows (elemface s) = ne /\ cols (elemface s) = maxnfael m /\
  (forall k, k < nb -> aat (intfac s) k = aat (intfac s1) k) /\
  (forall k, k < length (ibl cs (at2 E) pre) -> aat (intfac s) (nb + k) = nth k (ibl cs (at2 E) pre) (mkface 0 0 0 0)) /\
  (oriented cs -> forall i f, covered pre i f -> good (fst st) s i f).

Definition int_step (x : nat * nat) (st : nat * fconn) : option (nat * fconn) :=
  let ie := fst x in let f := snd x in let n := length (cell cs ie) in
        let '(fi, s) := st in
        j <- get2 (esuel s) ie f ;;
        if (Z.of_nat ie <? j)%Z && (j <? Z.of_nat ne)%Z then
          let jn := Z.to_nat j in
          let f1 := (f + 1) mod n in
          v0 <- inpoel m ie f ;; v1 <- inpoel m ie f1 ;;
          F <- aset (intfac s) fi (mkface ie jn v0 v1) ;;
          EF <- set2 (elemface s) ie f fi ;;
          nj <- nnode m jn ;;
          EF' <- floop nj (fun jnode EF =>
                   w <- inpoel m jn jnode ;;
                   if v1 =? w then set2 EF jn jnode fi else Some EF) EF ;;
          Some (fi + 1, mkfc F EF' (esuel s) (btags s))
        else Some st.

(** the inner loop over the nodes of the right cell sets the entries whose node is v1 *)
Lemma node_scan : forall jn v1 fi (EF : arr2 nat), jn < ne -> rows EF = ne -> cols EF = maxnfael m ->
  exists EF', floop (length (cell cs jn)) (fun jnode EF =>
                   w <- inpoel m jn jnode ;;
                   if v1 =? w then set2 EF jn jnode fi else Some EF) EF = Some EF' /\
   rows EF' = ne /\ cols EF' = maxnfael m /\
   forall i f, at2 EF' i f = if (i =? jn) && (f <? length (cell cs jn)) && (nth f (cell cs jn) 0 =? v1) then fi else at2 EF i f.
Proof.
  intros jn v1 fi EF Hj R C. pose proof (maxc jn Hj) as Mj.
  apply (floop_inv _ (fun k (EF' : arr2 nat) => rows EF' = ne /\ cols EF' = maxnfael m /\
    forall i f, at2 EF' i f = if (i =? jn) && (f <? k) && (nth f (cell cs jn) 0 =? v1) then fi else at2 EF i f)).
  - repeat split; auto. intros. destruct (Nat.ltb_spec f 0); [lia|]. rewrite andb_false_r. reflexivity.
  - intros k EF1 Hk (R1 & C1 & A). rewrite inpoel_ok by auto. cbn [bind]. fold cs.
    destruct (Nat.eqb_spec v1 (nth k (cell cs jn) 0)) as [Ev|Ev].
    + rewrite set2_ok by lia. eexists; split; [reflexivity|]. cbn [rows cols at2]. repeat split; auto.
      intros i f. rewrite upd2_spec, A. destruct (Nat.eqb_spec i jn); cbn [andb]; auto.
      destruct (Nat.eqb_spec f k).
      * subst f. destruct (Nat.ltb_spec k (k + 1)); [|lia]. cbn. rewrite Ev, Nat.eqb_refl. reflexivity.
      * destruct (Nat.ltb_spec f k); destruct (Nat.ltb_spec f (k + 1)); try lia; reflexivity.
    + eexists; split; [reflexivity|]. repeat split; auto. intros i f. rewrite A.
      destruct (Nat.eqb_spec i jn); cbn [andb]; auto.
      destruct (Nat.ltb_spec f k); destruct (Nat.ltb_spec f (k + 1)); try lia; cbn [andb]; auto.
      assert (f = k) by lia. subst f. destruct (Nat.eqb_spec (nth k (cell cs jn) 0) v1); auto. congruence.
Qed.

Lemma ibl_le : forall pre x post, ifs cs = pre ++ x :: post -> isint ne (at2 E) x = true ->
  length (ibl cs (at2 E) pre) < ni.
Proof.
  intros. unfold ni, il. rewrite H. change (x :: post) with ([x] ++ post). rewrite !ibl_app, !app_length, ibl_one.
  change (length cs) with ne. rewrite H0. cbn. lia.
Qed.

Lemma across_E : forall i f j, across cs i f j <-> i < ne /\ f < length (cell cs i) /\ at2 E i f = Z.of_nat j.
Proof.
  intros. destruct HE as (_ & _ & H). split.
  - intros A. pose proof A as (A1 & A2 & _). split; auto. split; auto. apply H; auto. pose proof (maxc i A1). lia.
  - intros (A1 & A2 & A3). apply H; auto. pose proof (maxc i A1). lia.
Qed.

Lemma int_step_ok : forall s1, bnd_inv nb s1 -> forall pre x post st, ifs cs = pre ++ x :: post ->
  int_inv s1 pre st -> exists st', int_step x st = Some st' /\ int_inv s1 (pre ++ [x]) st'.
Proof.
  intros s1 HB pre x post [fi s] El (I1 & I2 & I3 & I4 & I5 & I6 & I7 & I8 & I9). cbn [fst snd] in *.
  assert (Hx : In x (ifs cs)) by (rewrite El; apply in_or_app; right; left; auto).
  destruct (bnd_int s1 x HB Hx) as (Bi1 & Bi2).
  assert (Hx' := Hx). apply ifs_in2 in Hx'. destruct Hx' as (Hi & Hf).
  destruct x as [ie f]. cbn [fst snd] in *. pose proof (maxc ie Hi) as Mi.
  pose proof HB as (B1 & B2 & B3 & B4 & B5 & B6 & B7 & B8 & B9).
  unfold int_step. cbn [fst snd]. rewrite I3. rewrite get2_ok by lia. cbn [bind].
  change ((Z.of_nat ie <? at2 (esuel s1) ie f)%Z && (at2 (esuel s1) ie f <? Z.of_nat ne)%Z)
    with (isint ne (at2 (esuel s1)) (ie, f)). rewrite Bi1.
  destruct (isint ne (at2 E) (ie, f)) eqn:Bx.
  - rewrite Bi2 by auto.
    assert (Hr : (Z.of_nat ie < at2 E ie f < Z.of_nat ne)%Z).
    { unfold isint in Bx. cbn in Bx. apply andb_true_iff in Bx. rewrite !Z.ltb_lt in Bx. auto. }
    set (jn := Z.to_nat (at2 E ie f)). assert (Hjn : at2 E ie f = Z.of_nat jn) by (unfold jn; rewrite Z2Nat.id; lia).
    assert (Hj : jn < ne) by lia. assert (Hne : jn <> ie) by lia.
    assert (Ax : across cs ie f jn) by (apply across_E; auto).
    destruct (cell_valid _ _ ie Hv Hi) as (Ni & Di & _). destruct (cell_valid _ _ jn Hv Hj) as (Nj & Dj & _). fold cs in Ni, Di, Nj, Dj.
    rewrite inpoel_ok by auto. cbn [bind]. rewrite inpoel_ok by (auto; apply next_lt; auto). cbn [bind]. fold cs.
    set (v0 := nth f (cell cs ie) 0). set (v1 := nth ((f + 1) mod length (cell cs ie)) (cell cs ie) 0).
    pose proof (ibl_le pre (ie, f) post El Bx) as Lim.
    rewrite aset_ok by lia. cbn [bind]. rewrite set2_ok by lia. cbn [bind].
    rewrite nnode_ok by auto. cbn [bind]. fold cs.
    destruct (node_scan jn v1 fi (mk2 (rows (elemface s)) (cols (elemface s)) (upd2 (at2 (elemface s)) ie f fi)) Hj I5 I6)
      as (EF' & EE & R' & C' & A'). rewrite EE. cbn [bind]. eexists; split; [reflexivity|].
    unfold int_inv. cbn [fst snd intfac elemface esuel btags alen aat]. rewrite ibl_app, app_length, ibl_one.
    change (length cs) with ne. rewrite Bx. cbn [length].
    do 6 (split; [try lia; auto|]). split; [|split].
    + intros k Hk. rewrite upd_ne by lia. auto.
    + intros k Hk. unfold upd. destruct (Nat.eqb_spec (nb + k) fi).
      * replace k with (length (ibl cs (at2 E) pre)) by lia. rewrite app_nth2 by lia. rewrite Nat.sub_diag. reflexivity.
      * rewrite app_nth1 by lia. apply I8. lia.
    + intros Or i g Cov. specialize (I9 Or).
      (* the right cell's face *)
      pose proof Ax as (_ & _ & _ & _ & gj & Hgj & Sgj).
      pose proof (Or ie f jn gj Hi Hj ltac:(lia) Hf Hgj Sgj) as Og.
      assert (Hgv : nth gj (cell cs jn) 0 = v1) by (unfold edge in Og; cbn in Og; inversion Og; auto).
      assert (Huniq : forall k, k < length (cell cs jn) -> nth k (cell cs jn) 0 = v1 -> k = gj).
      { intros k Hk Ek. apply (NoDup_nth_inj (cell cs jn)); auto. congruence. }
      unfold good. cbn [intfac elemface esuel aat]. rewrite A'. cbn [at2].
      destruct ((i =? jn) && (g <? length (cell cs jn)) && (nth g (cell cs jn) 0 =? v1)) eqn:Bw.
      { apply andb_true_iff in Bw. destruct Bw as (Bw & Bw3). apply andb_true_iff in Bw. destruct Bw as (Bw1 & Bw2).
        apply Nat.eqb_eq in Bw1, Bw3. apply Nat.ltb_lt in Bw2. subst i. pose proof (Huniq g Bw2 Bw3). subst g.
        rewrite upd_eq. cbn [f_a f_b f_left f_right]. split; [lia|]. split; [exact Sgj|]. right. split; auto.
        destruct (across_sym cs ie f jn Ax) as (gg & Ag & Sg).
        assert (gg = gj). { apply (edge_unique (cell cs jn)); auto. apply Ag. apply same_edge_trans with (edge (cell cs ie) f); auto. apply same_edge_sym; auto. }
        subst gg. apply across_E in Ag. destruct Ag as (_ & _ & Eg).
        rewrite <- Eg. apply B9. intros q Hq Eq. apply (host_no_across q (jn, gj) ie Eq). apply across_E; auto. }
      rewrite upd2_spec. destruct ((i =? ie) && (g =? f)) eqn:Bl.
      { apply andb_true_iff in Bl. rewrite !Nat.eqb_eq in Bl. destruct Bl as [-> ->].
        rewrite upd_eq. cbn [f_a f_b f_left f_right]. split; [lia|]. split; [left; reflexivity|]. left. split; auto.
        rewrite Bi2 by auto. auto. }
      (* not written in this step *)
      assert (Cov' : covered pre i g).
      { destruct Cov as [Cov|(x & Hin & Bx' & Cx)]; [left; auto|right]. apply in_app_or in Hin. destruct Hin as [Hin|[<-|[]]].
        - exists x. auto.
        - exfalso. destruct Cx as [Cx|(C1 & C2 & C3)].
          + inversion Cx; subst. rewrite !Nat.eqb_refl in Bl. discriminate.
          + cbn [fst snd] in *. assert (i = jn) by lia. subst i.
            assert (g = gj). { apply (edge_unique (cell cs jn)); auto. apply same_edge_trans with (edge (cell cs ie) f); auto. apply same_edge_sym; auto. }
            subst g. rewrite Nat.eqb_refl, Hgv, Nat.eqb_refl in Bw. apply Nat.ltb_lt in C2. rewrite C2 in Bw. discriminate. }
      destruct (I9 i g Cov') as (G1 & G2 & G3). rewrite I3 in G3. rewrite upd_ne by lia. split; [lia|]. split; auto.
  - eexists; split; [reflexivity|]. unfold int_inv. cbn [fst snd]. rewrite ibl_app, ibl_one. change (length cs) with ne. rewrite Bx, app_nil_r.
    do 8 (split; [auto|]). intros Or i g Cov. apply I9; auto.
    destruct Cov as [Cov|(x & Hin & Bx' & Cx)]; [left; auto|right]. apply in_app_or in Hin. destruct Hin as [Hin|[<-|[]]].
    + exists x; auto.
    + congruence.
Qed.

Lemma int_loop : forall s1, bnd_inv nb s1 -> exists st, ofold int_step (ifs cs) (nb, s1) = Some st /\ int_inv s1 (ifs cs) st.
Proof.
  intros s1 HB. pose proof HB as (B1 & B2 & B3 & B4 & B5 & B6 & B7 & B8 & B9).
  apply (ofold_inv _ _ (int_inv s1)).
  - unfold int_inv. cbn. do 5 (split; [try lia; auto|]). split; [auto|]. split; [auto|]. split; [intros; lia|].
    intros Or i f [(q & Eq)|(x & [] & _)].
    assert (Hq : q < nb) by (destruct Hh as (Lh & _); unfold nb; rewrite <- Lh; apply nth_error_Some; congruence).
    destruct (B8 i f) as (q' & Q1 & Q2 & Q3 & Q4); [eauto|].
    destruct (nth_error_some _ (bfaces m) q' Q1) as (bf & Eb).
    destruct (B7 q' bf (i, f) Q1 Eb Q2) as (Fq & _).
    unfold good. rewrite Q4, Fq. cbn [bface_entry f_a f_b f_left f_right fst snd]. split; [lia|].
    destruct Hh as (Lh & Hh'). destruct (Hh' q' bf (i, f) Eb Q2) as (_ & _ & _ & _ & Se & _). split; auto.
  - intros pre x post st El I. eapply int_step_ok; eauto.
Qed.

(** after the connectivity faces *)
Definition conn_entry (k : nat) (cf : cfrec) : face :=
  let ed := edge (cell cs (cf_elem cf)) (cf_face cf) in mkface (cf_elem cf) (ne + k) (fst ed) (snd ed).
Definition conn_inv (s2 : fconn) (k : nat) (s : fconn) : Prop :=
  alen (intfac s) = ni + nb + nc /\ btags s = btags s2 /\
  rows (elemface s) = ne /\ cols (elemface s) = maxnfael m /\ rows (esuel s) = ne /\ cols (esuel s) = maxnfael m /\
  (forall q, q < nb + ni -> aat (intfac s) q = aat (intfac s2) q) /\
  (forall q cf, q < k -> nth_error (conns m) q = Some cf -> aat (intfac s) (nb + ni + q) = conn_entry q cf) /\
  (forall i f, good (nb + ni) s2 i f -> good (nb + ni + k) s i f) /\
  (forall q cf, q < k -> nth_error (conns m) q = Some cf -> good (nb + ni + k) s (cf_elem cf) (cf_face cf)) /\
  (forall i f, (forall q cf, q < k -> nth_error (conns m) q = Some cf -> (cf_elem cf, cf_face cf) <> (i, f)) ->
     at2 (esuel s) i f = at2 (esuel s2) i f).

Lemma conn_loop : forall s1 s2, bnd_inv nb s1 -> int_inv s1 (ifs cs) (nb + ni, s2) -> exists s,
  floop nc (fun ic s =>
      cf <- nth_error (conns m) ic ;;
      let iface := nb + ni + ic in
      ES <- set2 (esuel s) (cf_elem cf) (cf_face cf) (Z.of_nat (ne + ic)) ;;
      EF <- set2 (elemface s) (cf_elem cf) (cf_face cf) iface ;;
      k0 <- getNodeEIndex m (cf_elem cf) (cf_face cf) 0 ;; v0 <- inpoel m (cf_elem cf) k0 ;;
      k1 <- getNodeEIndex m (cf_elem cf) (cf_face cf) 1 ;; v1 <- inpoel m (cf_elem cf) k1 ;;
      F <- aset (intfac s) iface (mkface (cf_elem cf) (ne + ic) v0 v1) ;;
      Some (mkfc F EF ES (btags s))) s2 = Some s /\ conn_inv s2 nc s.
Proof.
  intros s1 s2 (B1 & B2 & B3 & B4 & B5 & B6 & _) (I1 & I2 & I3 & I4 & I5 & I6 & _). cbn [fst snd] in *.
  apply (floop_inv _ (conn_inv s2)).
  - unfold conn_inv. rewrite I3. rewrite Nat.add_0_r. do 6 (split; [auto; congruence|]). split; [auto|]. split; [intros; lia|]. split; [auto|]. split; [intros; lia|]. auto.
  - intros k s Hk (A1 & A2 & A3 & A4 & A5 & A6 & A7 & A8 & A9 & A10 & A11).
    destruct (nth_error_some _ (conns m) k Hk) as (cf & Ec). rewrite Ec. cbn [bind]. cbv zeta.
    destruct (Hc cf (nth_error_In _ _ Ec)) as (C1 & C2). pose proof (maxc _ C1) as Mc.
    destruct (cell_valid _ _ (cf_elem cf) Hv C1) as (Ni & Di & _). fold cs in Ni, Di.
    rewrite set2_ok by lia. cbn [bind]. rewrite set2_ok by lia. cbn [bind].
    unfold getNodeEIndex. rewrite nnode_ok by auto. cbn [bind]. fold cs. rewrite Nat.add_0_r, (Nat.mod_small (cf_face cf)) by auto.
    rewrite inpoel_ok by auto. cbn [bind]. rewrite inpoel_ok by (auto; apply next_lt; auto). cbn [bind]. fold cs.
    rewrite aset_ok by lia. cbn [bind]. eexists; split; [reflexivity|].
    assert (GG : good (nb + ni + (k + 1)) (mkfc (mkarr (alen (intfac s)) (upd (aat (intfac s)) (nb + ni + k)
         (mkface (cf_elem cf) (ne + k) (nth (cf_face cf) (cell cs (cf_elem cf)) 0) (nth ((cf_face cf + 1) mod length (cell cs (cf_elem cf))) (cell cs (cf_elem cf)) 0))))
         (mk2 (rows (elemface s)) (cols (elemface s)) (upd2 (at2 (elemface s)) (cf_elem cf) (cf_face cf) (nb + ni + k)))
         (mk2 (rows (esuel s)) (cols (esuel s)) (upd2 (at2 (esuel s)) (cf_elem cf) (cf_face cf) (Z.of_nat (ne + k)))) (btags s)) (cf_elem cf) (cf_face cf)).
    { unfold good. cbn [intfac elemface esuel aat at2]. rewrite !upd2_eq, upd_eq. cbn [f_a f_b f_left f_right]. split; [lia|]. split; [left; reflexivity|]. left; auto. }
    assert (GK : forall i f, good (nb + ni + k) s i f -> good (nb + ni + (k + 1)) (mkfc (mkarr (alen (intfac s)) (upd (aat (intfac s)) (nb + ni + k)
         (mkface (cf_elem cf) (ne + k) (nth (cf_face cf) (cell cs (cf_elem cf)) 0) (nth ((cf_face cf + 1) mod length (cell cs (cf_elem cf))) (cell cs (cf_elem cf)) 0))))
         (mk2 (rows (elemface s)) (cols (elemface s)) (upd2 (at2 (elemface s)) (cf_elem cf) (cf_face cf) (nb + ni + k)))
         (mk2 (rows (esuel s)) (cols (esuel s)) (upd2 (at2 (esuel s)) (cf_elem cf) (cf_face cf) (Z.of_nat (ne + k)))) (btags s)) i f).
    { intros i f G. destruct (Nat.eq_dec i (cf_elem cf)); [destruct (Nat.eq_dec f (cf_face cf))|].
      - subst i f. exact GG.
      - destruct G as (G1 & G2 & G3). unfold good. cbn [intfac elemface esuel aat at2]. rewrite !upd2_ne by auto. rewrite upd_ne by lia. split; [lia|]. auto.
      - destruct G as (G1 & G2 & G3). unfold good. cbn [intfac elemface esuel aat at2]. rewrite !upd2_ne by auto. rewrite upd_ne by lia. split; [lia|]. auto. }
    unfold conn_inv. cbn [intfac btags elemface esuel alen rows cols].
    do 6 (split; [auto|]). split; [|split; [|split; [|split]]].
    + intros q Hq. cbn [aat]. rewrite upd_ne by lia. auto.
    + intros q cf' Hq Ec'. cbn [aat]. unfold upd. destruct (Nat.eqb_spec (nb + ni + q) (nb + ni + k)).
      * assert (q = k) by lia. subst q. rewrite Ec in Ec'. inversion Ec'; subst cf'. reflexivity.
      * apply A8; auto. lia.
    + intros i f G. apply GK. apply A9. auto.
    + intros q cf' Hq Ec'. destruct (Nat.eq_dec q k).
      * subst q. rewrite Ec in Ec'. inversion Ec'; subst cf'. exact GG.
      * apply GK. apply (A10 q); auto. lia.
    + intros i f N. cbn [at2]. rewrite upd2_ne.
      * apply A11. intros q cf' Hq Ec'. apply (N q); auto. lia.
      * specialize (N k cf ltac:(lia) Ec). destruct (Nat.eq_dec i (cf_elem cf)); [|auto]; destruct (Nat.eq_dec f (cf_face cf)); auto; subst; congruence.
Qed.

(** The whole routine. *)
Lemma faceConnectivity_ok : forall jf je jt, exists s,
  faceConnectivity m p e E jf je jt = Some (Val (ni, s)) /\
  alen (intfac s) = nb + ni + nc /\
  (forall q bf h, nth_error (bfaces m) q = Some bf -> nth_error hs q = Some h ->
     aat (intfac s) q = bface_entry q bf h /\ aat (btags s) q = btg bf) /\
  (forall k, k < ni -> aat (intfac s) (nb + k) = nth k il (mkface 0 0 0 0)) /\
  (forall q cf, nth_error (conns m) q = Some cf -> aat (intfac s) (nb + ni + q) = conn_entry q cf) /\
  (oriented cs -> forall i f, i < ne -> f < length (cell cs i) ->
     ((exists j, across cs i f j) \/ In (i, f) hs \/ (exists cf, In cf (conns m) /\ (cf_elem cf, cf_face cf) = (i, f))) ->
     good (nb + ni + nc) s i f).
Proof.
  intros. unfold faceConnectivity. cbv zeta. fold ne nb nc.
  rewrite count_ok. cbn [lift ebind].
  rewrite (hosts_all m Hv p e Hes hs Hh). cbn [ebind].
  destruct (bnd_loop jf je jt) as (s1 & E1 & HB). rewrite E1. cbn [lift ebind].
  pose proof (loop_ifs _ m (fun ie n f (st : nat * fconn) =>
        let '(fi, s) := st in
        j <- get2 (esuel s) ie f ;;
        if (Z.of_nat ie <? j)%Z && (j <? Z.of_nat ne)%Z then
          let jn := Z.to_nat j in
          let f1 := (f + 1) mod n in
          v0 <- inpoel m ie f ;; v1 <- inpoel m ie f1 ;;
          F <- aset (intfac s) fi (mkface ie jn v0 v1) ;;
          EF <- set2 (elemface s) ie f fi ;;
          nj <- nnode m jn ;;
          EF' <- floop nj (fun jnode EF =>
                   w <- inpoel m jn jnode ;;
                   if v1 =? w then set2 EF jn jnode fi else Some EF) EF ;;
          Some (fi + 1, mkfc F EF' (esuel s) (btags s))
        else Some st) (nb, s1)) as LI.
  cbv zeta in LI. fold ne in LI. rewrite LI. clear LI.
  destruct (int_loop s1 HB) as ([fi s2] & E2 & I2).
  change (ofold _ _ _) with (ofold int_step (ifs cs) (nb, s1)). rewrite E2. cbn [lift ebind snd].
  assert (fi = nb + ni) by (destruct I2 as (I & _); exact I). subst fi.
  destruct (conn_loop s1 s2 HB I2) as (s3 & E3 & I3). cbv zeta in E3. rewrite E3. cbn [lift ebind].
  exists s3. split; [reflexivity|].
  destruct HB as (B1 & B2 & B3 & B4 & B5 & B6 & B7 & B8 & B9).
  destruct I2 as (J1 & J2 & J3 & J4 & J5 & J6 & J7 & J8 & J9). cbn [fst snd] in *.
  destruct I3 as (A1 & A2 & A3 & A4 & A5 & A6 & A7 & A8 & A9 & A10 & A11).
  split; [lia|]. split; [|split; [|split]].
  - intros q bf h Eb Eh. assert (q < nb) by (apply nth_error_Some; congruence).
    rewrite A7 by lia. rewrite J7 by auto. rewrite A2, J4. apply B7; auto.
  - intros k Hk. rewrite A7 by lia. apply J8. exact Hk.
  - intros q cf Ec. apply A8; auto. apply nth_error_Some. congruence.
  - intros Or i f Hi Hf [(j & A)|[Hin|(cf & Hin & Ecf)]].
    + apply A9. apply J9; auto. right.
      pose proof A as (_ & _ & A3' & A4' & _).
      destruct (Nat.lt_ge_cases i j).
      * exists (i, f). split; [apply ifs_in; auto|]. apply across_E in A. destruct A as (_ & _ & A). split; auto.
        unfold isint. cbn [fst snd]. rewrite A. apply andb_true_iff. rewrite !Z.ltb_lt. change (j < ne) in A3'. lia.
      * destruct (across_sym cs i f j A) as (g & Ag & Sg).
        pose proof Ag as (G1 & G2 & G3 & _). apply across_E in Ag. destruct Ag as (_ & _ & Ag).
        exists (j, g). split; [apply ifs_in; auto|]. split.
        -- unfold isint. cbn [fst snd]. rewrite Ag. apply andb_true_iff. rewrite !Z.ltb_lt. change (i < ne) in G3. lia.
        -- right. cbn [fst snd]. split; auto. split; auto. apply same_edge_sym; auto.
    + apply A9. apply J9; auto. left. apply In_nth_error in Hin. auto.
    + inversion Ecf; subst. apply In_nth_error in Hin. destruct Hin as (q & Eq). apply (A10 q); auto.
      apply nth_error_Some. congruence.
Qed.

(** the interior part of the list *)
Lemma il_spec : forall fc, In fc il <-> exists f, across cs (f_left fc) f (f_right fc) /\ f_left fc < f_right fc /\
   (f_a fc, f_b fc) = edge (cell cs (f_left fc)) f.
Proof.
  intros fc. unfold il, ibl. rewrite in_map_iff. split.
  - intros ([i f] & Ef & Hin). apply filter_In in Hin. destruct Hin as (Hin & B). apply ifs_in2 in Hin.
    unfold isint in B. apply andb_true_iff in B. rewrite !Z.ltb_lt in B. cbn [fst snd] in *.
    subst fc. exists f. unfold mkint. cbn [f_left f_right f_a f_b fst snd]. split; [|split; [lia|reflexivity]].
    apply across_E. split; [apply Hin|]. split; [apply Hin|]. rewrite Z2Nat.id; lia.
  - intros (f & A & Lt & Ed). exists (f_left fc, f). pose proof A as (A1 & A2 & A3 & _). apply across_E in A. destruct A as (_ & _ & A).
    split.
    + unfold mkint. cbn [fst snd]. rewrite A, Nat2Z.id, <- Ed. destruct fc; reflexivity.
    + apply filter_In. split; [apply ifs_in; auto|]. unfold isint. cbn [fst snd]. rewrite A. apply andb_true_iff.
      rewrite !Z.ltb_lt. lia.
Qed.
Lemma il_nodup : NoDup il.
Proof.
  unfold il, ibl.
  assert (G : forall l, NoDup l -> (forall x, In x l -> In x (ifs cs)) -> NoDup (map (mkint cs (at2 E)) l)).
  { induction l as [|x l IH]; intros N Hl; cbn; constructor.
    - intros Hin. apply in_map_iff in Hin. destruct Hin as (y & Ey & Hy). inversion N; subst.
      assert (Hx := Hl x (or_introl eq_refl)). assert (Hy' := Hl y (or_intror Hy)). apply ifs_in2 in Hx, Hy'.
      unfold mkint in Ey. inversion Ey as [[E1 E2 E3 E4]]. destruct x as [i f]; destruct y as [j g]; cbn [fst snd] in *. subst j.
      destruct (cell_valid _ _ i Hv ltac:(apply Hx)) as (Ni & Di & _).
      assert (g = f). { apply (edge_unique (cell cs i)); try tauto; auto. left. unfold edge. fold cs. congruence. }
      subst g. auto.
    - apply IH. inversion N; auto. intros; apply Hl; right; auto. }
  apply G. apply NoDup_filter, ifs_nodup. intros x Hx. apply filter_In in Hx. apply Hx.
Qed.
End Faces.
