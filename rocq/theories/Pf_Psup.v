(** compute_pointsSurroundingPoints. *)
From Coq Require Import List Arith Lia ZArith Bool.
From Verif Require Import Base M_Mesh M_MeshUtil S_Mesh Pf_Esup Pf_Esuel Pf_Host.
Import ListNotations.
Open Scope nat_scope.

(** an edge of some cell joins p and q *)
Definition joined (cs : list (list nat)) (p q : nat) : Prop :=
  exists i f, i < length cs /\ f < length (cell cs i) /\ same_edge (p, q) (edge (cell cs i) f).

(** the new points of a list of candidates, in order of first occurrence, without [ip] *)
Definition news_step (ip : nat) (out : list nat) (x : nat) : list nat :=
  if (x =? ip) || existsb (Nat.eqb x) out then out else out ++ [x].
Definition news (ip : nat) (l : list nat) : list nat := fold_left (news_step ip) l [].
Lemma news_snoc ip l x : news ip (l ++ [x]) = news_step ip (news ip l) x.
Proof. unfold news. rewrite fold_left_app. reflexivity. Qed.
Lemma existsb_In x l : existsb (Nat.eqb x) l = true <-> In x l.
Proof. rewrite existsb_exists. split. intros (y & H & E). apply Nat.eqb_eq in E. subst; auto. intros H. exists x. split; auto. apply Nat.eqb_refl. Qed.
Lemma news_in ip l x : In x (news ip l) <-> In x l /\ x <> ip.
Proof.
  induction l as [|y l IH] using rev_ind; [cbn; tauto|]. rewrite news_snoc. unfold news_step.
  destruct (Nat.eqb_spec y ip); cbn [orb].
  - rewrite IH, in_app_iff. cbn. intuition congruence.
  - destruct (existsb (Nat.eqb y) (news ip l)) eqn:Ex.
    + apply existsb_In in Ex. rewrite IH, in_app_iff. cbn. split; [tauto|]. intros [[K|[K|[]]] N]; auto. subst y. apply IH; auto.
    + rewrite !in_app_iff, IH. cbn. intuition (subst; auto).
Qed.
Lemma nodup_snoc : forall (l : list nat) y, NoDup l -> ~ In y l -> NoDup (l ++ [y]).
Proof.
  induction l as [|a l IHl]; intros y N Ny; cbn; [repeat constructor; auto|]. inversion N; subst. constructor.
  - rewrite in_app_iff. cbn. intros [?|[?|[]]]; auto. subst. apply Ny. left; auto.
  - apply IHl; auto. intros ?. apply Ny. right; auto.
Qed.
Lemma news_nodup ip l : NoDup (news ip l).
Proof.
  induction l as [|y l IH] using rev_ind; [constructor|]. rewrite news_snoc. unfold news_step.
  destruct ((y =? ip) || existsb (Nat.eqb y) (news ip l)) eqn:Ex; auto. apply orb_false_iff in Ex. destruct Ex as (_ & Ex).
  apply nodup_snoc; auto. intros H. apply existsb_In in H. congruence.
Qed.

Section Psup.
Variable m : umesh.
Notation cs := (cells m).
Hypothesis Hv : valid_cells (npoin m) cs.
Hypothesis H34 : forall c, In c cs -> length c = 3 \/ length c = 4.
Variables p e : arr nat.
Hypothesis Hes : esup_ok (npoin m) cs p e.

(** position of a point in a cell *)
Lemma inode_ok i f : i < nelem m -> f < length (cell cs i) -> psup_inode m i (nth f (cell cs i) 0) = Some (Z.of_nat f).
Proof.
  intros Hi Hf. unfold psup_inode. rewrite nnode_ok by auto. cbn [bind]. destruct (cell_valid _ _ i Hv Hi) as (N3 & ND & _).
  match goal with |- context [floop _ ?bb ?ss] =>
    destruct (floop_inv _ (fun j r => r = if f <? j then Z.of_nat f else (-1)%Z) (length (cell cs i)) bb ss) as (r & E & I) end.
  - reflexivity.
  - intros j r Hj ->. rewrite inpoel_ok by auto. cbn [bind]. eexists; split; [reflexivity|].
    destruct (Nat.eqb_spec (nth j (cell cs i) 0) (nth f (cell cs i) 0)) as [E|E].
    + apply NoDup_nth_inj in E; auto. subst j. destruct (Nat.ltb_spec f (f + 1)); [auto|lia].
    + assert (j <> f) by congruence. destruct (Nat.ltb_spec f j); destruct (Nat.ltb_spec f (j + 1)); auto; lia.
  - rewrite E, I. destruct (Nat.ltb_spec f (length (cell cs i))); [auto|lia].
Qed.

(** candidates contributed by one cell around point ip *)
Definition conn_to (ip i j : nat) : bool :=
  let c := cell cs i in
  existsb (fun f => (nth f c 0 =? ip) && psup_nbd (length c) (Z.of_nat f) j) (seq 0 (length c)).
Definition cands1 (ip i : nat) : list nat :=
  map (fun j => nth j (cell cs i) 0) (filter (conn_to ip i) (seq 0 (length (cell cs i)))).
Definition cands (ip : nat) : list nat := flat_map (cands1 ip) (cells_around cs ip).

Lemma conn_to_ok ip i f j : i < nelem m -> f < length (cell cs i) -> nth f (cell cs i) 0 = ip ->
  conn_to ip i j = psup_nbd (length (cell cs i)) (Z.of_nat f) j.
Proof.
  intros Hi Hf E. unfold conn_to. destruct (cell_valid _ _ i Hv Hi) as (N3 & ND & _).
  destruct (psup_nbd (length (cell cs i)) (Z.of_nat f) j) eqn:B.
  - apply existsb_exists. exists f. split; [apply in_seq; lia|]. rewrite E, Nat.eqb_refl, B. reflexivity.
  - apply not_true_iff_false. rewrite existsb_exists. intros (g & Hg & K). apply in_seq in Hg. apply andb_true_iff in K. destruct K as (K1 & K2).
    apply Nat.eqb_eq in K1. assert (g = f) by (apply (NoDup_nth_inj (cell cs i)); auto; try lia; congruence). subst g. congruence.
Qed.

Lemma nbd_edge i f j : i < nelem m -> f < length (cell cs i) -> j < length (cell cs i) -> j <> f ->
  (psup_nbd (length (cell cs i)) (Z.of_nat f) j = true <->
   exists g, g < length (cell cs i) /\ same_edge (nth f (cell cs i) 0, nth j (cell cs i) 0) (edge (cell cs i) g)).
Proof.
  intros Hi Hf Hj Hne. destruct (cell_valid _ _ i Hv Hi) as (N3 & ND & _).
  assert (L : length (cell cs i) = 3 \/ length (cell cs i) = 4) by (apply H34; apply nth_In; auto).
  (* adjacency of positions *)
  assert (P : (exists g, g < length (cell cs i) /\ same_edge (nth f (cell cs i) 0, nth j (cell cs i) 0) (edge (cell cs i) g)) <->
              (j = (f + 1) mod length (cell cs i) \/ f = (j + 1) mod length (cell cs i))).
  { set (c := cell cs i) in *. assert (NX : forall k, (k + 1) mod length c < length c) by (intros; apply next_lt; auto). split.
    - intros (g & Hg & [E|E]); unfold edge in E; cbn in E; inversion E as [[E1 E2]]; apply NoDup_nth_inj in E1; auto; apply NoDup_nth_inj in E2; auto; subst; auto.
    - intros [E|E].
      + exists f. split; auto. left. unfold edge. congruence.
      + exists j. split; auto. right. unfold edge. cbn. congruence. }
  rewrite P. clear P. unfold psup_nbd. set (n := length (cell cs i)) in *. clearbody n.
  destruct L as [-> | ->].
  - change (3 =? 3) with true. cbv iota. split; auto. intros _. 
    destruct f as [|[|[|f]]]; destruct j as [|[|[|j]]]; try lia; cbn; auto.
  - change (4 =? 3) with false. change (4 =? 4) with true. cbv iota. rewrite orb_true_iff, !Z.eqb_eq.
    destruct f as [|[|[|[|f]]]]; destruct j as [|[|[|[|j]]]]; try lia; cbn; split; intros [K|K]; try discriminate; auto.
Qed.

Lemma cands_in ip q : q <> ip -> (In q (cands ip) <-> joined cs ip q).
Proof.
  intros Hq. unfold cands. rewrite in_flat_map. split.
  - intros (i & Hi & H). apply cells_around_in in Hi. destruct Hi as (Hi & Hip). apply (In_nth _ _ 0) in Hip. destruct Hip as (f & Hf & Ef).
    unfold cands1 in H. apply in_map_iff in H. destruct H as (j & Ej & Hj). apply filter_In in Hj. destruct Hj as (Hj & B). apply in_seq in Hj.
    rewrite (conn_to_ok ip i f) in B by (auto; lia). apply nbd_edge in B; try lia; auto; [|intros ->; congruence].
    destruct B as (g & Hg & S). exists i, g. rewrite Ef, Ej in S. auto.
  - intros (i & g & Hi & Hg & S). destruct (cell_valid _ _ i Hv Hi) as (N3 & ND & _).
    assert (Q : exists f j, f < length (cell cs i) /\ j < length (cell cs i) /\ nth f (cell cs i) 0 = ip /\ nth j (cell cs i) 0 = q).
    { pose proof (next_lt g _ N3). destruct S as [S|S]; unfold edge in S; cbn in S; inversion S; subst.
      - exists g, ((g + 1) mod length (cell cs i)). auto.
      - exists ((g + 1) mod length (cell cs i)), g. auto. }
    destruct Q as (f & j & Hf & Hj & Ef & Ej). exists i. split.
    + apply cells_around_in. split; auto. rewrite <- Ef. apply nth_In; auto.
    + unfold cands1. apply in_map_iff. exists j. split; auto. apply filter_In. split; [apply in_seq; lia|].
      rewrite (conn_to_ok ip i f) by auto. apply nbd_edge; auto. intros ->; congruence. exists g. split; auto. rewrite Ef, Ej. auto.
Qed.

Lemma news_app : forall ip l2 l1, exists r, news ip (l1 ++ l2) = news ip l1 ++ r.
Proof.
  intros ip l2. induction l2 as [|x l2 IH] using rev_ind; intros l1.
  - exists []. rewrite !app_nil_r. auto.
  - destruct (IH l1) as (r & E). rewrite app_assoc, news_snoc. unfold news_step. rewrite E.
    match goal with |- context [if ?b then _ else _] => destruct b end; [eauto|]. exists (r ++ [x]). rewrite app_assoc. auto.
Qed.

Section Point.
Variable S : Type.
Variable act : nat -> S -> option S.
Variable Q : list nat -> S -> Prop.
Variable ip : nat.
Hypothesis Hip : ip < npoin m.
Hypothesis Hact : forall out x r s, news ip (cands ip) = out ++ x :: r -> Q out s ->
  exists s', act x s = Some s' /\ Q (out ++ [x]) s'.

Definition pinv_ (pre : list nat) (s : S * arr Z) : Prop :=
  Q (news ip pre) (fst s) /\ alen (snd s) = npoin m /\
  (forall k, k < npoin m -> (aat (snd s) k = Z.of_nat ip <-> k = ip \/ In k (news ip pre))) /\
  (forall k, k < npoin m -> (aat (snd s) k <= Z.of_nat ip)%Z).

Lemma pstep pre x post s : cands ip = pre ++ x :: post -> x < npoin m -> pinv_ pre s ->
  exists s', (l <- aget (snd s) x ;;
      if negb (l =? Z.of_nat ip)%Z then
        s' <- act x (fst s) ;; lp <- aset (snd s) x (Z.of_nat ip) ;; Some (s', lp)
      else Some s) = Some s' /\ pinv_ (pre ++ [x]) s'.
Proof.
  intros Hc Hx (I1 & I2 & I3 & I4). rewrite aget_ok by lia. cbn [bind].
  destruct (Z.eqb_spec (aat (snd s) x) (Z.of_nat ip)) as [E|E]; cbn [negb].
  - exists s. split; auto. apply I3 in E; auto.
    assert (NE : news ip (pre ++ [x]) = news ip pre).
    { rewrite news_snoc. unfold news_step. destruct E as [->|E]; [rewrite Nat.eqb_refl; auto|]. apply existsb_In in E. rewrite E, orb_true_r. auto. }
    unfold pinv_. rewrite NE. auto.
  - assert (Nx : ~ (x = ip \/ In x (news ip pre))) by (rewrite <- I3; auto).
    assert (NE : news ip (pre ++ [x]) = news ip pre ++ [x]).
    { rewrite news_snoc. unfold news_step. destruct (Nat.eqb_spec x ip); [tauto|]. destruct (existsb (Nat.eqb x) (news ip pre)) eqn:B; auto. apply existsb_In in B. tauto. }
    destruct (news_app ip post (pre ++ [x])) as (r & Er). rewrite <- app_assoc in Er. cbn [app] in Er. rewrite <- Hc, NE, <- app_assoc in Er.
    destruct (Hact _ _ _ _ Er I1) as (s' & Ea & Qa). rewrite Ea. cbn [bind]. rewrite aset_ok by lia. cbn [bind].
    eexists. split; [reflexivity|]. unfold pinv_. cbn [fst snd alen aat]. rewrite NE. split; [exact Qa|]. split; [exact I2|]. split.
    + intros k Hk. unfold upd. rewrite in_app_iff. cbn. destruct (Nat.eqb_spec k x) as [->|n]; [intuition|]. rewrite I3 by auto. intuition congruence.
    + intros k Hk. unfold upd. destruct (Nat.eqb_spec k x); [lia|auto].
Qed.

Lemma filter_seq_snoc (f : nat -> bool) j : filter f (seq 0 (j + 1)) = filter f (seq 0 j) ++ if f j then [j] else [].
Proof. rewrite seq_app, filter_app. cbn. destruct (f j); auto. Qed.
Lemma filter_seq_split (f : nat -> bool) j n : j < n -> f j = true ->
  filter f (seq 0 n) = filter f (seq 0 j) ++ j :: filter f (seq (j + 1) (n - (j + 1))).
Proof.
  intros Hj B. replace n with (j + (1 + (n - (j + 1)))) at 1 by lia. rewrite seq_app, filter_app. cbn. rewrite B.
  replace (Datatypes.S j) with (j + 1) by lia. auto.
Qed.

Lemma pcell i pre post s : i < nelem m -> In ip (cell cs i) -> cells_around cs ip = pre ++ i :: post ->
  pinv_ (flat_map (cands1 ip) pre) s ->
  exists s', (inode <- psup_inode m i ip ;;
    n <- nnode m i ;;
    floop n (fun j s =>
      jpoin <- inpoel m i j ;;
      l <- aget (snd s) jpoin ;;
      if negb (l =? Z.of_nat ip)%Z && psup_nbd n inode j then
        s' <- act jpoin (fst s) ;; lp <- aset (snd s) jpoin (Z.of_nat ip) ;; Some (s', lp)
      else Some s) s) = Some s' /\ pinv_ (flat_map (cands1 ip) (pre ++ [i])) s'.
Proof.
  intros Hi Hin Hc HI. apply (In_nth _ _ 0) in Hin. destruct Hin as (f & Hf & Ef).
  assert (EI : psup_inode m i ip = Some (Z.of_nat f)) by (rewrite <- Ef; apply inode_ok; auto). rewrite EI. cbn [bind]. rewrite nnode_ok by auto. cbn [bind]. rewrite flat_map_app. cbn [flat_map]. rewrite app_nil_r.
  destruct (cell_valid _ _ i Hv Hi) as (N3 & ND & Hb).
  match goal with |- context [floop _ ?bb ?ss] =>
    destruct (floop_inv _ (fun j s => pinv_ (flat_map (cands1 ip) pre ++ map (fun j => nth j (cell cs i) 0) (filter (conn_to ip i) (seq 0 j))) s)
      (length (cell cs i)) bb ss) as (r & E & I) end.
  - cbn. rewrite app_nil_r. exact HI.
  - intros j s1 Hj I. rewrite inpoel_ok by auto. cbn [bind].
    assert (Hx : nth j (cell cs i) 0 < npoin m) by (apply Hb; apply nth_In; auto).
    rewrite filter_seq_snoc, map_app, app_assoc. rewrite (conn_to_ok ip i f) by auto.
    destruct (psup_nbd (length (cell cs i)) (Z.of_nat f) j) eqn:B.
    + assert (Hp : cands ip = (flat_map (cands1 ip) pre ++ map (fun j => nth j (cell cs i) 0) (filter (conn_to ip i) (seq 0 j))) ++ nth j (cell cs i) 0 ::
          (map (fun j => nth j (cell cs i) 0) (filter (conn_to ip i) (seq (j + 1) (length (cell cs i) - (j + 1)))) ++ flat_map (cands1 ip) post)).
      { unfold cands. rewrite Hc, flat_map_app. cbn [flat_map]. unfold cands1 at 2.
        rewrite (filter_seq_split (conn_to ip i) j) by (auto; rewrite (conn_to_ok ip i f) by auto; auto).
        rewrite map_app. cbn [map]. rewrite <- !app_assoc. cbn [app]. reflexivity. }
      destruct (pstep _ _ _ _ Hp Hx I) as (s' & E & I'). exists s'. split; [|exact I'].
      rewrite <- E. destruct (aget (snd s1) (nth j (cell cs i) 0)); cbn [bind]; auto. rewrite andb_true_r. auto.
    + rewrite aget_ok by (destruct I as (_ & -> & _); auto). cbn [bind]. rewrite andb_false_r. exists s1. split; auto. cbn [map]. rewrite app_nil_r. exact I.
  - exists r. split; auto.
Qed.

Lemma point_ok s lp : alen lp = npoin m -> (forall k, k < npoin m -> (aat lp k < Z.of_nat ip)%Z) -> Q [] s ->
  exists s' lp', psup_point m p e ip act (s, lp) = Some (s', lp') /\ Q (news ip (cands ip)) s' /\ alen lp' = npoin m /\
    (forall k, k < npoin m -> (aat lp' k <= Z.of_nat ip)%Z).
Proof.
  intros Hl Hb HQ. pose proof Hes as (P1 & P2 & P3 & P4 & P5). pose proof (esup_ok_range _ _ _ _ ip Hes Hip) as Rg.
  unfold psup_point. cbn [fst snd]. rewrite aset_ok by lia. cbn [bind]. rewrite !aget_ok by lia. cbn [bind].
  pose proof (P4 ip Hip) as P4'. pose proof (P5 ip Hip) as P5'. rewrite P4' in *. unfold frange.
  replace (aat p ip + length (cells_around cs ip) - aat p ip) with (length (cells_around cs ip)) by lia.
  match goal with |- context [floop _ ?bb ?ss] =>
    destruct (floop_inv _ (fun t s => pinv_ (flat_map (cands1 ip) (firstn t (cells_around cs ip))) s) (length (cells_around cs ip)) bb ss) as (r & E & I) end.
  - cbn [firstn flat_map]. unfold pinv_. cbn [fst snd alen aat]. split; [exact HQ|]. split; [exact Hl|]. unfold upd. split; intros k Hk.
    + specialize (Hb k Hk). destruct (Nat.eqb_spec k ip) as [->|n]; [intuition|]. cbn. intuition lia.
    + specialize (Hb k Hk). destruct (Nat.eqb_spec k ip); lia.
  - intros t s1 Ht I. rewrite aget_ok by lia. cbn [bind].
    assert (Ei : aat e (aat p ip + t) = nth t (cells_around cs ip) 0).
    { rewrite <- P5'. unfold aslice. rewrite (nth_indep _ 0 (aat e 0)) by (rewrite map_length, seq_length; lia).
      rewrite map_nth, seq_nth by lia. auto. }
    rewrite Ei. assert (Hin : In (nth t (cells_around cs ip) 0) (cells_around cs ip)) by (apply nth_In; auto).
    apply cells_around_in in Hin. destruct Hin as (Hin1 & Hin2).
    assert (FS : firstn (t + 1) (cells_around cs ip) = firstn t (cells_around cs ip) ++ [nth t (cells_around cs ip) 0]).
    { clear -Ht. revert t Ht. induction (cells_around cs ip) as [|x l IH]; intros [|t] Ht; cbn in *; try lia; auto. rewrite IH by lia. auto. }
    assert (SP : cells_around cs ip = firstn t (cells_around cs ip) ++ nth t (cells_around cs ip) 0 :: skipn (t + 1) (cells_around cs ip)).
    { rewrite <- (firstn_skipn (t + 1)) at 1. rewrite FS, <- app_assoc. auto. }
    rewrite FS. apply (pcell _ _ _ _ Hin1 Hin2 SP I).
  - rewrite firstn_all in I. destruct r as [s' lp']. exists s', lp'. split; [exact E|]. destruct I as (I1 & I2 & I3 & I4). cbn [fst snd] in *. auto.
Qed.
End Point.

(** the neighbours of all points below k, point by point *)
Definition acc (k : nat) : list nat := flat_map (fun ip => news ip (cands ip)) (seq 0 k).
Lemma acc_S k : acc (k + 1) = acc k ++ news k (cands k).
Proof. unfold acc. rewrite seq_app, flat_map_app. cbn. rewrite app_nil_r. auto. Qed.
Lemma acc_mono k j : k <= j -> length (acc k) <= length (acc j).
Proof. intros H. replace j with (k + (j - k)) by lia. unfold acc. rewrite seq_app, flat_map_app, app_length. lia. Qed.
Lemma acc_nth k j t : k <= j -> t < length (acc k) -> nth t (acc j) 0 = nth t (acc k) 0.
Proof. intros H Ht. replace j with (k + (j - k)) by lia. unfold acc in *. rewrite seq_app, flat_map_app, app_nth1; auto. Qed.

Lemma psup_ok jp : exists P Q, pointsSurroundingPoints m p e jp = Some (P, Q) /\
  alen P = npoin m + 1 /\ aat P 0 = 0 /\ alen Q = aat P (npoin m) /\
  (forall k, k < npoin m -> aat P k <= aat P (k + 1) <= alen Q) /\
  (forall k, k < npoin m -> aslice Q (aat P k) (aat P (k + 1)) = news k (cands k)).
Proof.
  unfold pointsSurroundingPoints. cbv zeta. rewrite aset_ok by (cbn; lia). cbn [bind].
  match goal with |- context [floop _ ?bb ?ss] =>
    destruct (floop_inv _ (fun k s => alen (fst (fst s)) = npoin m + 1 /\ (forall i, i <= k -> aat (fst (fst s)) i = length (acc i)) /\
        snd (fst s) = length (acc k) /\ alen (snd s) = npoin m /\ (forall i, i < npoin m -> (aat (snd s) i < Z.of_nat k)%Z)) (npoin m) bb ss)
      as (r1 & E1 & I1) end.
  - cbn. repeat split; auto; try lia. intros i Hi. assert (i = 0) by lia. subst. auto.
  - intros ip [[P istor] lp] Hip (A1 & A2 & A3 & A4 & A5). cbn [fst snd] in *.
    destruct (point_ok nat (fun _ k => Some (k + 1)) (fun out k => k = length (acc ip) + length out) ip Hip) with (s := istor) (lp := lp)
      as (s' & lp' & E & Q1 & Q2 & Q3); auto.
    { intros out x r s Hn ->. eexists. split; [reflexivity|]. rewrite app_length. cbn. lia. }
    { cbn. lia. }
    rewrite E. cbn [bind fst snd]. rewrite aset_ok by lia. cbn [bind]. eexists. split; [reflexivity|]. cbn [fst snd alen aat].
    split; [auto|]. split.
    { intros i Hi. unfold upd. destruct (Nat.eqb_spec i (ip + 1)) as [->|n]. rewrite acc_S, app_length. auto. apply A2. lia. }
    split; [rewrite acc_S, app_length; auto|]. split; [auto|]. intros i Hi. specialize (Q3 i Hi). lia.
  - destruct r1 as [[P istor] lp]. destruct I1 as (A1 & A2 & A3 & _). cbn [fst snd] in *. rewrite E1. cbn [bind].
    match goal with |- context [floop _ ?bb ?ss] =>
      destruct (floop_inv _ (fun k s => fst (fst s) = length (acc k) /\ alen (snd (fst s)) = istor /\
          (forall t, t < length (acc k) -> aat (snd (fst s)) t = nth t (acc k) 0) /\
          alen (snd s) = npoin m /\ (forall i, i < npoin m -> (aat (snd s) i < Z.of_nat k)%Z)) (npoin m) bb ss) as (r2 & E2 & I2) end.
    + cbn. repeat split; auto; lia.
    + intros ip [[pos a] lp1] Hip (B1 & B2 & B3 & B4 & B5). cbn [fst snd] in *.
      destruct (point_ok (nat * arr nat) (fun j q => a <- aset (snd q) (fst q) j ;; Some (fst q + 1, a))
        (fun out q => fst q = length (acc ip ++ out) /\ alen (snd q) = istor /\ forall t, t < length (acc ip ++ out) -> aat (snd q) t = nth t (acc ip ++ out) 0) ip Hip)
        with (s := (pos, a)) (lp := lp1) as (s' & lp' & E & (Q1 & Q1' & Q1'') & Q2 & Q3); auto.
      { intros out x r [pos1 a1] Hn (C1 & C2 & C3). cbn [fst snd] in *.
        assert (LB : pos1 < istor).
        { rewrite A3, C1. pose proof (acc_mono (ip + 1) (npoin m)). rewrite acc_S, Hn, !app_length in H. cbn in H. rewrite app_length. lia. }
        rewrite aset_ok by lia. cbn [bind]. eexists. split; [reflexivity|]. cbn [fst snd alen aat]. rewrite app_assoc.
        split; [rewrite app_length; cbn; lia|]. split; [auto|]. intros t Ht. rewrite app_length in Ht. cbn in Ht. unfold upd.
        destruct (Nat.eqb_spec t pos1) as [->|n].
        - rewrite app_nth2 by lia. rewrite C1, Nat.sub_diag. auto.
        - rewrite app_nth1 by lia. apply C3. lia. }
      { cbn. rewrite app_nil_r. auto. }
      rewrite E. eexists. split; [reflexivity|]. cbn [fst snd]. rewrite acc_S. split; [auto|]. split; [auto|]. split; [auto|]. split; [auto|].
      intros i Hi. specialize (Q3 i Hi). lia.
    + destruct r2 as [[pos a] lp2]. destruct I2 as (B1 & B2 & B3 & _). cbn [fst snd] in *. rewrite E2. cbn [bind fst snd].
      exists P, a. split; [auto|]. split; [auto|]. split; [rewrite A2 by lia; auto|]. split; [rewrite A2 by lia; lia|].
      assert (EP : forall k, k < npoin m -> aat P (k + 1) = aat P k + length (news k (cands k))).
      { intros k Hk. rewrite !A2 by lia. rewrite acc_S, app_length. auto. }
      split. { intros k Hk. rewrite B2, A3. pose proof (acc_mono (k + 1) (npoin m)). rewrite <- A2 in H by lia. specialize (EP k Hk). lia. }
      intros k Hk. rewrite EP by auto. unfold aslice. replace (aat P k + length (news k (cands k)) - aat P k) with (length (news k (cands k))) by lia.
      apply (nth_ext _ _ 0 0). { rewrite map_length, seq_length. auto. }
      intros r Hr. rewrite map_length, seq_length in Hr. rewrite (nth_indep _ 0 (aat a 0)) by (rewrite map_length, seq_length; auto).
      rewrite map_nth, seq_nth by auto. rewrite A2 by lia.
      assert (LL : length (acc k) + r < length (acc (k + 1))) by (rewrite acc_S, app_length; lia).
      rewrite B3 by (pose proof (acc_mono (k + 1) (npoin m)); lia).
      rewrite (acc_nth (k + 1)) by (auto; lia). rewrite acc_S, app_nth2 by lia. f_equal. lia.
Qed.

Lemma psup_correct jp : exists P Q, pointsSurroundingPoints m p e jp = Some (P, Q) /\
  alen P = npoin m + 1 /\ aat P 0 = 0 /\ alen Q = aat P (npoin m) /\
  (forall k, k < npoin m -> aat P k <= aat P (k + 1) <= alen Q) /\
  forall k, k < npoin m -> NoDup (aslice Q (aat P k) (aat P (k + 1))) /\
    forall q, In q (aslice Q (aat P k) (aat P (k + 1))) <-> joined cs k q.
Proof.
  destruct (psup_ok jp) as (P & Q & E & H1 & H2 & H3 & H4 & H5). exists P, Q. repeat (split; [assumption|]).
  intros k Hk. rewrite H5 by auto. split; [apply news_nodup|]. intros q. rewrite news_in. split.
  - intros (Hq & Hn). apply cands_in; auto.
  - intros J. assert (q <> k).
    { destruct J as (i & f & Hi & Hf & S). destruct (cell_valid _ _ i Hv Hi) as (N3 & ND & _). pose proof (edge_distinct _ _ N3 ND Hf).
      destruct S as [S|S]; rewrite <- ?S in *; cbn in *; try congruence. }
    split; auto. apply cands_in; auto.
Qed.
End Psup.
