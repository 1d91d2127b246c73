(** Array2d programs behave as programs on independent matrices. *)
From Coq Require Import List Arith Bool Lia Psatz.
From Verif Require Import Base M_Array.
Import ListNotations.

Section P.
Context {T : Type} (t0 t1 : T) (close : T -> T -> bool).
Notation memory := (@memory T). Notation smem := (@smem T).

Definition holds (m : memory) (o : obj) (a : smat) : Prop :=
  o_nrows o = sr a /\ o_ncols o = sc a /\ o_size o = sr a * sc a /\
  match o_elems o with
  | None => sr a * sc a = 0
  | Some p => exists b, heap m p = Some b /\ alen b = sr a * sc a /\ forall i j, i < sr a -> j < sc a -> aat b (i * sc a + j) = sv a i j
  end.
Record sim (m : memory) (s : smem) : Prop := {
  sm_vars : forall x, match vars m x, s x with None, None => True | Some o, Some a => holds m o a | _, _ => False end;
  sm_own : forall x y o o' p, vars m x = Some o -> vars m y = Some o' -> o_elems o = Some p -> o_elems o' = Some p -> x = y;
  sm_next : forall p, heap m p <> None -> p < nextp m;
  sm_leak : forall p, heap m p <> None -> exists x o, vars m x = Some o /\ o_elems o = Some p }.

Lemma sim_empty : sim empty_memory (fun _ => None).
Proof. split; cbn; intros; auto; try discriminate; congruence. Qed.

Lemma sim_var m s x a : sim m s -> s x = Some a -> exists o, vars m x = Some o /\ holds m o a.
Proof. intros H E. pose proof (sm_vars _ _ H x) as V. rewrite E in V. destruct (vars m x); [eauto|destruct V]. Qed.
Lemma sim_none m s x : sim m s -> s x = None -> vars m x = None.
Proof. intros H E. pose proof (sm_vars _ _ H x) as V. rewrite E in V. destruct (vars m x); [destruct V|auto]. Qed.
Lemma sim_inv m s x o : sim m s -> vars m x = Some o -> exists a, s x = Some a /\ holds m o a.
Proof. intros H E. pose proof (sm_vars _ _ H x) as V. rewrite E in V. destruct (s x); [eauto|destruct V]. Qed.
Lemma hget_ok (m : memory) p b i : heap m p = Some b -> i < alen b -> hget m (Some p) i = Some (aat b i).
Proof. intros. unfold hget. cbn. rewrite H. cbn. apply aget_ok. auto. Qed.
Lemma hset_ok (m : memory) p b i v : heap m p = Some b -> i < alen b ->
  hset m (Some p) i v = Some (mkmem (upd (heap m) p (Some (mkarr (alen b) (upd (aat b) i v)))) (nextp m) (vars m)).
Proof. intros. unfold hset. cbn. rewrite H. cbn. rewrite aset_ok by auto. reflexivity. Qed.

(** objects other than the owner of [p] hold the same after a change of block [p] *)
Lemma holds_frame (m m' : memory) o a p : holds m o a -> o_elems o <> Some p -> (forall q, q <> p -> heap m' q = heap m q) -> holds m' o a.
Proof.
  intros (A & B & C & D) N F. split; auto. split; auto. split; auto. destruct (o_elems o) as [q|]; auto. rewrite F by congruence; auto.
Qed.

(** replacing the contents of one variable's block *)
Lemma sim_block m s x o a p m' b' a' : sim m s -> vars m x = Some o -> o_elems o = Some p -> s x = Some a ->
  heap m' p = Some b' -> (forall q, q <> p -> heap m' q = heap m q) -> nextp m' = nextp m -> (forall y, vars m' y = vars m y) ->
  holds m' o a' -> forall s', s' x = Some a' -> (forall y, y <> x -> s' y = s y) -> sim m' s'.
Proof.
  intros S V E A Hp F Nx Vs H' s' S1 S2. split.
  - intros y. rewrite Vs. destruct (Nat.eq_dec y x) as [->|Ne].
    + rewrite V, S1. auto.
    + rewrite S2 by auto. pose proof (sm_vars _ _ S y) as W. destruct (vars m y) as [oy|] eqn:Vy; destruct (s y); auto.
      eapply holds_frame; eauto. intros Q. apply Ne. eapply (sm_own _ _ S); eauto.
  - intros y z oy oz q. rewrite !Vs. apply (sm_own _ _ S).
  - intros q Hq. rewrite Nx. destruct (Nat.eq_dec q p) as [->|Ne]; [|rewrite F in Hq by auto; apply (sm_next _ _ S); auto].
    apply (sm_next _ _ S). destruct (sim_inv _ _ _ _ S V) as (a0 & _ & H0). unfold holds in H0. rewrite E in H0. destruct H0 as (_ & _ & _ & b & -> & _). discriminate.
  - intros q Hq. destruct (Nat.eq_dec q p) as [->|Ne]; [exists x, o; rewrite Vs; auto|]. rewrite F in Hq by auto. destruct (sm_leak _ _ S q Hq) as (z & oz & Hz). exists z, oz. rewrite Vs. auto.
Qed.

Lemma idx_lt i j n m : i < n -> j < m -> i * m + j < n * m. Proof. intros. nia. Qed.
Lemma idx_inj i j i' j' m : j < m -> j' < m -> i * m + j = i' * m + j' -> i = i' /\ j = j'.
Proof. intros. assert (i = i') by nia. subst. split; auto. lia. Qed.
Lemma idx_all k n m : k < n * m -> exists i j, i < n /\ j < m /\ k = i * m + j.
Proof.
  intros H. assert (m <> 0) by (intros ->; lia). exists (k / m), (k mod m). split; [apply Nat.div_lt_upper_bound; lia|]. split; [apply Nat.mod_upper_bound; auto|].
  rewrite (Nat.div_mod k m) at 1 by auto. lia.
Qed.

(** storage after replacing variable [x] (whose old block, if any, is gone) by a new block *)
Lemma sim_alloc m s x n m' a' o' b : sim m s ->
  (match vars m x with None => True | Some o => forall p, o_elems o = Some p -> heap m' p = None end) ->
  (forall y, vars m' y = if y =? x then Some o' else vars m y) ->
  o_elems o' = Some (nextp m) -> heap m' (nextp m) = Some b -> nextp m' = nextp m + 1 -> alen b = n ->
  (forall q, q <> nextp m -> (forall o, vars m x = Some o -> o_elems o <> Some q) -> heap m' q = heap m q) ->
  (forall q, q <> nextp m -> heap m' q <> None -> heap m q <> None) ->
  holds m' o' a' -> forall s', s' x = Some a' -> (forall y, y <> x -> s' y = s y) -> sim m' s'.
Proof.
  intros S V Vs E Hp Nx Lb F F2 H' s' S1 S2.
  assert (NP : forall y o p, vars m y = Some o -> o_elems o = Some p -> p < nextp m).
  { intros y o p Hy Ho. apply (sm_next _ _ S). destruct (sim_inv _ _ _ _ S Hy) as (ay & _ & Hh). unfold holds in Hh. rewrite Ho in Hh. destruct Hh as (_ & _ & _ & b0 & -> & _). discriminate. }
  split.
  - intros y. rewrite Vs. destruct (Nat.eqb_spec y x) as [->|Ne]; [rewrite S1; auto|]. rewrite S2 by auto.
    pose proof (sm_vars _ _ S y) as W. destruct (vars m y) as [oy|] eqn:Vy; destruct (s y) as [ay|]; auto.
    destruct W as (W1 & W2 & W3 & W4). repeat split; auto. destruct (o_elems oy) as [q|] eqn:Eq; auto. rewrite F; auto.
    + pose proof (NP _ _ _ Vy Eq). lia.
    + intros o Vo Q. apply Ne. eapply (sm_own _ _ S); eauto.
  - intros y z oy oz q. rewrite !Vs. destruct (Nat.eqb_spec y x) as [->|N1]; destruct (Nat.eqb_spec z x) as [->|N2]; intros Hy Hz Ey Ez; auto.
    + inversion Hy; subst. rewrite E in Ey. injection Ey as <-. pose proof (NP _ _ _ Hz Ez). lia.
    + inversion Hz; subst. rewrite E in Ez. injection Ez as <-. pose proof (NP _ _ _ Hy Ey). lia.
    + eapply (sm_own _ _ S); eauto.
  - intros q Hq. rewrite Nx. destruct (Nat.eq_dec q (nextp m)) as [->|Ne]; [lia|]. assert (q < nextp m) by (apply (sm_next _ _ S), F2; auto). lia.
  - intros q Hq. destruct (Nat.eq_dec q (nextp m)) as [->|Ne]; [exists x, o'; rewrite Vs, Nat.eqb_refl; auto|].
    destruct (sm_leak _ _ S q (F2 q Ne Hq)) as (z & oz & Vz & Ez). exists z, oz. rewrite Vs. destruct (Nat.eqb_spec z x) as [->|]; auto. exfalso. rewrite Vz in V. apply Hq. apply V. auto.
Qed.

(** the copying loop *)
Lemma copy_loop x y ox oy p q b n : forall (m : memory), p <> q -> vars m x = Some ox -> vars m y = Some oy -> o_elems ox = Some p -> o_elems oy = Some q ->
  heap m q = Some b -> alen b = n -> (exists b0, heap m p = Some b0 /\ alen b0 = n) ->
  exists m', floop n (fun i m => a <- vars m x ;; b <- vars m y ;; v <- hget m (o_elems b) i ;; hset m (o_elems a) i v) m = Some m' /\
    nextp m' = nextp m /\ (forall z, vars m' z = vars m z) /\ (forall r, r <> p -> heap m' r = heap m r) /\
    exists b', heap m' p = Some b' /\ alen b' = n /\ forall i, i < n -> aat b' i = aat b i.
Proof.
  intros m Npq Vx Vy Ex Ey Hq Lb (b0 & Hp & L0).
  match goal with |- context [floop n ?bb ?ss] => destruct (floop_inv _ (fun k (m' : memory) => nextp m' = nextp m /\ (forall z, vars m' z = vars m z) /\ (forall r, r <> p -> heap m' r = heap m r) /\
    exists b', heap m' p = Some b' /\ alen b' = n /\ forall i, i < k -> aat b' i = aat b i) n bb ss) as (m' & E & I) end.
  - repeat split; auto. exists b0. split; auto. split; auto. intros; lia.
  - intros i m1 Hi (N1 & V1 & F1 & b' & P1 & L1 & C1). rewrite !V1, Vx, Vy. cbn [bind]. rewrite Ex, Ey.
    rewrite (hget_ok _ _ b) by (rewrite ?F1; auto; lia). cbn [bind]. rewrite (hset_ok _ _ b') by (auto; lia). eexists; split; [reflexivity|]. cbn. split; auto. split; auto. split.
    + intros r Hr. rewrite upd_ne by auto. auto.
    + rewrite upd_eq. eexists; split; [reflexivity|]. cbn. split; auto. intros k Hk. destruct (Nat.eq_dec k i) as [->|]; [apply upd_eq|]. rewrite upd_ne by auto. apply C1. lia.
  - exists m'. split; auto.
Qed.

(** the filling loop *)
Lemma fill_loop p n t : forall (m : memory) b0, heap m p = Some b0 -> alen b0 = n ->
  exists m', floop n (fun i m => hset m (Some p) i (Some t)) m = Some m' /\
    nextp m' = nextp m /\ (forall z, vars m' z = vars m z) /\ (forall r, r <> p -> heap m' r = heap m r) /\
    exists b', heap m' p = Some b' /\ alen b' = n /\ forall i, i < n -> aat b' i = Some t.
Proof.
  intros m b0 Hp L0.
  match goal with |- context [floop n ?bb ?ss] => destruct (floop_inv _ (fun k (m' : memory) => nextp m' = nextp m /\ (forall z, vars m' z = vars m z) /\ (forall r, r <> p -> heap m' r = heap m r) /\
    exists b', heap m' p = Some b' /\ alen b' = n /\ forall i, i < k -> aat b' i = Some t) n bb ss) as (m' & E & I) end.
  - repeat split; auto. exists b0. split; auto. split; auto. intros; lia.
  - intros i m1 Hi (N1 & V1 & F1 & b' & P1 & L1 & C1). rewrite (hset_ok _ _ b') by (auto; lia). eexists; split; [reflexivity|]. cbn. split; auto. split; auto. split.
    + intros r Hr. rewrite upd_ne by auto. auto.
    + rewrite upd_eq. eexists; split; [reflexivity|]. cbn. split; auto. intros k Hk. destruct (Nat.eq_dec k i) as [->|]; [apply upd_eq|]. rewrite upd_ne by auto. apply C1. lia.
  - exists m'. split; auto.
Qed.

(** the setdata loops *)
Lemma set_loop p nr nc (A : arr T) : nr * nc <= alen A -> forall (m : memory) b0, heap m p = Some b0 -> alen b0 = nr * nc ->
  exists m', floop nr (fun i m => floop nc (fun j m => v <- aget A (i * nc + j) ;; hset m (Some p) (i * nc + j) (Some v)) m) m = Some m' /\
    nextp m' = nextp m /\ (forall z, vars m' z = vars m z) /\ (forall r, r <> p -> heap m' r = heap m r) /\
    exists b', heap m' p = Some b' /\ alen b' = nr * nc /\ forall i, i < nr * nc -> aat b' i = Some (aat A i).
Proof.
  intros LA m b0 Hp L0.
  assert (In1 : forall i m1, i < nr -> forall b1, heap m1 p = Some b1 -> alen b1 = nr * nc -> (forall k, k < i * nc -> aat b1 k = Some (aat A k)) ->
    exists m', floop nc (fun j m => v <- aget A (i * nc + j) ;; hset m (Some p) (i * nc + j) (Some v)) m1 = Some m' /\
    nextp m' = nextp m1 /\ (forall z, vars m' z = vars m1 z) /\ (forall r, r <> p -> heap m' r = heap m1 r) /\
    exists b', heap m' p = Some b' /\ alen b' = nr * nc /\ forall k, k < i * nc + nc -> aat b' k = Some (aat A k)).
  { intros i m1 Hi b1 Hb Lb Cb.
    match goal with |- context [floop nc ?bb ?ss] => destruct (floop_inv _ (fun k (m' : memory) => nextp m' = nextp m1 /\ (forall z, vars m' z = vars m1 z) /\ (forall r, r <> p -> heap m' r = heap m1 r) /\
      exists b', heap m' p = Some b' /\ alen b' = nr * nc /\ forall z, z < i * nc + k -> aat b' z = Some (aat A z)) nc bb ss) as (m' & E & I) end.
    - repeat split; auto. exists b1. split; auto. split; auto. intros; apply Cb; lia.
    - intros j m2 Hj (N1 & V1 & F1 & b' & P1 & L1 & C1). pose proof (idx_lt _ _ _ _ Hi Hj). rewrite aget_ok by lia. cbn [bind]. rewrite (hset_ok _ _ b') by (auto; lia).
      eexists; split; [reflexivity|]. cbn. split; auto. split; auto. split.
      + intros r Hr. rewrite upd_ne by auto. auto.
      + rewrite upd_eq. eexists; split; [reflexivity|]. cbn. split; auto. intros k Hk. destruct (Nat.eq_dec k (i * nc + j)) as [->|]; [apply upd_eq|]. rewrite upd_ne by auto. apply C1. lia.
    - exists m'. auto. }
  match goal with |- context [floop nr ?bb ?ss] => destruct (floop_inv _ (fun k (m' : memory) => nextp m' = nextp m /\ (forall z, vars m' z = vars m z) /\ (forall r, r <> p -> heap m' r = heap m r) /\
    exists b', heap m' p = Some b' /\ alen b' = nr * nc /\ forall z, z < k * nc -> aat b' z = Some (aat A z)) nr bb ss) as (m' & E & I) end.
  - repeat split; auto. exists b0. split; auto. split; auto. intros; lia.
  - intros i m1 Hi (N1 & V1 & F1 & b' & P1 & L1 & C1). destruct (In1 i m1 Hi b' P1 L1 C1) as (m2 & E2 & N2 & V2 & F2 & b2 & P2 & L2 & C2). exists m2. split; auto.
    split; [congruence|]. split; [intros; rewrite V2; auto|]. split; [intros r Hr; rewrite F2, F1; auto|]. exists b2. split; auto. split; auto. intros z Hz. apply C2. nia.
  - exists m'. auto.
Qed.

(** a variable whose block is null has an empty matrix *)
Lemma null_empty m s x o a : sim m s -> vars m x = Some o -> s x = Some a -> o_elems o = None -> sr a * sc a = 0.
Proof. intros S V A E. pose proof (sm_vars _ _ S x) as W. rewrite V, A in W. destruct W as (_ & _ & _ & D). rewrite E in D. auto. Qed.
Lemma holds_block (m : memory) o a p b : o_nrows o = sr a -> o_ncols o = sc a -> o_size o = sr a * sc a -> o_elems o = Some p -> heap m p = Some b -> alen b = sr a * sc a ->
  (forall i j, i < sr a -> j < sc a -> aat b (i * sc a + j) = sv a i j) -> holds m o a.
Proof. intros. unfold holds. rewrite H2. eauto 10. Qed.

Lemma floop_stay {S} : forall n (b : nat -> S -> option S) s, (forall i, i < n -> b i s = Some s) -> floop n b s = Some s.
Proof. induction n; intros b s H; cbn; auto. rewrite IHn by auto. cbn. auto. Qed.

Lemma in_place m s x o a f a' (s' : smem) : sim m s -> vars m x = Some o -> s x = Some a -> sr a' = sr a -> sc a' = sc a -> s' x = Some a' -> (forall y, y <> x -> s' y = s y) ->
  (forall p b, o_elems o = Some p -> heap m p = Some b -> alen b = sr a * sc a -> (forall i j, i < sr a -> j < sc a -> aat b (i * sc a + j) = sv a i j) ->
     exists m', f = Some m' /\ nextp m' = nextp m /\ (forall z, vars m' z = vars m z) /\ (forall r, r <> p -> heap m' r = heap m r) /\
      exists b', heap m' p = Some b' /\ alen b' = sr a * sc a /\ forall i j, i < sr a -> j < sc a -> aat b' (i * sc a + j) = sv a' i j) ->
  (o_elems o = None -> sr a * sc a = 0 -> f = Some m) -> exists m', f = Some m' /\ sim m' s'.
Proof.
  intros S V A R1 R2 S1 S2 H1 H2. pose proof (sm_vars _ _ S x) as W. rewrite V, A in W. destruct W as (W1 & W2 & W3 & W4). destruct (o_elems o) as [p|] eqn:E.
  - destruct W4 as (b & Hb & Lb & Cb). destruct (H1 p b eq_refl Hb Lb Cb) as (m' & F & Nx & Vs & Fr & b' & Hb' & Lb' & Cb'). exists m'. split; auto.
    eapply (sim_block m s x o a p m' b' a'); eauto. eapply holds_block; eauto; try congruence. rewrite R1, R2. auto.
  - exists m. split; auto. split; try apply S. intros y. destruct (Nat.eq_dec y x) as [->|Ne]; [|rewrite S2 by auto; apply (sm_vars _ _ S)].
    rewrite V, S1. unfold holds. rewrite E, R1, R2. auto.
Qed.

Lemma fill_sim m s x a t : sim m s -> s x = Some a -> exists m', fill x t m = Some m' /\ sim m' (upd s x (Some (mksm (sr a) (sc a) (fun _ _ => Some t)))).
Proof.
  intros S A. destruct (sim_var _ _ _ _ S A) as (o & V & W1 & W2 & W3 & W4). unfold fill. rewrite V. cbn [bind].
  apply (in_place m s x o a _ (mksm (sr a) (sc a) (fun _ _ => Some t))); auto; [apply upd_eq|intros; apply upd_ne; auto| |].
  - intros p b E Hb Lb Cb. rewrite E, W3. destruct (fill_loop p (sr a * sc a) t m b Hb Lb) as (m' & F & N & Vs & Fr & b' & Hb' & Lb' & Cb'). exists m'. repeat split; auto. exists b'. repeat split; auto. intros. cbn. apply Cb'. apply idx_lt; auto.
  - intros _ Z. rewrite W3, Z. reflexivity.
Qed.

(** access *)
Lemma get_sim m s x a i j v : sim m s -> s x = Some a -> i < sr a -> j < sc a -> sv a i j = Some v -> get x i j m = Some v.
Proof.
  intros S A Hi Hj Hv. destruct (sim_var _ _ _ _ S A) as (o & V & W1 & W2 & W3 & W4). pose proof (idx_lt _ _ _ _ Hi Hj) as L. unfold get. rewrite V. cbn [bind]. rewrite W2. destruct (o_elems o) as [p|]; [|exfalso; lia].
  destruct W4 as (b & Hb & Lb & Cb). rewrite (hget_ok _ _ b) by (auto; lia). cbn. rewrite Cb; auto.
Qed.

Lemma eq_sim m s x y a b r : sim m s -> s x = Some a -> s y = Some b -> sr a = sr b -> sc a = sc b -> sall close (list_prod (seq 0 (sr a)) (seq 0 (sc a))) a b = Some r -> are_equal close x y m = Some r.
Proof.
  intros S A B E1 E2 H. destruct (sim_var _ _ _ _ S A) as (o & V & W1 & W2 & W3 & _). destruct (sim_var _ _ _ _ S B) as (o' & V' & W1' & W2' & W3' & _).
  unfold are_equal. rewrite V, V'. cbn [bind]. rewrite W1, W1', W2, W2', W3, W3', E1, E2, !Nat.eqb_refl. cbn [negb].
  rewrite <- E1, <- E2. clear V V' W1 W2 W3 W1' W2' W3' o o'.
  assert (G : forall i j, i < sr a -> j < sc a -> forall u v, sv a i j = Some u -> sv b i j = Some v -> get x i j m = Some u /\ get y i j m = Some v).
  { intros i j Hi Hj u v Hu Hv. split; eapply get_sim; eauto; congruence. }
  (* loops as folds over index lists *)
  set (body := fun (ij : nat * nat) (r : bool) => if r then u <- get x (fst ij) (snd ij) m ;; v <- get y (fst ij) (snd ij) m ;; Some (close u v) else Some false).
  assert (Fl : forall n (f : nat -> bool -> option bool) r0, floop n f r0 = ofold f (seq 0 n) r0).
  { clear. assert (AP : forall (f : nat -> bool -> option bool) l1 l2 r0, ofold f (l1 ++ l2) r0 = bind (ofold f l1 r0) (ofold f l2)). { induction l1; intros; cbn; auto. destruct (f a r0); cbn; auto. }
    induction n; intros f r0; auto. rewrite seq_S, AP. cbn. rewrite IHn. destruct (ofold f (seq 0 n) r0); cbn; auto. destruct (f n b); auto. }
  assert (Ff : forall l, ofold body l false = Some false) by (induction l; cbn; auto).
  assert (Sa : forall l r, (forall ij, In ij l -> fst ij < sr a /\ snd ij < sc a) -> sall close l a b = Some r -> ofold body l true = Some r).
  { induction l as [|(i, j) l IH]; intros r1 Hl E; cbn in *; auto. destruct (sv a i j) as [u|] eqn:Eu; [|discriminate]. cbn in E. destruct (sv b i j) as [v|] eqn:Ev; [|discriminate]. cbn in E.
    destruct (Hl (i, j) (or_introl eq_refl)) as (Hi & Hj). destruct (G i j Hi Hj u v Eu Ev) as (-> & ->). cbn. destruct (close u v); [apply IH; auto|]. rewrite Ff. congruence. }
  assert (Ap : forall l1 l2 r0, ofold body (l1 ++ l2) r0 = bind (ofold body l1 r0) (ofold body l2)). { induction l1 as [|z l1 IH]; intros; auto. cbn [app ofold]. destruct (body z r0) as [r1|]; auto. cbn [bind]. apply IH. }
  rewrite Fl. apply (Sa _ r) in H; [|intros (i, j) Hij; apply in_prod_iff in Hij; rewrite !in_seq in Hij; cbn; lia]. rewrite <- H. clear H Sa.
  set (inner := fun (i : nat) (r0 : bool) => if r0 then floop (sc a) (fun j r => if r : bool then u <- get x i j m ;; v <- get y i j m ;; Some (close u v) else Some false) true else Some false).
  assert (GEN : forall L r0, ofold inner L r0 = ofold body (list_prod L (seq 0 (sc a))) r0); [|apply GEN].
  induction L as [|i L IH]; intros r0; auto. cbn [list_prod ofold]. rewrite Ap.
  assert (X : inner i r0 = ofold body (map (fun y0 => (i, y0)) (seq 0 (sc a))) r0).
  { clear IH. unfold inner. destruct r0; [|rewrite Ff; auto]. rewrite Fl. generalize true. induction (seq 0 (sc a)) as [|j l IHl]; intros r1; auto. cbn [ofold map]. unfold body at 1. cbn [fst snd]. match goal with |- bind ?z _ = _ => destruct z end; cbn [bind]; auto. }
  rewrite X. destruct (ofold body _ r0) as [r2|]; cbn; auto.
Qed.

(** one operation *)
Theorem sim_step debug p m s s' o : sim m s -> (debug = false -> forall x, p <> Assign x x) -> sexec1 t0 t1 close p s = Some (s', o) ->
  exists m', exec1 t0 t1 close debug p m = Some (m', o) /\ sim m' s'.
Proof.
  intros S ND H. destruct p as [x|x nr nc|x y|x y|x|x y|x nr nc|x|x|x A sz|x i j|x i j t|x y|x|x|x]; cbn [sexec1] in H; cbn [exec1].
  - (* New0 *) unfold sfresh in H. destruct (s x) eqn:E; [discriminate|]. cbn in H. injection H as <- <-. assert (V := sim_none _ _ _ S E). unfold new0, fresh. rewrite V. cbn.
    eexists; split; [reflexivity|]. split; cbn.
    + intros y. unfold upd. destruct (Nat.eqb_spec y x) as [->|]; [unfold holds; cbn; auto|]. apply (sm_vars _ _ S).
    + intros y z oy oz q. unfold upd. destruct (Nat.eqb_spec y x) as [->|]; destruct (Nat.eqb_spec z x) as [->|]; intros Hy Hz Ey Ez; auto; try (inversion Hy; subst; discriminate); try (inversion Hz; subst; discriminate). eapply (sm_own _ _ S); eauto.
    + apply (sm_next _ _ S).
    + intros q Hq. destruct (sm_leak _ _ S q Hq) as (z & oz & Vz & Ez). exists z, oz. rewrite upd_ne; auto. congruence.
  - (* New *) unfold sfresh in H. destruct (s x) eqn:E; [discriminate|]. cbn in H. injection H as <- <-. assert (V := sim_none _ _ _ S E). unfold new, fresh. rewrite V. cbn.
    eexists; split; [reflexivity|]. eapply (sim_alloc m s x (nr * nc) _ (suninit nr nc)); cbn; eauto.
    + rewrite V. auto.
    + intros; reflexivity.
    + cbn. reflexivity.
    + apply upd_eq.
    + reflexivity.
    + intros q Hq _. rewrite upd_ne; auto.
    + intros q Hq. rewrite upd_ne; auto.
    + eapply holds_block; cbn; eauto; [apply upd_eq|auto|intros; reflexivity].
    + apply upd_eq.
    + intros; apply upd_ne; auto.
  - (* Copy *) unfold sfresh in H. destruct (s x) eqn:E; [discriminate|]. cbn in H. destruct (s y) as [a|] eqn:Ey; [|discriminate]. cbn in H. injection H as <- <-.
    assert (V := sim_none _ _ _ S E). destruct (sim_var _ _ _ _ S Ey) as (oy & Vy & W1 & W2 & W3 & W4). assert (Nxy : y <> x) by congruence.
    unfold copy_new, fresh. rewrite V, Vy. cbn [bind alloc]. rewrite W1, W2, W3.
    set (ox := mkobj (sr a) (sc a) (sr a * sc a) (Some (nextp m))).
    set (m2 := setvar _ x (Some ox)).
    assert (GO : exists m', floop (sr a * sc a) (fun i m => a0 <- vars m x ;; b <- vars m y ;; v <- hget m (o_elems b) i ;; hset m (o_elems a0) i v) m2 = Some m' /\
      nextp m' = nextp m2 /\ (forall z, vars m' z = vars m2 z) /\ (forall r, r <> nextp m -> heap m' r = heap m2 r) /\ exists b', heap m' (nextp m) = Some b' /\ alen b' = sr a * sc a /\ forall i j, i < sr a -> j < sc a -> aat b' (i * sc a + j) = sv a i j).
    { destruct (o_elems oy) as [q|] eqn:Eq.
      - destruct W4 as (b & Hb & Lb & Cb). assert (Lq : q < nextp m) by (apply (sm_next _ _ S); congruence).
        destruct (copy_loop x y ox oy (nextp m) q b (sr a * sc a) m2) as (m' & F & N & Vs & Fr & b' & Hb' & Lb' & Cb');
          [lia|cbn; apply upd_eq|cbn; rewrite upd_ne; auto|auto|auto|cbn; rewrite upd_ne by lia; auto|auto|cbn; rewrite upd_eq; eexists; split; [reflexivity|auto]|].
        exists m'. repeat split; auto. exists b'. repeat split; auto. intros. rewrite Cb' by (apply idx_lt; auto). auto.
      - rewrite W4. exists m2. repeat split; auto. cbn. rewrite upd_eq. eexists; split; [reflexivity|]. split; auto. intros. exfalso. pose proof (idx_lt _ _ _ _ H H0). lia. }
    destruct GO as (m' & F & N & Vs & Fr & b' & Hb' & Lb' & Cb'). unfold noout. rewrite F. cbn [bind]. eexists; split; [reflexivity|].
    apply (sim_alloc m s x (sr a * sc a) m' a ox b'); [exact S|rewrite V; auto| |reflexivity|exact Hb'|rewrite N; reflexivity|exact Lb'| | |apply (holds_block m' ox a (nextp m) b'); auto|apply upd_eq|intros; apply upd_ne; auto].
    + intros z. rewrite Vs. reflexivity.
    + intros q Hq _. rewrite Fr by auto. cbn. apply upd_ne. auto.
    + intros q Hq. rewrite Fr by auto. cbn. rewrite upd_ne; auto.
  - (* Move *) unfold sfresh in H. destruct (s x) eqn:E; [discriminate|]. cbn in H. destruct (s y) as [a|] eqn:Ey; [|discriminate]. cbn in H. injection H as <- <-.
    assert (V := sim_none _ _ _ S E). destruct (sim_var _ _ _ _ S Ey) as (oy & Vy & W). assert (Nxy : y <> x) by congruence.
    unfold move_new, fresh. rewrite V, Vy. cbn. eexists; split; [reflexivity|]. split; cbn.
    + intros z. unfold upd. destruct (Nat.eqb_spec z y) as [->|]; [unfold holds; cbn; auto|]. destruct (Nat.eqb_spec z x) as [->|]; [exact W|]. apply (sm_vars _ _ S).
    + intros z w oz ow q. unfold upd. destruct (Nat.eqb_spec z y) as [->|]; [intros Hz; inversion Hz; subst; discriminate|]. destruct (Nat.eqb_spec w y) as [->|]; [intros ? Hz; inversion Hz; subst; discriminate|].
      destruct (Nat.eqb_spec z x) as [->|]; destruct (Nat.eqb_spec w x) as [->|]; intros Hz Hw Ez Ew; auto.
      * inversion Hz; subst. exfalso. apply n0. symmetry. eapply (sm_own _ _ S); eauto.
      * inversion Hw; subst. exfalso. apply n. eapply (sm_own _ _ S); eauto.
      * eapply (sm_own _ _ S); eauto.
    + apply (sm_next _ _ S).
    + intros q Hq. destruct (sm_leak _ _ S q Hq) as (z & oz & Vz & Ez). destruct (Nat.eq_dec z y) as [->|].
      * exists x, oz. rewrite upd_ne, upd_eq by auto. split; auto. congruence.
      * exists z, oz. rewrite !upd_ne; auto. congruence.
  - (* Del *) destruct (s x) as [a|] eqn:E; [|discriminate]. cbn in H. injection H as <- <-. destruct (sim_var _ _ _ _ S E) as (o & V & W1 & W2 & W3 & W4). unfold del. rewrite V. cbn [bind].
    assert (GO : exists m1, free m (o_elems o) = Some m1 /\ vars m1 = vars m /\ nextp m1 = nextp m /\ (forall q, o_elems o <> Some q -> heap m1 q = heap m q) /\ forall q, o_elems o = Some q -> heap m1 q = None).
    { destruct (o_elems o) as [p|]; cbn [free].
      - destruct W4 as (b & Hb & _). rewrite Hb. cbn. eexists; split; [reflexivity|]. cbn. repeat split; auto. intros q Hq. apply upd_ne. congruence. intros q Hq. injection Hq as <-. apply upd_eq.
      - eexists; split; [reflexivity|]. repeat split; auto. discriminate. }
    destruct GO as (m1 & F & Vs & N & Fr & Fr2). rewrite F. cbn. eexists; split; [reflexivity|]. split; cbn.
    + intros z. rewrite Vs. unfold upd. destruct (Nat.eqb_spec z x) as [->|Ne]; auto. pose proof (sm_vars _ _ S z) as W. destruct (vars m z) as [oz|] eqn:Vz; destruct (s z); auto.
      destruct W as (X1 & X2 & X3 & X4). repeat split; auto. destruct (o_elems oz) as [q|] eqn:Eq; auto. cbn [heap setvar]. rewrite Fr; auto. intros Q. apply Ne. eapply (sm_own _ _ S); eauto.
    + intros z w oz ow q. rewrite Vs. unfold upd. destruct (Nat.eqb_spec z x); [discriminate|]. destruct (Nat.eqb_spec w x); [discriminate|]. apply (sm_own _ _ S).
    + intros q Hq. rewrite N. apply (sm_next _ _ S). intros Z. apply Hq. destruct (o_elems o) as [p|] eqn:Eo; [destruct (Nat.eq_dec p q) as [->|]|]; [apply Fr2; auto|rewrite Fr; auto; congruence|rewrite Fr; auto; congruence].
    + intros q Hq. assert (Nq : o_elems o <> Some q) by (intros Q; apply Hq; apply Fr2; auto). rewrite Fr in Hq by auto. destruct (sm_leak _ _ S q Hq) as (z & oz & Vz & Ez). exists z, oz. rewrite upd_ne, Vs; auto. intros ->. congruence.
  - (* Assign *) destruct (s x) as [ax|] eqn:Ex; [|discriminate]. cbn in H. destruct (s y) as [a|] eqn:Ey; [|discriminate]. cbn in H. injection H as <- <-.
    destruct (sim_var _ _ _ _ S Ex) as (ox & Vx & X1 & X2 & X3 & X4). destruct (sim_var _ _ _ _ S Ey) as (oy & Vy & W1 & W2 & W3 & W4).
    unfold assign. rewrite Vx, Vy. cbn [bind]. destruct (Nat.eqb_spec x y) as [<-|Nxy].
    + destruct debug; [|exfalso; eapply ND; eauto]. cbn. eexists; split; [reflexivity|]. split; try apply S. intros z. unfold upd. destruct (Nat.eqb_spec z x) as [->|]; [|apply (sm_vars _ _ S)]. pose proof (sm_vars _ _ S x) as Q. rewrite Vx, Ex in Q. rewrite Vx. congruence.
    + rewrite andb_false_r. cbn [bind setvar vars]. rewrite !upd_eq, !upd_ne by auto. cbn [bind o_nrows o_ncols o_size o_elems]. rewrite Vy. cbn [bind].
      repeat (rewrite !upd_eq; cbn [bind setvar vars o_nrows o_ncols o_size o_elems]). rewrite W1, W2.
      match goal with |- context [free ?z _] => set (mv := z) end.
      assert (GO : exists m1, free mv (o_elems ox) = Some m1 /\ vars m1 = vars mv /\ nextp m1 = nextp m /\ (forall q, o_elems ox <> Some q -> heap m1 q = heap m q) /\ forall q, o_elems ox = Some q -> heap m1 q = None).
      { destruct (o_elems ox) as [p|]; cbn [free].
        - destruct X4 as (b & Hb & _). change (heap mv p) with (heap m p). rewrite Hb. cbn. eexists; split; [reflexivity|]. cbn. repeat split; auto. intros q Hq. apply upd_ne. congruence. intros q Hq. injection Hq as <-. apply upd_eq.
        - eexists; split; [reflexivity|]. repeat split; auto. discriminate. }
      destruct GO as (m1 & F & Vs & N & Fr & Fr2). rewrite F. cbn [bind alloc]. rewrite N.
      set (ox' := mkobj (sr a) (sc a) (sr a * sc a) (Some (nextp m))). set (m2 := setvar _ x (Some ox')).
      assert (V2x : vars m2 x = Some ox') by (cbn; apply upd_eq).
      assert (V2 : forall z, vars m2 z = if z =? x then Some ox' else vars m z). { intros z. cbn. rewrite Vs. cbn. unfold upd. destruct (z =? x); auto. }
      assert (V2y : vars m2 y = Some oy) by (rewrite V2, (proj2 (Nat.eqb_neq y x)) by auto; auto).
      assert (GO : exists m', floop (sr a * sc a) (fun i m => a0 <- vars m x ;; b <- vars m y ;; v <- hget m (o_elems b) i ;; hset m (o_elems a0) i v) m2 = Some m' /\
        nextp m' = nextp m2 /\ (forall z, vars m' z = vars m2 z) /\ (forall r, r <> nextp m -> heap m' r = heap m2 r) /\ exists b', heap m' (nextp m) = Some b' /\ alen b' = sr a * sc a /\ forall i j, i < sr a -> j < sc a -> aat b' (i * sc a + j) = sv a i j).
      { destruct (o_elems oy) as [q|] eqn:Eq.
        - destruct W4 as (b & Hb & Lb & Cb). assert (Lq : q < nextp m) by (apply (sm_next _ _ S); congruence).
          destruct (copy_loop x y ox' oy (nextp m) q b (sr a * sc a) m2) as (m' & F' & N' & Vs' & Fr' & b' & Hb' & Lb' & Cb'); try lia; auto.
          + cbn. rewrite upd_ne by lia. rewrite Fr; auto. intros Q. apply Nxy. eapply (sm_own _ _ S); eauto.
          + cbn. rewrite upd_eq. eexists; split; [reflexivity|]. auto.
          + exists m'. repeat split; auto. exists b'. repeat split; auto. intros. rewrite Cb' by (apply idx_lt; auto). auto.
        - rewrite W4. exists m2. repeat split; auto. cbn. rewrite upd_eq. eexists; split; [reflexivity|]. split; auto. intros. exfalso. pose proof (idx_lt _ _ _ _ H H0). lia. }
      destruct GO as (m' & F' & N' & Vs' & Fr' & b' & Hb' & Lb' & Cb'). unfold noout. rewrite F'. cbn [bind]. eexists; split; [reflexivity|].
      assert (NX : forall q, o_elems ox = Some q -> q <> nextp m). { intros q Eq. rewrite Eq in X4. destruct X4 as (b & Hb & _). assert (q < nextp m) by (apply (sm_next _ _ S); congruence). lia. }
      apply (sim_alloc m s x (sr a * sc a) m' a ox' b'); [exact S|rewrite Vx| |reflexivity|exact Hb'|rewrite N'; cbn; rewrite ?N; reflexivity|exact Lb'| | |apply (holds_block m' ox' a (nextp m) b'); auto|apply upd_eq|intros; apply upd_ne; auto].
      * intros p Hp. rewrite Fr' by auto. cbn. rewrite upd_ne by auto. auto.
      * intros z. rewrite Vs'. auto.
      * intros q Hq Ho. rewrite Fr' by auto. cbn. rewrite upd_ne by auto. auto.
      * intros q Hq. rewrite Fr' by auto. cbn. rewrite upd_ne by auto. intros Q Z. apply Q. destruct (o_elems ox) as [p|] eqn:Eo; [destruct (Nat.eq_dec p q) as [->|]|]; [apply Fr2; auto|rewrite Fr; auto; congruence|rewrite Fr; auto; congruence].
  - (* Resize *) destruct (s x) as [ax|] eqn:Ex; [|discriminate]. cbn in H. injection H as <- <-.
    destruct (sim_var _ _ _ _ S Ex) as (ox & Vx & X1 & X2 & X3 & X4). unfold resize. rewrite Vx. cbn [bind].
    assert (GO : exists m1, free m (o_elems ox) = Some m1 /\ vars m1 = vars m /\ nextp m1 = nextp m /\ (forall q, o_elems ox <> Some q -> heap m1 q = heap m q) /\ forall q, o_elems ox = Some q -> heap m1 q = None).
    { destruct (o_elems ox) as [p|]; cbn [free].
      - destruct X4 as (b & Hb & _). rewrite Hb. cbn. eexists; split; [reflexivity|]. cbn. repeat split; auto. intros q Hq. apply upd_ne. congruence. intros q Hq. injection Hq as <-. apply upd_eq.
      - eexists; split; [reflexivity|]. repeat split; auto. discriminate. }
    destruct GO as (m1 & F & Vs & N & Fr & Fr2). rewrite F. cbn [bind alloc]. unfold noout. cbn [bind]. rewrite N. eexists; split; [reflexivity|].
    assert (NX : forall q, o_elems ox = Some q -> q <> nextp m). { intros q Eq. rewrite Eq in X4. destruct X4 as (b & Hb & _). assert (q < nextp m) by (apply (sm_next _ _ S); congruence). lia. }
    eapply (sim_alloc m s x (nr * nc) _ (suninit nr nc)); cbn; eauto.
    + rewrite Vx. intros p Hp. cbn. rewrite upd_ne by auto. auto.
    + intros z. cbn. rewrite Vs. reflexivity.
    + cbn. reflexivity.
    + apply upd_eq.
    + reflexivity.
    + intros q Hq Ho. rewrite upd_ne by auto. auto.
    + intros q Hq. rewrite upd_ne by auto. intros Q Z. apply Q. destruct (o_elems ox) as [p|] eqn:Eo; [destruct (Nat.eq_dec p q) as [->|]|]; [apply Fr2; auto|rewrite Fr; auto; congruence|rewrite Fr; auto; congruence].
    + eapply holds_block; cbn; eauto; [apply upd_eq|auto|intros; reflexivity].
    + apply upd_eq.
    + intros; apply upd_ne; auto.
  - destruct (s x) as [a|] eqn:E; [|discriminate]. cbn in H. injection H as <- <-. destruct (fill_sim m s x a t0 S E) as (m' & F & R). rewrite F. cbn. eauto.
  - destruct (s x) as [a|] eqn:E; [|discriminate]. cbn in H. injection H as <- <-. destruct (fill_sim m s x a t1 S E) as (m' & F & R). rewrite F. cbn. eauto.
  - (* SetData *) destruct (s x) as [a|] eqn:E; [|discriminate]. cbn in H. destruct (Nat.eqb_spec sz (sr a * sc a)) as [Es|]; [|discriminate]. destruct (Nat.leb_spec sz (alen A)); [|discriminate]. cbn in H. injection H as <- <-.
    destruct (sim_var _ _ _ _ S E) as (o & V & W1 & W2 & W3 & W4).
    destruct (in_place m s x o a (setdata debug x A sz m) (mksm (sr a) (sc a) (fun i j => Some (aat A (i * sc a + j)))) (upd s x (Some (mksm (sr a) (sc a) (fun i j => Some (aat A (i * sc a + j))))))) as (m' & F & R); auto; [apply upd_eq|intros; apply upd_ne; auto| | |].
    + intros p b Ep Hb Lb Cb. unfold setdata. rewrite V. cbn [bind]. rewrite W1, W2, W3, Ep, Es, Nat.eqb_refl, andb_false_r.
      destruct (set_loop p (sr a) (sc a) A ltac:(lia) m b Hb Lb) as (m' & F & N & Vs & Fr & b' & Hb' & Lb' & Cb'). exists m'. repeat split; auto. exists b'. repeat split; auto. intros. cbn. apply Cb'. apply idx_lt; auto.
    + intros Ep Z. unfold setdata. rewrite V. cbn [bind]. rewrite W1, W2, W3, Es, Nat.eqb_refl, andb_false_r.
      apply floop_stay. intros i Hi. apply floop_stay. intros j Hj. pose proof (idx_lt _ _ _ _ Hi Hj). lia.
    + rewrite F. cbn. eauto.
  - (* Get *) destruct (s x) as [a|] eqn:E; [|discriminate]. cbn in H. destruct (Nat.ltb_spec i (sr a)); [|discriminate]. destruct (Nat.ltb_spec j (sc a)); [|discriminate]. cbn in H. destruct (sv a i j) as [v|] eqn:Ev; [|discriminate]. cbn in H. injection H as <- <-.
    rewrite (get_sim m s x a i j v); auto. cbn. eauto.
  - (* Set *) destruct (s x) as [a|] eqn:E; [|discriminate]. cbn in H. destruct (Nat.ltb_spec i (sr a)) as [Hi|]; [|discriminate]. destruct (Nat.ltb_spec j (sc a)) as [Hj|]; [|discriminate]. cbn in H. injection H as <- <-.
    destruct (sim_var _ _ _ _ S E) as (o & V & W1 & W2 & W3 & W4). pose proof (idx_lt _ _ _ _ Hi Hj) as L.
    destruct (in_place m s x o a (set x i j t m) (mksm (sr a) (sc a) (upd2 (sv a) i j (Some t))) (upd s x (Some (mksm (sr a) (sc a) (upd2 (sv a) i j (Some t)))))) as (m' & F & R); auto; [apply upd_eq|intros; apply upd_ne; auto| | |].
    + intros p b Ep Hb Lb Cb. unfold set. rewrite V. cbn [bind]. rewrite W2, Ep. rewrite (hset_ok _ _ b) by (auto; lia). eexists; split; [reflexivity|]. cbn. repeat split; auto. intros; apply upd_ne; auto.
      rewrite upd_eq. eexists; split; [reflexivity|]. cbn. split; auto. intros i' j' Hi' Hj'. unfold upd. destruct (Nat.eqb_spec (i' * sc a + j') (i * sc a + j)) as [Q|Q].
      * apply idx_inj in Q; auto. destruct Q as (-> & ->). rewrite upd2_eq. auto.
      * rewrite upd2_ne; [auto|]. destruct (Nat.eq_dec i' i) as [->|Ni]; [right; intros ->; auto|left; auto].
    + intros _ Z. lia.
    + rewrite F. cbn. eauto.
  - (* Equal *) destruct (s x) as [a|] eqn:Ex; [|discriminate]. cbn in H. destruct (s y) as [b|] eqn:Ey; [|discriminate]. cbn in H. destruct (Nat.eqb_spec (sr a) (sr b)) as [E1|E1]; [destruct (Nat.eqb_spec (sc a) (sc b)) as [E2|E2]|]; cbn in H.
    + destruct (sall close _ a b) as [r|] eqn:Er; [|discriminate]. cbn in H. injection H as <- <-. rewrite (eq_sim m s x y a b r); auto. cbn. eauto.
    + injection H as <- <-. destruct (sim_var _ _ _ _ S Ex) as (o1 & V1 & W1 & W2 & _). destruct (sim_var _ _ _ _ S Ey) as (o2 & V2 & X1 & X2 & _). unfold are_equal. rewrite V1, V2. cbn. rewrite W1, X1, W2, X2, E1, Nat.eqb_refl, (proj2 (Nat.eqb_neq _ _) E2). cbn. eauto.
    + injection H as <- <-. destruct (sim_var _ _ _ _ S Ex) as (o1 & V1 & W1 & W2 & _). destruct (sim_var _ _ _ _ S Ey) as (o2 & V2 & X1 & X2 & _). unfold are_equal. rewrite V1, V2. cbn. rewrite W1, X1, (proj2 (Nat.eqb_neq _ _) E1). cbn. eauto.
  - destruct (s x) as [a|] eqn:Ex; [|discriminate]. cbn in H. injection H as <- <-. destruct (sim_var _ _ _ _ S Ex) as (o1 & V1 & W1 & W2 & W3 & _). rewrite V1. cbn. rewrite W1. eauto.
  - destruct (s x) as [a|] eqn:Ex; [|discriminate]. cbn in H. injection H as <- <-. destruct (sim_var _ _ _ _ S Ex) as (o1 & V1 & W1 & W2 & W3 & _). rewrite V1. cbn. rewrite W2. eauto.
  - destruct (s x) as [a|] eqn:Ex; [|discriminate]. cbn in H. injection H as <- <-. destruct (sim_var _ _ _ _ S Ex) as (o1 & V1 & W1 & W2 & W3 & _). rewrite V1. cbn. rewrite W3. eauto.
Qed.

Theorem sim_all debug : forall l m s s' o, sim m s -> (debug = false -> forall x, ~ In (Assign x x) l) -> sexec_all t0 t1 close l s = Some (s', o) ->
  exists m', exec_all t0 t1 close debug l m = Some (m', o) /\ sim m' s'.
Proof.
  induction l as [|p l IH]; intros m s s' o S ND H; cbn in *.
  - injection H as <- <-. eauto.
  - destruct (sexec1 t0 t1 close p s) as [[s1 o1]|] eqn:E1; [|discriminate]. cbn in H. destruct (sexec_all t0 t1 close l s1) as [[s2 o2]|] eqn:E2; [|discriminate]. cbn in H. injection H as <- <-.
    destruct (sim_step debug p m s s1 o1 S) as (m1 & F1 & S1); auto. { intros D x Q. apply (ND D x). auto. }
    destruct (IH m1 s1 s2 o2 S1) as (m2 & F2 & S2); auto. { intros D x Q. apply (ND D x). auto. }
    rewrite F1. cbn. rewrite F2. cbn. eauto.
Qed.
End P.
