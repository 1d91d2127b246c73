(** Bounds-checked arrays and loops in the option monad. No FVENS content.
    [None] stands for undefined behaviour (out-of-bounds access); a theorem saying that a
    computation returns [Some _] therefore says that no access is out of bounds. *)
From Coq Require Import List Arith Lia ZArith Bool.
Import ListNotations.

Global Arguments Nat.ltb _ _ : simpl never.
Global Arguments Nat.leb _ _ : simpl never.
Global Arguments Nat.eqb _ _ : simpl never.
Global Arguments Nat.modulo _ _ : simpl never.
Global Arguments Nat.div _ _ : simpl never.

Definition bind {A B} (x : option A) (k : A -> option B) : option B :=
  match x with Some a => k a | None => None end.
Notation "x <- e ;; k" := (bind e (fun x => k)) (at level 61, e at next level, right associativity).
Notation "' pat <- e ;; k" :=
  (bind e (fun x => match x with pat => k end)) (at level 61, pat pattern, e at next level, right associativity).

(** One-dimensional arrays: a length and the contents. *)
Record arr (A : Type) := mkarr { alen : nat; aat : nat -> A }.
Arguments mkarr {A}. Arguments alen {A}. Arguments aat {A}.

Definition aget {A} (a : arr A) (i : nat) : option A := if i <? alen a then Some (aat a i) else None.
Definition upd {A} (f : nat -> A) (i : nat) (x : A) : nat -> A := fun j => if j =? i then x else f j.
Definition aset {A} (a : arr A) (i : nat) (x : A) : option (arr A) :=
  if i <? alen a then Some (mkarr (alen a) (upd (aat a) i x)) else None.
Definition aconst {A} (n : nat) (x : A) : arr A := mkarr n (fun _ => x).
(** contents as a list *)
Definition alist {A} (a : arr A) : list A := map (aat a) (seq 0 (alen a)).
Definition aslice {A} (a : arr A) (lo hi : nat) : list A := map (aat a) (seq lo (hi - lo)).

(** Two-dimensional arrays. *)
Record arr2 (A : Type) := mk2 { rows : nat; cols : nat; at2 : nat -> nat -> A }.
Arguments mk2 {A}. Arguments rows {A}. Arguments cols {A}. Arguments at2 {A}.

Definition get2 {A} (a : arr2 A) (i j : nat) : option A :=
  if (i <? rows a) && (j <? cols a) then Some (at2 a i j) else None.
Definition upd2 {A} (f : nat -> nat -> A) (i j : nat) (x : A) : nat -> nat -> A :=
  fun p q => if (p =? i) && (q =? j) then x else f p q.
Definition set2 {A} (a : arr2 A) (i j : nat) (x : A) : option (arr2 A) :=
  if (i <? rows a) && (j <? cols a) then Some (mk2 (rows a) (cols a) (upd2 (at2 a) i j x)) else None.
Definition const2 {A} (n m : nat) (x : A) : arr2 A := mk2 n m (fun _ _ => x).

(** Loops. [floop n body s] runs [body 0], [body 1], ..., [body (n-1)]. *)
Fixpoint floop {S} (n : nat) (body : nat -> S -> option S) (s : S) : option S :=
  match n with 0 => Some s | S k => bind (floop k body s) (body k) end.

(** [for(i = lo; i < hi; i++)] *)
Definition frange {S} (lo hi : nat) (body : nat -> S -> option S) (s : S) : option S :=
  floop (hi - lo) (fun k => body (lo + k)) s.

(** Fold over a list in the option monad. *)
Fixpoint ofold {A S} (body : A -> S -> option S) (l : list A) (s : S) : option S :=
  match l with [] => Some s | x :: r => bind (body x s) (ofold body r) end.

(** [for(i = lo; i < hi; i++) if(p(i)) break;] : the first index satisfying [p]. *)
Fixpoint ofind_from (fuel lo : nat) (p : nat -> option bool) : option (option nat) :=
  match fuel with
  | 0 => Some None
  | S k => b <- p lo ;; if b then Some (Some lo) else ofind_from k (lo + 1) p
  end.
Definition ofind (n : nat) (p : nat -> option bool) : option (option nat) := ofind_from n 0 p.

(** ** Lemmas *)

Lemma bind_some : forall A B (x : option A) (k : A -> option B) b,
  bind x k = Some b -> exists a, x = Some a /\ k a = Some b.
Proof. intros A B [a|] k b; cbn; [eauto|discriminate]. Qed.

Lemma bind_assoc : forall A B C (x : option A) (k : A -> option B) (h : B -> option C),
  bind (bind x k) h = bind x (fun a => bind (k a) h).
Proof. intros A B C [a|] k h; reflexivity. Qed.

Lemma bind_ret : forall A (x : option A), bind x Some = x.
Proof. intros A [a|]; reflexivity. Qed.

Lemma aget_ok : forall A (a : arr A) i, i < alen a -> aget a i = Some (aat a i).
Proof. intros. unfold aget. apply Nat.ltb_lt in H. rewrite H. reflexivity. Qed.
Lemma aset_ok : forall A (a : arr A) i x, i < alen a -> aset a i x = Some (mkarr (alen a) (upd (aat a) i x)).
Proof. intros. unfold aset. apply Nat.ltb_lt in H. rewrite H. reflexivity. Qed.
Lemma aget_inv : forall A (a : arr A) i x, aget a i = Some x -> i < alen a /\ x = aat a i.
Proof. unfold aget; intros. destruct (Nat.ltb_spec i (alen a)); inversion H; auto. Qed.
Lemma aset_inv : forall A (a a' : arr A) i x, aset a i x = Some a' -> i < alen a /\ a' = mkarr (alen a) (upd (aat a) i x).
Proof. unfold aset; intros. destruct (Nat.ltb_spec i (alen a)); inversion H; auto. Qed.
Lemma get2_ok : forall A (a : arr2 A) i j, i < rows a -> j < cols a -> get2 a i j = Some (at2 a i j).
Proof. intros. unfold get2. apply Nat.ltb_lt in H, H0. rewrite H, H0. reflexivity. Qed.
Lemma set2_ok : forall A (a : arr2 A) i j x, i < rows a -> j < cols a ->
  set2 a i j x = Some (mk2 (rows a) (cols a) (upd2 (at2 a) i j x)).
Proof. intros. unfold set2. apply Nat.ltb_lt in H, H0. rewrite H, H0. reflexivity. Qed.

Lemma upd_eq : forall A (f : nat -> A) i x, upd f i x i = x.
Proof. intros. unfold upd. rewrite Nat.eqb_refl. reflexivity. Qed.
Lemma upd_ne : forall A (f : nat -> A) i j x, j <> i -> upd f i x j = f j.
Proof. intros. unfold upd. apply Nat.eqb_neq in H. rewrite H. reflexivity. Qed.
Lemma upd2_eq : forall A (f : nat -> nat -> A) i j x, upd2 f i j x i j = x.
Proof. intros. unfold upd2. rewrite !Nat.eqb_refl. reflexivity. Qed.
Lemma upd2_ne : forall A (f : nat -> nat -> A) i j p q x, p <> i \/ q <> j -> upd2 f i j x p q = f p q.
Proof.
  intros. unfold upd2. destruct (Nat.eqb_spec p i); destruct (Nat.eqb_spec q j); cbn; auto. lia.
Qed.
Lemma upd2_spec : forall A (f : nat -> nat -> A) i j p q x,
  upd2 f i j x p q = if (p =? i) && (q =? j) then x else f p q.
Proof. reflexivity. Qed.

(** Invariant rules. *)
Lemma floop_inv : forall S (Inv : nat -> S -> Prop) n body s,
  Inv 0 s ->
  (forall i s, i < n -> Inv i s -> exists s', body i s = Some s' /\ Inv (i + 1) s') ->
  exists s', floop n body s = Some s' /\ Inv n s'.
Proof.
  intros S Inv n body s H0 Hs. induction n as [|n IH].
  - exists s. auto.
  - destruct IH as (s1 & E & I). { intros; apply Hs; auto. }
    destruct (Hs n s1) as (s2 & E2 & I2); auto.
    exists s2. cbn. rewrite E. cbn. split; [exact E2|]. rewrite Nat.add_1_r in I2. exact I2.
Qed.

Lemma frange_inv : forall S (Inv : nat -> S -> Prop) lo hi body s,
  lo <= hi -> Inv lo s ->
  (forall i s, lo <= i < hi -> Inv i s -> exists s', body i s = Some s' /\ Inv (i + 1) s') ->
  exists s', frange lo hi body s = Some s' /\ Inv hi s'.
Proof.
  intros S Inv lo hi body s Hl H0 Hs. unfold frange.
  destruct (floop_inv S (fun k => Inv (lo + k)) (hi - lo) (fun k => body (lo + k)) s) as (s' & E & I).
  - rewrite Nat.add_0_r; auto.
  - intros i s1 Hi HI. destruct (Hs (lo + i) s1) as (s2 & E2 & I2); [lia|auto|].
    exists s2. split; auto. rewrite Nat.add_assoc. exact I2.
  - exists s'. split; auto. replace (lo + (hi - lo)) with hi in I by lia. exact I.
Qed.

(** Invariant over the already processed prefix of a list. *)
Lemma ofold_inv : forall A S (Inv : list A -> S -> Prop) body l s,
  Inv [] s ->
  (forall pre x post s, l = pre ++ x :: post -> Inv pre s -> exists s', body x s = Some s' /\ Inv (pre ++ [x]) s') ->
  exists s', ofold body l s = Some s' /\ Inv l s'.
Proof.
  intros A S Inv body l s H0 Hs.
  assert (G : forall post pre s, l = pre ++ post -> Inv pre s -> exists s', ofold body post s = Some s' /\ Inv l s').
  { induction post as [|x post IH]; intros pre s1 El HI.
    - rewrite app_nil_r in El. subst. exists s1. auto.
    - destruct (Hs pre x post s1 El HI) as (s2 & E & I2). cbn. rewrite E. cbn.
      apply (IH (pre ++ [x])); auto. rewrite <- app_assoc. exact El. }
  apply (G l []); auto.
Qed.

Lemma ofold_app : forall A S (body : A -> S -> option S) l1 l2 s,
  ofold body (l1 ++ l2) s = bind (ofold body l1 s) (ofold body l2).
Proof.
  induction l1 as [|x l1 IH]; intros; cbn; [reflexivity|].
  destruct (body x s); cbn; auto.
Qed.

Lemma ofold_ext : forall A S (b1 b2 : A -> S -> option S) l s,
  (forall x s, In x l -> b1 x s = b2 x s) -> ofold b1 l s = ofold b2 l s.
Proof.
  induction l as [|x l IH]; intros; cbn; [reflexivity|].
  rewrite H by (left; auto). destruct (b2 x s); cbn; auto. apply IH. intros. apply H. right; auto.
Qed.

Lemma ofold_map : forall A B S (f : A -> B) (body : B -> S -> option S) l s,
  ofold body (map f l) s = ofold (fun x => body (f x)) l s.
Proof. induction l as [|x l IH]; intros; cbn; [reflexivity|]. destruct (body (f x) s); cbn; auto. Qed.

Lemma ofold_flat_map : forall A B S (f : A -> list B) (body : B -> S -> option S) l s,
  ofold body (flat_map f l) s = ofold (fun x => ofold body (f x)) l s.
Proof.
  induction l as [|x l IH]; intros; cbn; [reflexivity|]. rewrite ofold_app.
  destruct (ofold body (f x) s); cbn; auto.
Qed.

Lemma floop_seq : forall S (body : nat -> S -> option S) n s, floop n body s = ofold body (seq 0 n) s.
Proof.
  induction n as [|n IH]; intros; [reflexivity|].
  rewrite seq_S, ofold_app, <- IH. cbn. destruct (floop n body s); cbn; auto. rewrite bind_ret. reflexivity.
Qed.

Lemma floop_ext : forall S (b1 b2 : nat -> S -> option S) n s,
  (forall i s, i < n -> b1 i s = b2 i s) -> floop n b1 s = floop n b2 s.
Proof.
  induction n as [|n IH]; intros; cbn; [reflexivity|]. rewrite IH by auto.
  destruct (floop n b2 s); cbn; auto.
Qed.

Lemma ofind_spec : forall n p (q : nat -> bool),
  (forall i, i < n -> p i = Some (q i)) ->
  (exists i, i < n /\ q i = true /\ (forall j, j < i -> q j = false) /\ ofind n p = Some (Some i)) \/
  ((forall i, i < n -> q i = false) /\ ofind n p = Some None).
Proof.
  intros n p q Hp. unfold ofind.
  assert (G : forall fuel lo, lo + fuel = n -> (forall j, j < lo -> q j = false) ->
    (exists i, i < n /\ q i = true /\ (forall j, j < i -> q j = false) /\ ofind_from fuel lo p = Some (Some i)) \/
    ((forall i, i < n -> q i = false) /\ ofind_from fuel lo p = Some None)).
  { induction fuel as [|k IH]; intros lo El Hlo; cbn.
    - right. split; auto. intros. apply Hlo. lia.
    - rewrite Hp by lia. cbn. destruct (q lo) eqn:Q.
      + left. exists lo. repeat split; auto. lia.
      + apply IH; [lia|]. intros j Hj. destruct (Nat.eq_dec j lo); subst; auto. apply Hlo. lia. }
  apply G; auto. intros; lia.
Qed.

Lemma nth_error_seq : forall n i, i < n -> nth_error (seq 0 n) i = Some i.
Proof.
  intros. rewrite (nth_error_nth' _ 0) by (rewrite seq_length; auto). rewrite seq_nth by auto. reflexivity.
Qed.

Lemma alist_length : forall A (a : arr A), length (alist a) = alen a.
Proof. intros. unfold alist. rewrite map_length, seq_length. reflexivity. Qed.

Lemma flat_map_ext_in : forall A B (f g : A -> list B) l,
  (forall x, In x l -> f x = g x) -> flat_map f l = flat_map g l.
Proof.
  induction l as [|x l IH]; intros; cbn; [reflexivity|]. rewrite H by (left; auto). f_equal. apply IH.
  intros; apply H; right; auto.
Qed.

(** Exceptions: [Some Exn] is a C++ exception, [None] undefined behaviour. *)
Inductive exc (A : Type) := Val (a : A) | Exn.
Arguments Val {A}. Arguments Exn {A}.
Definition ebind {A B} (x : option (exc A)) (k : A -> option (exc B)) : option (exc B) :=
  match x with Some (Val a) => k a | Some Exn => Some Exn | None => None end.
Notation "x <-- e ;; k" := (ebind e (fun x => k)) (at level 61, e at next level, right associativity).
Definition lift {A} (x : option A) : option (exc A) :=
  match x with Some a => Some (Val a) | None => None end.
Fixpoint eloop {S} (n : nat) (body : nat -> S -> option (exc S)) (s : S) : option (exc S) :=
  match n with 0 => Some (Val s) | S k => ebind (eloop k body s) (body k) end.

Lemma eloop_inv : forall S (Inv : nat -> S -> Prop) n body s,
  Inv 0 s ->
  (forall i s, i < n -> Inv i s -> exists s', body i s = Some (Val s') /\ Inv (i + 1) s') ->
  exists s', eloop n body s = Some (Val s') /\ Inv n s'.
Proof.
  intros S Inv n body s H0 Hs. induction n as [|n IH].
  - exists s. auto.
  - destruct IH as (s1 & E & I). { intros; apply Hs; auto. }
    destruct (Hs n s1) as (s2 & E2 & I2); auto.
    exists s2. cbn. rewrite E. cbn. split; [exact E2|]. rewrite Nat.add_1_r in I2. exact I2.
Qed.
