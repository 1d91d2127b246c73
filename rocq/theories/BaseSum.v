(** Finite sums of reals, plane vectors and states over lists. No FVENS content. *)
From Coq Require Import Reals Lra List Arith Permutation Lia.
From Verif Require Import BaseR.
Import ListNotations.
Open Scope R_scope.

Fixpoint rsum {A} (f : A -> R) (l : list A) : R :=
  match l with [] => 0 | x :: r => f x + rsum f r end.
Definition vsum {A} (f : A -> v2) (l : list A) : v2 := mkv (rsum (fun x => vx (f x)) l) (rsum (fun x => vy (f x)) l).
Definition ssum {A} (f : A -> st) (l : list A) : st :=
  mks (rsum (fun x => s0 (f x)) l) (rsum (fun x => s1 (f x)) l) (rsum (fun x => s2 (f x)) l) (rsum (fun x => s3 (f x)) l).

Section Sums.
Context {A B : Type}.
Implicit Types (f g : A -> R) (l : list A).
Lemma rsum_app f l1 l2 : rsum f (l1 ++ l2) = rsum f l1 + rsum f l2.
Proof. induction l1 as [|x l1 IH]; cbn; [lra|]. rewrite IH. lra. Qed.
Lemma rsum_ext f g l : (forall x, In x l -> f x = g x) -> rsum f l = rsum g l.
Proof. induction l as [|x l IH]; cbn; intros H; [reflexivity|]. rewrite H, IH by auto. reflexivity. Qed.
Lemma rsum_plus f g l : rsum (fun x => f x + g x) l = rsum f l + rsum g l.
Proof. induction l as [|x l IH]; cbn; [lra|]. rewrite IH. lra. Qed.
Lemma rsum_minus f g l : rsum (fun x => f x - g x) l = rsum f l - rsum g l.
Proof. induction l as [|x l IH]; cbn; [lra|]. rewrite IH. lra. Qed.
Lemma rsum_opp f l : rsum (fun x => - f x) l = - rsum f l.
Proof. induction l as [|x l IH]; cbn; [lra|]. rewrite IH. lra. Qed.
Lemma rsum_scal c f l : rsum (fun x => c * f x) l = c * rsum f l.
Proof. induction l as [|x l IH]; cbn; [lra|]. rewrite IH. lra. Qed.
Lemma rsum_scal_r c f l : rsum (fun x => f x * c) l = rsum f l * c.
Proof. induction l as [|x l IH]; cbn; [lra|]. rewrite IH. lra. Qed.
Lemma rsum_zero f l : (forall x, In x l -> f x = 0) -> rsum f l = 0.
Proof. induction l as [|x l IH]; cbn; intros H; [reflexivity|]. rewrite H, IH by auto. lra. Qed.
Lemma rsum_nonneg f l : (forall x, In x l -> 0 <= f x) -> 0 <= rsum f l.
Proof. induction l as [|x l IH]; cbn; intros H; [lra|]. specialize (IH ltac:(auto)). specialize (H x ltac:(auto)). lra. Qed.
Lemma rsum_le f g l : (forall x, In x l -> f x <= g x) -> rsum f l <= rsum g l.
Proof. induction l as [|x l IH]; cbn; intros H; [lra|]. specialize (IH ltac:(auto)). specialize (H x ltac:(auto)). lra. Qed.
Lemma rsum_perm f l1 l2 : Permutation l1 l2 -> rsum f l1 = rsum f l2.
Proof. induction 1; cbn; lra. Qed.
Lemma rsum_map (h : B -> A) f (l : list B) : rsum f (map h l) = rsum (fun x => f (h x)) l.
Proof. induction l as [|x l IH]; cbn; [reflexivity|]. rewrite IH. reflexivity. Qed.
Lemma rsum_flat_map (h : B -> list A) f (l : list B) : rsum f (flat_map h l) = rsum (fun x => rsum f (h x)) l.
Proof. induction l as [|x l IH]; cbn; [reflexivity|]. rewrite rsum_app, IH. reflexivity. Qed.
Lemma rsum_filter (b : A -> bool) f l : rsum f (filter b l) = rsum (fun x => if b x then f x else 0) l.
Proof. induction l as [|x l IH]; cbn; [reflexivity|]. destruct (b x); cbn; rewrite IH; lra. Qed.
End Sums.

Lemma rsum_swap {A B} (f : A -> B -> R) l1 l2 :
  rsum (fun x => rsum (f x) l2) l1 = rsum (fun y => rsum (fun x => f x y) l1) l2.
Proof.
  induction l1 as [|x l1 IH]; cbn.
  - symmetry. apply rsum_zero. auto.
  - rewrite IH, <- rsum_plus. reflexivity.
Qed.
(** sum with exactly one non-zero term *)
Lemma rsum_single (f : nat -> R) n k : (k < n)%nat ->
  rsum (fun i => if Nat.eqb i k then f i else 0) (seq 0 n) = f k.
Proof.
  intros Hk. replace n with (k + (1 + (n - k - 1)))%nat by Lia.lia.
  rewrite !seq_app, !rsum_app. cbn [seq rsum]. rewrite Nat.add_0_l, Nat.eqb_refl.
  rewrite rsum_zero, rsum_zero. lra.
  - intros x Hx. apply in_seq in Hx. destruct (Nat.eqb_spec x k); [Lia.lia|reflexivity].
  - intros x Hx. apply in_seq in Hx. destruct (Nat.eqb_spec x k); [Lia.lia|reflexivity].
Qed.

Lemma vsum_app {A} (f : A -> v2) l1 l2 : vsum f (l1 ++ l2) = vadd (vsum f l1) (vsum f l2).
Proof. apply v2_eq; cbn; apply rsum_app. Qed.
Lemma vsum_ext {A} (f g : A -> v2) l : (forall x, In x l -> f x = g x) -> vsum f l = vsum g l.
Proof. intros H. apply v2_eq; cbn; apply rsum_ext; intros x Hx; rewrite H; auto. Qed.
Lemma vsum_perm {A} (f : A -> v2) l1 l2 : Permutation l1 l2 -> vsum f l1 = vsum f l2.
Proof. intros H. apply v2_eq; cbn; apply rsum_perm; auto. Qed.
Lemma ssum_app {A} (f : A -> st) l1 l2 : ssum f (l1 ++ l2) = sadd (ssum f l1) (ssum f l2).
Proof. apply st_eq; cbn; apply rsum_app. Qed.
Lemma ssum_ext {A} (f g : A -> st) l : (forall x, In x l -> f x = g x) -> ssum f l = ssum g l.
Proof. intros H. apply st_eq; cbn; apply rsum_ext; intros x Hx; rewrite H; auto. Qed.
Lemma ssum_perm {A} (f : A -> st) l1 l2 : Permutation l1 l2 -> ssum f l1 = ssum f l2.
Proof. intros H. apply st_eq; cbn; apply rsum_perm; auto. Qed.
