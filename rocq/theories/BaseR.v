(** Real vectors of the fixed sizes used by the solver (NDIM = 2, NVARS = 4),
    and boolean comparison of reals used to model the [if]s of the code. *)
From Coq Require Import Reals Lra Bool.
Open Scope R_scope.

(** A point or direction of the plane: static arrays of size NDIM. *)
Record v2 := mkv { vx : R; vy : R }.

(** A state vector: static arrays of size NVARS. *)
Record st := mks { s0 : R; s1 : R; s2 : R; s3 : R }.

(** Component indices 0..3. *)
Inductive ix := I0 | I1 | I2 | I3.

Definition cget (u : st) (k : ix) : R :=
  match k with I0 => s0 u | I1 => s1 u | I2 => s2 u | I3 => s3 u end.

Definition mkst (f : ix -> R) : st := mks (f I0) (f I1) (f I2) (f I3).

(** Component indices 0..1 *)
Inductive dx := DX | DY.
Definition dget (v : v2) (d : dx) : R := match d with DX => vx v | DY => vy v end.

Definition dot2 (a b : v2) : R := vx a * vx b + vy a * vy b.
Definition vneg (a : v2) : v2 := mkv (- vx a) (- vy a).
Definition vadd (a b : v2) : v2 := mkv (vx a + vx b) (vy a + vy b).
Definition vsub (a b : v2) : v2 := mkv (vx a - vx b) (vy a - vy b).
Definition vscal (c : R) (a : v2) : v2 := mkv (c * vx a) (c * vy a).
Definition vzero : v2 := mkv 0 0.

Definition szero : st := mks 0 0 0 0.
Definition sadd (a b : st) : st := mks (s0 a + s0 b) (s1 a + s1 b) (s2 a + s2 b) (s3 a + s3 b).
Definition ssub (a b : st) : st := mks (s0 a - s0 b) (s1 a - s1 b) (s2 a - s2 b) (s3 a - s3 b).
Definition sneg (a : st) : st := mks (- s0 a) (- s1 a) (- s2 a) (- s3 a).
Definition sscal (c : R) (a : st) : st := mks (c * s0 a) (c * s1 a) (c * s2 a) (c * s3 a).
Definition sdot (a b : st) : R := s0 a * s0 b + s1 a * s1 b + s2 a * s2 b + s3 a * s3 b.

(** Momentum part of a conserved state / velocity part of a primitive state (&u[1]). *)
Definition mom (u : st) : v2 := mkv (s1 u) (s2 u).

Definition ix_eqb (a b : ix) : bool :=
  match a, b with I0,I0 | I1,I1 | I2,I2 | I3,I3 => true | _,_ => false end.

(** Boolean comparisons *)
Definition Rltb (a b : R) : bool := if Rlt_dec a b then true else false.
Definition Rleb (a b : R) : bool := if Rle_dec a b then true else false.

Lemma Rltb_spec a b : reflect (a < b) (Rltb a b).
Proof. unfold Rltb; destruct (Rlt_dec a b); constructor; auto. Qed.
Lemma Rleb_spec a b : reflect (a <= b) (Rleb a b).
Proof. unfold Rleb; destruct (Rle_dec a b); constructor; auto. Qed.
Lemma Rltb_true a b : a < b -> Rltb a b = true.
Proof. intros; destruct (Rltb_spec a b); auto; lra. Qed.
Lemma Rltb_false a b : b <= a -> Rltb a b = false.
Proof. intros; destruct (Rltb_spec a b); auto; lra. Qed.
Lemma Rleb_true a b : a <= b -> Rleb a b = true.
Proof. intros; destruct (Rleb_spec a b); auto; lra. Qed.
Lemma Rleb_false a b : b < a -> Rleb a b = false.
Proof. intros; destruct (Rleb_spec a b); auto; lra. Qed.

Lemma st_eq a b : s0 a = s0 b -> s1 a = s1 b -> s2 a = s2 b -> s3 a = s3 b -> a = b.
Proof. destruct a, b; simpl; intros; subst; reflexivity. Qed.
Lemma st_ext a b : (forall k, cget a k = cget b k) -> a = b.
Proof. intros H; apply st_eq; [apply (H I0)|apply (H I1)|apply (H I2)|apply (H I3)]. Qed.
Lemma v2_eq a b : vx a = vx b -> vy a = vy b -> a = b.
Proof. destruct a, b; simpl; intros; subst; reflexivity. Qed.
Lemma cget_mkst f k : cget (mkst f) k = f k.
Proof. destruct k; reflexivity. Qed.

(** Overwriting one component *)
Definition st_set (u : st) (k : ix) (x : R) : st :=
  match k with
  | I0 => mks x (s1 u) (s2 u) (s3 u)
  | I1 => mks (s0 u) x (s2 u) (s3 u)
  | I2 => mks (s0 u) (s1 u) x (s3 u)
  | I3 => mks (s0 u) (s1 u) (s2 u) x
  end.
