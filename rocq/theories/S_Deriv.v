(** Specification of derivatives of functions of a state vector.
    [grad_is f u g]: along every curve of states through [u] that is differentiable there, the
    function [f] is differentiable and changes at the rate [g . (direction of the curve)]. This is
    (Hadamard) differentiability; for coordinate lines it gives the partial derivatives. *)
From Coq Require Import Reals.
From Verif Require Import BaseR M_Gas.
Open Scope R_scope.

(** [c] passes through [u] at parameter [t] with velocity [du]. *)
Definition curve_at (c : R -> st) (t : R) (u du : st) : Prop :=
  c t = u /\ forall k : ix, derivable_pt_lim (fun s => cget (c s) k) t (cget du k).

(** [g] is the gradient of [f] at [u] *)
Definition grad_is (f : st -> R) (u g : st) : Prop :=
  forall (c : R -> st) (t : R) (du : st),
    curve_at c t u du -> derivable_pt_lim (fun s => f (c s)) t (sdot g du).

(** [J] is the Jacobian matrix of [F] at [u]: row i is the gradient of component i *)
Definition jac_is (F : st -> st) (u : st) (J : mat4) : Prop :=
  forall i : ix, grad_is (fun x => cget (F x) i) u (mrow J i).

(** Partial derivative of [f] with respect to component [k], the classical definition *)
Definition with_comp (u : st) (k : ix) (x : R) : st :=
  match k with
  | I0 => mks x (s1 u) (s2 u) (s3 u)
  | I1 => mks (s0 u) x (s2 u) (s3 u)
  | I2 => mks (s0 u) (s1 u) x (s3 u)
  | I3 => mks (s0 u) (s1 u) (s2 u) x
  end.
Definition partial_is (f : st -> R) (u : st) (k : ix) (d : R) : Prop :=
  derivable_pt_lim (fun x => f (with_comp u k x)) (cget u k) d.
