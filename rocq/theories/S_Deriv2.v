(** Specification of derivatives of functions of two states (the two sides of a face). *)
From Coq Require Import Reals.
From Verif Require Import BaseR M_Gas S_Deriv.
Open Scope R_scope.

(** [gl], [gr] are the gradients of [f] with respect to its two arguments at ([ul],[ur]), jointly:
    along every pair of curves of states differentiable there. *)
Definition grad2_is (f : st -> st -> R) (ul ur gl gr : st) : Prop :=
  forall (cl cr : R -> st) (t : R) (dul dur : st),
    curve_at cl t ul dul -> curve_at cr t ur dur ->
    derivable_pt_lim (fun s => f (cl s) (cr s)) t (sdot gl dul + sdot gr dur).

(** [JL], [JR]: the Jacobian matrices of [F] with respect to its left and right argument. *)
Definition jac2_is (F : st -> st -> st) (ul ur : st) (JL JR : mat4) : Prop :=
  forall i : ix, grad2_is (fun x y => cget (F x y) i) ul ur (mrow JL i) (mrow JR i).

Definition mneg (J : mat4) : mat4 := mkm (sneg (r0 J)) (sneg (r1 J)) (sneg (r2 J)) (sneg (r3 J)).
Definition madd (J K : mat4) : mat4 :=
  mkm (sadd (r0 J) (r0 K)) (sadd (r1 J) (r1 K)) (sadd (r2 J) (r2 K)) (sadd (r3 J) (r3 K)).
(** Outer product: entry (i,k) is a_i b_k *)
Definition outer (a b : st) : mat4 := mkm (sscal (s0 a) b) (sscal (s1 a) b) (sscal (s2 a) b) (sscal (s3 a) b).

(** Van Leer's split Mach number and pressure weight (the "plus" parts; the "minus" parts are
    [- mach_plus (- m)] and [press_plus (- m)]). *)
Definition mach_plus (m : R) : R :=
  if Rle_dec m (-1) then 0 else if Rle_dec m 1 then (m + 1)^2 / 4 else m.
Definition press_plus (m : R) : R :=
  if Rle_dec m (-1) then 0 else if Rle_dec m 1 then (m + 1)^2 * (2 - m) / 4 else 1.
