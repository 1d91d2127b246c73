(** Specification vocabulary for plane geometry. *)
From Coq Require Import Reals List Arith.
From Verif Require Import BaseR BaseSum.
Import ListNotations.
Open Scope R_scope.

Definition cross (a b : v2) : R := vx a * vy b - vy a * vx b.
(** the vector turned by 90 degrees clockwise: to the right of the direction of travel *)
Definition rot_right (d : v2) : v2 := mkv (vy d) (- vx d).
Definition norm2 (d : v2) : R := sqrt (dot2 d d).

(** Consecutive pairs of a closed polygon. *)
Fixpoint chain (p : list v2) (last : v2) : list (v2 * v2) :=
  match p with
  | [] => []
  | [a] => [(a, last)]
  | a :: (b :: _) as r => (a, b) :: chain r last
  end.
Definition sides (p : list v2) : list (v2 * v2) :=
  match p with [] => [] | a :: _ => chain p a end.
(** Signed area of a closed polygon. *)
Definition polygon_area (p : list v2) : R := / 2 * rsum (fun s => cross (fst s) (snd s)) (sides p).

(** strictly to the left of the directed line a -> b *)
Definition left_of (a b c : v2) : Prop := 0 < cross (vsub b a) (vsub c a).
