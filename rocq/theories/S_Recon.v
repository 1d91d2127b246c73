(** Specification vocabulary for reconstruction schemes. *)
From Coq Require Import Reals List Arith.
From Verif Require Import Base BaseR M_Gas M_Mesh M_Geom M_Space S_Space.
Open Scope R_scope.

(** number of the cell on the other side of face [k] of cell [i] *)
Definition other (S : smesh) (i k : nat) : nat :=
  if (f_left (aat (sm_F S) k) =? i)%nat then f_right (aat (sm_F S) k) else f_left (aat (sm_F S) k).
(** [j] is cell [i] or one of its neighbours *)
Definition near (S : smesh) (i j : nat) : Prop := j = i \/ exists k, bounds S i k /\ j = other S i k.
(** [x] lies between the smallest and the largest value of variable [v] in cell [i] and its neighbours *)
Definition within (S : smesh) (u : arr st) (i : nat) (v : ix) (x : R) : Prop :=
  (exists j, near S i j /\ cget (aat u j) v <= x) /\ (exists j, near S i j /\ x <= cget (aat u j) v).
(** directional derivative of variable [v] along [d] *)
Definition along (g : grad) (v : ix) (d : v2) : R := cget (gx g) v * vx d + cget (gy g) v * vy d.

(** Van Albada limiter and the limited value on the side of a cell with value [u], neighbour value
    [w] and derivative [s] of the cell's gradient along the line to the neighbour (times distance) *)
Definition albada_phi (b e : R) : R := Rmax 0 ((2 * b * e + / 10 ^ 8) / (b ^ 2 + e ^ 2 + / 10 ^ 8)).
Definition albada (u w s : R) : R :=
  let e := w - u in let b := 2 * s - e in let phi := albada_phi b e in
  u + phi / 4 * ((1 - phi / 3) * b + (1 + phi / 3) * e).
