(** Specification of the viscous flux: Newtonian stress with Stokes' hypothesis and Fourier heat
    conduction, textbook form. *)
From Coq Require Import Reals.
From Verif Require Import BaseR.
Open Scope R_scope.

(** Velocity gradient: dvx = grad of the x-velocity, dvy = grad of the y-velocity *)
Definition divergence (dvx dvy : v2) : R := vx dvx + vy dvy.

(** Force per area on a surface with normal n: tau n, tau = mu (grad v + grad v^T - 2/3 div v I) *)
Definition traction (mu : R) (dvx dvy : v2) (n : v2) : v2 :=
  mkv (mu * ((2 * vx dvx - 2/3 * divergence dvx dvy) * vx n + (vy dvx + vx dvy) * vy n))
      (mu * ((vy dvx + vx dvy) * vx n + (2 * vy dvy - 2/3 * divergence dvx dvy) * vy n)).

(** Flux of (mass, momentum, energy) through the surface: minus traction, minus the work of the
    traction and the conducted heat *)
Definition viscous_flux (mu k : R) (dvx dvy dT v n : v2) : st :=
  let f := traction mu dvx dvy n in
  mks 0 (- vx f) (- vy f) (- (dot2 f v) - k * dot2 dT n).

(** Distance and direction in the plane *)
Definition dist2 (a b : v2) : R := sqrt ((vx b - vx a)^2 + (vy b - vy a)^2).

(** A linear field of states: value c + x gx + y gy *)
Definition linear_field (c a b : st) (x : v2) : st := sadd c (sadd (sscal (vx x) a) (sscal (vy x) b)).
