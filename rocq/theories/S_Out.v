(** Specification vocabulary for the output: area-weighted averages at points, wall forces. *)
From Coq Require Import Reals List Arith ZArith.
From Verif Require Import Base BaseR BaseSum M_Gas M_Mesh M_Geom M_Space S_Gas S_Mesh S_Space.
Import ListNotations.
Open Scope R_scope.

(** the cells that have point [p] as a vertex *)
Definition cells_at (m : umesh) (p : nat) : list nat := filter (fun i => existsb (Nat.eqb p) (cell (cells m) i)) (seq 0 (nelem m)).
(** area-weighted average of cell values over the cells at a point *)
Definition point_average (m : umesh) (A : arr R) (f : nat -> R) (p : nat) : R :=
  rsum (fun i => f i * aat A i) (cells_at m p) / rsum (fun i => aat A i) (cells_at m p).
Definition average_state (m : umesh) (A : arr R) (u : arr st) (p : nat) : st := mkst (fun v => point_average m A (fun i => cget (aat u i) v) p).

Definition mach (ga : R) (u : st) : R := sqrt (speed2 u) / sound ga u.
Definition velocity (u : st) : v2 := mkv (s1 u / s0 u) (s2 u / s0 u).
(** entropy p / rho^gamma *)
Definition entropy (ga : R) (u : st) : R := pressure ga u / Rpower (s0 u) ga.

(** one face of a wall: unit normal out of the fluid, length, state of the cell, its gradient *)
Record wface := mkwf { wf_n : v2; wf_len : R; wf_u : st; wf_g : grad }.
(** pressure coefficient: excess pressure over the dynamic pressure 1/2 of the free stream *)
Definition cp_of (ga pinf : R) (u : st) : R := (pressure ga u - pinf) / (1/2).
(** force of the excess pressure on the wall (it acts along the normal out of the fluid) *)
Definition pressure_force (ga pinf : R) (l : list wface) : v2 :=
  vsum (fun f => vscal (cp_of ga pinf (wf_u f) * wf_len f) (wf_n f)) l.
Definition wall_area (l : list wface) : R := rsum wf_len l.
Definition wall_closed (l : list wface) : Prop := vsum (fun f => vscal (wf_len f) (wf_n f)) l = vzero.
(** unit vectors along the wind and upwards from it *)
Definition wind_dir (aoa : R) : v2 := mkv (cos aoa) (sin aoa).
Definition lift_dir (aoa : R) : v2 := mkv (- sin aoa) (cos aoa).

(** derivatives of the velocity components from the gradients of density and momentum *)
Definition dvel (u : st) (drho dm m : R) : R := (dm - m / s0 u * drho) / s0 u.
(** shear traction that the fluid exerts on the wall: the stress mu (grad v + grad v^T) applied to the
    normal into the fluid (minus [n]), projected on the tangent direction *)
Definition strain_n (u : st) (g : grad) (n : v2) : v2 :=
  let ux := dvel u (s0 (gx g)) (s1 (gx g)) (s1 u) in let uy := dvel u (s0 (gy g)) (s1 (gy g)) (s1 u) in
  let vx_ := dvel u (s0 (gx g)) (s2 (gx g)) (s2 u) in let vy_ := dvel u (s0 (gy g)) (s2 (gy g)) (s2 u) in
  mkv (2 * ux * vx n + (uy + vx_) * vy n) ((uy + vx_) * vx n + 2 * vy_ * vy n).
Definition wall_shear (mu : R) (u : st) (g : grad) (n : v2) : v2 :=
  let t := mkv (vy n) (- vx n) in vscal (- mu * dot2 (strain_n u g n) t) t.
