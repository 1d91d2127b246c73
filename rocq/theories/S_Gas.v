(** Specification of the gas model: textbook definitions, independent of the code. *)
From Coq Require Import Reals.
From Verif Require Import BaseR.
Open Scope R_scope.

(** Pressure of a perfect gas with ratio of specific heats [ga]: conserved variables
    (density, momentum, total energy per volume). *)
Definition pressure (ga : R) (u : st) : R :=
  (ga - 1) * (s3 u - ((s1 u)^2 + (s2 u)^2) / (2 * s0 u)).

(** A physical state: positive density and positive pressure (for ga > 1). *)
Definition physical (ga : R) (u : st) : Prop := 0 < s0 u /\ 0 < pressure ga u.

Definition unit_vec (n : v2) : Prop := (vx n)^2 + (vy n)^2 = 1.

(** Velocity component along n *)
Definition normal_velocity (u : st) (n : v2) : R := (s1 u * vx n + s2 u * vy n) / s0 u.

(** Speed of sound *)
Definition sound (ga : R) (u : st) : R := sqrt (ga * pressure ga u / s0 u).

(** Euler flux through a face with normal n *)
Definition euler_flux (ga : R) (u : st) (n : v2) : st :=
  let w := normal_velocity u n in
  let p := pressure ga u in
  mks (s0 u * w) (s1 u * w + p * vx n) (s2 u * w + p * vy n) ((s3 u + p) * w).

(** An orthogonal transformation of the plane (rotation or reflection), acting on vectors and on the
    momentum part of state/flux vectors. *)
Record ortho := mkortho { qxx : R; qxy : R; qyx : R; qyy : R }.
Definition orthogonal (q : ortho) : Prop :=
  (qxx q)^2 + (qyx q)^2 = 1 /\ (qxy q)^2 + (qyy q)^2 = 1 /\ qxx q * qxy q + qyx q * qyy q = 0.
Definition qv (q : ortho) (v : v2) : v2 :=
  mkv (qxx q * vx v + qxy q * vy v) (qyx q * vx v + qyy q * vy v).
Definition qs (q : ortho) (u : st) : st :=
  mks (s0 u) (qxx q * s1 u + qxy q * s2 u) (qyx q * s1 u + qyy q * s2 u) (s3 u).

(** Specific total enthalpy *)
Definition enthalpy (ga : R) (u : st) : R := (s3 u + pressure ga u) / s0 u.

(** Roe (square-root-of-density weighted) averages, textbook form *)
Definition roe_mean (ul ur : st) (x y : R) : R :=
  (sqrt (s0 ul) * x + sqrt (s0 ur) * y) / (sqrt (s0 ul) + sqrt (s0 ur)).
Definition roe_velocity (ul ur : st) : v2 :=
  mkv (roe_mean ul ur (s1 ul / s0 ul) (s1 ur / s0 ur)) (roe_mean ul ur (s2 ul / s0 ul) (s2 ur / s0 ur)).
Definition roe_enthalpy (ga : R) (ul ur : st) : R := roe_mean ul ur (enthalpy ga ul) (enthalpy ga ur).
Definition roe_density (ul ur : st) : R := sqrt (s0 ul * s0 ur).
Definition roe_sound (ga : R) (ul ur : st) : R :=
  let v := roe_velocity ul ur in
  sqrt ((ga - 1) * (roe_enthalpy ga ul ur - ((vx v)^2 + (vy v)^2) / 2)).
Definition roe_normal (ul ur : st) (n : v2) : R :=
  vx (roe_velocity ul ur) * vx n + vy (roe_velocity ul ur) * vy n.

(** Wave decomposition of the jump [ur - ul]: acoustic minus, entropy+shear, acoustic plus. *)
Definition wave_minus (ga : R) (ul ur : st) (n : v2) : st :=
  let v := roe_velocity ul ur in let c := roe_sound ga ul ur in let r := roe_density ul ur in
  let H := roe_enthalpy ga ul ur in let w := roe_normal ul ur n in
  let dp := pressure ga ur - pressure ga ul in
  let dw := normal_velocity ur n - normal_velocity ul n in
  sscal ((dp - r * c * dw) / (2 * c^2)) (mks 1 (vx v - c * vx n) (vy v - c * vy n) (H - c * w)).
Definition wave_plus (ga : R) (ul ur : st) (n : v2) : st :=
  let v := roe_velocity ul ur in let c := roe_sound ga ul ur in let r := roe_density ul ur in
  let H := roe_enthalpy ga ul ur in let w := roe_normal ul ur n in
  let dp := pressure ga ur - pressure ga ul in
  let dw := normal_velocity ur n - normal_velocity ul n in
  sscal ((dp + r * c * dw) / (2 * c^2)) (mks 1 (vx v + c * vx n) (vy v + c * vy n) (H + c * w)).
Definition wave_mid (ga : R) (ul ur : st) (n : v2) : st :=
  let v := roe_velocity ul ur in let c := roe_sound ga ul ur in let r := roe_density ul ur in
  let w := roe_normal ul ur n in
  let dp := pressure ga ur - pressure ga ul in
  let dw := normal_velocity ur n - normal_velocity ul n in
  let dx := s1 ur / s0 ur - s1 ul / s0 ul in let dy := s2 ur / s0 ur - s2 ul / s0 ul in
  sadd (sscal (s0 ur - s0 ul - dp / c^2) (mks 1 (vx v) (vy v) (((vx v)^2 + (vy v)^2) / 2)))
       (sscal r (mks 0 (dx - dw * vx n) (dy - dw * vy n) (vx v * dx + vy v * dy - w * dw))).

(** The matrix of the linearised Euler equations at velocity v, enthalpy H (Jacobian of the flux
    in direction n written in terms of velocity and enthalpy), applied to a vector. *)
Definition euler_matrix (ga : R) (v : v2) (H : R) (n : v2) (x : st) : st :=
  let w := vx v * vx n + vy v * vy n in
  let k := ((vx v)^2 + (vy v)^2) / 2 in
  let dm := s1 x * vx n + s2 x * vy n in
  (* change of pressure and of normal velocity times density *)
  let dp := (ga - 1) * (k * s0 x - vx v * s1 x - vy v * s2 x + s3 x) in
  let dq := dm - w * s0 x in
  mks dm (vx v * dq + w * s1 x + dp * vx n) (vy v * dq + w * s2 x + dp * vy n)
      (H * dq + w * (s3 x + dp)).

(** Harten's entropy fix *)
Definition harten_speed (eps c l : R) : R :=
  if Rlt_dec (Rabs l) (eps * c) then (l^2 + (eps*c)^2) / (2 * (eps * c)) else Rabs l.

(** Critical sound speed: the speed of the flow when accelerated adiabatically to Mach one. *)
Definition critical_sound (ga : R) (u : st) : R := sqrt (2 * (ga - 1) / (ga + 1) * enthalpy ga u).

(** The dissipation speed of the Rusanov (local Lax-Friedrichs) flux *)
Definition rusanov_speed (ga : R) (ul ur : st) (n : v2) : R :=
  Rmax (Rabs (normal_velocity ul n) + sound ga ul) (Rabs (normal_velocity ur n) + sound ga ur).

(** Non-dimensional temperature: T = gamma M^2 p / rho *)
Definition temperature (ga M : R) (u : st) : R := ga * M^2 * pressure ga u / s0 u.

(** Primitive variables *)
Definition prim (ga : R) (u : st) : st := mks (s0 u) (s1 u / s0 u) (s2 u / s0 u) (pressure ga u).
Definition primT (ga M : R) (u : st) : st := mks (s0 u) (s1 u / s0 u) (s2 u / s0 u) (temperature ga M u).

Definition speed2 (u : st) : R := ((s1 u)^2 + (s2 u)^2) / (s0 u)^2.
Definition mach_normal (ga : R) (n : v2) (u : st) : R := normal_velocity u n / sound ga u.

(** Sutherland's law with reference temperature 110.5 K, non-dimensionalised: mu = 1/Re at T = 1. *)
Definition sutherland (Tinf Re T : R) : R :=
  let S := (221/2) / Tinf in / Re * ((1 + S) / (T + S)) * (T * sqrt T).
