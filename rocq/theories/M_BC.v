(** Model of the boundary conditions: src/spatial/abc.cpp.
    [jphy] (the physics object used by the Jacobian versions) has the same parameters as [phy]
    (abc.cpp 30-35), so one [gas] is used. *)
From Coq Require Import Reals List.
From Verif Require Import BaseR M_Gas.
Import ListNotations.
Open Scope R_scope.

(** Result of computeGhostStateAndJacobian *)
Record gsj := mkgsj { g_s : st; g_d : mat4 }.

Definition diag4 (a b c d : R) : mat4 :=
  mkm (mks a 0 0 0) (mks 0 b 0 0) (mks 0 0 c 0) (mks 0 0 0 d).

Section BC.
Context (G : gas).
Notation g := (gam G).

(** abc.cpp 48-84 InOutFlow::computeGhostState *)
Definition inout_gs (uinf ins : st) (n : v2) : st :=
  let vni := dot2 (mom ins) n / s0 ins in
  let ci := getSoundSpeedFromConserved G ins in
  let Mni := vni / ci in
  let pinf := getFreestreamPressure G in
  if Rleb Mni 0 then uinf
  else if Rltb Mni 1 then
    mks (s0 ins) (s1 ins) (s2 ins)
        (getEnergyFromPressure G pinf (s0 ins) (dot2 (mom ins) (mom ins) / (s0 ins * s0 ins)))
  else ins.

(** abc.cpp 86-140 InOutFlow::computeGhostStateAndJacobian *)
Definition inout_jac (uinf ins : st) (n : v2) : gsj :=
  let vni := dot2 (mom ins) n / s0 ins in
  let ci := getSoundSpeedFromConserved G ins in
  let Mni := vni / ci in
  let pinf := getPressureFromConserved G uinf in
  if Rleb Mni 0 then mkgsj uinf mat0
  else if Rleb Mni 1 then
    mkgsj (mks (s0 ins) (s1 ins) (s2 ins)
             (getEnergyFromPressure G pinf (s0 ins) (dot2 (mom ins) (mom ins) / (s0 ins * s0 ins))))
          (mkm (mks 1 0 0 0) (mks 0 1 0 0) (mks 0 0 1 0)
             (mks (- (1/2) * dot2 (mom ins) (mom ins) / (s0 ins * s0 ins))
                  (s1 ins / s0 ins) (s2 ins / s0 ins) 0))
  else mkgsj ins (diag4 1 1 1 1).

(** abc.cpp 151-175 InFlow::computeGhostState ([pow] with real exponent;
    getComponentsCartesian, mathutils.hpp 40-59, for NDIM = 2 is mag*1*dir) *)
Definition inflow_gs (ptotal ttotal : R) (ins : st) (n : v2) : st :=
  let ci := getSoundSpeedFromConserved G ins in
  let Rminus := dot2 (mom ins) n / s0 ins - ci / (2 * g - 1) in
  let co2 := ci * ci + (g - 1) / 2 * dot2 (mom ins) (mom ins) / (s0 ins * s0 ins) in
  let q := sqrt ((g + 1) * co2 / ((g - 1) * Rminus * Rminus) - (g - 1) / 2) in
  let cg := - Rminus * (g - 1) / (g + 1) * (1 + q) in
  let tg := ttotal * cg * cg / co2 in
  let pg := ptotal * Rpower (tg / ttotal) (g / (g - 1)) in
  let rho := getDensityFromPressureTemperature G pg tg in
  let vgmag := sqrt (2 / (g - 1) * (co2 - cg * cg)) in
  let vg := mkv (vgmag * 1 * vx n) (vgmag * 1 * vy n) in
  mks rho (rho * vx vg) (rho * vy vg) (getEnergyFromPressure G pg rho (vgmag * vgmag)).

(** abc.cpp 193-210 Farfield *)
Definition farfield_gs (uinf ins : st) (n : v2) : st := uinf.
Definition farfield_jac (uinf ins : st) (n : v2) : gsj := mkgsj uinf mat0.

(** abc.cpp 217-226 Slipwall::computeGhostState *)
Definition slip_gs (ins : st) (n : v2) : st :=
  let vni := dot2 (mom ins) n / s0 ins in
  mks (s0 ins) (s1 ins - 2 * vni * vx n * s0 ins) (s2 ins - 2 * vni * vy n * s0 ins) (s3 ins).

(** abc.cpp 228-262 Slipwall::computeGhostStateAndJacobian *)
Definition slip_jac (ins : st) (n : v2) : gsj :=
  let vni := dot2 (mom ins) n / s0 ins in
  let dvni := mks (- vni / s0 ins) (vx n / s0 ins) (vy n / s0 ins) 0 in
  mkgsj
    (mks (s0 ins) (s1 ins - 2 * vx n * vni * s0 ins) (s2 ins - 2 * vy n * vni * s0 ins) (s3 ins))
    (mkm (mks 1 0 0 0)
         (mks (- 2 * vx n * (s0 dvni * s0 ins + vni)) (1 - 2 * vx n * s1 dvni * s0 ins)
              (- 2 * vx n * s2 dvni * s0 ins) 0)
         (mks (- 2 * vy n * (s0 dvni * s0 ins + vni)) (- 2 * vy n * s1 dvni * s0 ins)
              (1 - 2 * vy n * s2 dvni * s0 ins) 0)
         (mks 0 0 0 1)).

(** abc.cpp 271-280 Adiabaticwall2D::computeGhostState *)
Definition adia2_gs (tangvel : R) (ins : st) (n : v2) : st :=
  let tangMomentum := tangvel * s0 ins in
  mks (s0 ins) (2 * tangMomentum * vy n - s1 ins) (- 2 * tangMomentum * vx n - s2 ins) (s3 ins).

(** abc.cpp 282-305 Adiabaticwall2D::computeGhostStateAndJacobian *)
Definition adia2_jac (tangvel : R) (ins : st) (n : v2) : gsj :=
  let tangMomentum := tangvel * s0 ins in
  mkgsj (mks (s0 ins) (2 * tangMomentum * vy n - s1 ins) (- 2 * tangMomentum * vx n - s2 ins) (s3 ins))
        (mkm (mks 1 0 0 0) (mks (2 * tangvel * vy n) (-1) 0 0)
             (mks (- 2 * tangvel * vx n) 0 (-1) 0) (mks 0 0 0 1)).

(** abc.cpp 313-321 Adiabaticwall::computeGhostState. [wallvel] is a std::array<freal,NDIM>, modelled
    as a list; reading entry [i] beyond its end is undefined behaviour: [None]. *)
Definition adia_gs (wallvel : list R) (ins : st) (n : v2) : option st :=
  match nth_error wallvel 1, nth_error wallvel 2 with
  | Some w1, Some w2 => Some (mks (s0 ins) (2 * s0 ins * w1 - s1 ins) (2 * s0 ins * w2 - s2 ins) (s3 ins))
  | _, _ => None
  end.

(** abc.cpp 353-372 Isothermalwall2D::computeGhostState *)
Definition iso_gs (tangvel walltemperature : R) (ins : st) (n : v2) : st :=
  let p := getPressureFromConserved G ins in
  let gtemp := 2 * walltemperature - getTemperature G (s0 ins) p in
  let gs0 := s0 ins in
  let gs1 := gs0 * (2 * tangvel * vy n - s1 ins / s0 ins) in
  let gs2 := gs0 * (- 2 * tangvel * vx n - s2 ins / s0 ins) in
  let vmag2 := (gs1 * gs1 + gs2 * gs2) / (gs0 * gs0) in
  mks gs0 gs1 gs2 (getEnergyFromTemperature G gtemp gs0 vmag2).

(** abc.cpp 374-409 Isothermalwall2D::computeGhostStateAndJacobian *)
Definition iso_jac (tangvel walltemperature : R) (ins : st) (n : v2) : gsj :=
  let tangMomentum := tangvel * s0 ins in
  let gs1 := 2 * tangMomentum * vy n - s1 ins in
  let gs2 := - 2 * tangMomentum * vx n - s2 ins in
  let vmag2 := (gs1 * gs1 + gs2 * gs2) / (s0 ins * s0 ins) in
  let gs3 := getEnergyFromTemperature G walltemperature (s0 ins) vmag2 in
  let dvmag2 := mks (- 2 * (gs1 * gs1 + gs2 * gs2) / (s0 ins * s0 ins * s0 ins))
                    (1 / (s0 ins * s0 ins) * gs1 * -1) (1 / (s0 ins * s0 ins) * gs2 * -1) 0 in
  mkgsj (mks (s0 ins) gs1 gs2 gs3)
        (mkm (mks 1 0 0 0) (mks (2 * tangvel * vy n) (-1) 0 0) (mks (- 2 * tangvel * vx n) 0 (-1) 0)
             (getJacobianEnergyFromJacobiansTemperatureVmag2 G walltemperature (s0 ins) vmag2
                szero dvmag2 szero)).

(** abc.cpp 416-437 Extrapolation *)
Definition extrap_gs (ins : st) (n : v2) : st := ins.
Definition extrap_jac (ins : st) (n : v2) : gsj := mkgsj ins (diag4 1 1 1 1).

End BC.

(** The boundary types: src/spatial/abctypes.hpp 12-21. *)
Inductive bctype := SLIP_WALL_BC | FARFIELD_BC | INFLOW_OUTFLOW_BC | SUBSONIC_INFLOW_BC
  | EXTRAPOLATION_BC | PERIODIC_BC | ISOTHERMAL_WALL_BC | ADIABATIC_WALL_BC.

(** One boundary condition object, as made by create_const_flowBCs, abc.cpp 460-500. bc_vals[0] and
    bc_vals[1] are std::vector entries; the parser provides them for the types that need them. *)
Inductive flowbc :=
  | BSlip | BFar (uinf : st) | BInOut (uinf : st) | BInflow (pt ttl : R) | BExtrap
  | BAdia (tv : R) | BIso (tv tw : R).

Record bcconf := mkbcconf { bc_tag : Z; bc_type : bctype; bc_vals : list R }.

Inductive bcres := BcOk (b : flowbc) | BcThrow | BcUB.

Definition create_flowBC (uinf : st) (c : bcconf) : bcres :=
  match bc_type c with
  | SLIP_WALL_BC => BcOk BSlip
  | FARFIELD_BC => BcOk (BFar uinf)
  | INFLOW_OUTFLOW_BC => BcOk (BInOut uinf)
  | SUBSONIC_INFLOW_BC =>
      match bc_vals c with a :: b :: _ => BcOk (BInflow a b) | _ => BcUB end
  | EXTRAPOLATION_BC => BcOk BExtrap
  | ADIABATIC_WALL_BC => match bc_vals c with a :: _ => BcOk (BAdia a) | _ => BcUB end
  | ISOTHERMAL_WALL_BC => match bc_vals c with a :: b :: _ => BcOk (BIso a b) | _ => BcUB end
  | PERIODIC_BC => BcThrow
  end.

(** Virtual dispatch of computeGhostState *)
Definition ghost_state (G : gas) (b : flowbc) (ins : st) (n : v2) : st :=
  match b with
  | BSlip => slip_gs ins n
  | BFar uinf => farfield_gs uinf ins n
  | BInOut uinf => inout_gs G uinf ins n
  | BInflow pt ttl => inflow_gs G pt ttl ins n
  | BExtrap => extrap_gs ins n
  | BAdia tv => adia2_gs tv ins n
  | BIso tv tw => iso_gs G tv tw ins n
  end.

(** Virtual dispatch of computeGhostStateAndJacobian; InFlow exits the program ([None]). *)
Definition ghost_jac (G : gas) (b : flowbc) (ins : st) (n : v2) : option gsj :=
  match b with
  | BSlip => Some (slip_jac ins n)
  | BFar uinf => Some (farfield_jac uinf ins n)
  | BInOut uinf => Some (inout_jac G uinf ins n)
  | BInflow _ _ => None
  | BExtrap => Some (extrap_jac ins n)
  | BAdia tv => Some (adia2_jac tv ins n)
  | BIso tv tw => Some (iso_jac G tv tw ins n)
  end.
