(** Model of the ideal-gas physics: src/physics/aphysics_defs.hpp, aphysics.cpp,
    and the helpers of src/mathutils.hpp they use.

    Simplifications: [scalar] is the real numbers; arrays of NVARS/NDIM entries are the records
    [st]/[v2]; output pointers become results. Where the code accumulates with [+=] into an output
    array, the model takes the prior content as an argument. *)
From Coq Require Import Reals.
From Verif Require Import BaseR.
Open Scope R_scope.

(** Members of IdealGasPhysics: aphysics.hpp, constructor aphysics.cpp 17-26.
    [sC] is initialised to 221 / 2 there. *)
Record gas := mkgas { gam : R; Minf : R; Tinf : R; Reinf : R; Prn : R }.
Definition sC : R := 221 / 2.

Section Physics.
Context (G : gas).
Notation g := (gam G).
Notation M := (Minf G).

(** aphysics_defs.hpp 15-23 getDirectionalFlux *)
Definition getDirectionalFlux (uc : st) (n : v2) (vn p : R) : st :=
  mks (vn * s0 uc)
      (vn * s1 uc + p * vx n)
      (vn * s2 uc + p * vy n)
      (vn * (s3 uc + p)).

(** Results of getVarsFromConserved. *)
Record vars := mkvars { v_v : v2; v_vn : R; v_p : R; v_H : R }.

(** aphysics_defs.hpp 27-38 getVarsFromConserved *)
Definition getVarsFromConserved (uc : st) (n : v2) : vars :=
  let v := mkv (s1 uc / s0 uc) (s2 uc / s0 uc) in
  let vn := dot2 v n in
  let vmag2 := dot2 v v in
  let p := (g - 1) * (s3 uc - (1/2) * s0 uc * vmag2) in
  let H := (s3 uc + p) / s0 uc in
  mkvars v vn p H.

(** aphysics_defs.hpp 43-49 getJacobianVmag2WrtConserved (accumulates) *)
Definition getJacobianVmag2WrtConserved (uc : st) (d : st) : st :=
  mks (s0 d + - 2 / (s0 uc * s0 uc * s0 uc) * dot2 (mom uc) (mom uc))
      (s1 d + 2 * s1 uc / (s0 uc * s0 uc))
      (s2 d + 2 * s2 uc / (s0 uc * s0 uc))
      (s3 d).

(** aphysics_defs.hpp 53-55 getPressure *)
Definition getPressure (internalenergy : R) : R := (g - 1) * internalenergy.

(** aphysics_defs.hpp 60-63 getPressureFromConserved *)
Definition getPressureFromConserved (uc : st) : R :=
  getPressure (s3 uc - (1/2) * dot2 (mom uc) (mom uc) / s0 uc).

(** aphysics_defs.hpp 67-81 getDeltaPressureFromConserved. The loop runs over i = 2, 3. *)
Definition getDeltaPressureFromConserved (u du : st) : R :=
  let unew := sadd u du in
  let step (dp ui uni dui : R) :=
      dp - ((ui + uni) * (s0 u + s0 unew) / 2 * dui - (uni * uni + ui * ui) / 2 * s0 du) in
  let dp := step (step 0 (s2 u) (s2 unew) (s2 du)) (s3 u) (s3 unew) (s3 du) in
  (g - 1) * (s3 du - 1 / (2 * s0 u * s0 unew) * dp).

(** aphysics_defs.hpp 85-91 getGradPressureFromConservedAndGradConserved *)
Definition getGradPressureFromConservedAndGradConserved (uc guc : st) : R :=
  let term1 := dot2 (mom uc) (mom guc) in
  let term2 := dot2 (mom uc) (mom uc) in
  (g - 1) * (s3 guc - (1/2) / (s0 uc * s0 uc) * (2 * s0 uc * term1 - term2 * s0 guc)).

(** aphysics_defs.hpp 95-102 getJacobianPressureWrtConserved *)
Definition getJacobianPressureWrtConserved (uc : st) : st :=
  mks ((g - 1) * (1/2) * dot2 (mom uc) (mom uc) / (s0 uc * s0 uc))
      (- (g - 1) * s1 uc / s0 uc)
      (- (g - 1) * s2 uc / s0 uc)
      (g - 1).

(** aphysics_defs.hpp 106-114 getJacobianPressureWrtConserved, overload with rho2vmag2 *)
Definition getJacobianPressureWrtConserved2 (uc : st) (rho2vmag2 : R) : st :=
  mks ((g - 1) * (1/2) * rho2vmag2 / (s0 uc * s0 uc))
      (- (g - 1) * s1 uc / s0 uc)
      (- (g - 1) * s2 uc / s0 uc)
      (g - 1).

(** aphysics_defs.hpp 119-122 getTemperature *)
Definition getTemperature (rho p : R) : R := p / rho * g * M * M.

(** aphysics_defs.hpp 127-135 getJacobianTemperature (accumulates) *)
Definition getJacobianTemperature (rho p : R) (dp : st) (dT : st) : st :=
  let coef := g * M * M in
  mks (s0 dT + coef * (s0 dp * rho - p) / (rho * rho))
      (s1 dT + coef / rho * s1 dp)
      (s2 dT + coef / rho * s2 dp)
      (s3 dT + coef / rho * s3 dp).

(** aphysics_defs.hpp 140-143 getSoundSpeed *)
Definition getSoundSpeed (rho p : R) : R := sqrt (g * p / rho).

(** aphysics_defs.hpp 147-154 getJacobianSoundSpeed (accumulates) *)
Definition getJacobianSoundSpeed (rho p : R) (dp : st) (c : R) (dc : st) : st :=
  mks (s0 dc + (1/2) / c * g * (s0 dp * rho - p) / (rho * rho))
      (s1 dc + (1/2) / c * g * s1 dp / rho)
      (s2 dc + (1/2) / c * g * s2 dp / rho)
      (s3 dc + (1/2) / c * g * s3 dp / rho).

(** aphysics_defs.hpp 160-163 getSoundSpeedFromConserved *)
Definition getSoundSpeedFromConserved (uc : st) : R :=
  getSoundSpeed (s0 uc) (getPressureFromConserved uc).

(** aphysics_defs.hpp 169-180 getJacobianSoundSpeedWrtConserved (accumulates) *)
Definition getJacobianSoundSpeedWrtConserved (uc : st) (dc : st) : st :=
  let p := getPressureFromConserved uc in
  let dp := getJacobianPressureWrtConserved uc in
  let c := getSoundSpeed (s0 uc) p in
  getJacobianSoundSpeed (s0 uc) p dp c dc.

(** mathutils.hpp 79-86 getQuotientDerivatives: derivative of u/w given u, du, w, dw (accumulates) *)
Definition getQuotientDerivatives (u : R) (du : st) (w : R) (dw : st) (dq : st) : st :=
  mks (s0 dq + (s0 du * w - u * s0 dw) / (w * w))
      (s1 dq + (s1 du * w - u * s1 dw) / (w * w))
      (s2 dq + (s2 du * w - u * s2 dw) / (w * w))
      (s3 dq + (s3 du * w - u * s3 dw) / (w * w)).

(** aphysics_defs.hpp 184-200 getJacobianMachNormalWrtConserved (accumulates) *)
Definition getJacobianMachNormalWrtConserved (uc : st) (n : v2) (dmn : st) : st :=
  let dc := getJacobianSoundSpeedWrtConserved uc szero in
  let c := getSoundSpeedFromConserved uc in
  let vn := dot2 (mom uc) n / s0 uc in
  let dvn := mks (- vn / s0 uc) (vx n / s0 uc) (vy n / s0 uc) 0 in
  getQuotientDerivatives vn dvn c dc dmn.

(** aphysics_defs.hpp 204-207 getEntropyFromConserved ([pow] with real exponent) *)
Definition getEntropyFromConserved (uc : st) : R :=
  getPressureFromConserved uc / Rpower (s0 uc) g.

(** aphysics_defs.hpp 211-215 getEnergyFromPressure *)
Definition getEnergyFromPressure (p d vmag2 : R) : R := p / (g - 1) + (1/2) * d * vmag2.

(** aphysics_defs.hpp 219-223 getEnergyFromTemperature *)
Definition getEnergyFromTemperature (T d vmag2 : R) : R :=
  d * (T / (g * (g - 1) * M * M) + (1/2) * vmag2).

(** aphysics_defs.hpp 227-236 getJacobianEnergyFromJacobiansTemperatureVmag2 (accumulates) *)
Definition getJacobianEnergyFromJacobiansTemperatureVmag2
    (T d vmag2 : R) (dT dvmag2 de : st) : st :=
  let coeff := 1 / (g * (g - 1) * M * M) in
  mks (s0 de + (coeff * (T + d * s0 dT) + (1/2) * (vmag2 + d * s0 dvmag2)))
      (s1 de + d * (coeff * s1 dT + (1/2) * s1 dvmag2))
      (s2 de + d * (coeff * s2 dT + (1/2) * s2 dvmag2))
      (s3 de + d * (coeff * s3 dT + (1/2) * s3 dvmag2)).

(** aphysics_defs.hpp 241-244 getEnergyFromPrimitive *)
Definition getEnergyFromPrimitive (up : st) : R :=
  getEnergyFromPressure (s3 up) (s0 up) (dot2 (mom up) (mom up)).

(** aphysics_defs.hpp 248-253 getEnergyFromPrimitive2 *)
Definition getEnergyFromPrimitive2 (upt : st) : R :=
  getEnergyFromTemperature (s3 upt) (s0 upt) (dot2 (mom upt) (mom upt)).

(** aphysics_defs.hpp 259-267 getPrimitiveFromConserved. Pressure is read before the output is
    written, and output component [i] is written after input [i] and 0 are read, so in-place use
    computes the same. *)
Definition getPrimitiveFromConserved (uc : st) : st :=
  let p := getPressureFromConserved uc in
  mks (s0 uc) (s1 uc / s0 uc) (s2 uc / s0 uc) p.

(** aphysics_defs.hpp 273-281 getPrimitive2FromConserved *)
Definition getPrimitive2FromConserved (uc : st) : st :=
  let p := getPressureFromConserved uc in
  mks (s0 uc) (s1 uc / s0 uc) (s2 uc / s0 uc) (getTemperature (s0 uc) p).

(** aphysics_defs.hpp 287-295 getConservedFromPrimitive *)
Definition getConservedFromPrimitive (up : st) : st :=
  let rhoE := getEnergyFromPrimitive up in
  mks (s0 up) (s0 up * s1 up) (s0 up * s2 up) rhoE.

(** aphysics_defs.hpp 299-303 getDensityFromPressureTemperature *)
Definition getDensityFromPressureTemperature (p T : R) : R := g * M * M * p / T.

(** aphysics_defs.hpp 307-313 getJacobianDensityFromJacobiansPressureTemperature (accumulates) *)
Definition getJacobianDensityFromJacobiansPressureTemperature
    (p T : R) (dp dT drho : st) : st :=
  let f d dpi dTi := d + g * M * M * (dpi * T - p * dTi) / (T * T) in
  mks (f (s0 drho) (s0 dp) (s0 dT)) (f (s1 drho) (s1 dp) (s1 dT))
      (f (s2 drho) (s2 dp) (s2 dT)) (f (s3 drho) (s3 dp) (s3 dT)).

(** aphysics_defs.hpp 319-322 getTemperatureFromConserved *)
Definition getTemperatureFromConserved (uc : st) : R :=
  getTemperature (s0 uc) (getPressureFromConserved uc).

(** aphysics_defs.hpp 328-338 getJacobianTemperatureWrtConserved (accumulates) *)
Definition getJacobianTemperatureWrtConserved (uc : st) (dT : st) : st :=
  let p := getPressureFromConserved uc in
  let dp := getJacobianPressureWrtConserved uc in
  getJacobianTemperature (s0 uc) p dp dT.

(** aphysics_defs.hpp 343-346 getTemperatureFromPrimitive *)
Definition getTemperatureFromPrimitive (up : st) : R := getTemperature (s0 up) (s3 up).

(** aphysics_defs.hpp 350-354 getGradTemperature *)
Definition getGradTemperature (rho gradrho p gradp : R) : R :=
  (gradp * rho - p * gradrho) / (rho * rho) * g * M * M.

(** aphysics_defs.hpp 358-364 *)
Definition getGradTemperatureFromConservedAndGradConserved (uc guc : st) : R :=
  let p := getPressureFromConserved uc in
  let dpdx := getGradPressureFromConservedAndGradConserved uc guc in
  getGradTemperature (s0 uc) (s0 guc) p dpdx.

(** aphysics_defs.hpp 368-373 *)
Definition getGradTemperatureFromConservedAndGradPrimitive (uc gup : st) : R :=
  let p := getPressureFromConserved uc in
  getGradTemperature (s0 uc) (s0 gup) p (s3 gup).

(** aphysics_defs.hpp 377-406 getGradPrimitive2FromConservedAndGradConserved. Uses only the density
    gradient, the new velocity gradients and the energy gradient after line 384, so [guc] and [gup]
    may alias. *)
Definition getGradPrimitive2FromConservedAndGradConserved (uc guc : st) : st :=
  let gup0 := s0 guc in
  let gup1 := (s1 guc * s0 uc - s1 uc * s0 guc) / (s0 uc * s0 uc) in
  let gup2 := (s2 guc * s0 uc - s2 uc * s0 guc) / (s0 uc * s0 uc) in
  let p := getPressureFromConserved uc in
  let term1 := s1 uc * gup1 + s2 uc * gup2 in
  let term2 := (s1 uc * s1 uc + s2 uc * s2 uc) * ((1/2) * gup0 / (s0 uc * s0 uc)) in
  let dp := (g - 1) * (s3 guc - term2 - term1) in
  mks gup0 gup1 gup2 (getGradTemperature (s0 uc) gup0 p dp).

(** aphysics_defs.hpp 410-413 getViscosityCoeffFromTemperature ([pow] with real exponent) *)
Definition getViscosityCoeffFromTemperature (T : R) : R :=
  (1 + sC / Tinf G) / (T + sC / Tinf G) * Rpower T (3/2) / Reinf G.

(** aphysics_defs.hpp 417-421 getViscosityCoeffFromConserved *)
Definition getViscosityCoeffFromConserved (uc : st) : R :=
  getViscosityCoeffFromTemperature (getTemperatureFromConserved uc).

(** aphysics_defs.hpp 425-439 getJacobianSutherlandViscosityWrtConserved (accumulates) *)
Definition getJacobianSutherlandViscosityWrtConserved (uc : st) (dmu : st) : st :=
  let T := getTemperatureFromConserved uc in
  let dT := getJacobianTemperatureWrtConserved uc szero in
  let coef := (1 + sC / Tinf G) / Reinf G in
  let T15 := Rpower T (3/2) in
  let Tm15 := Rpower T (- (3/2)) in
  let denom := (T + sC / Tinf G) * (T + sC / Tinf G) in
  let f d dTi := d + coef * ((3/2) * Tm15 * dTi * (T + sC / Tinf G) - T15 * dTi) / denom in
  mks (f (s0 dmu) (s0 dT)) (f (s1 dmu) (s1 dT)) (f (s2 dmu) (s2 dT)) (f (s3 dmu) (s3 dT)).

(** aphysics_defs.hpp 443-445 getConstantViscosityCoeff *)
Definition getConstantViscosityCoeff : R := 1 / Reinf G.

(** aphysics_defs.hpp 449-451 getThermalConductivityFromViscosity *)
Definition getThermalConductivityFromViscosity (muhat : R) : R :=
  muhat / (M * M * (g - 1) * Prn G).

(** aphysics_defs.hpp 465-467 getFreestreamPressure *)
Definition getFreestreamPressure : R := 1 / (g * M * M).

(** Gradients of the state: grad[NDIM][NVARS], one state-like vector per direction. *)
Record grad := mkgrad { gx : st; gy : st }.
(** stress[NDIM][NDIM] *)
Record ten := mkten { txx : R; txy : R; tyx : R; tyy : R }.

(** aphysics_defs.hpp 471-487 getStressTensor *)
Definition getStressTensor (mu : R) (gr : grad) : ten :=
  let ldiv := (0 + s1 (gx gr) + s2 (gy gr)) * (2 / 3 * mu) in
  mkten (mu * (s1 (gx gr) + s1 (gx gr)) - ldiv)
        (mu * (s2 (gx gr) + s1 (gy gr)))
        (mu * (s1 (gy gr) + s2 (gx gr)))
        (mu * (s2 (gy gr) + s2 (gy gr)) - ldiv).

(** aphysics.cpp 29-35 getDirectionalFluxFromConserved *)
Definition getDirectionalFluxFromConserved (u : st) (n : v2) : st :=
  let vn := dot2 (mom u) n / s0 u in
  let p := getPressure (s3 u - (1/2) * dot2 (mom u) (mom u) / s0 u) in
  getDirectionalFlux u n vn p.

(** mathutils.hpp getNormalizedFreeStreamVector, NDIM = 2 *)
Definition getNormalizedFreeStreamVector (aoa beta : R) : v2 :=
  mkv (cos aoa * cos beta) (sin aoa * cos beta).

(** aphysics.cpp 44-58 compute_freestream_state *)
Definition compute_freestream_state (aoa : R) : st :=
  let beta := 0 in
  let wind := getNormalizedFreeStreamVector aoa beta in
  mks 1 (vx wind) (vy wind) (getEnergyFromPressure getFreestreamPressure 1 1).

(** aphysics.cpp 61-127 getJacobianDirectionalFluxWrtConserved (active part, after the #if 0).
    The result is the row-major 4x4 array: one state-like vector per row. *)
Record mat4 := mkm { r0 : st; r1 : st; r2 : st; r3 : st }.

Definition getJacobianDirectionalFluxWrtConserved (u : st) (n : v2) : mat4 :=
  let p := getPressureFromConserved u in
  let dp := getJacobianPressureWrtConserved u in
  let vn := dot2 (mom u) n / s0 u in
  let dvn := mks (- vn / s0 u) (vx n / s0 u) (vy n / s0 u) 0 in
  mkm (mks 0 (vx n) (vy n) 0)
      (mks (- vn * s1 u / s0 u + s0 dp * vx n)
           (s1 dvn * s1 u + vn + s1 dp * vx n)
           (s2 dvn * s1 u + s2 dp * vx n)
           (s3 dp * vx n))
      (mks (- vn * s2 u / s0 u + s0 dp * vy n)
           (s1 dvn * s2 u + s1 dp * vy n)
           (s2 dvn * s2 u + vn + s2 dp * vy n)
           (s3 dp * vy n))
      (mks (- vn / s0 u * (s3 u + p) + vn * s0 dp)
           (vx n / s0 u * (s3 u + p) + vn * s1 dp)
           (vy n / s0 u * (s3 u + p) + vn * s2 dp)
           (vn * (1 + s3 dp))).

(** Outputs of getJacobianVarsWrtConserved: derivatives of v[0], v[1], vn, p, H. *)
Record dvars := mkdvars { d_vx : st; d_vy : st; d_vn : st; d_p : st; d_H : st }.

(** aphysics.cpp 131-153 getJacobianVarsWrtConserved. dv, dvn, dH are accumulated into their prior
    contents [d]; dp is assigned. Note that dvn[0] accumulates the accumulated dv. *)
Definition getJacobianVarsWrtConserved (uc : st) (n : v2) (d : dvars) : dvars :=
  let dv0 := mks (s0 (d_vx d) + - s1 uc / (s0 uc * s0 uc)) (s1 (d_vx d) + 1 / s0 uc)
                 (s2 (d_vx d)) (s3 (d_vx d)) in
  let dv1 := mks (s0 (d_vy d) + - s2 uc / (s0 uc * s0 uc)) (s1 (d_vy d))
                 (s2 (d_vy d) + 1 / s0 uc) (s3 (d_vy d)) in
  let dvn := mks (s0 (d_vn d) + s0 dv0 * vx n + s0 dv1 * vy n)
                 (s1 (d_vn d) + vx n / s0 uc)
                 (s2 (d_vn d) + vy n / s0 uc)
                 (s3 (d_vn d)) in
  let p := getPressureFromConserved uc in
  let dp := getJacobianPressureWrtConserved uc in
  let dH := mks (s0 (d_H d) + (s0 dp * s0 uc - (s3 uc + p)) / (s0 uc * s0 uc))
                (s1 (d_H d) + s1 dp / s0 uc)
                (s2 (d_H d) + s2 dp / s0 uc)
                (s3 (d_H d) + (1 + s3 dp) / s0 uc) in
  mkdvars dv0 dv1 dvn dp dH.

(** aphysics.cpp 156-175 getJacobianPrimitive2WrtConserved (accumulates into [j]) *)
Definition getJacobianPrimitive2WrtConserved (uc : st) (j : mat4) : mat4 :=
  let rho2vmag2 := dot2 (mom uc) (mom uc) in
  let p := getPressure (s3 uc - (1/2) * rho2vmag2 / s0 uc) in
  let dp := getJacobianPressureWrtConserved2 uc rho2vmag2 in
  mkm (mks (s0 (r0 j) + 1) (s1 (r0 j)) (s2 (r0 j)) (s3 (r0 j)))
      (mks (s0 (r1 j) + - s1 uc / (s0 uc * s0 uc)) (s1 (r1 j) + 1 / s0 uc) (s2 (r1 j)) (s3 (r1 j)))
      (mks (s0 (r2 j) + - s2 uc / (s0 uc * s0 uc)) (s1 (r2 j)) (s2 (r2 j) + 1 / s0 uc) (s3 (r2 j)))
      (getJacobianTemperature (s0 uc) p dp (r3 j)).

End Physics.

Definition dvars0 : dvars := mkdvars szero szero szero szero szero.
Definition mat0 : mat4 := mkm szero szero szero szero.

Definition mrow (m : mat4) (i : ix) : st :=
  match i with I0 => r0 m | I1 => r1 m | I2 => r2 m | I3 => r3 m end.
Definition mget (m : mat4) (i j : ix) : R := cget (mrow m i) j.

Definition mkmat (f : ix -> ix -> R) : mat4 :=
  mkm (mkst (f I0)) (mkst (f I1)) (mkst (f I2)) (mkst (f I3)).
Lemma mget_mkmat f i j : mget (mkmat f) i j = f i j.
Proof. destruct i, j; reflexivity. Qed.

(** The conversions called with output array equal to input array (allowed by aphysics.hpp): one
    array [a], written component by component in the order of the code.
    aphysics_defs.hpp 259-267, 273-281, 287-295. *)
Definition getPrimitiveFromConserved_inplace (G : gas) (a : st) : st :=
  let a := st_set a I0 (s0 a) in
  let p := getPressureFromConserved G a in
  let a := st_set a I1 (s1 a / s0 a) in
  let a := st_set a I2 (s2 a / s0 a) in
  st_set a I3 p.
Definition getPrimitive2FromConserved_inplace (G : gas) (a : st) : st :=
  let a := st_set a I0 (s0 a) in
  let p := getPressureFromConserved G a in
  let a := st_set a I1 (s1 a / s0 a) in
  let a := st_set a I2 (s2 a / s0 a) in
  st_set a I3 (getTemperature G (s0 a) p).
Definition getConservedFromPrimitive_inplace (G : gas) (a : st) : st :=
  let a := st_set a I0 (s0 a) in
  let rhoE := getEnergyFromPrimitive G a in
  let a := st_set a I1 (s0 a * s1 a) in
  let a := st_set a I2 (s0 a * s2 a) in
  st_set a I3 rhoE.

(** aphysics.cpp 178-215 getJacobianStress: derivative arrays dgrad[i][j+1][k] are given as one
    state-like vector per (direction i, velocity component j). *)
Record dten := mkdten { dxx : st; dxy : st; dyx : st; dyy : st }.
Definition getJacobianStress (mu : R) (dmu : st) (gr : grad) (dg : dten) : ten * dten :=
  let div := 0 + s1 (gx gr) + s2 (gy gr) in
  let ldiv := 2 / 3 * mu * div in
  let dldiv := mkst (fun k => 2 / 3 * (cget dmu k * div + mu * (0 + cget (dxx dg) k + cget (dyy dg) k))) in
  (mkten (mu * (s1 (gx gr) + s1 (gx gr)) - ldiv) (mu * (s2 (gx gr) + s1 (gy gr)))
         (mu * (s1 (gy gr) + s2 (gx gr))) (mu * (s2 (gy gr) + s2 (gy gr)) - ldiv),
   mkdten
     (mkst (fun k => cget dmu k * (s1 (gx gr) + s1 (gx gr)) + mu * (cget (dxx dg) k + cget (dxx dg) k) - cget dldiv k))
     (mkst (fun k => cget dmu k * (s2 (gx gr) + s1 (gy gr)) + mu * (cget (dxy dg) k + cget (dyx dg) k)))
     (mkst (fun k => cget dmu k * (s1 (gy gr) + s2 (gx gr)) + mu * (cget (dyx dg) k + cget (dxy dg) k)))
     (mkst (fun k => cget dmu k * (s2 (gy gr) + s2 (gy gr)) + mu * (cget (dyy dg) k + cget (dyy dg) k) - cget dldiv k))).
