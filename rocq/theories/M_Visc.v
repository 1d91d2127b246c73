(** Model of the viscous flux and its Jacobian:
    src/spatial/aspatial.cpp (face gradients), src/physics/viscousphysics.cpp,
    src/spatial/flow_spatial.cpp compute_viscous_flux and compute_viscous_flux_jacobian.

    Simplifications: reals for [scalar]; [constVisc] and [secondOrderRequested] are template
    parameters of the code and boolean arguments here; grad[NDIM][NVARS] is the record [grad] and
    dgrad[NDIM][NVARS][NVARS] one 4x4 matrix per direction; the face normal and the two cell
    centres are arguments (in the code: read from the mesh and from rcbp for physical boundary
    faces). *)
From Coq Require Import Reals.
From Verif Require Import BaseR M_Gas.
Open Scope R_scope.

(** aspatial.cpp 178-186 and 217-226: vector between the centres, its length, and the unit vector. *)
Definition centre_dist (rcl rcr : v2) : R :=
  let d := vsub rcr rcl in sqrt (0 + vx d * vx d + vy d * vy d).
Definition centre_dir (rcl rcr : v2) : v2 :=
  let d := vsub rcr rcl in let dist := centre_dist rcl rcr in mkv (vx d / dist) (vy d / dist).

(** aspatial.cpp 172-205 getFaceGradient_modifiedAverage *)
Definition getFaceGradient_modifiedAverage (rcl rcr : v2) (ucl ucr : st) (gradl gradr : grad) : grad :=
  let dist := centre_dist rcl rcr in
  let dr := centre_dir rcl rcr in
  let davgx (i : ix) := (1/2) * (cget (gx gradl) i + cget (gx gradr) i) in
  let davgy (i : ix) := (1/2) * (cget (gy gradl) i + cget (gy gradr) i) in
  let corr (i : ix) := (cget ucr i - cget ucl i) / dist in
  let ddr (i : ix) := dot2 (mkv (davgx i) (davgy i)) dr in
  mkgrad (mkst (fun i => davgx i - ddr i * vx dr + corr i * vx dr))
         (mkst (fun i => davgy i - ddr i * vy dr + corr i * vy dr)).

(** Derivatives of the face gradient: dgrad[j][i][k], one matrix (i,k) per direction j *)
Record dgrad := mkdgrad { dgx : mat4; dgy : mat4 }.

(** aspatial.cpp 207-240 getFaceGradientAndJacobian_thinLayer *)
Definition getFaceGradientAndJacobian_thinLayer (ccl ccr : v2) (ucl ucr : st) (dul dur : mat4)
  : grad * dgrad * dgrad :=
  let dist := centre_dist ccl ccr in
  let dr := centre_dir ccl ccr in
  let corr (i : ix) := (cget ucr i - cget ucl i) / dist in
  (mkgrad (mkst (fun i => corr i * vx dr)) (mkst (fun i => corr i * vy dr)),
   mkdgrad (mkmat (fun i k => - mget dul i k / dist * vx dr)) (mkmat (fun i k => - mget dul i k / dist * vy dr)),
   mkdgrad (mkmat (fun i k => mget dur i k / dist * vx dr)) (mkmat (fun i k => mget dur i k / dist * vy dr))).

(** viscousphysics.cpp 14-68 getPrimitive2StatesAndGradients, second-order branch, one side.
    Line 62 overwrites the pressure by the temperature after the gradients are computed. The caller
    passes the same array for [gradl] and [gradtl]: component (j,nvars-1) is read before it is
    written and nothing written is read again, so the in-place result is this one. *)
Definition prim2_state_grad (G : gas) (uc : st) (gr : grad) : st * grad :=
  let uct := getPrimitiveFromConserved G uc in
  let gT (d : st) := getGradTemperature G (s0 uct) (s0 d) (s3 uct) (s3 d) in
  (st_set uct I3 (getTemperature G (s0 uct) (s3 uct)),
   mkgrad (st_set (gx gr) I3 (gT (gx gr))) (st_set (gy gr) I3 (gT (gy gr)))).

Definition grad0 : grad := mkgrad szero szero.

(** viscousphysics.cpp 80-85, 140-145: viscosity divided by the Reynolds number *)
Definition face_viscosity (G : gas) (constVisc : bool) (ul ur : st) : R :=
  if constVisc then getConstantViscosityCoeff G
  else (1/2) * (getViscosityCoeffFromConserved G ul + getViscosityCoeffFromConserved G ur).

(** viscousphysics.cpp 71-122 computeViscousFlux *)
Definition computeViscousFlux (G : gas) (constVisc : bool) (n : v2) (gr : grad) (ul ur : st) : st :=
  let muRe := face_viscosity G constVisc ul ur in
  let kdiff := getThermalConductivityFromViscosity G muRe in
  let s := getStressTensor muRe gr in
  let vflux1 := 0 - txx s * vx n - txy s * vy n in
  let vflux2 := 0 - tyx s * vx n - tyy s * vy n in
  let vavg := mkv ((1/2) * (s1 ul / s0 ul + s1 ur / s0 ur)) ((1/2) * (s2 ul / s0 ul + s2 ur / s0 ur)) in
  let compx := 0 + txx s * vx vavg + txy s * vy vavg + kdiff * s3 (gx gr) in
  let compy := 0 + tyx s * vx vavg + tyy s * vy vavg + kdiff * s3 (gy gr) in
  mks 0 vflux1 vflux2 (0 - compx * vx n - compy * vy n).

(** flow_spatial.cpp 348-395 FlowFV::compute_viscous_flux. For first order the gradients are zero;
    [gradsl] and [gradsr] are then not read (in the code the pointer is null). *)
Definition compute_viscous_flux (G : gas) (secondOrder constVisc : bool) (normal rcl rcr : v2)
    (ucell_l ucell_r : st) (gradsl gradsr : grad) (ul ur : st) : st :=
  let '(uctl, gradl) := if secondOrder then prim2_state_grad G ucell_l gradsl
                        else (getPrimitive2FromConserved G ucell_l, grad0) in
  let '(uctr, gradr) := if secondOrder then prim2_state_grad G ucell_r gradsr
                        else (getPrimitive2FromConserved G ucell_r, grad0) in
  let gr := getFaceGradient_modifiedAverage rcl rcr uctl uctr gradl gradr in
  computeViscousFlux G constVisc normal gr ul ur.

(** aphysics_defs.hpp 455-461 getJacobianThermCondWrtConservedFromJacobianSutherViscWrtConserved *)
Definition getJacobianThermCond (G : gas) (dmuhat : st) : st :=
  mkst (fun k => cget dmuhat k / (Minf G * Minf G * (gam G - 1) * Prn G)).

(** viscousphysics.cpp 125-246 computeViscousFluxJacobian; [dvfi], [dvfj] are accumulated into.
    The order of the accumulations of each entry is that of the loops. *)
Definition computeViscousFluxJacobian (G : gas) (constVisc : bool) (n : v2) (ul ur : st) (gr : grad)
    (dgl dgr : dgrad) (dvfi dvfj : mat4) : mat4 * mat4 :=
  let muRe := face_viscosity G constVisc ul ur in
  let kdiff := getThermalConductivityFromViscosity G muRe in
  let half (d : st) := mkst (fun k => cget d k * (1/2)) in
  let dmul := if constVisc then szero else half (getJacobianSutherlandViscosityWrtConserved G ul szero) in
  let dmur := if constVisc then szero else half (getJacobianSutherlandViscosityWrtConserved G ur szero) in
  let dkdl := if constVisc then szero else getJacobianThermCond G dmul in
  let dkdr := if constVisc then szero else getJacobianThermCond G dmur in
  let vel (d : dgrad) := mkdten (r1 (dgx d)) (r2 (dgx d)) (r1 (dgy d)) (r2 (dgy d)) in
  let '(_, dsl) := getJacobianStress muRe dmul gr (vel dgl) in
  let '(s, dsr) := getJacobianStress muRe dmur gr (vel dgr) in
  let vavg := mkv ((1/2) * (s1 ul / s0 ul + s1 ur / s0 ur)) ((1/2) * (s2 ul / s0 ul + s2 ur / s0 ur)) in
  let dvavgx (u : st) := mks (- (1/2) * s1 u / (s0 u * s0 u)) ((1/2) / s0 u) 0 0 in
  let dvavgy (u : st) := mks (- (1/2) * s2 u / (s0 u * s0 u)) 0 ((1/2) / s0 u) 0 in
  let dcompx (ds : dten) (u dk : st) (dg : dgrad) (k : ix) :=
      0 + (cget (dxx ds) k * vx vavg + txx s * cget (dvavgx u) k)
        + (cget (dxy ds) k * vy vavg + txy s * cget (dvavgy u) k)
        + (cget dk k * s3 (gx gr) + kdiff * mget (dgx dg) I3 k) in
  let dcompy (ds : dten) (u dk : st) (dg : dgrad) (k : ix) :=
      0 + (cget (dyx ds) k * vx vavg + tyx s * cget (dvavgx u) k)
        + (cget (dyy ds) k * vy vavg + tyy s * cget (dvavgy u) k)
        + (cget dk k * s3 (gy gr) + kdiff * mget (dgy dg) I3 k) in
  (mkm (r0 dvfi)
       (mkst (fun k => mget dvfi I1 k + cget (dxx dsl) k * vx n + cget (dxy dsl) k * vy n))
       (mkst (fun k => mget dvfi I2 k + cget (dyx dsl) k * vx n + cget (dyy dsl) k * vy n))
       (mkst (fun k => mget dvfi I3 k + dcompx dsl ul dkdl dgl k * vx n + dcompy dsl ul dkdl dgl k * vy n)),
   mkm (r0 dvfj)
       (mkst (fun k => mget dvfj I1 k - cget (dxx dsr) k * vx n - cget (dxy dsr) k * vy n))
       (mkst (fun k => mget dvfj I2 k - cget (dyx dsr) k * vx n - cget (dyy dsr) k * vy n))
       (mkst (fun k => mget dvfj I3 k - dcompx dsr ur dkdr dgr k * vx n - dcompy dsr ur dkdr dgr k * vy n))).

(** flow_spatial.cpp 397-446 FlowFV::compute_viscous_flux_jacobian *)
Definition compute_viscous_flux_jacobian (G : gas) (constVisc : bool) (n rcl rcr : v2) (ul ur : st)
    (dvfi dvfj : mat4) : mat4 * mat4 :=
  let upl := getPrimitive2FromConserved G ul in
  let upr := getPrimitive2FromConserved G ur in
  let dupl := getJacobianPrimitive2WrtConserved G ul mat0 in
  let dupr := getJacobianPrimitive2WrtConserved G ur mat0 in
  let '(gr, dgl, dgr) := getFaceGradientAndJacobian_thinLayer rcl rcr upl upr dupl dupr in
  computeViscousFluxJacobian G constVisc n ul ur gr dgl dgr dvfi dvfj.
