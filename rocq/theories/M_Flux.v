(** Model of the inviscid numerical fluxes and their Jacobians:
    src/spatial/anumericalflux.cpp and anumericalflux.hpp.
    The adiabatic index member [g] of InviscidFlux is the one of the physics object. *)
From Coq Require Import Reals.
From Verif Require Import BaseR M_Gas.
Open Scope R_scope.

Section Flux.
Context (G : gas).
Notation g := (gam G).

(** A Jacobian pair: (dfdl, dfdr). By the code's convention dfdl is minus the derivative. *)
Record jacs := mkjacs { dfdl : mat4; dfdr : mat4 }.

(** anumericalflux.cpp 41-61 LocalLaxFriedrichsFlux::get_flux *)
Definition llf_eig (ul ur : st) (n : v2) : R :=
  let i := getVarsFromConserved G ul n in
  let j := getVarsFromConserved G ur n in
  let ci := getSoundSpeed G (s0 ul) (v_p i) in
  let cj := getSoundSpeed G (s0 ur) (v_p j) in
  if Rltb (Rabs (v_vn j) + cj) (Rabs (v_vn i) + ci)
  then Rabs (v_vn i) + ci else Rabs (v_vn j) + cj.

Definition llf_flux (ul ur : st) (n : v2) : st :=
  let eig := llf_eig ul ur n in
  let fl := getDirectionalFluxFromConserved G ul n in
  let fr := getDirectionalFluxFromConserved G ur n in
  mkst (fun k => (1/2) * (cget fl k + cget fr k - eig * (cget ur k - cget ul k))).

(** anumericalflux.cpp 66-107 LocalLaxFriedrichsFlux::get_jacobian (frozen spectral radius) *)
Definition llf_jac (ul ur : st) (n : v2) : jacs :=
  let i := getVarsFromConserved G ul n in
  let j := getVarsFromConserved G ur n in
  let ci := getSoundSpeed G (s0 ul) (v_p i) in
  let cj := getSoundSpeed G (s0 ur) (v_p j) in
  let eig := if Rleb (Rabs (v_vn j) + cj) (Rabs (v_vn i) + ci)
             then Rabs (v_vn i) + ci else Rabs (v_vn j) + cj in
  let al := getJacobianDirectionalFluxWrtConserved G ul n in
  let ar := getJacobianDirectionalFluxWrtConserved G ur n in
  let dl := mkmat (fun i j => if ix_eqb i j then mget al i j - - eig else mget al i j) in
  let dr := mkmat (fun i j => if ix_eqb i j then mget ar i j - eig else mget ar i j) in
  mkjacs (mkmat (fun i j => - (1/2) * mget dl i j)) (mkmat (fun i j => (1/2) * mget dr i j)).

(** anumericalflux.cpp 111-194 LocalLaxFriedrichsFlux::get_jacobian_2 ("full linearization") *)
Definition llf_dedu (u : st) (n : v2) (vn : R) : st :=
  let cterm := (1/2) / sqrt (g * (g - 1) / s0 u * (s3 u - (s1 u * s1 u + s2 u * s2 u) / (2 * s0 u))) in
  mks (- Rabs (vn / (s0 u * s0 u))
         + cterm * g * (g - 1) * (- s3 u / (s0 u * s0 u)
                                  + (s1 u * s1 u + s2 u * s2 u) / (s0 u * s0 u * s0 u)))
      ((if Rltb 0 vn then vx n / s0 u else - vx n / s0 u) + cterm * g * (g - 1) * (- s1 u / s0 u))
      ((if Rltb 0 vn then vy n / s0 u else - vy n / s0 u) + cterm * g * (g - 1) * (- s2 u / s0 u))
      (cterm * g * (g - 1) / s0 u).

Definition llf_jac2 (ul ur : st) (n : v2) : jacs :=
  let i := getVarsFromConserved G ul n in
  let j := getVarsFromConserved G ur n in
  let ci := getSoundSpeed G (s0 ul) (v_p i) in
  let cj := getSoundSpeed G (s0 ur) (v_p j) in
  let leftismax := Rleb (Rabs (v_vn j) + cj) (Rabs (v_vn i) + ci) in
  let eig := if leftismax then Rabs (v_vn i) + ci else Rabs (v_vn j) + cj in
  let al := getJacobianDirectionalFluxWrtConserved G ul n in
  let ar := getJacobianDirectionalFluxWrtConserved G ur n in
  let dedl := if leftismax then llf_dedu ul n (v_vn i) else szero in
  let dedr := if leftismax then szero else llf_dedu ur n (v_vn j) in
  let dl := mkmat (fun i j => (if ix_eqb i j then mget al i j - - eig else mget al i j)
                              - cget dedl j * (cget ur i - cget ul i)) in
  let dr := mkmat (fun i j => (if ix_eqb i j then mget ar i j - eig else mget ar i j)
                              - cget dedr j * (cget ur i - cget ul i)) in
  mkjacs (mkmat (fun i j => - (1/2) * mget dl i j)) (mkmat (fun i j => (1/2) * mget dr i j)).

(** anumericalflux.cpp 203-250 VanLeerFlux::get_flux: split fluxes of the left and right state *)
Definition vl_plus (ul : st) (n : v2) : st :=
  let i := getVarsFromConserved G ul n in
  let ci := getSoundSpeed G (s0 ul) (v_p i) in
  let vni := v_vn i in
  let Mni := vni / ci in
  if Rltb Mni (-1) then szero
  else if Rltb 1 Mni then getDirectionalFlux ul n vni (v_p i)
  else
    let vmags := (s1 ul / s0 ul) ^ 2 + (s2 ul / s0 ul) ^ 2 in
    let f0 := s0 ul * ci * (Mni + 1) ^ 2 / 4 in
    mks f0
        (f0 * (s1 ul / s0 ul + vx n * (2 * ci - vni) / g))
        (f0 * (s2 ul / s0 ul + vy n * (2 * ci - vni) / g))
        (f0 * ((vmags - vni * vni) / 2 + ((g - 1) * vni + 2 * ci) ^ 2 / (2 * (g * g - 1)))).

Definition vl_minus (ur : st) (n : v2) : st :=
  let j := getVarsFromConserved G ur n in
  let cj := getSoundSpeed G (s0 ur) (v_p j) in
  let vnj := v_vn j in
  let Mnj := vnj / cj in
  if Rltb 1 Mnj then szero
  else if Rltb Mnj (-1) then getDirectionalFlux ur n vnj (v_p j)
  else
    let vmags := (s1 ur / s0 ur) ^ 2 + (s2 ur / s0 ur) ^ 2 in
    let f0 := - s0 ur * cj * (Mnj - 1) ^ 2 / 4 in
    mks f0
        (f0 * (s1 ur / s0 ur + vx n * (- 2 * cj - vnj) / g))
        (f0 * (s2 ur / s0 ur + vy n * (- 2 * cj - vnj) / g))
        (f0 * ((vmags - vnj * vnj) / 2 + ((g - 1) * vnj - 2 * cj) ^ 2 / (2 * (g * g - 1)))).

Definition vanleer_flux (ul ur : st) (n : v2) : st := sadd (vl_plus ul n) (vl_minus ur n).

(** anumericalflux.cpp 265-315 AUSMFlux::get_flux. [ausm_L]/[ausm_R] are the if-chains that set
    (ML,pL) and (MR,pR). *)
Definition ausm_L (Mn p : R) : R * R :=
  if Rleb (Rabs Mn) 1 then
    let ML := (1/4) * (Mn + 1) * (Mn + 1) in (ML, ML * p * (2 - Mn))
  else if Rltb Mn (-1) then (0, 0)
  else (Mn, p).

Definition ausm_R (Mn p : R) : R * R :=
  if Rleb (Rabs Mn) 1 then
    let MR := - (1/4) * (Mn - 1) * (Mn - 1) in (MR, - MR * p * (2 + Mn))
  else if Rltb Mn (-1) then (Mn, p)
  else (0, 0).

Definition ausm_flux (ul ur : st) (n : v2) : st :=
  let i := getVarsFromConserved G ul n in
  let j := getVarsFromConserved G ur n in
  let pi := v_p i in let pj := v_p j in
  let ci := getSoundSpeed G (s0 ul) pi in
  let cj := getSoundSpeed G (s0 ur) pj in
  let Mni := v_vn i / ci in
  let Mnj := v_vn j / cj in
  let L := ausm_L Mni pi in
  let RR := ausm_R Mnj pj in
  let Mhalf := fst L + fst RR in
  let phalf := snd L + snd RR in
  mks (Mhalf / 2 * (s0 ul * ci + s0 ur * cj) - Rabs Mhalf / 2 * (s0 ur * cj - s0 ul * ci))
      (Mhalf / 2 * (s1 ul * ci + s1 ur * cj) - Rabs Mhalf / 2 * (s1 ur * cj - s1 ul * ci) + phalf * vx n)
      (Mhalf / 2 * (s2 ul * ci + s2 ur * cj) - Rabs Mhalf / 2 * (s2 ur * cj - s2 ul * ci) + phalf * vy n)
      (Mhalf / 2 * (ci * (s3 ul + pi) + cj * (s3 ur + pj))
         - Rabs Mhalf / 2 * (cj * (s3 ur + pj) - ci * (s3 ul + pi))).

(** anumericalflux.cpp 317-472 AUSMFlux::get_jacobian. *)
Definition ausm_dmn (u : st) (n : v2) (c vn : R) (dc : st) : st :=
  mks ((- 1 / (s0 u * s0 u) * (s1 u * vx n + s2 u * vy n) * c - vn * s0 dc) / (c * c))
      ((vx n / s0 u * c - vn * s1 dc) / (c * c))
      ((vy n / s0 u * c - vn * s2 dc) / (c * c))
      (- vn * s3 dc / (c * c)).

(** lines 350-376: (ML, dML, dpL) *)
Definition ausm_dL (Mn p : R) (dmn dp : st) : R * st * st :=
  if Rleb (Rabs Mn) 1 then
    let ML := (1/4) * (Mn + 1) * (Mn + 1) in
    let dML := mkst (fun k => (1/2) * (Mn + 1) * cget dmn k) in
    (ML, dML, mkst (fun k => cget dML k * p * (2 - Mn) + ML * cget dp k * (2 - Mn) - ML * p * cget dmn k))
  else if Rltb Mn (-1) then (0, szero, szero)
  else (Mn, dmn, dp).

(** lines 378-402: (MR, dMR, dpR) *)
Definition ausm_dR (Mn p : R) (dmn dp : st) : R * st * st :=
  if Rleb (Rabs Mn) 1 then
    let MR := - (1/4) * (Mn - 1) * (Mn - 1) in
    let dMR := mkst (fun k => - (1/2) * (Mn - 1) * cget dmn k) in
    (MR, dMR, mkst (fun k => - cget dMR k * p * (2 + Mn) - MR * cget dp k * (2 + Mn) - MR * p * cget dmn k))
  else if Rltb Mn (-1) then (Mn, dmn, dp)
  else (0, szero, szero).

Definition ausm_jac (ul ur : st) (n : v2) : jacs :=
  let i := getVarsFromConserved G ul n in
  let j := getVarsFromConserved G ur n in
  let pi := v_p i in let pj := v_p j in
  let ci := getSoundSpeed G (s0 ul) pi in
  let cj := getSoundSpeed G (s0 ur) pj in
  let vni := v_vn i in let vnj := v_vn j in
  let Mni := vni / ci in
  let Mnj := vnj / cj in
  let dpi := getJacobianPressureWrtConserved G ul in
  let dpj := getJacobianPressureWrtConserved G ur in
  let dci := getJacobianSoundSpeed G (s0 ul) pi dpi ci szero in
  let dcj := getJacobianSoundSpeed G (s0 ur) pj dpj cj szero in
  let dmni := ausm_dmn ul n ci vni dci in
  let dmnj := ausm_dmn ur n cj vnj dcj in
  let '(ML, dML, dpL) := ausm_dL Mni pi dmni dpi in
  let '(MR, dMR, dpR) := ausm_dR Mnj pj dmnj dpj in
  let Mhalf := ML + MR in
  let sg := if Rleb 0 Mhalf then 1 else -1 in
  let aM := Rabs Mhalf in
  (* row 0, lines 415-433 *)
  let l0 k := match k with
    | I0 => s0 dML / 2 * (s0 ul * ci + s0 ur * cj) + Mhalf / 2 * (ci + s0 ul * s0 dci)
            - (sg * s0 dML / 2 * (s0 ur * cj - s0 ul * ci) + aM / 2 * (- ci - s0 ul * s0 dci))
    | k => cget dML k / 2 * (s0 ul * ci + s0 ur * cj) + Mhalf / 2 * s0 ul * cget dci k
            - (sg * cget dML k / 2 * (s0 ur * cj - s0 ul * ci) - aM / 2 * s0 ul * cget dci k)
    end in
  let rr0 k := match k with
    | I0 => s0 dMR / 2 * (s0 ul * ci + s0 ur * cj) + Mhalf / 2 * (cj + s0 ur * s0 dcj)
            - (sg * s0 dMR / 2 * (s0 ur * cj - s0 ul * ci) + aM / 2 * (cj + s0 ur * s0 dcj))
    | k => cget dMR k / 2 * (s0 ul * ci + s0 ur * cj) + Mhalf / 2 * s0 ur * cget dcj k
            - (sg * cget dMR k / 2 * (s0 ur * cj - s0 ul * ci) + aM / 2 * s0 ur * cget dcj k)
    end in
  (* rows 1, 2, lines 438-460; nj = n[j-1] *)
  let lm j nj k :=
    if ix_eqb k j then
      cget dML j / 2 * (cget ul j * ci + cget ur j * cj) + Mhalf / 2 * (ci + cget ul j * cget dci j)
      - (sg * cget dML j / 2 * (cget ur j * cj - cget ul j * ci) + aM / 2 * (- ci - cget ul j * cget dci j))
      + cget dpL j * nj
    else
      cget dML k / 2 * (cget ul j * ci + cget ur j * cj) + Mhalf / 2 * cget ul j * cget dci k
      - (sg * cget dML k / 2 * (cget ur j * cj - cget ul j * ci) - aM / 2 * cget ul j * cget dci k)
      + cget dpL k * nj in
  let rm j nj k :=
    if ix_eqb k j then
      cget dMR j / 2 * (cget ul j * ci + cget ur j * cj) + Mhalf / 2 * (cj + cget ur j * cget dcj j)
      - (sg * cget dMR j / 2 * (cget ur j * cj - cget ul j * ci) + aM / 2 * (cj + cget ur j * cget dcj j))
      + cget dpR j * nj
    else
      cget dMR k / 2 * (cget ul j * ci + cget ur j * cj) + Mhalf / 2 * cget ur j * cget dcj k
      - (sg * cget dMR k / 2 * (cget ur j * cj - cget ul j * ci) + aM / 2 * cget ur j * cget dcj k)
      + cget dpR k * nj in
  (* row 3, lines 465-485 *)
  let l3 k := match k with
    | I3 => s3 dML / 2 * (ci * (s3 ul + pi) + cj * (s3 ur + pj))
            + Mhalf / 2 * (s3 dci * (s3 ul + pi) + ci * (1 + s3 dpi))
            - (sg * s3 dML / 2 * (cj * (s3 ur + pj) - ci * (s3 ul + pi))
               + aM / 2 * (- s3 dci * (s3 ul + pi) - ci * (1 + s3 dpi)))
    | k => cget dML k / 2 * (ci * (s3 ul + pi) + cj * (s3 ur + pj))
            + Mhalf / 2 * (cget dci k * (s3 ul + pi) + ci * cget dpi k)
            - (sg * cget dML k / 2 * (cj * (s3 ur + pj) - ci * (s3 ul + pi))
               + aM / 2 * (- cget dci k * (s3 ul + pi) - ci * cget dpi k))
    end in
  let rr3 k := match k with
    | I3 => s3 dMR / 2 * (ci * (s3 ul + pi) + cj * (s3 ur + pj))
            + Mhalf / 2 * (s3 dcj * (s3 ur + pj) + cj * (1 + s3 dpj))
            - (sg * s3 dMR / 2 * (cj * (s3 ur + pj) - ci * (s3 ul + pi))
               + aM / 2 * (s3 dcj * (s3 ur + pj) + cj * (1 + s3 dpj)))
    | k => cget dMR k / 2 * (ci * (s3 ul + pi) + cj * (s3 ur + pj))
            + Mhalf / 2 * (cget dcj k * (s3 ur + pj) + cj * cget dpj k)
            - (sg * cget dMR k / 2 * (cj * (s3 ur + pj) - ci * (s3 ul + pi))
               + aM / 2 * (cget dcj k * (s3 ur + pj) + cj * cget dpj k))
    end in
  let dl := mkmat (fun i => match i with I0 => l0 | I1 => lm I1 (vx n) | I2 => lm I2 (vy n) | I3 => l3 end) in
  let dr := mkmat (fun i => match i with I0 => rr0 | I1 => rm I1 (vx n) | I2 => rm I2 (vy n) | I3 => rr3 end) in
  mkjacs (mkmat (fun i k => - mget dl i k)) dr.

(** anumericalflux.cpp 480-553 AUSMPlusFlux::get_flux *)
Definition ausmp_L (Mn p : R) : R * R :=
  if Rleb (Rabs Mn) 1 then
    ((1/4) * (Mn + 1) * (Mn + 1) + 1 / 8 * (Mn * Mn - 1) * (Mn * Mn - 1),
     p * ((1/4) * (Mn + 1) * (Mn + 1) * (2 - Mn) + 3 / 16 * Mn * (Mn * Mn - 1) * (Mn * Mn - 1)))
  else if Rltb Mn (-1) then (0, 0)
  else (Mn, p).

Definition ausmp_R (Mn p : R) : R * R :=
  if Rleb (Rabs Mn) 1 then
    (- (1/4) * (Mn - 1) * (Mn - 1) - 1 / 8 * (Mn * Mn - 1) * (Mn * Mn - 1),
     p * ((1/4) * (Mn - 1) * (Mn - 1) * (2 + Mn) - 3 / 16 * Mn * (Mn * Mn - 1) * (Mn * Mn - 1)))
  else if Rltb Mn (-1) then (Mn, p)
  else (0, 0).

Definition ausmp_chalf (vni vnj ci cj vmag2i vmag2j : R) : R :=
  let csi := sqrt ((ci * ci / (g - 1) + (1/2) * vmag2i) * 2 * (g - 1) / (g + 1)) in
  let csj := sqrt ((cj * cj / (g - 1) + (1/2) * vmag2j) * 2 * (g - 1) / (g + 1)) in
  let corri := if Rltb vni csi then csi else vni in
  let corrj := if Rltb (- vnj) csj then csj else - vnj in
  let csi' := csi * csi / corri in
  let csj' := csj * csj / corrj in
  if Rltb csi' csj' then csi' else csj'.

Definition ausmplus_flux (ul ur : st) (n : v2) : st :=
  let i := getVarsFromConserved G ul n in
  let j := getVarsFromConserved G ur n in
  let pi := v_p i in let pj := v_p j in
  let ci := getSoundSpeed G (s0 ul) pi in
  let cj := getSoundSpeed G (s0 ur) pj in
  let vmag2i := dot2 (v_v i) (v_v i) in
  let vmag2j := dot2 (v_v j) (v_v j) in
  let chalf := ausmp_chalf (v_vn i) (v_vn j) ci cj vmag2i vmag2j in
  let L := ausmp_L (v_vn i / chalf) pi in
  let RR := ausmp_R (v_vn j / chalf) pj in
  let Mhalf := fst L + fst RR in
  let phalf := snd L + snd RR in
  mks (chalf * (Mhalf / 2 * (s0 ul + s0 ur) - Rabs Mhalf / 2 * (s0 ur - s0 ul)))
      (chalf * (Mhalf / 2 * (s1 ul + s1 ur) - Rabs Mhalf / 2 * (s1 ur - s1 ul)) + phalf * vx n)
      (chalf * (Mhalf / 2 * (s2 ul + s2 ur) - Rabs Mhalf / 2 * (s2 ur - s2 ul)) + phalf * vy n)
      (chalf * (Mhalf / 2 * (s3 ul + pi + s3 ur + pj) - Rabs Mhalf / 2 * ((s3 ur + pj) - (s3 ul + pi)))).

(** anumericalflux.hpp 175-189 RoeAverageBasedFlux::getRoeAverages *)
Record roeav := mkroe { a_R : R; a_rho : R; a_v : v2; a_vm2 : R; a_vn : R; a_H : R; a_c : R }.

Definition getRoeAverages (ul ur : st) (n : v2) (vi : v2) (Hi : R) (vj : v2) (Hj : R) : roeav :=
  let Rij := sqrt (s0 ur / s0 ul) in
  let rhoij := Rij * s0 ul in
  let vij := mkv ((Rij * vx vj + vx vi) / (Rij + 1)) ((Rij * vy vj + vy vi) / (Rij + 1)) in
  let Hij := (Rij * Hj + Hi) / (Rij + 1) in
  let vm2ij := dot2 vij vij in
  let vnij := dot2 vij n in
  let cij := sqrt ((g - 1) * (Hij - vm2ij * (1/2))) in
  mkroe Rij rhoij vij vm2ij vnij Hij cij.

(** RoeFlux::fixeps, anumericalflux.cpp 664 *)
Definition fixeps : R := 1 / 10000.

(** Harten entropy fix, anumericalflux.cpp 687-692 *)
Definition harten (delta l : R) : R :=
  if Rltb l delta then (l * l + delta * delta) / (2 * delta) else l.

(** anumericalflux.cpp 668-732 RoeFlux::get_flux. [roe_adu] is the vector adu for given wave
    speeds l[0], l[1], l[3] (l[2] is not used by the code). *)
Definition roe_adu (A : roeav) (n : v2) (i j : vars) (ul ur : st) (l0 l1 l3 : R) : st :=
  let cij := a_c A in let rhoij := a_rho A in let vij := a_v A in
  let devn := v_vn j - v_vn i in
  let dep := v_p j - v_p i in
  let derho := s0 ur - s0 ul in
  let la0 := l0 * (dep - rhoij * cij * devn) / (2 * cij * cij) in
  let la1 := l1 * (derho - dep / (cij * cij)) in
  let la2 := l1 * rhoij in
  let la3 := l3 * (dep + rhoij * cij * devn) / (2 * cij * cij) in
  let dvx := vx (v_v j) - vx (v_v i) in
  let dvy := vy (v_v j) - vy (v_v i) in
  mks (la0 + la1 + la3)
      (la0 * (vx vij - cij * vx n) + (la1 * vx vij + la2 * (dvx - devn * vx n)) + la3 * (vx vij + cij * vx n))
      (la0 * (vy vij - cij * vy n) + (la1 * vy vij + la2 * (dvy - devn * vy n)) + la3 * (vy vij + cij * vy n))
      (la0 * (a_H A - cij * a_vn A)
         + (la1 * a_vm2 A / 2 + la2 * (vx vij * dvx + vy vij * dvy - a_vn A * devn))
         + la3 * (a_H A + cij * a_vn A)).

Definition roe_flux (ul ur : st) (n : v2) : st :=
  let i := getVarsFromConserved G ul n in
  let j := getVarsFromConserved G ur n in
  let A := getRoeAverages ul ur n (v_v i) (v_H i) (v_v j) (v_H j) in
  let delta := fixeps * a_c A in
  let l0 := harten delta (Rabs (a_vn A - a_c A)) in
  let l1 := harten delta (Rabs (a_vn A)) in
  let l3 := harten delta (Rabs (a_vn A + a_c A)) in
  let adu := roe_adu A n i j ul ur l0 l1 l3 in
  let fi := getDirectionalFlux ul n (v_vn i) (v_p i) in
  let fj := getDirectionalFlux ur n (v_vn j) (v_p j) in
  mkst (fun k => (1/2) * (cget fi k + cget fj k - cget adu k)).

(** Einfeldt signal speeds, anumericalflux.cpp 991-996 (HLL) and 1191-1198 (HLLC). *)
Definition einfeldt_sl (vni ci vnij cij : R) : R :=
  let sl := vni - ci in if Rltb (vnij - cij) sl then vnij - cij else sl.
Definition einfeldt_sr (vnj cj vnij cij : R) : R :=
  let sr := vnj + cj in if Rltb sr (vnij + cij) then vnij + cij else sr.

(** anumericalflux.cpp 974-1007 HLLFlux::get_flux *)
Record hllc_t := mkhll { h_t1 : R; h_t2 : R; h_t3 : R }.
Definition hll_coeffs (sl sr : R) : hllc_t :=
  let sr0 := if Rltb 0 sr then 0 else sr in
  let sl0 := if Rltb 0 sl then 0 else sl in
  let t1 := (sr0 - sl0) / (sr - sl) in
  let t2 := 1 - t1 in
  let t3 := (1/2) * (sr * Rabs sl - sl * Rabs sr) / (sr - sl) in
  mkhll t1 t2 t3.

Definition hll_speeds (ul ur : st) (n : v2) : R * R :=
  let i := getVarsFromConserved G ul n in
  let j := getVarsFromConserved G ur n in
  let ci := getSoundSpeed G (s0 ul) (v_p i) in
  let cj := getSoundSpeed G (s0 ur) (v_p j) in
  let A := getRoeAverages ul ur n (v_v i) (v_H i) (v_v j) (v_H j) in
  (einfeldt_sl (v_vn i) ci (a_vn A) (a_c A), einfeldt_sr (v_vn j) cj (a_vn A) (a_c A)).

Definition hll_flux (ul ur : st) (n : v2) : st :=
  let i := getVarsFromConserved G ul n in
  let j := getVarsFromConserved G ur n in
  let vni := v_vn i in let vnj := v_vn j in
  let pi := v_p i in let pj := v_p j in
  let '(sl, sr) := hll_speeds ul ur n in
  let t := hll_coeffs sl sr in
  let t1 := h_t1 t in let t2 := h_t2 t in let t3 := h_t3 t in
  mks (t1 * vnj * s0 ur + t2 * vni * s0 ul - t3 * (s0 ur - s0 ul))
      (t1 * (vnj * s1 ur + pj * vx n) + t2 * (vni * s1 ul + pi * vx n) - t3 * (s1 ur - s1 ul))
      (t1 * (vnj * s2 ur + pj * vy n) + t2 * (vni * s2 ul + pi * vy n) - t3 * (s2 ur - s2 ul))
      (t1 * (vnj * s0 ur * v_H j) + t2 * (vni * s0 ul * v_H i) - t3 * (s3 ur - s3 ul)).

(** anumericalflux.cpp 1013-1061 HLLFlux::get_jacobian (frozen signal speeds) *)
Definition hll_jac (ul ur : st) (n : v2) : jacs :=
  let '(sl, sr) := hll_speeds ul ur n in
  let t := hll_coeffs sl sr in
  let t1 := h_t1 t in let t2 := h_t2 t in let t3 := h_t3 t in
  let al := getJacobianDirectionalFluxWrtConserved G ul n in
  let ar := getJacobianDirectionalFluxWrtConserved G ur n in
  let dl := mkmat (fun i j => - t2 * mget al i j) in
  let dr := mkmat (fun i j => t1 * mget ar i j) in
  mkjacs (mkmat (fun i j => if ix_eqb i j then mget dl i j - t3 else mget dl i j))
         (mkmat (fun i j => if ix_eqb i j then mget dr i j - t3 else mget dr i j)).

(** anumericalflux.cpp 1071-1081 HLLCFlux::getStarState *)
Definition getStarState (u : st) (n : v2) (vn p ss sm : R) : st :=
  let pstar := s0 u * (vn - ss) * (vn - sm) + p in
  mks (s0 u * (ss - vn) / (ss - sm))
      (((ss - vn) * s1 u + (pstar - p) * vx n) / (ss - sm))
      (((ss - vn) * s2 u + (pstar - p) * vy n) / (ss - sm))
      (((ss - vn) * s3 u - p * vn + pstar * sm) / (ss - sm)).

(** anumericalflux.cpp 1199-1200: contact speed *)
Definition hllc_sm (ul ur : st) (vni vnj pi pj sl sr : R) : R :=
  (s0 ur * vnj * (sr - vnj) - s0 ul * vni * (sl - vni) + pi - pj)
    / (s0 ur * (sr - vnj) - s0 ul * (sl - vni)).

(** anumericalflux.cpp 1176-1228 HLLCFlux::get_flux *)
Definition hllc_flux (ul ur : st) (n : v2) : st :=
  let i := getVarsFromConserved G ul n in
  let j := getVarsFromConserved G ur n in
  let vni := v_vn i in let vnj := v_vn j in
  let pi := v_p i in let pj := v_p j in
  let '(sl, sr) := hll_speeds ul ur n in
  let sm := hllc_sm ul ur vni vnj pi pj sl sr in
  if Rltb 0 sl then getDirectionalFlux ul n vni pi
  else if andb (Rleb sl 0) (Rltb 0 sm) then
    let f := getDirectionalFlux ul n vni pi in
    let us := getStarState ul n vni pi sl sm in
    mkst (fun k => cget f k + sl * (cget us k - cget ul k))
  else if andb (Rleb sm 0) (Rleb 0 sr) then
    let f := getDirectionalFlux ur n vnj pj in
    let us := getStarState ur n vnj pj sr sm in
    mkst (fun k => cget f k + sr * (cget us k - cget ur k))
  else getDirectionalFlux ur n vnj pj.

(** anumericalflux.cpp 569-660 getJacobiansRoeAveragesWrtConserved: derivatives of the averages
    with respect to the left (suffix iji) and right (suffix ijj) state. *)
Record droe := mkdroe { dR_ : st; drho_ : st; dvx_ : st; dvy_ : st; dvm2_ : st; dvn_ : st; dH_ : st; dc_ : st }.

Definition getJacobiansRoeAverages (ul ur : st) (n : v2)
    (vi : v2) (Hi : R) (vj : v2) (Hj : R) (dHi dHj : st) : droe * droe :=
  let A := getRoeAverages ul ur n vi Hi vj Hj in
  let Rij := a_R A in let vxij := vx (a_v A) in let vyij := vy (a_v A) in let cij := a_c A in
  let vxi := vx vi in let vyi := vy vi in let vxj := vx vj in let vyj := vy vj in
  let dRi := mks ((1/2) / Rij * (- s0 ur) / (s0 ul * s0 ul)) 0 0 0 in
  let dRj := mks ((1/2) / Rij / s0 ul) 0 0 0 in
  let rden2 := (Rij + 1) * (Rij + 1) in
  let dvxi := mks
    (((s0 dRi * s1 ur / s0 ur - s1 ul / (s0 ul * s0 ul)) * (Rij + 1) - (Rij * vxj + vxi) * s0 dRi) / rden2)
    (((s1 dRi * s1 ur / s0 ur + 1 / s0 ul) * (Rij + 1) - (Rij * vxj + vxi) * s1 dRi) / rden2)
    ((s2 dRi * s1 ur / s0 ur * (Rij + 1) - (Rij * vxj + vxi) * s2 dRi) / rden2)
    ((s3 dRi * s1 ur / s0 ur * (Rij + 1) - (Rij * vxj + vxi) * s3 dRi) / rden2) in
  let dvxj := mks
    (((s0 dRj * s1 ur / s0 ur + Rij / (s0 ur * s0 ur) * (- s1 ur)) * (Rij + 1) - (Rij * vxj + vxi) * s0 dRj) / rden2)
    (((s1 dRj * s1 ur / s0 ur + Rij / s0 ur) * (Rij + 1) - (Rij * vxj + vxi) * s1 dRj) / rden2)
    ((s2 dRj * s1 ur / s0 ur * (Rij + 1) - (Rij * vxj + vxi) * s2 dRj) / rden2)
    ((s3 dRj * s1 ur / s0 ur * (Rij + 1) - (Rij * vxj + vxi) * s3 dRj) / rden2) in
  let dvyi := mks
    (((s2 ur / s0 ur * s0 dRi - s2 ul / (s0 ul * s0 ul)) * (Rij + 1) - (Rij * vyj + vyi) * s0 dRi) / rden2)
    ((s2 ur / s0 ur * s1 dRi * (Rij + 1) - (Rij * vyj + vyi) * s1 dRi) / rden2)
    (((s2 ur / s0 ur * s2 dRi + 1 / s0 ul) * (Rij + 1) - (Rij * vyj + vyi) * s2 dRi) / rden2)
    ((s2 ur / s0 ur * s3 dRi * (Rij + 1) - (Rij * vyj + vyi) * s3 dRi) / rden2) in
  let dvyj := mks
    (((s0 dRj * s2 ur / s0 ur + Rij / (s0 ur * s0 ur) * (- s2 ur)) * (Rij + 1) - (Rij * vyj + vyi) * s0 dRj) / rden2)
    ((s1 dRj * s2 ur / s0 ur * (Rij + 1) - (Rij * vyj + vyi) * s1 dRj) / rden2)
    (((s2 dRj * s2 ur / s0 ur + Rij / s0 ur) * (Rij + 1) - (Rij * vyj + vyi) * s2 dRj) / rden2)
    ((s3 dRj * s2 ur / s0 ur * (Rij + 1) - (Rij * vyj + vyi) * s3 dRj) / rden2) in
  let dvni := mkst (fun k => cget dvxi k * vx n + cget dvyi k * vy n) in
  let dvnj := mkst (fun k => cget dvxj k * vx n + cget dvyj k * vy n) in
  let dvm2i := mkst (fun k => 2 * (vxij * cget dvxi k + vyij * cget dvyi k)) in
  let dvm2j := mkst (fun k => 2 * (vxij * cget dvxj k + vyij * cget dvyj k)) in
  let dci := mkst (fun k => (1/2) / cij * (g - 1)
      * (((cget dRi k * Hj + cget dHi k) * (Rij + 1) - (Rij * Hj + Hi) * cget dRi k) / rden2 - (1/2) * cget dvm2i k)) in
  let dcj := mkst (fun k => (1/2) / cij * (g - 1)
      * (((cget dRj k * Hj + Rij * cget dHj k) * (Rij + 1) - (Rij * Hj + Hi) * cget dRj k) / rden2 - (1/2) * cget dvm2j k)) in
  let drhoi := mks (s0 dRi * s0 ul + Rij) 0 0 0 in
  let drhoj := mks (s0 dRj * s0 ul) 0 0 0 in
  let dHiji := mkst (fun k => ((cget dRi k * Hj + cget dHi k) * (Rij + 1) - (Rij * Hj + Hi) * cget dRi k) / rden2) in
  let dHijj := mkst (fun k => ((cget dRj k * Hj + Rij * cget dHj k) * (Rij + 1) - (Rij * Hj + Hi) * cget dRj k) / rden2) in
  (mkdroe dRi drhoi dvxi dvyi dvm2i dvni dHiji dci, mkdroe dRj drhoj dvxj dvyj dvm2j dvnj dHijj dcj).

(** anumericalflux.cpp 800-816: derivative of the entropy-fixed wave speed as coded. The code
    overwrites [l] first and differentiates with the new value. *)
Definition harten_dl (delta l : R) (dl dc : st) : st :=
  if Rltb l delta then
    let l' := (l * l + delta * delta) / (2 * delta) in
    mkst (fun k => ((2 * (l' * cget dl k + delta * fixeps * cget dc k) * 2 * delta)
                    - (l' * l' + delta * delta) * 2 * fixeps * cget dc k) / (4 * delta * delta))
  else dl.

Definition sgn1 (x : R) : R := if Rleb 0 x then 1 else -1.

(** anumericalflux.cpp 818-944: derivative of adu w.r.t. one side, given derivatives of everything
    with respect to that side. On the left, d(vnj)=0 etc.; the code spells the two sides out, the
    model shares one definition with the one-sided derivatives of [devn], [dep], [derho], [vj-vi]
    passed in. *)
Definition roe_dadu (A : roeav) (n : v2) (i j : vars) (ul ur : st) (l0 l1 l3 : R)
    (D : droe) (dl0 dl1 dl3 : st) (ddevn ddep dderho ddvx ddvy : st) : mat4 :=
  let cij := a_c A in let rhoij := a_rho A in let vxij := vx (a_v A) in let vyij := vy (a_v A) in
  let devn := v_vn j - v_vn i in
  let dep := v_p j - v_p i in
  let derho := s0 ur - s0 ul in
  let cij4 := cij * cij * cij * cij in
  let la0 := l0 * (dep - rhoij * cij * devn) / (2 * cij * cij) in
  let la1 := l1 * (derho - dep / (cij * cij)) in
  let la2 := l1 * rhoij in
  let la3 := l3 * (dep + rhoij * cij * devn) / (2 * cij * cij) in
  let dla0 k := ((cget dl0 k * (dep - rhoij * cij * devn)
                  + l0 * (cget ddep k - cget (drho_ D) k * cij * devn - rhoij * cget (dc_ D) k * devn
                          - rhoij * cij * cget ddevn k)) * 2 * cij * cij
                 - l0 * (dep - rhoij * cij * devn) * 4 * cij * cget (dc_ D) k) / (4 * cij4) in
  let dla1 k := cget dl1 k * (derho - dep / (cij * cij))
                + l1 * (cget dderho k - (cget ddep k * cij * cij - dep * 2 * cij * cget (dc_ D) k) / cij4) in
  let dla2 k := cget dl1 k * rhoij + l1 * cget (drho_ D) k in
  let dla3 k := ((cget dl3 k * (dep + rhoij * cij * devn)
                  + l3 * (cget ddep k + cget (drho_ D) k * cij * devn + rhoij * cget (dc_ D) k * devn
                          + rhoij * cij * cget ddevn k)) * 2 * cij * cij
                 - l3 * (dep + rhoij * cij * devn) * 4 * cij * cget (dc_ D) k) / (4 * cij4) in
  let vxi := vx (v_v i) in let vyi := vy (v_v i) in let vxj := vx (v_v j) in let vyj := vy (v_v j) in
  let vnij := a_vn A in let Hij := a_H A in let vm2ij := a_vm2 A in
  mkmat (fun r => match r with
    | I0 => fun k => dla0 k + dla1 k + dla3 k
    | I1 => fun k =>
        dla0 k * (vxij - cij * vx n) + la0 * (cget (dvx_ D) k - cget (dc_ D) k * vx n)
        + (dla1 k * vxij + la1 * cget (dvx_ D) k + dla2 k * (vxj - vxi - devn * vx n)
           + la2 * (cget ddvx k - cget ddevn k * vx n))
        + (dla3 k * (vxij + cij * vx n) + la3 * (cget (dvx_ D) k + cget (dc_ D) k * vx n))
    | I2 => fun k =>
        dla0 k * (vyij - cij * vy n) + la0 * (cget (dvy_ D) k - cget (dc_ D) k * vy n)
        + (dla1 k * vyij + la1 * cget (dvy_ D) k + dla2 k * (vyj - vyi - devn * vy n)
           + la2 * (cget ddvy k - cget ddevn k * vy n))
        + (dla3 k * (vyij + cij * vy n) + la3 * (cget (dvy_ D) k + cget (dc_ D) k * vy n))
    | I3 => fun k =>
        dla0 k * (Hij - cij * vnij) + la0 * (cget (dH_ D) k - cget (dc_ D) k * vnij - cij * cget (dvn_ D) k)
        + (dla1 k * vm2ij / 2 + la1 * cget (dvm2_ D) k / 2
           + dla2 k * (vxij * (vxj - vxi) + vyij * (vyj - vyi) - vnij * devn)
           + la2 * (cget (dvx_ D) k * (vxj - vxi) + vxij * cget ddvx k
                    + cget (dvy_ D) k * (vyj - vyi) + vyij * cget ddvy k
                    - cget (dvn_ D) k * devn - vnij * cget ddevn k))
        + (dla3 k * (Hij + cij * vnij) + la3 * (cget (dH_ D) k + cget (dc_ D) k * vnij + cij * cget (dvn_ D) k))
    end).

(** anumericalflux.cpp 737-965 RoeFlux::get_jacobian *)
Definition roe_jac (ul ur : st) (n : v2) : jacs :=
  let i := getVarsFromConserved G ul n in
  let j := getVarsFromConserved G ur n in
  let A := getRoeAverages ul ur n (v_v i) (v_H i) (v_v j) (v_H j) in
  let di := getJacobianVarsWrtConserved G ul n dvars0 in
  let dj := getJacobianVarsWrtConserved G ur n dvars0 in
  let '(Di, Dj) := getJacobiansRoeAverages ul ur n (v_v i) (v_H i) (v_v j) (v_H j) (d_H di) (d_H dj) in
  let delta := fixeps * a_c A in
  let dl D (s : R) (sc : R) := mkst (fun k => sgn1 s * (cget (dvn_ D) k + sc * cget (dc_ D) k)) in
  let m0 := Rabs (a_vn A - a_c A) in
  let m1 := Rabs (a_vn A) in
  let m3 := Rabs (a_vn A + a_c A) in
  let l0 := harten delta m0 in let l1 := harten delta m1 in let l3 := harten delta m3 in
  let dl0 D := harten_dl delta m0 (dl D (a_vn A - a_c A) (-1)) (dc_ D) in
  let dl1 D := harten_dl delta m1 (mkst (fun k => sgn1 (a_vn A) * cget (dvn_ D) k)) (dc_ D) in
  let dl3 D := harten_dl delta m3 (dl D (a_vn A + a_c A) 1) (dc_ D) in
  let dadui := roe_dadu A n i j ul ur l0 l1 l3 Di (dl0 Di) (dl1 Di) (dl3 Di)
                 (sneg (d_vn di)) (sneg (d_p di)) (mks (-1) 0 0 0) (sneg (d_vx di)) (sneg (d_vy di)) in
  let daduj := roe_dadu A n i j ul ur l0 l1 l3 Dj (dl0 Dj) (dl1 Dj) (dl3 Dj)
                 (d_vn dj) (d_p dj) (mks 1 0 0 0) (d_vx dj) (d_vy dj) in
  let al := getJacobianDirectionalFluxWrtConserved G ul n in
  let ar := getJacobianDirectionalFluxWrtConserved G ur n in
  mkjacs (mkmat (fun i k => - (1/2) * (mget al i k - mget dadui i k)))
         (mkmat (fun i k => (1/2) * (mget ar i k - mget daduj i k))).

(** anumericalflux.cpp 1085-1171 getStarStateAndJacobian. Suffix i: derivatives w.r.t. the state
    [u] itself, suffix j: w.r.t. the other state. *)
Definition getStarStateJacobian (u : st) (n : v2) (vn p ss sm : R)
    (dvn dp dssi dsmi dssj dsmj : st) : mat4 * mat4 :=
  let pstar := s0 u * (vn - ss) * (vn - sm) + p in
  let dpsi k := match k with
    | I0 => (vn - ss) * (vn - sm) + s0 u * (s0 dvn - s0 dssi) * (vn - sm)
            + s0 u * (vn - ss) * (s0 dvn - s0 dsmi) + s0 dp
    | k => s0 u * ((cget dvn k - cget dssi k) * (vn - sm) + (vn - ss) * (cget dvn k - cget dsmi k)) + cget dp k
    end in
  let dpsj k := s0 u * ((- cget dssj k) * (vn - sm) + (vn - ss) * (- cget dsmj k)) in
  let den2 := (ss - sm) * (ss - sm) in
  let di0 k := match k with
    | I0 => s0 u * ((s0 dssi - s0 dvn) * (ss - sm) - (ss - vn) * (s0 dssi - s0 dsmi)) / den2
            + (ss - vn) / (ss - sm)
    | k => s0 u * ((cget dssi k - cget dvn k) * (ss - sm) - (ss - vn) * (cget dssi k - cget dsmi k)) / den2
    end in
  let dj0 k := s0 u * (cget dssj k * (ss - sm) - (ss - vn) * (cget dssj k - cget dsmj k)) / den2 in
  let dim r nr k :=
    if ix_eqb k r then
      (((cget dssi k - cget dvn k) * cget u r + (ss - vn) + (dpsi k - cget dp k) * nr) * (ss - sm)
       - ((ss - vn) * cget u r + (pstar - p) * nr) * (cget dssi k - cget dsmi k)) / den2
    else
      (((cget dssi k - cget dvn k) * cget u r + (dpsi k - cget dp k) * nr) * (ss - sm)
       - ((ss - vn) * cget u r + (pstar - p) * nr) * (cget dssi k - cget dsmi k)) / den2 in
  let djm r nr k :=
      ((cget dssj k * cget u r + dpsj k * nr) * (ss - sm)
       - ((ss - vn) * cget u r + (pstar - p) * nr) * (cget dssj k - cget dsmj k)) / den2 in
  let di3 k := match k with
    | I3 => (((s3 dssi - s3 dvn) * s3 u + (ss - vn) - s3 dp * vn - p * s3 dvn + dpsi I3 * sm + pstar * s3 dsmi)
              * (ss - sm) - ((ss - vn) * s3 u - p * vn + pstar * sm) * (s3 dssi - s3 dsmi)) / den2
    | k => (((cget dssi k - cget dvn k) * s3 u - cget dp k * vn - p * cget dvn k + dpsi k * sm + pstar * cget dsmi k)
              * (ss - sm) - ((ss - vn) * s3 u - p * vn + pstar * sm) * (cget dssi k - cget dsmi k)) / den2
    end in
  let dj3 k := ((cget dssj k * s3 u + dpsj k * sm + pstar * cget dsmj k) * (ss - sm)
       - ((ss - vn) * s3 u - p * vn + pstar * sm) * (cget dssj k - cget dsmj k)) / den2 in
  (mkmat (fun r => match r with I0 => di0 | I1 => dim I1 (vx n) | I2 => dim I2 (vy n) | I3 => di3 end),
   mkmat (fun r => match r with I0 => dj0 | I1 => djm I1 (vx n) | I2 => djm I2 (vy n) | I3 => dj3 end)).

(** anumericalflux.cpp 1231-1397 HLLCFlux::get_jacobian *)
Definition hllc_jac (ul ur : st) (n : v2) : jacs :=
  let i := getVarsFromConserved G ul n in
  let j := getVarsFromConserved G ur n in
  let vni := v_vn i in let vnj := v_vn j in
  let pi := v_p i in let pj := v_p j in
  let ci := getSoundSpeed G (s0 ul) pi in
  let cj := getSoundSpeed G (s0 ur) pj in
  let A := getRoeAverages ul ur n (v_v i) (v_H i) (v_v j) (v_H j) in
  let di := getJacobianVarsWrtConserved G ul n dvars0 in
  let dj := getJacobianVarsWrtConserved G ur n dvars0 in
  let dvni := d_vn di in let dpi := d_p di in
  let dvnj := d_vn dj in let dpj := d_p dj in
  let dci := getJacobianSoundSpeed G (s0 ul) pi dpi ci szero in
  let dcj := getJacobianSoundSpeed G (s0 ur) pj dpj cj szero in
  let '(Di, Dj) := getJacobiansRoeAverages ul ur n (v_v i) (v_H i) (v_v j) (v_H j) (d_H di) (d_H dj) in
  let '(sl, dsli, dslj) :=
    if Rltb (a_vn A - a_c A) (vni - ci)
    then (a_vn A - a_c A, ssub (dvn_ Di) (dc_ Di), ssub (dvn_ Dj) (dc_ Dj))
    else (vni - ci, ssub dvni dci, szero) in
  let '(sr, dsri, dsrj) :=
    if Rltb (vnj + cj) (a_vn A + a_c A)
    then (a_vn A + a_c A, sadd (dvn_ Di) (dc_ Di), sadd (dvn_ Dj) (dc_ Dj))
    else (vnj + cj, szero, sadd dvnj dcj) in
  let num := s0 ur * vnj * (sr - vnj) - s0 ul * vni * (sl - vni) + pi - pj in
  let denom := s0 ur * (sr - vnj) - s0 ul * (sl - vni) in
  let sm := num / denom in
  let dsmi := mkst (fun k => match k with
    | I0 => ((s0 ur * vnj * s0 dsri - vni * (sl - vni) - s0 ul * s0 dvni * (sl - vni)
              - s0 ul * vni * (s0 dsli - s0 dvni) + s0 dpi) * denom
             - num * (s0 ur * s0 dsri - (sl - vni) - s0 ul * (s0 dsli - s0 dvni))) / (denom * denom)
    | k => ((s0 ur * vnj * cget dsri k
              - s0 ul * (cget dvni k * (sl - vni) + vni * (cget dsli k - cget dvni k)) + cget dpi k) * denom
             - num * (s0 ur * cget dsri k - s0 ul * (cget dsli k - cget dvni k))) / (denom * denom)
    end) in
  let dsmj := mkst (fun k => match k with
    | I0 => ((vnj * (sr - vnj) + s0 ur * s0 dvnj * (sr - vnj) + s0 ur * vnj * (s0 dsrj - s0 dvnj)
              - s0 ul * vni * s0 dslj - s0 dpj) * denom
             - num * ((sr - vnj) + s0 ur * (s0 dsrj - s0 dvnj) - s0 ul * s0 dslj)) / (denom * denom)
    | k => ((s0 ur * (cget dvnj k * (sr - vnj) + vnj * (cget dsrj k - cget dvnj k))
              - s0 ul * vni * cget dslj k - cget dpj k) * denom
             - num * (s0 ur * (cget dsrj k - cget dvnj k) - s0 ul * cget dslj k)) / (denom * denom)
    end) in
  let al := getJacobianDirectionalFluxWrtConserved G ul n in
  let ar := getJacobianDirectionalFluxWrtConserved G ur n in
  let kd i k := if ix_eqb i k then 1 else 0 in
  let '(dl, dr) :=
    if Rltb 0 sl then (al, mat0)
    else if andb (Rleb sl 0) (Rltb 0 sm) then
      let us := getStarState ul n vni pi sl sm in
      let '(dui, duj) := getStarStateJacobian ul n vni pi sl sm dvni dpi dsli dsmi dslj dsmj in
      (mkmat (fun i k => mget al i k + (cget dsli k * (cget us i - cget ul i) + sl * (mget dui i k - kd i k))),
       mkmat (fun i k => 0 + (cget dslj k * (cget us i - cget ul i) + sl * mget duj i k)))
    else if andb (Rleb sm 0) (Rleb 0 sr) then
      let us := getStarState ur n vnj pj sr sm in
      let '(duj, dui) := getStarStateJacobian ur n vnj pj sr sm dvnj dpj dsrj dsmj dsri dsmi in
      (mkmat (fun i k => 0 + (cget dsri k * (cget us i - cget ur i) + sr * mget dui i k)),
       mkmat (fun i k => mget ar i k + (cget dsrj k * (cget us i - cget ur i) + sr * (mget duj i k - kd i k))))
    else (mat0, ar) in
  mkjacs (mkmat (fun i k => mget dl i k * -1)) dr.

End Flux.

(** The inviscid fluxes selectable in the control file: src/utilities/afactory.cpp 31-84
    create_const_inviscidflux. *)
Inductive fluxname := LLF | VANLEER | AUSM | AUSMPLUS | ROE | HLL | HLLC.

Definition get_flux (f : fluxname) (G : gas) (ul ur : st) (n : v2) : st :=
  match f with
  | LLF => llf_flux G ul ur n
  | VANLEER => vanleer_flux G ul ur n
  | AUSM => ausm_flux G ul ur n
  | AUSMPLUS => ausmplus_flux G ul ur n
  | ROE => roe_flux G ul ur n
  | HLL => hll_flux G ul ur n
  | HLLC => hllc_flux G ul ur n
  end.
