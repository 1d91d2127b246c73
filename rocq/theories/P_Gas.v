(** Properties C25-C33: the gas model. *)
From Coq Require Import Reals Lra Psatz.
From Verif Require Import BaseR M_Gas S_Gas S_Deriv Pf_Deriv Pf_Flux Pf_Gas.
Open Scope R_scope.

Definition airg : gas := mkgas (7/5) (1/2) 288 1000 (7/10).
Definition ug : st := mks 2 (1/2) (-1) 10.
Lemma ug_phys : physical (gam airg) ug.
Proof. unfold physical, pressure; cbn; split; lra. Qed.

(** C25 *)
Theorem C25_round_trip : forall (G : gas) (u w : st),
  gam G <> 1 -> s0 u <> 0 -> s0 w <> 0 ->
  getConservedFromPrimitive G (getPrimitiveFromConserved G u) = u /\
  getPrimitiveFromConserved G (getConservedFromPrimitive G w) = w /\
  getPrimitiveFromConserved G u = prim (gam G) u.
Proof.
  intros G u w Hg Hu Hw. split; [apply cons_prim; auto|]. split; [apply prim_cons; auto|].
  unfold getPrimitiveFromConserved, prim. cbv zeta. rewrite pressure_code by auto. reflexivity.
Qed.
Print Assumptions C25_round_trip.

Theorem C25_round_trip_temperature : forall (G : gas) (u : st),
  gam G <> 1 -> gam G <> 0 -> Minf G <> 0 -> s0 u <> 0 ->
  getPrimitive2FromConserved G u = primT (gam G) (Minf G) u /\
  let w := getPrimitive2FromConserved G u in
  s0 w = s0 u /\ s0 w * s1 w = s1 u /\ s0 w * s2 w = s2 u /\ getEnergyFromPrimitive2 G w = s3 u.
Proof.
  intros G u Hg Hg0 HM Hu. cbv zeta.
  assert (E : getPrimitive2FromConserved G u = primT (gam G) (Minf G) u).
  { unfold getPrimitive2FromConserved, primT, getTemperature, temperature. cbv zeta. rewrite pressure_code by auto.
    apply st_eq; cbn [s0 s1 s2 s3]; field; auto. }
  split; [exact E|]. rewrite E. unfold primT; cbn [s0 s1 s2 s3].
  split; [reflexivity|]. split; [field; auto|]. split; [field; auto|].
  unfold getEnergyFromPrimitive2, getEnergyFromTemperature, temperature, pressure, dot2, mom; cbn [s0 s1 s2 s3 vx vy].
  field. repeat split; auto. lra.
Qed.
Print Assumptions C25_round_trip_temperature.

(** The same results when input and output are the same array. *)
Theorem C25_in_place : forall (G : gas) (u : st),
  getPrimitiveFromConserved_inplace G u = getPrimitiveFromConserved G u /\
  getPrimitive2FromConserved_inplace G u = getPrimitive2FromConserved G u /\
  getConservedFromPrimitive_inplace G u = getConservedFromPrimitive G u.
Proof. intros G u. destruct u. repeat split; reflexivity. Qed.
Print Assumptions C25_in_place.

Example C25_ex : gam airg <> 1 /\ gam airg <> 0 /\ Minf airg <> 0 /\ s0 ug <> 0.
Proof. cbn; repeat split; lra. Qed.

(** C26 *)
Theorem C26_equation_of_state : forall (G : gas) (u : st) (p rho T v2m : R),
  1 < gam G -> Minf G <> 0 -> 0 < s0 u -> rho <> 0 -> T <> 0 -> p <> 0 ->
  getPressureFromConserved G u = pressure (gam G) u /\
  (0 < getPressureFromConserved G u <-> ((s1 u)^2 + (s2 u)^2) / (2 * s0 u) < s3 u) /\
  getPressure G (getEnergyFromPressure G p rho v2m - rho * v2m / 2) = p /\
  getTemperature G (getDensityFromPressureTemperature G p T) p = T /\
  getDensityFromPressureTemperature G p (getTemperature G rho p) = rho /\
  getEnergyFromTemperature G (getTemperature G rho p) rho v2m = getEnergyFromPressure G p rho v2m /\
  getTemperatureFromConserved G u = temperature (gam G) (Minf G) u /\
  (0 < pressure (gam G) u ->
     0 < getSoundSpeedFromConserved G u /\
     (getSoundSpeedFromConserved G u)^2 = gam G * pressure (gam G) u / s0 u).
Proof.
  intros G u p rho T v2m Hg HM Hu Hrho HT Hp0. assert (Hu0 : s0 u <> 0) by lra.
  split; [apply pressure_code; auto|]. split.
  { rewrite pressure_code by auto. unfold pressure. split; intros H; nra. }
  split. { unfold getPressure, getEnergyFromPressure. field. lra. }
  split. { unfold getTemperature, getDensityFromPressureTemperature. field. repeat split; auto; lra. }
  split. { unfold getTemperature, getDensityFromPressureTemperature. field. repeat split; auto; lra. }
  split. { unfold getEnergyFromTemperature, getTemperature, getEnergyFromPressure. field. repeat split; auto; lra. }
  split; [apply temperature_code; auto|].
  intros Hp. rewrite sound_code by auto. unfold sound.
  assert (0 < gam G * pressure (gam G) u / s0 u) by (apply Rdiv_lt_0_compat; auto; apply Rmult_lt_0_compat; lra).
  split; [apply sqrt_lt_R0; auto|]. apply sqrt_sq_pos; auto.
Qed.
Print Assumptions C26_equation_of_state.

(** the temperature of the primitive variables of a state, and of their second form, is that of the state *)
Theorem C26_primitive_temperature : forall (G : gas) (u : st), s0 u <> 0 ->
  getTemperatureFromPrimitive G (getPrimitiveFromConserved G u) = temperature (gam G) (Minf G) u /\ s3 (getPrimitive2FromConserved G u) = temperature (gam G) (Minf G) u.
Proof. intros G u H. rewrite <- (temperature_code G u H). split; reflexivity. Qed.
Print Assumptions C26_primitive_temperature.

Example C26_ex : 1 < gam airg /\ Minf airg <> 0 /\ 0 < s0 ug /\ 0 < pressure (gam airg) ug.
Proof. pose proof ug_phys as [A B]. cbn in *; repeat split; try lra. Qed.

(** C27 *)
Theorem C27_freestream : forall (G : gas) (aoa : R),
  1 < gam G -> 0 < Minf G ->
  let u := compute_freestream_state G aoa in
  s0 u = 1 /\ s1 u = cos aoa /\ s2 u = sin aoa /\ speed2 u = 1 /\
  pressure (gam G) u = / (gam G * (Minf G)^2) /\
  temperature (gam G) (Minf G) u = 1 /\
  sqrt (speed2 u) / sound (gam G) u = Minf G /\ physical (gam G) u.
Proof.
  intros G aoa Hg HM. cbv zeta. unfold compute_freestream_state, getNormalizedFreeStreamVector. cbv zeta.
  rewrite cos_0, !Rmult_1_r. cbn [vx vy].
  pose proof (sin2_cos2 aoa) as SC. unfold Rsqr in SC.
  set (u := mks 1 (cos aoa) (sin aoa) _).
  assert (Hs : speed2 u = 1). { unfold speed2, u; cbn [s0 s1 s2]. transitivity (sin aoa * sin aoa + cos aoa * cos aoa). field. auto. }
  assert (Hp : pressure (gam G) u = / (gam G * (Minf G)^2)).
  { unfold pressure, u, getEnergyFromPressure, getFreestreamPressure; cbn [s0 s1 s2 s3].
    transitivity (/ (gam G * (Minf G)^2) + (gam G - 1) / 2 * (1 - (sin aoa * sin aoa + cos aoa * cos aoa))).
    field; repeat split; lra. rewrite SC. field. repeat split; lra. }
  assert (0 < Minf G ^2) by nra.
  assert (Hpp : 0 < / (gam G * Minf G ^2)) by (apply Rinv_0_lt_compat; nra).
  split; [reflexivity|]. split; [reflexivity|]. split; [reflexivity|]. split; [exact Hs|]. split; [exact Hp|].
  split. { unfold temperature. rewrite Hp. unfold u; cbn [s0]. field. split; lra. }
  split. { rewrite Hs, sqrt_1. unfold sound. rewrite Hp. unfold u; cbn [s0].
    replace (gam G * / (gam G * Minf G ^2) / 1) with ((/ Minf G) * (/ Minf G)) by (field; split; lra).
    rewrite sqrt_square. field; lra. left. apply Rinv_0_lt_compat; auto. }
  split; [unfold u; cbn; lra|]. rewrite Hp; auto.
Qed.
Print Assumptions C27_freestream.

(** C28 *)
Theorem C28_flux_jacobian : forall (G : gas) (n : v2) (u : st), 0 < s0 u ->
  jac_is (fun x => euler_flux (gam G) x n) u (getJacobianDirectionalFluxWrtConserved G u n).
Proof. intros. apply d_flux. lra. Qed.
Print Assumptions C28_flux_jacobian.

(** In particular its entries are the partial derivatives of the flux the code computes. *)
Theorem C28_flux_jacobian_partials : forall (G : gas) (n : v2) (u : st) (i k : ix), 0 < s0 u ->
  partial_is (fun x => cget (getDirectionalFluxFromConserved G x n) i) u k
             (mget (getJacobianDirectionalFluxWrtConserved G u n) i k).
Proof.
  intros G n u i k Hr. unfold mget. apply grad_partial. intros c t du H.
  eapply dl_local; [|exact (d_flux G n u ltac:(lra) i c t du H)].
  eapply near_imp; [|apply (near_lt (fun _ => 0) (fun s => s0 (c s)) t 0 (s0 du) (dl_const _ _) (cv0 _ _ _ _ H))].
  - cbv beta. intros s Hs. f_equal. unfold getDirectionalFluxFromConserved, getPressure, getDirectionalFlux, euler_flux, normal_velocity, pressure, dot2, mom; cbv zeta; cbn [vx vy].
    apply st_eq; cbn [s0 s1 s2 s3]; field; lra.
  - cbv beta. rewrite (cv_at _ _ _ _ H). auto.
Qed.
Print Assumptions C28_flux_jacobian_partials.

(** C29: [c] is the field of conserved states along a line, [du] its derivative. *)
Theorem C29_gradient_chain_rule : forall (G : gas) (c : R -> st) (t : R) (u du : st),
  0 < s0 u -> curve_at c t u du ->
  (forall k, derivable_pt_lim (fun s => cget (primT (gam G) (Minf G) (c s)) k) t
               (cget (getGradPrimitive2FromConservedAndGradConserved G u du) k)) /\
  derivable_pt_lim (fun s => pressure (gam G) (c s)) t (getGradPressureFromConservedAndGradConserved G u du) /\
  derivable_pt_lim (fun s => temperature (gam G) (Minf G) (c s)) t
     (getGradTemperatureFromConservedAndGradConserved G u du).
Proof.
  intros G c t u du Hr H. assert (s0 u <> 0) by lra. split; [intros k; apply grad_primT; auto|].
  split; [apply grad_pressure; auto|apply grad_temperature; auto].
Qed.
Print Assumptions C29_gradient_chain_rule.

Theorem C29_gradient_from_primitive : forall (G : gas) (c : R -> st) (t : R) (u du : st),
  0 < s0 u -> curve_at c t (prim (gam G) u) du ->
  derivable_pt_lim (fun s => gam G * (Minf G)^2 * s3 (c s) / s0 (c s)) t
     (getGradTemperatureFromConservedAndGradPrimitive G u du).
Proof. intros. apply grad_temperature_prim; auto. lra. Qed.
Print Assumptions C29_gradient_from_primitive.

Example C29_ex : curve_at (fun s => mks (1 + s) (s * s) (2 * s) 3) 1 (mks 2 1 2 3) (mks 1 2 2 0).
Proof.
  split. { apply st_eq; cbn; ring. }
  intros k; destruct k; cbn; ad; ring.
Qed.

(** C30: accumulating functions add the gradient to the prior contents [d]. *)
Theorem C30_scalar_jacobians : forall (G : gas) (n : v2) (u : st),
  1 < gam G -> physical (gam G) u ->
  grad_is (pressure (gam G)) u (getJacobianPressureWrtConserved G u) /\
  grad_is (temperature (gam G) (Minf G)) u (getJacobianTemperatureWrtConserved G u szero) /\
  grad_is (sound (gam G)) u (getJacobianSoundSpeedWrtConserved G u szero) /\
  grad_is speed2 u (getJacobianVmag2WrtConserved u szero) /\
  grad_is (mach_normal (gam G) n) u (getJacobianMachNormalWrtConserved G u n szero) /\
  jac_is (primT (gam G) (Minf G)) u (getJacobianPrimitive2WrtConserved G u mat0).
Proof.
  intros G n u Hg Hp. assert (s0 u <> 0) by (destruct Hp; lra).
  split; [apply d_pressure_code; auto|]. split; [apply d_temperature; auto|]. split; [apply d_sound; auto|].
  split; [apply d_speed2; auto|]. split; [apply d_mach; auto|apply d_primT; auto].
Qed.
Print Assumptions C30_scalar_jacobians.

(** C30: getJacobianVarsWrtConserved gives the derivatives of velocity, normal velocity, pressure and total enthalpy, provided the
    output arrays hold zeros: with other contents dvn additionally picks up the old contents of dv. *)
Definition dvars0 : dvars := mkdvars szero szero szero szero szero.
Theorem C30_vars_jacobian : forall (G : gas) (n : v2) (u : st), s0 u <> 0 ->
  let d := getJacobianVarsWrtConserved G u n dvars0 in
  grad_is (fun w => s1 w / s0 w) u (d_vx d) /\ grad_is (fun w => s2 w / s0 w) u (d_vy d) /\
  grad_is (fun w => s1 w / s0 w * vx n + s2 w / s0 w * vy n) u (d_vn d) /\
  grad_is (pressure (gam G)) u (d_p d) /\ grad_is (fun w => (s3 w + pressure (gam G) w) / s0 w) u (d_H d).
Proof.
  intros G n u Hr d. unfold d, getJacobianVarsWrtConserved, dvars0. cbv zeta. cbn [d_vx d_vy d_vn d_p d_H]. rewrite pressure_code by auto.
  split; [|split; [|split; [|split]]].
  4: apply d_pressure_code; auto.
  all: intros c t du H; try pose proof (d_pressure_code G u Hr c t du H) as Hp.
  4: set (J := getJacobianPressureWrtConserved G u) in *.
  all: ad; at_t H; auto; unfold sdot, szero; cbn [s0 s1 s2 s3]; field; auto.
Qed.
Print Assumptions C30_vars_jacobian.

Theorem C30_accumulation : forall (G : gas) (n : v2) (u d : st),
  getJacobianTemperatureWrtConserved G u d = sadd d (getJacobianTemperatureWrtConserved G u szero) /\
  getJacobianSoundSpeedWrtConserved G u d = sadd d (getJacobianSoundSpeedWrtConserved G u szero) /\
  getJacobianVmag2WrtConserved u d = sadd d (getJacobianVmag2WrtConserved u szero) /\
  getJacobianMachNormalWrtConserved G u n d = sadd d (getJacobianMachNormalWrtConserved G u n szero).
Proof.
  intros. unfold getJacobianTemperatureWrtConserved, getJacobianTemperature, getJacobianSoundSpeedWrtConserved,
   getJacobianSoundSpeed, getJacobianVmag2WrtConserved, getJacobianMachNormalWrtConserved, getQuotientDerivatives.
  cbv zeta. repeat split; apply st_eq; cbn [s0 s1 s2 s3 sadd szero]; ring.
Qed.
Print Assumptions C30_accumulation.

(** C30: the functions that turn Jacobians of temperature, pressure and speed into Jacobians of energy and density: whatever functions of
    the conserved variables the temperature [T], pressure [p] and squared speed [q] are, given their gradients the result is the gradient of
    the total energy of a gas of density [s0 w], temperature [T w] and squared speed [q w], and of the density at [p w] and [T w], added to
    the prior contents [d]. *)
Theorem C30_derived_jacobians : forall (G : gas) (u d : st) (T p q : st -> R) (dT dp dq : st), 1 < gam G -> Minf G <> 0 ->
  grad_is T u dT -> grad_is p u dp -> grad_is q u dq ->
  (exists J, getJacobianEnergyFromJacobiansTemperatureVmag2 G (T u) (s0 u) (q u) dT dq d = sadd d J /\
     grad_is (fun w => s0 w * T w / (gam G * (gam G - 1) * (Minf G * Minf G)) + s0 w * q w / 2) u J) /\
  (T u <> 0 -> exists J, getJacobianDensityFromJacobiansPressureTemperature G (p u) (T u) dp dT d = sadd d J /\
     grad_is (fun w => gam G * (Minf G * Minf G) * p w / T w) u J).
Proof.
  intros G u d T p q dT dp dq Hg HM GT Gp Gq. split.
  - eexists (getJacobianEnergyFromJacobiansTemperatureVmag2 G (T u) (s0 u) (q u) dT dq szero). split.
    + unfold getJacobianEnergyFromJacobiansTemperatureVmag2, sadd, szero. cbv zeta. cbn [s0 s1 s2 s3]. apply st_eq; cbn [s0 s1 s2 s3]; ring.
    + intros c t du H. pose proof (GT c t du H) as H1. pose proof (Gq c t du H) as H2. unfold getJacobianEnergyFromJacobiansTemperatureVmag2, szero. cbv zeta.
      ad; at_t H; auto; try (repeat apply Rmult_integral_contrapositive_currified; auto; lra). unfold sdot. cbn [s0 s1 s2 s3]. field. repeat split; auto; lra.
  - intros HT. eexists (getJacobianDensityFromJacobiansPressureTemperature G (p u) (T u) dp dT szero). split.
    + unfold getJacobianDensityFromJacobiansPressureTemperature, sadd, szero. cbv zeta. cbn [s0 s1 s2 s3]. apply st_eq; cbn [s0 s1 s2 s3]; ring.
    + intros c t du H. pose proof (GT c t du H) as H1. pose proof (Gp c t du H) as H2. unfold getJacobianDensityFromJacobiansPressureTemperature, szero. cbv zeta.
      ad; at_t H; auto. unfold sdot. cbn [s0 s1 s2 s3]. field. auto.
Qed.
Print Assumptions C30_derived_jacobians.
Example C30_derived_ex : 1 < gam airg /\ Minf airg <> 0 /\ grad_is (temperature (gam airg) (Minf airg)) ug (getJacobianTemperatureWrtConserved airg ug szero) /\
  grad_is (pressure (gam airg)) ug (getJacobianPressureWrtConserved airg ug) /\ grad_is speed2 ug (getJacobianVmag2WrtConserved ug szero) /\ temperature (gam airg) (Minf airg) ug <> 0.
Proof.
  destruct C26_ex as (A & B & C & D). assert (P : physical (gam airg) ug) by (split; assumption).
  destruct (C30_scalar_jacobians airg (mkv 1 0) ug A P) as (J1 & J2 & J3 & J4 & _). repeat split; try assumption. unfold temperature.
  apply Rgt_not_eq, Rdiv_lt_0_compat; [|exact C]. apply Rmult_lt_0_compat; [|exact D]. apply Rmult_lt_0_compat; [lra|]. pose proof (Rsqr_pos_lt _ B) as Q. unfold Rsqr in Q. lra.
Qed.

(** C31 *)
Theorem C31_sutherland : forall (G : gas) (T : R),
  0 < Tinf G -> 0 < Reinf G -> 0 < T ->
  getViscosityCoeffFromTemperature G T = sutherland (Tinf G) (Reinf G) T /\
  0 < getViscosityCoeffFromTemperature G T /\ getViscosityCoeffFromTemperature G 1 = / Reinf G.
Proof.
  intros G T HT HR H. rewrite !sutherland_code by lra. split; [reflexivity|].
  assert (HS : 0 < 221/2/Tinf G) by (apply Rdiv_lt_0_compat; lra).
  unfold sutherland; cbv zeta. set (S := 221/2/Tinf G) in *. split.
  - repeat apply Rmult_lt_0_compat; auto; try lra; try (apply Rinv_0_lt_compat; lra). apply sqrt_lt_R0; auto.
  - rewrite sqrt_1. field. split; lra.
Qed.
Print Assumptions C31_sutherland.

(** The coded Jacobian is not the derivative, at any state whose temperature is not 1. *)
Theorem C31_sutherland_jacobian_refuted : forall (G : gas) (u : st),
  0 < Tinf G -> Reinf G <> 0 -> 1 < gam G -> Minf G <> 0 -> physical (gam G) u ->
  temperature (gam G) (Minf G) u <> 1 ->
  ~ grad_is (fun x => sutherland (Tinf G) (Reinf G) (temperature (gam G) (Minf G) x)) u
      (getJacobianSutherlandViscosityWrtConserved G u szero).
Proof. exact suth_jac_wrong. Qed.
Print Assumptions C31_sutherland_jacobian_refuted.

Example C31_ex : 0 < Tinf airg /\ Reinf airg <> 0 /\ 1 < gam airg /\ Minf airg <> 0 /\ physical (gam airg) ug /\
  temperature (gam airg) (Minf airg) ug <> 1.
Proof. pose proof ug_phys. unfold temperature, pressure. cbn in *. repeat split; try lra; apply H. Qed.

(** C32: the pressure change function, for pure momentum changes. *)
Theorem C32_delta_pressure_x : forall (G : gas) (u : st) (d : R), s0 u <> 0 ->
  let du := mks 0 d 0 0 in
  getDeltaPressureFromConserved G u du = 0 /\
  pressure (gam G) (sadd u du) - pressure (gam G) u = - (gam G - 1) * d * (2 * s1 u + d) / (2 * s0 u).
Proof.
  intros G u d Hr du. subst du. unfold getDeltaPressureFromConserved, pressure, sadd; cbv zeta; cbn [s0 s1 s2 s3]. rewrite !Rplus_0_r. split; field; auto.
Qed.
Print Assumptions C32_delta_pressure_x.

Theorem C32_delta_pressure_y : forall (G : gas) (u : st) (d : R), s0 u <> 0 ->
  let du := mks 0 0 d 0 in
  getDeltaPressureFromConserved G u du = - (pressure (gam G) (sadd u du) - pressure (gam G) u).
Proof.
  intros G u d Hr du. subst du. unfold getDeltaPressureFromConserved, pressure, sadd; cbv zeta; cbn [s0 s1 s2 s3]. rewrite !Rplus_0_r. field; auto.
Qed.
Print Assumptions C32_delta_pressure_y.

(** Exactly what the function computes, for every change: the kinetic energy of the last two variables is used in place of that of the momentum, with the wrong sign. *)
Definition kinetic23 (u : st) : R := (s2 u * s2 u + s3 u * s3 u) / (2 * s0 u).
Theorem C32_delta_pressure_value : forall (G : gas) (u du : st), s0 u <> 0 -> s0 (sadd u du) <> 0 ->
  getDeltaPressureFromConserved G u du = (gam G - 1) * (s3 du + (kinetic23 (sadd u du) - kinetic23 u)).
Proof. intros G u du H H'. unfold getDeltaPressureFromConserved, kinetic23. cbv zeta. cbn in *. field. auto. Qed.
Print Assumptions C32_delta_pressure_value.

Theorem C32_delta_pressure_refuted : exists (G : gas) (u du : st),
  1 < gam G /\ physical (gam G) u /\ physical (gam G) (sadd u du) /\
  getDeltaPressureFromConserved G u du <> pressure (gam G) (sadd u du) - pressure (gam G) u.
Proof.
  exists airg, ug, (mks 0 1 0 0). split; [cbn; lra|]. split; [apply ug_phys|].
  split. { unfold physical, pressure; cbn; split; lra. }
  destruct (C32_delta_pressure_x airg ug 1) as [E1 E2]; [cbn; lra|]. cbv zeta in *. rewrite E1, E2. cbn. lra.
Qed.
Print Assumptions C32_delta_pressure_refuted.

(** C33 *)
Definition rot_grad (q : ortho) (gr : grad) : grad :=
  (* velocity gradient g_ij = d_i v_j transforms to sum_kl q_ik q_jl g_kl; density and temperature
     entries are not used *)
  let gxx := s1 (gx gr) in let gxy := s2 (gx gr) in let gyx := s1 (gy gr) in let gyy := s2 (gy gr) in
  let f a b c d := a * c * gxx + a * d * gxy + b * c * gyx + b * d * gyy in
  mkgrad (mks 0 (f (qxx q) (qxy q) (qxx q) (qxy q)) (f (qxx q) (qxy q) (qyx q) (qyy q)) 0)
         (mks 0 (f (qyx q) (qyy q) (qxx q) (qxy q)) (f (qyx q) (qyy q) (qyx q) (qyy q)) 0).
Definition rot_ten (q : ortho) (t : ten) : ten :=
  let f a b c d := a * c * txx t + a * d * txy t + b * c * tyx t + b * d * tyy t in
  mkten (f (qxx q) (qxy q) (qxx q) (qxy q)) (f (qxx q) (qxy q) (qyx q) (qyy q))
        (f (qyx q) (qyy q) (qxx q) (qxy q)) (f (qyx q) (qyy q) (qyx q) (qyy q)).

Theorem C33_stress_tensor : forall (mu : R) (gr : grad),
  let t := getStressTensor mu gr in
  txy t = tyx t /\
  txx t + tyy t = (2 - 4/3) * mu * (s1 (gx gr) + s2 (gy gr)) /\
  txx t = mu * (2 * s1 (gx gr) - 2/3 * (s1 (gx gr) + s2 (gy gr))) /\
  txy t = mu * (s2 (gx gr) + s1 (gy gr)) /\
  tyy t = mu * (2 * s2 (gy gr) - 2/3 * (s1 (gx gr) + s2 (gy gr))) /\
  (s1 (gx gr) = 0 -> s2 (gy gr) = 0 -> s1 (gy gr) = - s2 (gx gr) -> t = mkten 0 0 0 0).
Proof.
  intros mu gr t. subst t. unfold getStressTensor; cbv zeta; cbn [txx txy tyx tyy].
  split; [ring|]. split; [field|]. split; [field|]. split; [ring|]. split; [field|].
  intros E1 E2 E3. rewrite E1, E2, E3. f_equal; ring.
Qed.
Print Assumptions C33_stress_tensor.

Theorem C33_stress_objective : forall (mu : R) (gr : grad) (q : ortho), orthogonal q ->
  getStressTensor mu (rot_grad q gr) = rot_ten q (getStressTensor mu gr).
Proof.
  intros mu gr [a b c d]. unfold orthogonal; cbn [qxx qxy qyx qyy]. intros (H1 & H2 & H3).
  (* rows are orthonormal as well *)
  assert (D2 : (a*d - b*c)^2 = 1).
  { transitivity ((a^2+c^2)*(b^2+d^2) - (a*b+c*d)^2). ring. rewrite H1, H2, H3. ring. }
  assert (R1 : a^2 + b^2 = 1).
  { assert (d^2 = a^2 /\ True). { split; auto. 
      assert (E : a^2*b^2 = c^2*d^2) by (assert (a*b = - (c*d)) by lra; replace (a^2*b^2) with ((a*b)^2) by ring; rewrite H; ring).
      replace (c^2) with (1 - a^2) in E by lra. replace (b^2) with (1 - d^2) in E by lra. lra. }
    lra. }
  assert (R2 : c^2 + d^2 = 1) by lra.
  assert (R3 : a*c + b*d = 0).
  { assert (Q : (a*c+b*d)^2 = 0).
    { transitivity ((a^2+b^2)*(c^2+d^2) - (a*d-b*c)^2). ring. rewrite R1, R2, D2. ring. }
    rewrite <- Rsqr_pow2 in Q. apply Rsqr_0_uniq in Q. exact Q. }
  unfold getStressTensor, rot_grad, rot_ten; cbv zeta; cbn [gx gy s1 s2 txx txy tyx tyy qxx qxy qyx qyy].
  set (x := s1 (gx gr)). set (y := s2 (gx gr)). set (z := s1 (gy gr)). set (w := s2 (gy gr)).
  assert (TR : a*a*x + a*b*y + b*a*z + b*b*w + (c*c*x + c*d*y + d*c*z + d*d*w) = x + w).
  { transitivity ((a^2+c^2)*x + (b^2+d^2)*w + (a*b+c*d)*(y+z)). ring. rewrite H1, H2, H3. ring. }
  f_equal.
  - transitivity (mu*(2*(a*a*x + a*b*y + b*a*z + b*b*w)) - 2/3*mu*(a^2+b^2)*(x+w)).
    { rewrite R1. rewrite <- TR. field. } field.
  - transitivity (mu * ((a*c*x + a*d*y + b*c*z + b*d*w) + (c*a*x + c*b*y + d*a*z + d*b*w)) - 2/3*mu*(a*c+b*d)*(x+w)).
    { rewrite R3. field. } field.
  - transitivity (mu * ((a*c*x + a*d*y + b*c*z + b*d*w) + (c*a*x + c*b*y + d*a*z + d*b*w)) - 2/3*mu*(a*c+b*d)*(x+w)).
    { rewrite R3. field. } field.
  - transitivity (mu*(2*(c*c*x + c*d*y + d*c*z + d*d*w)) - 2/3*mu*(c^2+d^2)*(x+w)).
    { rewrite R2. rewrite <- TR. field. } field.
Qed.
Print Assumptions C33_stress_objective.
