(** Lemmas about the gas physics: conversions and derivatives. *)
From Coq Require Import Reals Lra Psatz.
From Verif Require Import BaseR M_Gas S_Gas S_Deriv Pf_Deriv Pf_Flux.
Open Scope R_scope.

Ltac stf := apply st_eq; cbn [s0 s1 s2 s3 sadd sscal ssub sneg].

Lemma pressure_code G u : s0 u <> 0 -> getPressureFromConserved G u = pressure (gam G) u.
Proof. intros. unfold getPressureFromConserved, getPressure, pressure, dot2, mom; cbn [vx vy]. field; auto. Qed.

Lemma cons_prim G u : s0 u <> 0 -> gam G <> 1 -> getConservedFromPrimitive G (getPrimitiveFromConserved G u) = u.
Proof.
  intros. unfold getConservedFromPrimitive, getPrimitiveFromConserved. cbv zeta. rewrite pressure_code by auto.
  unfold getEnergyFromPrimitive, getEnergyFromPressure, dot2, mom, pressure; cbn [vx vy s0 s1 s2 s3].
  stf; field; auto. split; auto. lra.
Qed.
Lemma prim_cons G w : s0 w <> 0 -> gam G <> 1 -> getPrimitiveFromConserved G (getConservedFromPrimitive G w) = w.
Proof.
  intros. unfold getPrimitiveFromConserved, getConservedFromPrimitive, getPressureFromConserved, getPressure,
    getEnergyFromPrimitive, getEnergyFromPressure, dot2, mom; cbn [vx vy s0 s1 s2 s3].
  stf; field; auto. split; auto. lra.
Qed.

(** ** Derivatives *)
Lemma curve_pos c t u du : curve_at c t u du -> c t = u. Proof. intros []; auto. Qed.

Ltac at_t H := rewrite ?(cv_at _ _ _ _ H).

Lemma d_pressure ga u : s0 u <> 0 -> grad_is (pressure ga) u
  (mks ((ga - 1) * ((s1 u)^2 + (s2 u)^2) / (2 * (s0 u)^2)) (- (ga - 1) * s1 u / s0 u) (- (ga - 1) * s2 u / s0 u) (ga - 1)).
Proof.
  intros Hr c t du H. unfold pressure. ad; at_t H; try lra.
  - unfold sdot; cbn [s0 s1 s2 s3]. field; auto.
Qed.

Lemma d_pressure_code G u : s0 u <> 0 -> grad_is (pressure (gam G)) u (getJacobianPressureWrtConserved G u).
Proof.
  intros Hr. replace (getJacobianPressureWrtConserved G u) with
    (mks ((gam G - 1) * ((s1 u)^2 + (s2 u)^2) / (2 * (s0 u)^2)) (- (gam G - 1) * s1 u / s0 u) (- (gam G - 1) * s2 u / s0 u) (gam G - 1)).
  apply d_pressure; auto. unfold getJacobianPressureWrtConserved, dot2, mom; cbn [vx vy]. stf; field; auto.
Qed.

Lemma d_pressure2_code G u : s0 u <> 0 -> grad_is (pressure (gam G)) u (getJacobianPressureWrtConserved2 G u (dot2 (mom u) (mom u))).
Proof. apply d_pressure_code. Qed.

Lemma d_normal n u : s0 u <> 0 -> grad_is (fun x => normal_velocity x n) u
  (mks (- normal_velocity u n / s0 u) (vx n / s0 u) (vy n / s0 u) 0).
Proof.
  intros Hr c t du H. unfold normal_velocity. ad; at_t H; auto.
  unfold sdot; cbn [s0 s1 s2 s3]. field; auto.
Qed.

Lemma d_temperature G u : s0 u <> 0 -> grad_is (temperature (gam G) (Minf G)) u (getJacobianTemperatureWrtConserved G u szero).
Proof.
  intros Hr c t du H. unfold temperature.
  pose proof (d_pressure_code G u Hr c t du H) as Hp.
  ad; at_t H; auto.
  unfold getJacobianTemperatureWrtConserved, getJacobianTemperature. cbv zeta. rewrite pressure_code by auto.
  set (J := getJacobianPressureWrtConserved G u). unfold sdot; cbn [s0 s1 s2 s3 szero]. field; auto.
Qed.

Lemma d_sound G u : 1 < gam G -> physical (gam G) u ->
  grad_is (sound (gam G)) u (getJacobianSoundSpeedWrtConserved G u szero).
Proof.
  intros Hg [Hr Hp] c t du H. assert (Hr0 : s0 u <> 0) by lra. unfold sound.
  pose proof (d_pressure_code G u Hr0 c t du H) as Hdp.
  assert (Hpos : 0 < gam G * pressure (gam G) u / s0 u) by (apply Rdiv_lt_0_compat; auto; apply Rmult_lt_0_compat; lra).
  ad; at_t H; auto.
  unfold getJacobianSoundSpeedWrtConserved, getJacobianSoundSpeed, getSoundSpeed. cbv zeta. rewrite pressure_code by auto.
  set (J := getJacobianPressureWrtConserved G u). unfold sdot; cbn [s0 s1 s2 s3 szero].
  pose proof (sqrt_lt_R0 _ Hpos). field. split; lra.
Qed.

Lemma sound_code G u : s0 u <> 0 -> getSoundSpeedFromConserved G u = sound (gam G) u.
Proof. intros. unfold getSoundSpeedFromConserved, getSoundSpeed, sound. rewrite pressure_code; auto. Qed.

Lemma d_speed2 u : s0 u <> 0 -> grad_is speed2 u (getJacobianVmag2WrtConserved u szero).
Proof.
  intros Hr c t du H. unfold speed2. ad; at_t H; auto.
  - apply pow_nonzero; auto.
  - unfold getJacobianVmag2WrtConserved, sdot, dot2, mom; cbn [s0 s1 s2 s3 vx vy szero]. field; auto.
Qed.

Lemma d_mach G n u : 1 < gam G -> physical (gam G) u ->
  grad_is (mach_normal (gam G) n) u (getJacobianMachNormalWrtConserved G u n szero).
Proof.
  intros Hg Hp c t du H. pose proof Hp as [Hr _]. assert (Hr0 : s0 u <> 0) by lra. unfold mach_normal.
  pose proof (d_normal n u Hr0 c t du H) as D1. pose proof (d_sound G u Hg Hp c t du H) as D2.
  assert (0 < sound (gam G) u). { apply sqrt_lt_R0. destruct Hp. apply Rdiv_lt_0_compat; auto. apply Rmult_lt_0_compat; lra. }
  ad; at_t H; try lra.
  unfold getJacobianMachNormalWrtConserved, getQuotientDerivatives. cbv zeta. rewrite sound_code by auto.
  set (J := getJacobianSoundSpeedWrtConserved G u szero). 
  replace (dot2 (mom u) n / s0 u) with (normal_velocity u n) by reflexivity.
  set (w := normal_velocity u n).
  unfold sdot; cbn [s0 s1 s2 s3 szero]. field. split; lra.
Qed.

Lemma d_primT G u : s0 u <> 0 ->
  jac_is (primT (gam G) (Minf G)) u (getJacobianPrimitive2WrtConserved G u mat0).
Proof.
  intros Hr i. destruct i; unfold mrow, getJacobianPrimitive2WrtConserved; cbn [r0 r1 r2 r3 mat0].
  - intros c t du H. cbn [cget primT s0]. ad. unfold sdot; cbn; ring.
  - intros c t du H. cbn [cget primT s1]. ad; at_t H; auto. unfold sdot; cbn; field; auto.
  - intros c t du H. cbn [cget primT s2]. ad; at_t H; auto. unfold sdot; cbn; field; auto.
  - exact (d_temperature G u Hr).
Qed.

Lemma d_flux G n u : s0 u <> 0 ->
  jac_is (fun x => euler_flux (gam G) x n) u (getJacobianDirectionalFluxWrtConserved G u n).
Proof.
  intros Hr i c t du H. pose proof (d_pressure_code G u Hr c t du H) as Hp.
  pose proof (d_normal n u Hr c t du H) as Hn.
  assert (E1 : dot2 (mom u) n / s0 u = normal_velocity u n) by reflexivity.
  destruct i; cbn [cget euler_flux s0 s1 s2 s3]; unfold euler_flux; cbn [cget s0 s1 s2 s3];
  (ad; at_t H; unfold mrow, getJacobianDirectionalFluxWrtConserved; cbv zeta; cbn [r0 r1 r2 r3];
    rewrite ?pressure_code, ?E1 by auto; set (J := getJacobianPressureWrtConserved G u)).
  - unfold normal_velocity, sdot; cbn [s0 s1 s2 s3]. field; auto.
  - set (w := normal_velocity u n). unfold sdot; cbn [s0 s1 s2 s3]. field; auto.
  - set (w := normal_velocity u n). unfold sdot; cbn [s0 s1 s2 s3]. field; auto.
  - set (w := normal_velocity u n). set (p := pressure _ _). unfold sdot; cbn [s0 s1 s2 s3]. field; auto.
Qed.

(** ** Gradients of primitive variables from gradients of conserved variables *)
Lemma grad_primT G c t u du : s0 u <> 0 -> curve_at c t u du ->
  forall k, DL (fun s => cget (primT (gam G) (Minf G) (c s)) k) t
              (cget (getGradPrimitive2FromConservedAndGradConserved G u du) k).
Proof.
  intros Hr H k. eapply dl_eq. exact (d_primT G u Hr k c t du H).
  unfold mrow, getJacobianPrimitive2WrtConserved, getGradPrimitive2FromConservedAndGradConserved. cbv zeta.
  change (getPressure G (s3 u - 1/2 * dot2 (mom u) (mom u) / s0 u)) with (getPressureFromConserved G u).
  set (p := getPressureFromConserved G u).
  destruct k; unfold sdot, getJacobianTemperature, getGradTemperature, getJacobianPressureWrtConserved2, dot2, mom;
   cbn [r0 r1 r2 r3 cget s0 s1 s2 s3 mat0 szero vx vy]; field; auto.
Qed.

Lemma grad_pressure G c t u du : s0 u <> 0 -> curve_at c t u du ->
  DL (fun s => pressure (gam G) (c s)) t (getGradPressureFromConservedAndGradConserved G u du).
Proof.
  intros Hr H. eapply dl_eq. exact (d_pressure_code G u Hr c t du H).
  unfold getJacobianPressureWrtConserved, getGradPressureFromConservedAndGradConserved, sdot, dot2, mom;
   cbn [s0 s1 s2 s3 vx vy]. field; auto.
Qed.

Lemma grad_temperature G c t u du : s0 u <> 0 -> curve_at c t u du ->
  DL (fun s => temperature (gam G) (Minf G) (c s)) t (getGradTemperatureFromConservedAndGradConserved G u du).
Proof.
  intros Hr H. pose proof (grad_pressure G c t u du Hr H) as Hp. unfold temperature. ad; at_t H; auto.
  unfold getGradTemperatureFromConservedAndGradConserved, getGradTemperature. cbv zeta. rewrite pressure_code by auto.
  set (dp := getGradPressureFromConservedAndGradConserved G u du). field; auto.
Qed.

Lemma grad_temperature_prim G c t u du : s0 u <> 0 -> curve_at c t (prim (gam G) u) du ->
  DL (fun s => gam G * (Minf G)^2 * s3 (c s) / s0 (c s)) t (getGradTemperatureFromConservedAndGradPrimitive G u du).
Proof.
  intros Hr H. ad; at_t H; cbn [prim s0 s3]; auto.
  unfold getGradTemperatureFromConservedAndGradPrimitive, getGradTemperature. cbv zeta. rewrite pressure_code by auto.
  field; auto.
Qed.

(** ** Sutherland *)
Lemma rpower_32 T : 0 < T -> Rpower T (3/2) = T * sqrt T.
Proof.
  intros. replace (3/2) with (1 + /2) by lra. rewrite Rpower_plus, Rpower_1, Rpower_sqrt; auto.
Qed.
Lemma rpower_m32 T : 0 < T -> Rpower T (-(3/2)) = / (T * sqrt T).
Proof. intros. rewrite Rpower_Ropp, rpower_32; auto. Qed.

Lemma sutherland_code G T : 0 < T -> getViscosityCoeffFromTemperature G T = sutherland (Tinf G) (Reinf G) T.
Proof.
  intros. unfold getViscosityCoeffFromTemperature, sutherland, sC. rewrite rpower_32 by auto.
  unfold Rdiv. ring.
Qed.

Lemma temperature_code G u : s0 u <> 0 -> getTemperatureFromConserved G u = temperature (gam G) (Minf G) u.
Proof.
  intros. unfold getTemperatureFromConserved, getTemperature, temperature. rewrite pressure_code by auto. field; auto.
Qed.

(** The true derivative of Sutherland's law, and the coded one *)
Lemma d_sutherland Ti Re T : 0 < Ti -> Re <> 0 -> 0 < T ->
  DL (sutherland Ti Re) T (let S := (221/2)/Ti in / Re * (1 + S) * ((3/2) * sqrt T * (T + S) - T * sqrt T) / (T + S)^2).
Proof.
  intros HT HR H. unfold sutherland. cbv zeta. set (S := 221/2/Ti).
  assert (0 < S) by (unfold S; apply Rdiv_lt_0_compat; lra).
  pose proof (sqrt_lt_R0 _ H) as Hq. pose proof (sqrt_sqrt T) as Hs.
  eapply dl_eq. repeat ad1; try lra. cbv beta.
  set (q := sqrt T) in *. replace T with (q * q) by (apply Hs; lra).
  field. repeat split; try nra.
Qed.

Lemma d_sutherland_u G u : 0 < Tinf G -> Reinf G <> 0 -> s0 u <> 0 -> 0 < temperature (gam G) (Minf G) u ->
  let T := temperature (gam G) (Minf G) u in let S := (221/2)/Tinf G in
  grad_is (fun x => sutherland (Tinf G) (Reinf G) (temperature (gam G) (Minf G) x)) u
    (sscal (/ Reinf G * (1 + S) * ((3/2) * sqrt T * (T + S) - T * sqrt T) / (T + S)^2)
           (getJacobianTemperatureWrtConserved G u szero)).
Proof.
  intros HT HR Hr Hpos T S c t du H.
  pose proof (d_temperature G u Hr c t du H) as D.
  eapply dl_eq. apply (derivable_pt_lim_comp (fun s => temperature (gam G) (Minf G) (c s)) (sutherland (Tinf G) (Reinf G)));
   [exact D|]. at_t H. apply d_sutherland; auto.
  cbv zeta. fold T S. set (J := getJacobianTemperatureWrtConserved G u szero). unfold sdot; cbn [sscal s0 s1 s2 s3]. unfold Rdiv. ring.
Qed.

Lemma suth_jac_code G u : s0 u <> 0 -> 0 < temperature (gam G) (Minf G) u ->
  let T := temperature (gam G) (Minf G) u in let S := (221/2)/Tinf G in
  getJacobianSutherlandViscosityWrtConserved G u szero =
  sscal (/ Reinf G * (1 + S) * ((3/2) * / (T * sqrt T) * (T + S) - T * sqrt T) / (T + S)^2)
        (getJacobianTemperatureWrtConserved G u szero).
Proof.
  intros Hr Hpos T S. unfold getJacobianSutherlandViscosityWrtConserved. cbv zeta.
  rewrite temperature_code by auto. fold T. rewrite rpower_32, rpower_m32 by auto.
  unfold sC. fold S. set (J := getJacobianTemperatureWrtConserved G u szero).
  pose proof (sqrt_lt_R0 _ Hpos). fold T in H.
  set (q := / (T * sqrt T)). unfold Rdiv.
  replace (/ (T + S) ^ 2) with (/ ((T + S) * (T + S))) by (f_equal; ring).
  stf; cbn [szero s0 s1 s2 s3]; ring.
Qed.

Lemma suth_jac_wrong G u : 0 < Tinf G -> Reinf G <> 0 -> 1 < gam G -> Minf G <> 0 -> physical (gam G) u ->
  temperature (gam G) (Minf G) u <> 1 ->
  ~ grad_is (fun x => sutherland (Tinf G) (Reinf G) (temperature (gam G) (Minf G) x)) u
      (getJacobianSutherlandViscosityWrtConserved G u szero).
Proof.
  intros HT HR Hg HM [Hr Hp] HT1 Hgr. assert (Hr0 : s0 u <> 0) by lra.
  assert (HTp : 0 < temperature (gam G) (Minf G) u).
  { unfold temperature. apply Rdiv_lt_0_compat; auto. apply Rmult_lt_0_compat; auto.
    apply Rmult_lt_0_compat; [lra|]. assert (0 <= Minf G ^2) by nra. assert (Minf G ^2 <> 0) by (apply pow_nonzero; auto). lra. }
  pose proof (d_sutherland_u G u HT HR Hr0 HTp) as D. cbv zeta in D.
  pose proof (grad_unique _ _ _ _ D Hgr) as E. rewrite suth_jac_code in E by auto. cbv zeta in E.
  assert (E3 := f_equal s3 E). cbn [sscal s3] in E3.
  set (T := temperature (gam G) (Minf G) u) in *. set (S := 221/2/Tinf G) in *.
  assert (HS : 0 < S) by (unfold S; apply Rdiv_lt_0_compat; lra).
  assert (J3 : s3 (getJacobianTemperatureWrtConserved G u szero) <> 0).
  { unfold getJacobianTemperatureWrtConserved, getJacobianTemperature. cbn [s3 szero getJacobianPressureWrtConserved].
    rewrite Rplus_0_l. apply Rmult_integral_contrapositive_currified; [|lra].
    apply Rmult_integral_contrapositive_currified; [|apply Rinv_neq_0_compat; auto].
    repeat apply Rmult_integral_contrapositive_currified; auto; lra. }
  apply Rmult_eq_reg_r in E3; auto.
  pose proof (sqrt_lt_R0 _ HTp) as Hq. fold T in Hq. pose proof (sqrt_sqrt T) as Hs. set (q := sqrt T) in *.
  assert (E4 : 3/2 * q * (T+S) = 3/2 * / (T * q) * (T+S)).
  { assert (K : / Reinf G * (1 + S) / (T+S)^2 <> 0).
    { repeat apply Rmult_integral_contrapositive_currified; try apply Rinv_neq_0_compat; auto; try lra. apply pow_nonzero; lra. }
    apply (Rplus_eq_reg_r (- (T * q))). apply (Rmult_eq_reg_l (/ Reinf G * (1 + S) / (T+S)^2)); auto.
    unfold Rdiv in *. lra. }
  apply Rmult_eq_reg_r in E4; [|lra].
  assert (E5 : q * (T * q) = 1). { assert (E6 : q = / (T * q)) by lra. rewrite E6 at 1. field. nra. }
  assert (E7 : T * T = 1). { rewrite <- (Hs) at 1 by lra. lra. }
  apply HT1. nra.
Qed.
