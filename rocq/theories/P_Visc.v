(** Properties C50, C51, C52, C56: viscous flux, its Jacobian, and the face gradient. *)
From Coq Require Import Reals Lra Psatz.
From Verif Require Import BaseR M_Gas M_Visc M_BC S_Gas S_Visc S_Deriv S_Deriv2 Pf_Deriv Pf_Gas Pf_FluxJac Pf_BC Pf_Visc.
Open Scope R_scope.

(** ** C56: the face gradient *)
(** [gcomp g i]: the gradient vector of variable i; [centre_dir]: unit vector from left to right
    centre; [linear_field c a b x]: the field c + x a + y b. *)
Theorem C56_along : forall (rl rr : v2) (ul ur : st) (gl gr : grad) (i : ix), rl <> rr ->
  let face := getFaceGradient_modifiedAverage rl rr ul ur gl gr in
  unit_vec (centre_dir rl rr) /\ vsub rr rl = vscal (dist2 rl rr) (centre_dir rl rr) /\
  dot2 (gcomp face i) (centre_dir rl rr) = (cget ur i - cget ul i) / dist2 rl rr.
Proof.
  intros rl rr ul ur gl gr i H face. split; [apply centre_dir_unit; auto|]. split; [apply centre_dir_scal; auto|].
  apply face_grad_dir; auto.
Qed.
Print Assumptions C56_along.

Theorem C56_across : forall (rl rr : v2) (ul ur : st) (gl gr : grad) (i : ix) (m : v2),
  dot2 m (centre_dir rl rr) = 0 ->
  dot2 (gcomp (getFaceGradient_modifiedAverage rl rr ul ur gl gr) i) m =
  (dot2 (gcomp gl i) m + dot2 (gcomp gr i) m) / 2.
Proof. exact face_grad_perp. Qed.
Print Assumptions C56_across.

Theorem C56_linear : forall (rl rr : v2) (c a b : st), rl <> rr ->
  getFaceGradient_modifiedAverage rl rr (linear_field c a b rl) (linear_field c a b rr) (mkgrad a b) (mkgrad a b)
  = mkgrad a b.
Proof. exact face_grad_linear. Qed.
Print Assumptions C56_linear.

Theorem C56_symmetric : forall (rl rr : v2) (ul ur : st) (gl gr : grad),
  getFaceGradient_modifiedAverage rr rl ur ul gr gl = getFaceGradient_modifiedAverage rl rr ul ur gl gr.
Proof. exact face_grad_sym. Qed.
Print Assumptions C56_symmetric.

(** The thin-layer gradient used by the Jacobian is the face gradient with zero cell gradients, and
    its derivative arrays are the derivatives of that gradient through the primitive states. *)
Theorem C56_thin_layer : forall (rl rr : v2) (ul ur : st) (dul dur : mat4),
  fst (fst (getFaceGradientAndJacobian_thinLayer rl rr ul ur dul dur)) =
  getFaceGradient_modifiedAverage rl rr ul ur grad0 grad0.
Proof. exact thin_layer_is_zero_average. Qed.
Print Assumptions C56_thin_layer.

Example C56_case : exists (rl rr : v2), rl <> rr /\ dist2 rl rr = 5 /\ dot2 (mkv 4 (-3)) (centre_dir rl rr) = 0.
Proof.
  exists (mkv 1 1), (mkv 4 5). assert (D : dist2 (mkv 1 1) (mkv 4 5) = 5).
  { unfold dist2; cbn [vx vy]. replace ((4 - 1)^2 + (5-1)^2) with (5 * 5) by ring. apply sqrt_square; lra. }
  split. { intros H. apply (f_equal vx) in H; cbn in H; lra. } split; auto.
  unfold dot2, centre_dir; cbv zeta. rewrite centre_dist_spec, D. unfold vsub; cbn [vx vy]. field.
Qed.

(** ** C50: the viscous flux *)
(** The code computes Newtonian stress and Fourier heat flux of the specification [viscous_flux]. *)
Theorem C50_formula : forall (G : gas) (cv : bool) (n : v2) (gr : grad) (ul ur : st),
  let mu := face_viscosity G cv ul ur in
  computeViscousFlux G cv n gr ul ur =
  viscous_flux mu (mu / (Minf G * Minf G * (gam G - 1) * Prn G))
    (gcomp gr I1) (gcomp gr I2) (gcomp gr I3)
    (mkv ((s1 ul / s0 ul + s1 ur / s0 ur) / 2) ((s2 ul / s0 ul + s2 ur / s0 ur) / 2)) n.
Proof. intros. apply visc_formula. Qed.
Print Assumptions C50_formula.

Theorem C50_zero_linear : forall (G : gas) (cv : bool) (n : v2) (a b : R) (g h : grad) (ul ur : st),
  computeViscousFlux G cv n (mkgrad szero szero) ul ur = szero /\
  computeViscousFlux G cv n (mkgrad (sadd (sscal a (gx g)) (sscal b (gx h))) (sadd (sscal a (gy g)) (sscal b (gy h)))) ul ur =
  sadd (sscal a (computeViscousFlux G cv n g ul ur)) (sscal b (computeViscousFlux G cv n h ul ur)).
Proof. intros. split; [apply visc_zero|apply visc_linear]. Qed.
Print Assumptions C50_zero_linear.

(** Second order. [temperature_slope ga M u d q]: q is the derivative of the temperature along
    every smooth line of primitive states through [prim ga u] whose derivative there is d. *)
Definition temperature_slope (ga M : R) (u d : st) (q : R) : Prop :=
  forall (c : R -> st) (t : R), curve_at c t (prim ga u) d ->
  derivable_pt_lim (fun s => ga * M^2 * s3 (c s) / s0 (c s)) t q.

(** The flux is Newton's and Fourier's with gradients of the velocities and of the temperature that
    along the line of centres are the differences of the cells' velocities and temperatures, and
    across it are the means of the cell gradients, the temperature gradients of the cells being
    those that follow from the gradients of density and pressure. *)
Theorem C50_second_order : forall (G : gas) (cv : bool) (n rl rr : v2) (ucl ucr : st) (gl gr : grad) (ul ur : st),
  0 < s0 ucl -> 0 < s0 ucr -> rl <> rr ->
  exists dvx dvy dT tl tr : v2,
  let mu := face_viscosity G cv ul ur in
  let pl := primT (gam G) (Minf G) ucl in let pr := primT (gam G) (Minf G) ucr in
  compute_viscous_flux G true cv n rl rr ucl ucr gl gr ul ur =
    viscous_flux mu (mu / (Minf G * Minf G * (gam G - 1) * Prn G)) dvx dvy dT
      (mkv ((s1 ul / s0 ul + s1 ur / s0 ur) / 2) ((s2 ul / s0 ul + s2 ur / s0 ur) / 2)) n /\
  dot2 dvx (vsub rr rl) = s1 pr - s1 pl /\ dot2 dvy (vsub rr rl) = s2 pr - s2 pl /\
  dot2 dT (vsub rr rl) = s3 pr - s3 pl /\
  temperature_slope (gam G) (Minf G) ucl (gx gl) (vx tl) /\ temperature_slope (gam G) (Minf G) ucl (gy gl) (vy tl) /\
  temperature_slope (gam G) (Minf G) ucr (gx gr) (vx tr) /\ temperature_slope (gam G) (Minf G) ucr (gy gr) (vy tr) /\
  forall m : v2, dot2 m (vsub rr rl) = 0 ->
    dot2 dvx m = (dot2 (gcomp gl I1) m + dot2 (gcomp gr I1) m) / 2 /\
    dot2 dvy m = (dot2 (gcomp gl I2) m + dot2 (gcomp gr I2) m) / 2 /\
    dot2 dT m = (dot2 tl m + dot2 tr m) / 2.
Proof.
  intros G cv n rl rr ucl ucr gl gr ul ur Hl Hr Hd.
  assert (P : forall u g, 0 < s0 u -> fst (prim2_state_grad G u g) = primT (gam G) (Minf G) u).
  { intros u g H. rewrite <- prim2_primT by lra. reflexivity. }
  assert (S : forall u d, 0 < s0 u ->
    temperature_slope (gam G) (Minf G) u d (getGradTemperatureFromConservedAndGradPrimitive G u d)).
  { intros u d H c t K. apply grad_temperature_prim; auto. lra. }
  assert (T : forall u g, gcomp (snd (prim2_state_grad G u g)) I3 =
    mkv (getGradTemperatureFromConservedAndGradPrimitive G u (gx g)) (getGradTemperatureFromConservedAndGradPrimitive G u (gy g))).
  { reflexivity. }
  set (face := getFaceGradient_modifiedAverage rl rr (fst (prim2_state_grad G ucl gl)) (fst (prim2_state_grad G ucr gr))
     (snd (prim2_state_grad G ucl gl)) (snd (prim2_state_grad G ucr gr))).
  assert (D : forall i, dot2 (gcomp face i) (vsub rr rl) =
     cget (primT (gam G) (Minf G) ucr) i - cget (primT (gam G) (Minf G) ucl) i).
  { intros i. rewrite (centre_dir_scal rl rr Hd).
    replace (dot2 (gcomp face i) (vscal (dist2 rl rr) (centre_dir rl rr))) with
      (dist2 rl rr * dot2 (gcomp face i) (centre_dir rl rr)) by (unfold dot2, vscal; cbn [vx vy]; ring).
    unfold face. rewrite face_grad_dir, !P by auto. pose proof (dist2_pos _ _ Hd). field. lra. }
  exists (gcomp face I1), (gcomp face I2), (gcomp face I3),
    (gcomp (snd (prim2_state_grad G ucl gl)) I3), (gcomp (snd (prim2_state_grad G ucr gr)) I3).
  cbv zeta. split; [|split; [exact (D I1)|split; [exact (D I2)|split; [exact (D I3)|]]]].
  { unfold compute_viscous_flux. rewrite <- C50_formula. reflexivity. }
  rewrite !T. cbn [vx vy]. repeat (split; [apply S; auto|]).
  intros m Hm.
  assert (Z : dot2 m (centre_dir rl rr) = 0).
  { rewrite (centre_dir_scal rl rr Hd) in Hm. pose proof (dist2_pos _ _ Hd).
    replace (dot2 m (vscal (dist2 rl rr) (centre_dir rl rr))) with
      (dist2 rl rr * dot2 m (centre_dir rl rr)) in Hm by (unfold dot2, vscal; cbn [vx vy]; ring).
    apply Rmult_integral in Hm as [Hm|Hm]; [lra|exact Hm]. }
  rewrite <- !T. unfold face. rewrite !face_grad_perp by exact Z. repeat split.
Qed.
Print Assumptions C50_second_order.

(** the slope is determined by the state and the gradients *)
Lemma C50_slope_unique : forall ga M u d p q, 0 < s0 u ->
  temperature_slope ga M u d p -> temperature_slope ga M u d q -> p = q.
Proof.
  intros ga M u d p q H A B.
  pose (c := fun s => sadd (prim ga u) (sscal s d)).
  assert (C : curve_at c 0 (prim ga u) d).
  { split. { unfold c. apply st_eq; cbn; ring. } intros k. unfold c. destruct k; cbn; ad; ring. }
  eapply uniqueness_limite; [apply (A c 0 C)|apply (B c 0 C)].
Qed.

(** Seen from the other side of the face (both orders, constant and variable viscosity). *)
Theorem C50_conservative : forall (G : gas) (so cv : bool) (n rl rr : v2) (ucl ucr : st) (gl gr : grad) (ul ur : st),
  compute_viscous_flux G so cv (vneg n) rr rl ucr ucl gr gl ur ul =
  sneg (compute_viscous_flux G so cv n rl rr ucl ucr gl gr ul ur).
Proof.
  intros. unfold compute_viscous_flux. destruct so; unfold prim2_state_grad; cbv zeta;
  rewrite <- visc_swap; f_equal; apply face_grad_sym.
Qed.
Print Assumptions C50_conservative.

(** Uniform flow *)
Theorem C50_uniform : forall (G : gas) (so cv : bool) (n rl rr : v2) (u ul ur : st),
  compute_viscous_flux G so cv n rl rr u u grad0 grad0 ul ur = szero.
Proof.
  intros. unfold compute_viscous_flux.
  assert (E : forall w, getFaceGradient_modifiedAverage rl rr w w grad0 grad0 = grad0).
  { intros w. unfold getFaceGradient_modifiedAverage, grad0; cbv zeta; cbn [gx gy].
    f_equal; apply st_ext; intros k; rewrite cget_mkst; replace (cget szero k) with 0 by (destruct k; reflexivity);
    unfold dot2; cbn [vx vy]; unfold Rdiv; ring. }
  destruct so; unfold prim2_state_grad; cbv zeta.
  - assert (Z : forall r p, getGradTemperature G r (s0 szero) p (s3 szero) = 0).
    { intros. unfold getGradTemperature; cbn. unfold Rdiv; ring. }
    cbn [grad0 gx gy]. rewrite !Z.
    assert (Q : st_set szero I3 0 = szero) by reflexivity. rewrite Q. fold grad0. rewrite E. apply visc_zero.
  - rewrite E. apply visc_zero.
Qed.
Print Assumptions C50_uniform.

(** Friction only dissipates: the rate of work of the stress on the velocity gradient, per volume,
    is not negative when the viscosity is not. *)
Theorem C50_dissipates : forall (mu : R) (gr : grad), 0 <= mu ->
  let s := getStressTensor mu gr in
  0 <= txx s * s1 (gx gr) + txy s * s2 (gx gr) + tyx s * s1 (gy gr) + tyy s * s2 (gy gr) /\ txy s = tyx s.
Proof.
  intros mu gr Hm s. unfold s, getStressTensor; cbv zeta; cbn [txx txy tyx tyy]. split; [|ring].
  set (a := s1 (gx gr)). set (b := s2 (gx gr)). set (c := s1 (gy gr)). set (d := s2 (gy gr)).
  replace ((mu * (a + a) - (0 + a + d) * (2 / 3 * mu)) * a + mu * (b + c) * b + mu * (c + b) * c + (mu * (d + d) - (0 + a + d) * (2 / 3 * mu)) * d)
    with (mu * ((a - d)^2 + (b + c)^2 + (a + d)^2 / 3)) by field.
  apply Rmult_le_pos; auto. pose proof (pow2_ge_0 (a - d)); pose proof (pow2_ge_0 (b + c)); pose proof (pow2_ge_0 (a + d)). lra.
Qed.
Print Assumptions C50_dissipates.

Example C50_case : exists (G : gas) (n : v2) (gr : grad) (ul ur : st),
  computeViscousFlux G true n gr ul ur <> szero.
Proof.
  exists (mkgas (7/5) (1/2) 290 100 (7/10)), (mkv 1 0), (mkgrad (mks 0 0 1 0) szero), (mks 1 0 0 3), (mks 1 0 0 3).
  rewrite visc_formula. intros H. apply (f_equal s2) in H. revert H.
  unfold viscous_flux, traction, divergence, gvx, gvy, gT, face_viscosity, getConstantViscosityCoeff; cbn. lra.
Qed.

(** ** C51: adiabatic wall *)
(** Both orders: the temperature the face gradient is built from is the same on both sides of a
    stationary adiabatic wall, so the face temperature gradient has no component along the line of
    centres, whatever the cell gradients are. *)
Theorem C51_no_gradient_along : forall (G : gas) (u : st) (n rl rr : v2) (gl gr : grad), 0 < s0 u -> rl <> rr ->
  let gs := ghost_state G (BAdia 0) u n in
  let face := getFaceGradient_modifiedAverage rl rr (fst (prim2_state_grad G u gl)) (fst (prim2_state_grad G gs gr))
                (snd (prim2_state_grad G u gl)) (snd (prim2_state_grad G gs gr)) in
  dot2 (gcomp face I3) (vsub rr rl) = 0.
Proof.
  intros G u n rl rr gl gr Hr Hd gs face. rewrite (centre_dir_scal rl rr Hd).
  replace (dot2 (gcomp face I3) (vscal (dist2 rl rr) (centre_dir rl rr))) with
    (dist2 rl rr * dot2 (gcomp face I3) (centre_dir rl rr)) by (unfold dot2, vscal; cbn [vx vy]; ring).
  unfold face. rewrite face_grad_dir by auto.
  assert (E : cget (fst (prim2_state_grad G gs gr)) I3 = cget (fst (prim2_state_grad G u gl)) I3).
  { unfold prim2_state_grad; cbv zeta; cbn [fst st_set cget s0 s1 s2 s3 getPrimitiveFromConserved].
    unfold gs; cbn [ghost_state]. unfold adia2_gs, getPressureFromConserved, dot2, mom; cbn [s0 s1 s2 s3 vx vy].
    f_equal. f_equal. field. lra. }
  rewrite E. unfold Rdiv. ring.
Qed.
Print Assumptions C51_no_gradient_along.

(** First order: mass and energy fluxes through a stationary adiabatic wall vanish exactly: no heat
    is conducted and the wall does no work. *)
Theorem C51_no_energy_flux : forall (G : gas) (cv : bool) (u : st) (n rl rr : v2) (g1 g2 : grad), 0 < s0 u ->
  let gs := ghost_state G (BAdia 0) u n in
  let f := compute_viscous_flux G false cv n rl rr u gs g1 g2 u gs in
  s0 f = 0 /\ s3 f = 0.
Proof.
  intros G cv u n rl rr g1 g2 Hr gs f.
  assert (Hu : s0 u <> 0) by lra. assert (Hg : s0 gs <> 0) by (unfold gs; cbn; auto).
  assert (E : f = thin_flux G cv n rl rr u gs) by reflexivity. rewrite E, thin_flux_spec by auto.
  rewrite tl_flux_coef. cbv zeta.
  assert (P1 : s1 (primT (gam G) (Minf G) gs) = - s1 (primT (gam G) (Minf G) u)).
  { unfold primT, gs; cbn. field; auto. }
  assert (P2 : s2 (primT (gam G) (Minf G) gs) = - s2 (primT (gam G) (Minf G) u)).
  { unfold primT, gs; cbn. field; auto. }
  assert (P3 : s3 (primT (gam G) (Minf G) gs) = s3 (primT (gam G) (Minf G) u)).
  { unfold primT, temperature, pressure, gs; cbn. field; auto. }
  rewrite P1, P2, P3. cbn [sscal s0 s3]. split; [ring|]. field.
Qed.
Print Assumptions C51_no_energy_flux.

Example C51_case : exists (u : st) (rl rr : v2), 0 < s0 u /\ rl <> rr /\ s1 u <> 0.
Proof.
  exists (mks 1 1 0 3), (mkv 0 0), (mkv 1 0). repeat split; cbn; try lra.
  intros H. apply (f_equal vx) in H; cbn in H; lra.
Qed.

(** ** C52: the viscous Jacobian *)
(** [thin_flux]: the first-order flux FlowFV::compute_viscous_flux as a function of the two cell
    states (zero cell gradients, face states equal to cell states). *)
Lemma jac2_thin G cv n rl rr ul ur dml dmr : physical (gam G) ul -> physical (gam G) ur ->
  grad2_is (face_viscosity G cv) ul ur dml dmr ->
  let U := tl_flux (kap G) n (tl_e rl rr) (primT (gam G) (Minf G) ul) (primT (gam G) (Minf G) ur) in
  let mu := face_viscosity G cv ul ur in
  jac2_is (thin_flux G cv n rl rr) ul ur
   (madd (mscal mu (tl_jac (kap G) n (tl_e rl rr) (primT (gam G) (Minf G) ul) (primT (gam G) (Minf G) ur) (-1) (getJacobianPrimitive2WrtConserved G ul mat0))) (outer U dml))
   (madd (mscal mu (tl_jac (kap G) n (tl_e rl rr) (primT (gam G) (Minf G) ul) (primT (gam G) (Minf G) ur) 1 (getJacobianPrimitive2WrtConserved G ur mat0))) (outer U dmr)).
Proof.
  intros Pl Pr Hm U mu i. destruct (Pl) as [Hl _]. destruct (Pr) as [Hr _].
  eapply (grad2_local (gam G) _ (fun x y => cget (sscal (face_viscosity G cv x y) (tl_flux (kap G) n (tl_e rl rr) (primT (gam G) (Minf G) x) (primT (gam G) (Minf G) y))) i)); auto.
  - intros x y [Hx _] [Hy _]. rewrite thin_flux_spec by lra. reflexivity.
  - intros cl cr t dul dur Cl Cr.
    pose proof (d_tl G n (tl_e rl rr) ul ur ltac:(lra) ltac:(lra) i cl cr t dul dur Cl Cr) as D1.
    pose proof (Hm cl cr t dul dur Cl Cr) as D2. cbv beta in D1.
    set (JL := tl_jac _ _ _ _ _ (-1) _) in *. set (JR := tl_jac _ _ _ _ _ 1 _) in *.
    eapply dl_ext with (f := fun s => face_viscosity G cv (cl s) (cr s) *
      cget (tl_flux (kap G) n (tl_e rl rr) (primT (gam G) (Minf G) (cl s)) (primT (gam G) (Minf G) (cr s))) i).
    + intros s. destruct i; reflexivity.
    + eapply dl_eq. apply (dl_mult _ _ _ _ _ D2 D1). rewrite !(cv_at _ _ _ _ Cl), !(cv_at _ _ _ _ Cr). fold U mu.
      clearbody JL JR mu U. 
      replace (mrow (madd (mscal mu JL) (outer U dml)) i) with (sadd (sscal mu (mrow JL i)) (sscal (cget U i) dml)) by (destruct i; reflexivity).
      replace (mrow (madd (mscal mu JR) (outer U dmr)) i) with (sadd (sscal mu (mrow JR i)) (sscal (cget U i) dmr)) by (destruct i; reflexivity).
      sdl. ring.
Qed.

Theorem C52_constant_viscosity : forall (G : gas) (n rl rr : v2) (ul ur : st) (dvfi dvfj : mat4),
  physical (gam G) ul -> physical (gam G) ur ->
  exists JL JR : mat4,
    jac2_is (fun x y => compute_viscous_flux G false true n rl rr x y grad0 grad0 x y) ul ur JL JR /\
    compute_viscous_flux_jacobian G true n rl rr ul ur dvfi dvfj = (madd dvfi (mneg JL), madd dvfj JR).
Proof.
  intros G n rl rr ul ur dvfi dvfj Pl Pr.
  assert (Hm : grad2_is (face_viscosity G true) ul ur szero szero).
  { intros cl cr t dul dur Cl Cr. cbn [face_viscosity]. eapply dl_eq. apply dl_const. sdl. ring. }
  pose proof (jac2_thin G true n rl rr ul ur szero szero Pl Pr Hm) as D. cbv zeta in D.
  destruct Pl as [Hl _], Pr as [Hr _]. rewrite visc_jac_code by lra. cbv zeta. eexists; eexists. split; [exact D|]. reflexivity.
Qed.
Print Assumptions C52_constant_viscosity.

(** Sutherland viscosity: the error of the assembled Jacobian is exactly the error of the viscosity
    derivative times the flux per unit viscosity. *)
Theorem C52_variable_viscosity : forall (G : gas) (n rl rr : v2) (ul ur dml dmr : st) (dvfi dvfj : mat4),
  physical (gam G) ul -> physical (gam G) ur ->
  grad_is (getViscosityCoeffFromConserved G) ul dml -> grad_is (getViscosityCoeffFromConserved G) ur dmr ->
  face_viscosity G false ul ur <> 0 ->
  let F := compute_viscous_flux G false false n rl rr ul ur grad0 grad0 ul ur in
  let errl := ssub (getJacobianSutherlandViscosityWrtConserved G ul szero) dml in
  let errr := ssub (getJacobianSutherlandViscosityWrtConserved G ur szero) dmr in
  let w := / (2 * face_viscosity G false ul ur) in
  exists JL JR : mat4,
    jac2_is (fun x y => compute_viscous_flux G false false n rl rr x y grad0 grad0 x y) ul ur JL JR /\
    compute_viscous_flux_jacobian G false n rl rr ul ur dvfi dvfj =
    (madd dvfi (mneg (madd JL (outer (sscal w F) errl))), madd dvfj (madd JR (outer (sscal w F) errr))).
Proof.
  intros G n rl rr ul ur dml dmr dvfi dvfj Pl Pr Dl Dr Hmu F errl errr w.
  assert (Hm : grad2_is (face_viscosity G false) ul ur (sscal (1/2) dml) (sscal (1/2) dmr)).
  { intros cl cr t dul dur Cl Cr. unfold face_viscosity. eapply dl_eq.
    apply dl_scal. apply dl_plus. exact (Dl cl t dul Cl). exact (Dr cr t dur Cr). sdl. ring. }
  pose proof (jac2_thin G false n rl rr ul ur _ _ Pl Pr Hm) as D. cbv zeta in D.
  destruct Pl as [Hl _], Pr as [Hr _]. rewrite visc_jac_code by lra. cbv zeta. eexists; eexists. split; [exact D|].
  assert (EF : sscal w F = sscal (1/2) (tl_flux (kap G) n (tl_e rl rr) (primT (gam G) (Minf G) ul) (primT (gam G) (Minf G) ur))).
  { unfold F. change (compute_viscous_flux G false false n rl rr ul ur grad0 grad0 ul ur) with (thin_flux G false n rl rr ul ur).
    rewrite thin_flux_spec by lra. unfold w. set (mu := face_viscosity G false ul ur) in *. set (T := tl_flux _ _ _ _ _). clearbody mu T.
    apply st_eq; cbn; field; auto. }
  rewrite EF. unfold errl, errr, code_dmu.
  set (A := mscal _ _). set (B := mscal _ _). set (T := tl_flux _ _ _ _ _). set (x := getJacobianSutherlandViscosityWrtConserved G ul szero).
  set (y := getJacobianSutherlandViscosityWrtConserved G ur szero). clearbody A B T x y.
  assert (K : forall A d x, madd A (outer T (sscal (1/2) x)) = madd (madd A (outer T (sscal (1/2) d))) (outer (sscal (1/2) T) (ssub x d))).
  { clear. intros A d x. apply mget_eq; intros i k; destruct i, k; cbn; ring. }
  rewrite (K A dml x), (K B dmr y). reflexivity.
Qed.
Print Assumptions C52_variable_viscosity.

(** Hence at a physical pair with T <> 1 on the left and a non-zero flux the variable-viscosity
    Jacobian is not the derivative. *)
Theorem C52_variable_wrong : forall (G : gas) (n rl rr : v2) (ul ur : st),
  1 < gam G -> Minf G <> 0 -> 0 < Tinf G -> 0 < Reinf G -> physical (gam G) ul -> physical (gam G) ur ->
  temperature (gam G) (Minf G) ul <> 1 ->
  compute_viscous_flux G false false n rl rr ul ur grad0 grad0 ul ur <> szero ->
  forall JL JR, jac2_is (fun x y => compute_viscous_flux G false false n rl rr x y grad0 grad0 x y) ul ur JL JR ->
  fst (compute_viscous_flux_jacobian G false n rl rr ul ur mat0 mat0) <> mneg JL.
Proof.
  intros G n rl rr ul ur Hg HM HT HR Pl Pr Tl HF JL JR HJ Heq.
  assert (Tp : forall u, physical (gam G) u -> 0 < temperature (gam G) (Minf G) u) by (intros; apply temp_pos; auto).
  assert (Dm : forall u, physical (gam G) u -> exists d, grad_is (getViscosityCoeffFromConserved G) u d /\
     grad_is (fun x => sutherland (Tinf G) (Reinf G) (temperature (gam G) (Minf G) x)) u d).
  { intros u Hu. destruct (Hu) as [H1 H2].
    pose proof (d_sutherland_u G u HT ltac:(lra) ltac:(lra) (Tp u Hu)) as D. cbv zeta in D.
    eexists. split; [|exact D]. intros c t du C. eapply dl_local; [|exact (D c t du C)].
    eapply near_imp; [|exact (near_physical (gam G) c t u du Hu C)]. cbv beta. intros s Hs.
    unfold getViscosityCoeffFromConserved. rewrite temperature_code by (destruct Hs; lra).
    apply sutherland_code. apply Tp; auto. }
  assert (Mp : forall u, physical (gam G) u -> 0 < getViscosityCoeffFromConserved G u) by (intros; apply suth_pos; auto).
  destruct (Dm ul Pl) as (dl & D1 & D1'). destruct (Dm ur Pr) as (dr & D2 & _).
  assert (Hmu : face_viscosity G false ul ur <> 0).
  { unfold face_viscosity. pose proof (Mp _ Pl); pose proof (Mp _ Pr). lra. }
  destruct (C52_variable_viscosity G n rl rr ul ur dl dr mat0 mat0 Pl Pr D1 D2 Hmu) as (KL & KR & HK & E).
  destruct (jac2_unique _ _ _ _ _ _ _ HJ HK) as [-> ->]. rewrite E in Heq. cbn [fst] in Heq.
  set (F := compute_viscous_flux G false false n rl rr ul ur grad0 grad0 ul ur) in *.
  set (w := / (2 * face_viscosity G false ul ur)) in *. assert (Hw : w <> 0) by (apply Rinv_neq_0_compat; lra).
  apply (suth_jac_wrong G ul HT ltac:(lra) Hg HM Pl Tl).
  replace (getJacobianSutherlandViscosityWrtConserved G ul szero) with dl; auto.
  apply st_ext. intros k.
  assert (Z : forall i, cget F i * (cget (getJacobianSutherlandViscosityWrtConserved G ul szero) k - cget dl k) = 0).
  { intros i. apply (f_equal (fun m => mget m i k)) in Heq. set (x := getJacobianSutherlandViscosityWrtConserved G ul szero) in *.
    clearbody x. assert (Q : w * (cget F i * (cget x k - cget dl k)) = 0).
    { destruct i, k; cbn in Heq |- *; lra. }
    apply Rmult_integral in Q. destruct Q; [contradiction|auto]. }
  destruct (Req_dec (cget (getJacobianSutherlandViscosityWrtConserved G ul szero) k - cget dl k) 0) as [E0|E0]; [lra|].
  exfalso. apply HF. apply st_ext. intros i. pose proof (Z i) as Zi. apply Rmult_integral in Zi. destruct Zi; [|contradiction].
  destruct i; auto.
Qed.
Print Assumptions C52_variable_wrong.

Example C52_case : exists (G : gas) (n rl rr : v2) (ul ur : st),
  1 < gam G /\ Minf G <> 0 /\ 0 < Tinf G /\ 0 < Reinf G /\ physical (gam G) ul /\ physical (gam G) ur /\
  temperature (gam G) (Minf G) ul <> 1 /\
  compute_viscous_flux G false false n rl rr ul ur grad0 grad0 ul ur <> szero.
Proof.
  set (G := mkgas (7/5) (1/2) 290 100 (7/10)). set (ul := mks 1 0 0 5). set (ur := mks 1 0 1 5).
  assert (Pl : physical (gam G) ul) by (unfold physical, pressure, G, ul; cbn; lra).
  assert (Pr : physical (gam G) ur) by (unfold physical, pressure, G, ur; cbn; lra).
  exists G, (mkv 1 0), (mkv 0 0), (mkv 1 0), ul, ur.
  repeat split; try (apply Pl); try (apply Pr); try (unfold G; cbn; lra).
  - unfold temperature, pressure, G, ul; cbn. lra.
  - change (compute_viscous_flux G false false (mkv 1 0) (mkv 0 0) (mkv 1 0) ul ur grad0 grad0 ul ur) with (thin_flux G false (mkv 1 0) (mkv 0 0) (mkv 1 0) ul ur).
    rewrite thin_flux_spec by (unfold ul, ur; cbn; lra). intros H. apply (f_equal s2) in H.
    assert (M1 : 0 < getViscosityCoeffFromConserved G ul) by (apply suth_pos; auto; unfold G; cbn; lra).
    assert (M2 : 0 < getViscosityCoeffFromConserved G ur) by (apply suth_pos; auto; unfold G; cbn; lra).
    rewrite tl_flux_coef in H. cbn [sscal s2 szero] in H. apply Rmult_integral in H.
    assert (D : centre_dist (mkv 0 0) (mkv 1 0) = 1).
    { rewrite centre_dist_spec. unfold dist2; cbn [vx vy]. replace ((1-0)^2 + (0-0)^2) with 1 by ring. apply sqrt_1. }
    assert (De : tl_e (mkv 0 0) (mkv 1 0) = mkv 1 0).
    { unfold tl_e, centre_dir. rewrite D. unfold vsub; cbn. apply v2_eq; cbn; field. }
    destruct H as [H|H]; [unfold face_viscosity in H; lra|].
    rewrite De in H. unfold cB1, cB2, primT, ul, ur in H; cbn in H. lra.
Qed.
