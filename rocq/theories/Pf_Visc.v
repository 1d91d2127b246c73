(** Proofs about the viscous flux. *)
From Coq Require Import Reals Lra Psatz.
From Verif Require Import BaseR M_Gas M_Visc S_Gas S_Visc S_Deriv S_Deriv2 Pf_Deriv Pf_Gas Pf_FluxJac Pf_BC.
Open Scope R_scope.

Definition gvx (gr : grad) : v2 := mkv (s1 (gx gr)) (s1 (gy gr)).
Definition gvy (gr : grad) : v2 := mkv (s2 (gx gr)) (s2 (gy gr)).
Definition gT (gr : grad) : v2 := mkv (s3 (gx gr)) (s3 (gy gr)).
Definition mean_vel (ul ur : st) : v2 :=
  mkv ((s1 ul / s0 ul + s1 ur / s0 ur) / 2) ((s2 ul / s0 ul + s2 ur / s0 ur) / 2).
Definition face_k (G : gas) (mu : R) : R := mu / (Minf G * Minf G * (gam G - 1) * Prn G).

Lemma visc_formula G cv n gr ul ur :
  computeViscousFlux G cv n gr ul ur =
  viscous_flux (face_viscosity G cv ul ur) (face_k G (face_viscosity G cv ul ur)) (gvx gr) (gvy gr) (gT gr) (mean_vel ul ur) n.
Proof.
  unfold computeViscousFlux, viscous_flux, traction, divergence, getStressTensor, face_k, getThermalConductivityFromViscosity, mean_vel, gvx, gvy, gT, dot2.
  cbv zeta. cbn [vx vy txx txy tyx tyy]. set (mu := face_viscosity _ _ _ _). clearbody mu.
  set (k := mu / _). clearbody k.
  set (a := s1 ul / s0 ul). set (b := s2 ul / s0 ul). set (c := s1 ur / s0 ur). set (d := s2 ur / s0 ur).
  clearbody a b c d.
  apply st_eq; cbn [s0 s1 s2 s3]; field.
Qed.

(** Sums and multiples of gradients *)
Definition gcomb (a b : R) (g h : grad) : grad :=
  mkgrad (sadd (sscal a (gx g)) (sscal b (gx h))) (sadd (sscal a (gy g)) (sscal b (gy h))).

Lemma visc_linear G cv n a b g h ul ur :
  computeViscousFlux G cv n (gcomb a b g h) ul ur =
  sadd (sscal a (computeViscousFlux G cv n g ul ur)) (sscal b (computeViscousFlux G cv n h ul ur)).
Proof.
  rewrite !visc_formula. set (mu := face_viscosity _ _ _ _). set (k := face_k _ _). set (v := mean_vel _ _). clearbody mu k v.
  unfold viscous_flux, traction, divergence, gvx, gvy, gT, dot2, gcomb. apply st_eq; cbn; ring.
Qed.

Lemma visc_zero G cv n ul ur : computeViscousFlux G cv n grad0 ul ur = szero.
Proof.
  rewrite visc_formula. unfold viscous_flux, traction, divergence, gvx, gvy, gT, dot2, grad0. apply st_eq; cbn; ring.
Qed.

Lemma visc_swap G cv n g ul ur : computeViscousFlux G cv (vneg n) g ur ul = sneg (computeViscousFlux G cv n g ul ur).
Proof.
  rewrite !visc_formula.
  assert (E : face_viscosity G cv ur ul = face_viscosity G cv ul ur) by (unfold face_viscosity; destruct cv; [reflexivity|ring]).
  assert (E2 : mean_vel ur ul = mean_vel ul ur) by (unfold mean_vel; apply v2_eq; cbn [vx vy]; unfold Rdiv; ring).
  rewrite E, E2. set (mu := face_viscosity _ _ _ _). set (k := face_k _ _). set (v := mean_vel _ _). clearbody mu k v.
  unfold viscous_flux, traction, divergence, dot2, vneg. apply st_eq; cbn; ring.
Qed.

(** ** Face gradient *)
Lemma centre_dist_spec a b : centre_dist a b = dist2 a b.
Proof. unfold centre_dist, dist2, vsub; cbv zeta; cbn [vx vy]. f_equal. ring. Qed.
Lemma dist2_sym a b : dist2 a b = dist2 b a.
Proof. unfold dist2. f_equal. ring. Qed.
Lemma dist2_pos a b : a <> b -> 0 < dist2 a b.
Proof.
  intros H. unfold dist2. apply sqrt_lt_R0.
  destruct (Req_dec (vx a) (vx b)) as [E|E]; destruct (Req_dec (vy a) (vy b)) as [F|F].
  - exfalso; apply H, v2_eq; auto.
  - assert (0 < (vy b - vy a)^2) by (simpl; nra). pose proof (pow2_ge_0 (vx b - vx a)); lra.
  - assert (0 < (vx b - vx a)^2) by (simpl; nra). pose proof (pow2_ge_0 (vy b - vy a)); lra.
  - assert (0 < (vx b - vx a)^2) by (simpl; nra). pose proof (pow2_ge_0 (vy b - vy a)); lra.
Qed.
Lemma centre_dir_sym a b : centre_dir b a = vneg (centre_dir a b).
Proof.
  unfold centre_dir, vneg, vsub; cbv zeta; cbn [vx vy]. rewrite !centre_dist_spec, (dist2_sym b a).
  apply v2_eq; cbn [vx vy]; unfold Rdiv; ring.
Qed.
Lemma dist2_sq a b : dist2 a b * dist2 a b = (vx b - vx a)^2 + (vy b - vy a)^2.
Proof. unfold dist2. apply sqrt_sqrt. pose proof (pow2_ge_0 (vy b - vy a)); pose proof (pow2_ge_0 (vx b - vx a)); lra. Qed.
Lemma centre_dir_unit a b : a <> b -> unit_vec (centre_dir a b).
Proof.
  intros H. pose proof (dist2_pos a b H) as P. pose proof (dist2_sq a b) as Q.
  unfold unit_vec, centre_dir, vsub; cbv zeta; cbn [vx vy]. rewrite !centre_dist_spec.
  set (d := dist2 a b) in *. replace (((vx b - vx a) / d) ^ 2 + ((vy b - vy a) / d) ^ 2) with
    (((vx b - vx a)^2 + (vy b - vy a)^2) / (d * d)) by (field; lra). rewrite <- Q. field; lra.
Qed.
Lemma centre_dir_scal a b : a <> b -> vsub b a = vscal (dist2 a b) (centre_dir a b).
Proof.
  intros H. pose proof (dist2_pos a b H). unfold centre_dir, vscal; cbv zeta; cbn [vx vy]. rewrite !centre_dist_spec.
  apply v2_eq; unfold vsub; cbn [vx vy]; field; lra.
Qed.

Lemma face_grad_sym rl rr ul ur gl gr :
  getFaceGradient_modifiedAverage rr rl ur ul gr gl = getFaceGradient_modifiedAverage rl rr ul ur gl gr.
Proof.
  unfold getFaceGradient_modifiedAverage; cbv zeta. rewrite (centre_dir_sym rl rr), !centre_dist_spec, (dist2_sym rr rl).
  set (d := centre_dir rl rr). set (l := dist2 rl rr). clearbody d l. unfold vneg, dot2; cbn [vx vy].
  f_equal; apply st_ext; intros k; rewrite !cget_mkst; unfold Rdiv; ring.
Qed.

Definition gcomp (gr : grad) (i : ix) : v2 := mkv (cget (gx gr) i) (cget (gy gr) i).

Lemma face_grad_dir rl rr ul ur gl gr i : rl <> rr ->
  dot2 (gcomp (getFaceGradient_modifiedAverage rl rr ul ur gl gr) i) (centre_dir rl rr) = (cget ur i - cget ul i) / dist2 rl rr.
Proof.
  intros H. pose proof (centre_dir_unit _ _ H) as U. unfold unit_vec in U.
  unfold gcomp, getFaceGradient_modifiedAverage; cbv zeta; cbn [gx gy]. rewrite !cget_mkst, centre_dist_spec.
  set (d := centre_dir rl rr) in *. set (c := (cget ur i - cget ul i) / dist2 rl rr). clearbody c d.
  unfold dot2; cbn [vx vy]. set (a := 1/2 * (cget (gx gl) i + cget (gx gr) i)). set (b := 1/2 * (cget (gy gl) i + cget (gy gr) i)).
  clearbody a b.
  replace ((a - (a * vx d + b * vy d) * vx d + c * vx d) * vx d + (b - (a * vx d + b * vy d) * vy d + c * vy d) * vy d)
    with ((a * vx d + b * vy d - c) * (1 - (vx d^2 + vy d^2)) + c) by ring. rewrite U. ring.
Qed.

(** and the part of the averaged gradient across the line of centres is kept *)
Lemma face_grad_perp rl rr ul ur gl gr i (m : v2) : dot2 m (centre_dir rl rr) = 0 ->
  dot2 (gcomp (getFaceGradient_modifiedAverage rl rr ul ur gl gr) i) m = (dot2 (gcomp gl i) m + dot2 (gcomp gr i) m) / 2.
Proof.
  intros H. unfold gcomp, getFaceGradient_modifiedAverage; cbv zeta; cbn [gx gy]. rewrite !cget_mkst, centre_dist_spec.
  set (d := centre_dir rl rr) in *. set (c := (cget ur i - cget ul i) / dist2 rl rr). clearbody c d.
  unfold dot2 in *; cbn [vx vy].
  set (a := cget (gx gl) i). set (b := cget (gx gr) i). set (e := cget (gy gl) i). set (f := cget (gy gr) i). clearbody a b e f.
  set (q := 1/2*(a+b) * vx d + 1/2*(e+f) * vy d).
  replace ((1 / 2 * (a + b) - q * vx d + c * vx d) * vx m + (1 / 2 * (e + f) - q * vy d + c * vy d) * vy m)
    with ((a * vx m + e * vy m + (b * vx m + f * vy m)) / 2 + (c - q) * (vx m * vx d + vy m * vy d)) by field.
  rewrite H. ring.
Qed.

Lemma face_grad_linear rl rr c a b : rl <> rr ->
  getFaceGradient_modifiedAverage rl rr (linear_field c a b rl) (linear_field c a b rr) (mkgrad a b) (mkgrad a b) = mkgrad a b.
Proof.
  intros H. pose proof (centre_dir_unit _ _ H) as U. unfold unit_vec in U. pose proof (dist2_pos _ _ H) as P.
  pose proof (centre_dir_scal _ _ H) as S. unfold getFaceGradient_modifiedAverage; cbv zeta; cbn [gx gy].
  assert (E : forall i, (cget (linear_field c a b rr) i - cget (linear_field c a b rl) i) / centre_dist rl rr = dot2 (mkv (cget a i) (cget b i)) (centre_dir rl rr)).
  { intros i. rewrite centre_dist_spec. apply (f_equal vx) in S as Sx. apply (f_equal vy) in S as Sy.
    unfold vsub, vscal in Sx, Sy; cbn [vx vy] in Sx, Sy.
    replace (cget (linear_field c a b rr) i - cget (linear_field c a b rl) i) with ((vx rr - vx rl) * cget a i + (vy rr - vy rl) * cget b i)
      by (unfold linear_field; destruct i; cbn; ring).
    rewrite Sx, Sy. unfold dot2; cbn [vx vy]. field; lra. }
  f_equal; apply st_ext; intros k; rewrite !cget_mkst, E; unfold dot2; cbn [vx vy]; field.
Qed.
Lemma thin_layer_is_zero_average rl rr ul ur dul dur :
  fst (fst (getFaceGradientAndJacobian_thinLayer rl rr ul ur dul dur)) =
  getFaceGradient_modifiedAverage rl rr ul ur grad0 grad0.
Proof.
  unfold getFaceGradientAndJacobian_thinLayer, getFaceGradient_modifiedAverage; cbv zeta; cbn [fst].
  f_equal; apply st_ext; intros k; rewrite !cget_mkst; destruct k; cbn; unfold dot2; cbn [vx vy]; ring.
Qed.

(** the derivative arrays of the thin-layer gradient *)
Lemma thin_layer_rows rl rr ul ur dul dur i :
  let '(_, dl, dr) := getFaceGradientAndJacobian_thinLayer rl rr ul ur dul dur in
  mrow (dgx dl) i = sscal (- (vx (centre_dir rl rr) / centre_dist rl rr)) (mrow dul i) /\
  mrow (dgy dl) i = sscal (- (vy (centre_dir rl rr) / centre_dist rl rr)) (mrow dul i) /\
  mrow (dgx dr) i = sscal (vx (centre_dir rl rr) / centre_dist rl rr) (mrow dur i) /\
  mrow (dgy dr) i = sscal (vy (centre_dir rl rr) / centre_dist rl rr) (mrow dur i).
Proof.
  unfold getFaceGradientAndJacobian_thinLayer; cbv zeta; cbn [dgx dgy]. set (d := centre_dir rl rr). set (l := centre_dist rl rr). clearbody d l.
  destruct i; cbn; repeat split; apply st_eq; cbn; unfold Rdiv, mget; cbn; ring.
Qed.

(** ** Thin-layer flux per unit viscosity as a function of the primitive states *)
Definition kap (G : gas) : R := / (Minf G * Minf G * (gam G - 1) * Prn G).
Lemma face_k_kap G mu : face_k G mu = mu * kap G. Proof. reflexivity. Qed.

Definition tl_flux (kp : R) (n e : v2) (pl pr : st) : st :=
  let d1 := s1 pr - s1 pl in let d2 := s2 pr - s2 pl in let d3 := s3 pr - s3 pl in
  viscous_flux 1 kp (mkv (d1 * vx e) (d1 * vy e)) (mkv (d2 * vx e) (d2 * vy e)) (mkv (d3 * vx e) (d3 * vy e))
    (mkv ((s1 pl + s1 pr) / 2) ((s2 pl + s2 pr) / 2)) n.

Definition tl_e (rl rr : v2) : v2 := mkv (vx (centre_dir rl rr) / centre_dist rl rr) (vy (centre_dir rl rr) / centre_dist rl rr).

Definition thin_flux (G : gas) (cv : bool) (n rl rr : v2) (ul ur : st) : st :=
  compute_viscous_flux G false cv n rl rr ul ur grad0 grad0 ul ur.

Lemma prim2_primT G u : s0 u <> 0 -> getPrimitive2FromConserved G u = primT (gam G) (Minf G) u.
Proof.
  intros H. pose proof (temperature_code G u H) as E. unfold getTemperatureFromConserved in E.
  unfold getPrimitive2FromConserved, primT; cbv zeta. rewrite E. reflexivity.
Qed.

Lemma thin_flux_spec G cv n rl rr ul ur : s0 ul <> 0 -> s0 ur <> 0 ->
  thin_flux G cv n rl rr ul ur =
  sscal (face_viscosity G cv ul ur) (tl_flux (kap G) n (tl_e rl rr) (primT (gam G) (Minf G) ul) (primT (gam G) (Minf G) ur)).
Proof.
  intros Hl Hr. unfold thin_flux, compute_viscous_flux. rewrite visc_formula, !prim2_primT by auto.
  rewrite face_k_kap. set (mu := face_viscosity _ _ _ _). clearbody mu. set (kp := kap G). clearbody kp.
  unfold tl_flux, tl_e; cbv zeta. unfold getFaceGradient_modifiedAverage; cbv zeta.
  set (d := centre_dir rl rr). set (l := centre_dist rl rr). clearbody d l.
  unfold viscous_flux, traction, divergence, gvx, gvy, gT, dot2, mean_vel, primT. cbn [vx vy gx gy s0 s1 s2 s3 grad0 mkst cget szero].
  set (a := s1 ul / s0 ul). set (b := s2 ul / s0 ul). set (c := s1 ur / s0 ur). set (f := s2 ur / s0 ur).
  set (tl := temperature _ _ ul). set (tr := temperature _ _ ur). clearbody a b c f tl tr.
  unfold sscal. apply st_eq; cbn [s0 s1 s2 s3]; unfold Rdiv; ring.
Qed.

(** coefficients of the traction per unit velocity difference *)
Definition cA1 (n e : v2) := 4/3 * vx e * vx n + vy e * vy n.
Definition cA2 (n e : v2) := - (2/3) * vy e * vx n + vx e * vy n.
Definition cB1 (n e : v2) := vy e * vx n - 2/3 * vx e * vy n.
Definition cB2 (n e : v2) := vx e * vx n + 4/3 * vy e * vy n.

Lemma tl_flux_coef kp n e pl pr :
  tl_flux kp n e pl pr =
  let d1 := s1 pr - s1 pl in let d2 := s2 pr - s2 pl in
  let f1 := cA1 n e * d1 + cA2 n e * d2 in let f2 := cB1 n e * d1 + cB2 n e * d2 in
  mks 0 (- f1) (- f2)
      (- (f1 * ((s1 pl + s1 pr) / 2) + f2 * ((s2 pl + s2 pr) / 2)) - kp * dot2 e n * (s3 pr - s3 pl)).
Proof.
  unfold tl_flux, viscous_flux, traction, divergence, dot2, cA1, cA2, cB1, cB2; cbv zeta; cbn [vx vy].
  apply st_eq; cbn [s0 s1 s2 s3]; field.
Qed.

(** Jacobian of the unit flux with respect to one side: sg = -1 left, +1 right, rows [J] of the
    primitive variables of that side *)
Definition tl_jac (kp : R) (n e : v2) (pl pr : st) (sg : R) (J : mat4) : mat4 :=
  let d1 := s1 pr - s1 pl in let d2 := s2 pr - s2 pl in
  let f1 := cA1 n e * d1 + cA2 n e * d2 in let f2 := cB1 n e * d1 + cB2 n e * d2 in
  let g1 := sadd (sscal (cA1 n e) (r1 J)) (sscal (cA2 n e) (r2 J)) in
  let g2 := sadd (sscal (cB1 n e) (r1 J)) (sscal (cB2 n e) (r2 J)) in
  mkm szero (sscal (- sg) g1) (sscal (- sg) g2)
    (ssub (ssub (ssub (sscal (- sg * ((s1 pl + s1 pr) / 2)) g1) (sscal (sg * ((s2 pl + s2 pr) / 2)) g2))
                (sadd (sscal (f1 / 2) (r1 J)) (sscal (f2 / 2) (r2 J))))
          (sscal (sg * (kp * dot2 e n)) (r3 J))).

Lemma d_tl G n e ul ur : s0 ul <> 0 -> s0 ur <> 0 ->
  jac2_is (fun x y => tl_flux (kap G) n e (primT (gam G) (Minf G) x) (primT (gam G) (Minf G) y)) ul ur
    (tl_jac (kap G) n e (primT (gam G) (Minf G) ul) (primT (gam G) (Minf G) ur) (-1) (getJacobianPrimitive2WrtConserved G ul mat0))
    (tl_jac (kap G) n e (primT (gam G) (Minf G) ul) (primT (gam G) (Minf G) ur) 1 (getJacobianPrimitive2WrtConserved G ur mat0)).
Proof.
  intros Hl Hr i cl cr t dul dur Cl Cr.
  pose proof (d_primT G ul Hl I1 cl t dul Cl) as L1. pose proof (d_primT G ul Hl I2 cl t dul Cl) as L2.
  pose proof (d_primT G ul Hl I3 cl t dul Cl) as L3.
  pose proof (d_primT G ur Hr I1 cr t dur Cr) as R1. pose proof (d_primT G ur Hr I2 cr t dur Cr) as R2.
  pose proof (d_primT G ur Hr I3 cr t dur Cr) as R3.
  set (JL := getJacobianPrimitive2WrtConserved G ul mat0) in *. set (JR := getJacobianPrimitive2WrtConserved G ur mat0) in *.
  cbn [mrow cget] in L1, L2, L3, R1, R2, R3.
  set (kp := kap G). clearbody kp JL JR.
  assert (Al : primT (gam G) (Minf G) (cl t) = primT (gam G) (Minf G) ul) by (rewrite (cv_at _ _ _ _ Cl); auto).
  assert (Ar : primT (gam G) (Minf G) (cr t) = primT (gam G) (Minf G) ur) by (rewrite (cv_at _ _ _ _ Cr); auto).
  set (Pl := fun s => primT (gam G) (Minf G) (cl s)).
  set (Pr := fun s => primT (gam G) (Minf G) (cr s)).
  change (fun x => s1 (primT (gam G) (Minf G) (cl x))) with (fun x => s1 (Pl x)) in L1.
  change (fun x => s2 (primT (gam G) (Minf G) (cl x))) with (fun x => s2 (Pl x)) in L2.
  change (fun x => s3 (primT (gam G) (Minf G) (cl x))) with (fun x => s3 (Pl x)) in L3.
  change (fun x => s1 (primT (gam G) (Minf G) (cr x))) with (fun x => s1 (Pr x)) in R1.
  change (fun x => s2 (primT (gam G) (Minf G) (cr x))) with (fun x => s2 (Pr x)) in R2.
  change (fun x => s3 (primT (gam G) (Minf G) (cr x))) with (fun x => s3 (Pr x)) in R3.
  change (DL (fun s => cget (tl_flux kp n e (Pl s) (Pr s)) i) t
    (sdot (mrow (tl_jac kp n e (primT (gam G) (Minf G) ul) (primT (gam G) (Minf G) ur) (-1) JL) i) dul +
     sdot (mrow (tl_jac kp n e (primT (gam G) (Minf G) ul) (primT (gam G) (Minf G) ur) 1 JR) i) dur)).
  rewrite <- Al, <- Ar. change (primT (gam G) (Minf G) (cl t)) with (Pl t). change (primT (gam G) (Minf G) (cr t)) with (Pr t).
  clearbody Pl Pr. clear Al Ar Cl Cr.
  eapply dl_ext. intros s. rewrite tl_flux_coef. reflexivity. cbv zeta.
  set (A1 := cA1 n e). set (A2 := cA2 n e). set (B1 := cB1 n e). set (B2 := cB2 n e). set (q := kp * dot2 e n).
  unfold tl_jac; cbv zeta. fold A1 A2 B1 B2 q. clearbody A1 A2 B1 B2 q.
  destruct i; cbn [cget s0 s1 s2 s3 mrow r0 r1 r2 r3]; sdl.
  - eapply dl_eq. apply dl_const. ring.
  - ad. ring.
  - ad. ring.
  - set (a := sdot (r1 JL) dul) in *. set (b := sdot (r2 JL) dul) in *. set (c := sdot (r3 JL) dul) in *.
    set (d := sdot (r1 JR) dur) in *. set (f := sdot (r2 JR) dur) in *. set (g := sdot (r3 JR) dur) in *.
    clearbody a b c d f g.
    assert (D1 : DL (fun s => A1 * (s1 (Pr s) - s1 (Pl s)) + A2 * (s2 (Pr s) - s2 (Pl s))) t (A1 * (d - a) + A2 * (f - b))).
    { apply dl_plus; apply dl_scal; apply dl_minus; auto. }
    assert (D2 : DL (fun s => B1 * (s1 (Pr s) - s1 (Pl s)) + B2 * (s2 (Pr s) - s2 (Pl s))) t (B1 * (d - a) + B2 * (f - b))).
    { apply dl_plus; apply dl_scal; apply dl_minus; auto. }
    assert (D3 : DL (fun s => (s1 (Pl s) + s1 (Pr s)) / 2) t ((a + d) / 2)).
    { eapply dl_ext. intros s. unfold Rdiv. rewrite Rmult_comm. reflexivity. eapply dl_eq. apply dl_scal, dl_plus; eauto. field. }
    assert (D4 : DL (fun s => (s2 (Pl s) + s2 (Pr s)) / 2) t ((b + f) / 2)).
    { eapply dl_ext. intros s. unfold Rdiv. rewrite Rmult_comm. reflexivity. eapply dl_eq. apply dl_scal, dl_plus; eauto. field. }
    eapply dl_eq. apply dl_minus. apply dl_opp. apply dl_plus. apply (dl_mult _ _ _ _ _ D1 D3). apply (dl_mult _ _ _ _ _ D2 D4).
    apply dl_scal. apply dl_minus; eauto. cbv beta. field.
Qed.

Definition mscal (c : R) (J : mat4) : mat4 := mkm (sscal c (r0 J)) (sscal c (r1 J)) (sscal c (r2 J)) (sscal c (r3 J)).

(** the viscosity derivative the code uses for one side *)
Definition code_dmu (G : gas) (cv : bool) (u : st) : st :=
  if cv then szero else sscal (1/2) (getJacobianSutherlandViscosityWrtConserved G u szero).

Lemma prim2_rows G u : 
  r1 (getJacobianPrimitive2WrtConserved G u mat0) = mks (- s1 u / (s0 u * s0 u)) (1 / s0 u) 0 0 /\
  r2 (getJacobianPrimitive2WrtConserved G u mat0) = mks (- s2 u / (s0 u * s0 u)) 0 (1 / s0 u) 0.
Proof. unfold getJacobianPrimitive2WrtConserved; cbv zeta; cbn [r1 r2 mat0 s0 s1 s2 s3 szero]. split; apply st_eq; cbn [s0 s1 s2 s3]; ring. Qed.

Lemma visc_jac_code G cv n rl rr ul ur dvfi dvfj : s0 ul <> 0 -> s0 ur <> 0 ->
  let mu := face_viscosity G cv ul ur in
  let U := tl_flux (kap G) n (tl_e rl rr) (primT (gam G) (Minf G) ul) (primT (gam G) (Minf G) ur) in
  compute_viscous_flux_jacobian G cv n rl rr ul ur dvfi dvfj =
  (madd dvfi (mneg (madd (mscal mu (tl_jac (kap G) n (tl_e rl rr) (primT (gam G) (Minf G) ul) (primT (gam G) (Minf G) ur) (-1)
                                           (getJacobianPrimitive2WrtConserved G ul mat0)))
                         (outer U (code_dmu G cv ul)))),
   madd dvfj (madd (mscal mu (tl_jac (kap G) n (tl_e rl rr) (primT (gam G) (Minf G) ul) (primT (gam G) (Minf G) ur) 1
                                           (getJacobianPrimitive2WrtConserved G ur mat0)))
                         (outer U (code_dmu G cv ur)))).
Proof.
  intros Hl Hr mu U. unfold compute_viscous_flux_jacobian. rewrite !prim2_primT by auto.
  destruct (prim2_rows G ul) as [L1 L2]. destruct (prim2_rows G ur) as [R1 R2].
  set (JL := getJacobianPrimitive2WrtConserved G ul mat0) in *. set (JR := getJacobianPrimitive2WrtConserved G ur mat0) in *.
  clearbody JL JR.
  unfold getFaceGradientAndJacobian_thinLayer; cbv zeta.
  unfold U. rewrite tl_flux_coef. unfold tl_jac, tl_e. clear U. cbv zeta.
  set (d := centre_dir rl rr). set (l := centre_dist rl rr). clearbody d l.
  unfold computeViscousFluxJacobian. fold mu.
  replace (getThermalConductivityFromViscosity G mu) with (mu * kap G) by reflexivity.
  assert (EK : forall x, getJacobianThermCond G x = sscal (kap G) x).
  { intros x. unfold getJacobianThermCond, kap. apply st_ext; intros k; destruct k; cbn; unfold Rdiv; ring. }
  rewrite !EK. clear EK. set (kp := kap G). clearbody kp mu.
  assert (E0 : forall u, (if cv then szero else mkst (fun k => cget (getJacobianSutherlandViscosityWrtConserved G u szero) k * (1/2))) = code_dmu G cv u).
  { intros u. unfold code_dmu. destruct cv; auto. apply st_ext; intros k; destruct k; cbn; ring. }
  assert (E1 : forall u, (if cv then szero else sscal kp (code_dmu G cv u)) = sscal kp (code_dmu G cv u)).
  { intros u. unfold code_dmu. destruct cv; auto. apply st_eq; cbn; ring. }
  cbv zeta. rewrite !E0, !E1. clear E0 E1.
  set (ml := code_dmu G cv ul). set (mr := code_dmu G cv ur). clearbody ml mr.
  unfold primT. cbn [s0 s1 s2 s3].
  set (tL := temperature _ _ ul). set (tR := temperature _ _ ur). clearbody tL tR.
  unfold getJacobianStress, cA1, cA2, cB1, cB2, dot2.
  assert (V : forall u (J : mat4), r1 J = mks (- s1 u / (s0 u * s0 u)) (1 / s0 u) 0 0 ->
     mks (- (1/2) * s1 u / (s0 u * s0 u)) ((1/2) / s0 u) 0 0 = sscal (1/2) (r1 J)).
  { intros u J ->. apply st_eq; cbn; unfold Rdiv; ring. }
  assert (W : forall u (J : mat4), r2 J = mks (- s2 u / (s0 u * s0 u)) 0 (1 / s0 u) 0 ->
     mks (- (1/2) * s2 u / (s0 u * s0 u)) 0 ((1/2) / s0 u) 0 = sscal (1/2) (r2 J)).
  { intros u J ->. apply st_eq; cbn; unfold Rdiv; ring. }
  cbv zeta. rewrite (V _ _ L1), (W _ _ L2), (V _ _ R1), (W _ _ R2). clear V W L1 L2 R1 R2.
  set (a := s1 ul / s0 ul). set (b := s2 ul / s0 ul). set (c := s1 ur / s0 ur). set (f := s2 ur / s0 ur). clearbody a b c f.
  unfold Rdiv. set (il := / l). clearbody il.
  destruct dvfi as [fi0 fi1 fi2 fi3], dvfj as [fj0 fj1 fj2 fj3], JL as [JL0 JL1 JL2 JL3], JR as [JR0 JR1 JR2 JR3].
  apply f_equal2; apply mget_eq; intros i k; destruct i;
  cbn [mget mrow r0 r1 r2 r3 madd mneg mscal outer];
  [ destruct k; cbn; ring
  | | |
  | destruct k; cbn; ring
  | | | ].
  all: unfold mget; cbn [mrow r0 r1 r2 r3 madd mneg mscal outer dgx dgy dxx dxy dyx dyy txx txy tyx tyy vx vy gx gy mkmat];
       destruct k; cbn [mkst cget s0 s1 s2 s3 sadd sscal sneg ssub vx vy mget mrow r0 r1 r2 r3]; field.
Qed.

Lemma temp_pos G u : 1 < gam G -> Minf G <> 0 -> physical (gam G) u -> 0 < temperature (gam G) (Minf G) u.
Proof.
  intros Hg HM [H1 H2]. unfold temperature. apply Rdiv_lt_0_compat; auto. apply Rmult_lt_0_compat; auto.
  apply Rmult_lt_0_compat; [lra|]. assert (0 <= Minf G ^2) by nra. assert (Minf G ^2 <> 0) by (apply pow_nonzero; auto). lra.
Qed.
Lemma suth_pos G u : 1 < gam G -> Minf G <> 0 -> 0 < Tinf G -> 0 < Reinf G -> physical (gam G) u ->
  0 < getViscosityCoeffFromConserved G u.
Proof.
  intros Hg HM HT HR Hu. pose proof (temp_pos G u Hg HM Hu) as H.
  unfold getViscosityCoeffFromConserved. rewrite temperature_code by (destruct Hu; lra).
  rewrite sutherland_code by auto. pose proof (sqrt_lt_R0 _ H).
  unfold sutherland; cbv zeta. assert (0 < 221/2/Tinf G) by (apply Rdiv_lt_0_compat; lra).
  assert (0 < / Reinf G) by (apply Rinv_0_lt_compat; auto).
  apply Rmult_lt_0_compat; [apply Rmult_lt_0_compat|apply Rmult_lt_0_compat]; auto. apply Rdiv_lt_0_compat; lra.
Qed.
