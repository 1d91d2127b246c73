(** Supersonic upwinding, Roe property, contact preservation, signal speed bounds. *)
From Coq Require Import Reals Lra Psatz Bool.
From Verif Require Import BaseR M_Gas M_Flux S_Gas Pf_Flux Pf_FluxCons Pf_HLLC Pf_FluxRot.
Open Scope R_scope.

(** ** The code's variables are the textbook ones *)
Lemma vars_spec G u n : physical (gam G) u ->
  getVarsFromConserved G u n =
  mkvars (mkv (s1 u / s0 u) (s2 u / s0 u)) (normal_velocity u n) (pressure (gam G) u) (enthalpy (gam G) u).
Proof.
  intros [Hr _]. unfold getVarsFromConserved, normal_velocity, enthalpy, pressure, dot2; cbv zeta; cbn [vx vy].
  assert (Ep : (gam G - 1) * (s3 u - 1 / 2 * s0 u * (s1 u / s0 u * (s1 u / s0 u) + s2 u / s0 u * (s2 u / s0 u)))
    = (gam G - 1) * (s3 u - (s1 u ^ 2 + s2 u ^ 2) / (2 * s0 u))) by (field; lra).
  rewrite Ep. f_equal; field; lra.
Qed.

Lemma sound_spec G u : getSoundSpeed G (s0 u) (pressure (gam G) u) = sound (gam G) u.
Proof. reflexivity. Qed.

Lemma roe_mean_ratio ul ur x y : 0 < s0 ul -> 0 < s0 ur ->
  (sqrt (s0 ur / s0 ul) * y + x) / (sqrt (s0 ur / s0 ul) + 1) = roe_mean ul ur x y.
Proof.
  intros Hl Hr. unfold roe_mean. rewrite sqrt_div_alt by auto.
  pose proof (sqrt_lt_R0 _ Hl). pose proof (sqrt_lt_R0 _ Hr). field. split; [lra|]. lra.
Qed.

Lemma pair_roe_spec G ul ur n : 1 < gam G -> physical (gam G) ul -> physical (gam G) ur ->
  pair_roe G ul ur n =
  mkroe (sqrt (s0 ur / s0 ul)) (roe_density ul ur) (roe_velocity ul ur)
    ((vx (roe_velocity ul ur))^2 + (vy (roe_velocity ul ur))^2) (roe_normal ul ur n)
    (roe_enthalpy (gam G) ul ur) (roe_sound (gam G) ul ur).
Proof.
  intros Hg Hl Hr. unfold pair_roe. rewrite !vars_spec by auto. cbv zeta. vproj.
  unfold getRoeAverages. cbv zeta. cbn [vx vy].
  rewrite !roe_mean_ratio by (apply Hl || apply Hr).
  unfold roe_normal, roe_sound, roe_enthalpy, roe_velocity, dot2; cbn [vx vy].
  f_equal.
  - unfold roe_density. rewrite sqrt_div_alt by apply Hl. rewrite sqrt_mult by (left; apply Hl || apply Hr).
    destruct Hl as [Hl _]. pose proof (sqrt_lt_R0 _ Hl).
    rewrite <- (sqrt_sqrt (s0 ul)) at 2 by lra. field. lra.
  - ring.
  - f_equal. field.
Qed.

Lemma roe_sound_pos ga ul ur : 1 < ga -> physical ga ul -> physical ga ur -> 0 < roe_sound ga ul ur.
Proof.
  intros Hg Hl Hr. pose proof (pair_roe_c_pos (mkgas ga 1 1 1 1) ul ur (mkv 0 0) Hg Hl Hr) as H.
  rewrite pair_roe_spec in H by auto. exact H.
Qed.

Lemma sound_pos ga u : 1 < ga -> physical ga u -> 0 < sound ga u.
Proof.
  intros Hg [H1 H2]. unfold sound. apply sqrt_lt_R0. apply Rdiv_lt_0_compat; [|auto].
  apply Rmult_lt_0_compat; lra.
Qed.

Lemma hll_speeds_spec G ul ur n : 1 < gam G -> physical (gam G) ul -> physical (gam G) ur ->
  hll_speeds G ul ur n =
  (Rmin (normal_velocity ul n - sound (gam G) ul) (roe_normal ul ur n - roe_sound (gam G) ul ur),
   Rmax (normal_velocity ur n + sound (gam G) ur) (roe_normal ul ur n + roe_sound (gam G) ul ur)).
Proof.
  intros Hg Hl Hr. rewrite hll_speeds_pair, pair_roe_spec, !vars_spec by auto. cbv zeta. vproj.
  cbn [a_vn a_c]. rewrite !sound_spec. unfold einfeldt_sl, einfeldt_sr. f_equal.
  - destruct (Rltb_spec (roe_normal ul ur n - roe_sound (gam G) ul ur) (normal_velocity ul n - sound (gam G) ul)).
    + rewrite Rmin_right; lra. + rewrite Rmin_left; lra.
  - destruct (Rltb_spec (normal_velocity ur n + sound (gam G) ur) (roe_normal ul ur n + roe_sound (gam G) ul ur)).
    + rewrite Rmax_right; lra. + rewrite Rmax_left; lra.
Qed.

(** ** Upwinding *)
Lemma div_ge_1 a b : 0 < b -> b <= a -> 1 <= a / b.
Proof. intros. apply (Rmult_le_reg_r b); auto. unfold Rdiv. rewrite Rmult_assoc, Rinv_l by lra. lra. Qed.
Lemma div_gt_1 a b : 0 < b -> b < a -> 1 < a / b.
Proof. intros. apply (Rmult_lt_reg_r b); auto. unfold Rdiv. rewrite Rmult_assoc, Rinv_l by lra. lra. Qed.

Lemma vanleer_up G ul ur n : 1 < gam G -> physical (gam G) ul -> physical (gam G) ur ->
  sound (gam G) ul < normal_velocity ul n -> sound (gam G) ur < normal_velocity ur n ->
  vanleer_flux G ul ur n = euler_flux (gam G) ul n.
Proof.
  intros Hg Hl Hr H1 H2. pose proof (sound_pos _ _ Hg Hl). pose proof (sound_pos _ _ Hg Hr).
  pose proof (div_gt_1 _ _ H H1). pose proof (div_gt_1 _ _ H0 H2).
  pose proof (dflux_vars G ul n Hg Hl) as E. rewrite (vars_spec G ul n Hl) in E. cbn [v_vn v_p] in E.
  unfold vanleer_flux, vl_plus, vl_minus. rewrite !vars_spec by auto. cbv zeta. vproj. rewrite !sound_spec.
  rewrite (Rltb_false (normal_velocity ul n / sound (gam G) ul) (-1)) by lra.
  rewrite (Rltb_true 1 (normal_velocity ul n / sound (gam G) ul)) by lra.
  rewrite (Rltb_true 1 (normal_velocity ur n / sound (gam G) ur)) by lra.
  rewrite E. apply st_eq; cbn [sadd szero s0 s1 s2 s3]; ring.
Qed.

Lemma ausm_up G ul ur n : 1 < gam G -> physical (gam G) ul -> physical (gam G) ur ->
  sound (gam G) ul < normal_velocity ul n -> sound (gam G) ur < normal_velocity ur n ->
  ausm_flux G ul ur n = euler_flux (gam G) ul n.
Proof.
  intros Hg Hl Hr H1 H2. pose proof (sound_pos _ _ Hg Hl). pose proof (sound_pos _ _ Hg Hr).
  pose proof (div_gt_1 _ _ H H1). pose proof (div_gt_1 _ _ H0 H2).
  unfold ausm_flux. rewrite !vars_spec by auto. cbv zeta. vproj. rewrite !sound_spec.
  set (cl := sound (gam G) ul) in *. set (cr := sound (gam G) ur) in *.
  set (wl := normal_velocity ul n) in *. set (wr := normal_velocity ur n) in *.
  set (Ml := wl / cl) in *. set (Mr := wr / cr) in *.
  unfold ausm_L, ausm_R. rewrite !(Rabs_pos_eq) by lra.
  rewrite (Rleb_false Ml 1), (Rleb_false Mr 1), (Rltb_false Ml (-1)), (Rltb_false Mr (-1)) by lra.
  cbn [fst snd]. rewrite !Rabs_pos_eq by lra.
  assert (E : Ml * cl = wl) by (unfold Ml; field; lra).
  unfold euler_flux. cbv zeta. fold wl. rewrite <- E.
  apply st_eq; cbn [s0 s1 s2 s3]; field.
Qed.

(** Critical sound speed: the sound speed the flow has when accelerated adiabatically to Mach 1. *)
Lemma ausmplus_up G ul ur n : 1 < gam G -> physical (gam G) ul -> physical (gam G) ur ->
  sqrt (2 * (gam G - 1) / (gam G + 1) * enthalpy (gam G) ul) < normal_velocity ul n ->
  sqrt (2 * (gam G - 1) / (gam G + 1) * enthalpy (gam G) ur) < normal_velocity ur n ->
  ausmplus_flux G ul ur n = euler_flux (gam G) ul n.
Proof.
  intros Hg Hl Hr H1 H2.
  assert (EH : forall u, physical (gam G) u ->
    sqrt ((sound (gam G) u * sound (gam G) u / (gam G - 1) + 1/2 * dot2 (mkv (s1 u / s0 u) (s2 u / s0 u)) (mkv (s1 u / s0 u) (s2 u / s0 u)))
       * 2 * (gam G - 1) / (gam G + 1)) = sqrt (2 * (gam G - 1) / (gam G + 1) * enthalpy (gam G) u)).
  { intros u [Hu Hp]. f_equal. unfold sound. rewrite sqrt_sqrt.
    2:{ left. apply Rdiv_lt_0_compat; [|auto]. apply Rmult_lt_0_compat; lra. }
    unfold enthalpy, pressure, dot2; cbn [vx vy]. field. lra. }
  assert (PH : forall u, physical (gam G) u -> 0 < sqrt (2 * (gam G - 1) / (gam G + 1) * enthalpy (gam G) u)).
  { intros u [Hu Hp]. apply sqrt_lt_R0. apply Rmult_lt_0_compat. apply Rdiv_lt_0_compat; lra.
    unfold enthalpy. apply Rdiv_lt_0_compat; auto.
    assert (0 < s3 u). { unfold pressure in Hp. assert (0 < s3 u - ((s1 u)^2+(s2 u)^2)/(2*s0 u)) by nra.
      assert (0 <= ((s1 u)^2+(s2 u)^2)/(2*s0 u)). { apply Rmult_le_pos. nra. left; apply Rinv_0_lt_compat; lra. } lra. }
    lra. }
  pose proof (PH _ Hl) as Pl. pose proof (PH _ Hr) as Pr.
  unfold ausmplus_flux. rewrite !vars_spec by auto. cbv zeta. vproj. rewrite !sound_spec.
  unfold ausmp_chalf. cbv zeta. rewrite !EH by auto.
  set (kl := sqrt (2 * (gam G - 1) / (gam G + 1) * enthalpy (gam G) ul)) in *.
  set (kr := sqrt (2 * (gam G - 1) / (gam G + 1) * enthalpy (gam G) ur)) in *.
  set (wl := normal_velocity ul n) in *. set (wr := normal_velocity ur n) in *.
  rewrite (Rltb_false wl kl), (Rltb_true (- wr) kr) by lra.
  replace (kr * kr / kr) with kr by (field; lra).
  set (ch := if Rltb (kl * kl / wl) kr then kl * kl / wl else kr).
  assert (Hq : kl * kl / wl < wl). { apply (Rmult_lt_reg_r wl); [lra|]. replace (kl * kl / wl * wl) with (kl*kl) by (field; lra). nra. }
  assert (Hq0 : 0 < kl * kl / wl). { apply Rdiv_lt_0_compat; [nra|lra]. }
  assert (Hch : 0 < ch /\ ch < wl /\ ch < wr).
  { unfold ch. destruct (Rltb_spec (kl*kl/wl) kr); lra. }
  destruct Hch as (C0 & C1 & C2).
  pose proof (div_gt_1 _ _ C0 C1). pose proof (div_gt_1 _ _ C0 C2).
  set (Ml := wl / ch) in *. set (Mr := wr / ch) in *.
  unfold ausmp_L, ausmp_R. rewrite !(Rabs_pos_eq) by lra.
  rewrite (Rleb_false Ml 1), (Rleb_false Mr 1), (Rltb_false Ml (-1)), (Rltb_false Mr (-1)) by lra.
  cbn [fst snd]. rewrite !Rabs_pos_eq by lra.
  assert (E : ch * Ml = wl) by (unfold Ml; field; lra).
  unfold euler_flux. cbv zeta. fold wl. rewrite <- E.
  apply st_eq; cbn [s0 s1 s2 s3]; field.
Qed.

Lemma hll_up G ul ur n : 1 < gam G -> physical (gam G) ul -> physical (gam G) ur ->
  sound (gam G) ul <= normal_velocity ul n -> roe_sound (gam G) ul ur <= roe_normal ul ur n ->
  hll_flux G ul ur n = euler_flux (gam G) ul n.
Proof.
  intros Hg Hl Hr H1 H2. pose proof (hll_speeds_ordered G ul ur n Hg Hl Hr) as Ho.
  rewrite hll_flux_alt by auto. rewrite hll_speeds_spec in * by auto. cbn [fst snd] in *.
  set (sl := Rmin _ _) in *. set (sr := Rmax _ _) in *.
  assert (Hsl : 0 <= sl) by (unfold sl; apply Rmin_glb; lra).
  unfold hll_coeffs. cbn [h_t1 h_t2 h_t3].
  rewrite (Rltb_true 0 sr) by lra.
  assert (E0 : (if Rltb 0 sl then 0 else sl) = 0) by (destruct (Rltb_spec 0 sl); lra).
  rewrite E0, !Rabs_pos_eq by lra.
  apply st_eq; cbn [mkst cget s0 s1 s2 s3 sadd ssub sscal]; field; lra.
Qed.

Lemma hllc_up G ul ur n : 1 < gam G -> physical (gam G) ul -> physical (gam G) ur ->
  sound (gam G) ul < normal_velocity ul n -> roe_sound (gam G) ul ur < roe_normal ul ur n ->
  hllc_flux G ul ur n = euler_flux (gam G) ul n.
Proof.
  intros Hg Hl Hr H1 H2.
  pose proof (dflux_vars G ul n Hg Hl) as E.
  unfold hllc_flux. rewrite hll_speeds_spec by auto. cbv zeta.
  rewrite Rltb_true; auto. apply Rmin_glb_lt; lra.
Qed.

(** ** Wave decomposition *)
Lemma roe_adu_waves G ul ur n l0 l1 l3 : 1 < gam G -> physical (gam G) ul -> physical (gam G) ur ->
  roe_adu (pair_roe G ul ur n) n (getVarsFromConserved G ul n) (getVarsFromConserved G ur n) ul ur l0 l1 l3
  = sadd (sscal l0 (wave_minus (gam G) ul ur n))
      (sadd (sscal l1 (wave_mid (gam G) ul ur n)) (sscal l3 (wave_plus (gam G) ul ur n))).
Proof.
  intros Hg Hl Hr. pose proof (roe_sound_pos _ _ _ Hg Hl Hr) as Hc.
  rewrite pair_roe_spec, !vars_spec by auto. unfold roe_adu, wave_minus, wave_mid, wave_plus.
  cbn [a_R a_rho a_v a_vm2 a_vn a_H a_c v_v v_vn v_p v_H vx vy]. cbv zeta.
  set (c := roe_sound (gam G) ul ur) in *. set (rh := roe_density ul ur). set (v := roe_velocity ul ur).
  set (w := roe_normal ul ur n). set (H := roe_enthalpy (gam G) ul ur).
  set (dp := pressure (gam G) ur - pressure (gam G) ul). set (dw := normal_velocity ur n - normal_velocity ul n).
  destruct Hl as [Hl _], Hr as [Hr _]. apply st_eq; cbn [s0 s1 s2 s3 sadd sscal]; field; repeat split; lra.
Qed.

Lemma roe_c2 ga ul ur : 1 < ga -> physical ga ul -> physical ga ur ->
  roe_enthalpy ga ul ur = (roe_sound ga ul ur)^2 / (ga - 1)
     + ((vx (roe_velocity ul ur))^2 + (vy (roe_velocity ul ur))^2) / 2.
Proof.
  intros Hg Hl Hr. pose proof (roe_sound_pos _ _ _ Hg Hl Hr) as Hc. unfold roe_sound in *.
  cbv zeta in *. set (X := (ga - 1) * _) in *.
  assert (0 < X). { destruct (Rle_or_lt X 0); auto. rewrite sqrt_neg_0 in Hc by auto. lra. }
  rewrite sqrt_sq_pos by auto. unfold X. field. lra.
Qed.

(** Sum of the waves is the jump; speed-weighted sum is the flux difference. *)
Lemma waves_jump ga ul ur n : 1 < ga -> physical ga ul -> physical ga ur ->
  sadd (wave_minus ga ul ur n) (sadd (wave_mid ga ul ur n) (wave_plus ga ul ur n)) = ssub ur ul.
Proof.
  intros Hg Hl Hr. pose proof (roe_sound_pos _ _ _ Hg Hl Hr) as Hc. pose proof (roe_c2 _ _ _ Hg Hl Hr) as HH.
  destruct Hl as [Hl Hpl], Hr as [Hr Hpr].
  pose proof (sqrt_lt_R0 _ Hl) as Ql. pose proof (sqrt_lt_R0 _ Hr) as Qr.
  transitivity (let v := roe_velocity ul ur in let r := roe_density ul ur in let D := s0 ur - s0 ul in
     let dp := pressure ga ur - pressure ga ul in
     let dx := s1 ur / s0 ur - s1 ul / s0 ul in let dy := s2 ur / s0 ur - s2 ul / s0 ul in
     mks D (vx v * D + r * dx) (vy v * D + r * dy)
        (dp / (ga - 1) + ((vx v)^2 + (vy v)^2)/2 * D + r * (vx v * dx + vy v * dy))).
  - unfold wave_minus, wave_mid, wave_plus. cbv zeta. rewrite HH.
    set (c := roe_sound ga ul ur) in *. set (rh := roe_density ul ur). set (v := roe_velocity ul ur).
    apply st_eq; cbn [s0 s1 s2 s3 sadd sscal]; try (field; lra).
  - cbv zeta. unfold roe_velocity, roe_density, roe_mean. rewrite sqrt_mult by lra. cbn [vx vy].
    unfold pressure, ssub; cbn [s0 s1 s2 s3].
    rewrite <- (sqrt_sqrt (s0 ul)), <- (sqrt_sqrt (s0 ur)) by lra.
    set (a := sqrt (s0 ul)) in *. set (b := sqrt (s0 ur)) in *.
    rewrite !(sqrt_square a), !(sqrt_square b) by lra.
    apply st_eq; cbn [s0 s1 s2 s3 ssub]; field; repeat split; try lra; nra.
Qed.

Lemma roe_property ga ul ur n : 1 < ga -> physical ga ul -> physical ga ur ->
  let w := roe_normal ul ur n in let c := roe_sound ga ul ur in
  sadd (sscal (w - c) (wave_minus ga ul ur n))
     (sadd (sscal w (wave_mid ga ul ur n)) (sscal (w + c) (wave_plus ga ul ur n)))
  = ssub (euler_flux ga ur n) (euler_flux ga ul n).
Proof.
  intros Hg Hl Hr. pose proof (roe_sound_pos _ _ _ Hg Hl Hr) as Hc. pose proof (roe_c2 _ _ _ Hg Hl Hr) as HH.
  destruct Hl as [Hl Hpl], Hr as [Hr Hpr].
  pose proof (sqrt_lt_R0 _ Hl) as Ql. pose proof (sqrt_lt_R0 _ Hr) as Qr. cbv zeta.
  transitivity (let v := roe_velocity ul ur in let r := roe_density ul ur in let D := s0 ur - s0 ul in
     let w := roe_normal ul ur n in let H := roe_enthalpy ga ul ur in
     let dp := pressure ga ur - pressure ga ul in
     let dw := normal_velocity ur n - normal_velocity ul n in
     let dx := s1 ur / s0 ur - s1 ul / s0 ul in let dy := s2 ur / s0 ur - s2 ul / s0 ul in
     let m := w * D + r * dw in
     mks m (vx v * m + vx n * dp + w * r * dx) (vy v * m + vy n * dp + w * r * dy)
        (H * r * dw + w * dp * (ga / (ga - 1)) + w * D * (((vx v)^2 + (vy v)^2)/2) + w * r * (vx v * dx + vy v * dy))).
  - unfold wave_minus, wave_mid, wave_plus. cbv zeta. rewrite HH.
    set (c := roe_sound ga ul ur) in *. set (rh := roe_density ul ur). set (v := roe_velocity ul ur).
    set (w := roe_normal ul ur n). set (dw := normal_velocity ur n - normal_velocity ul n).
    apply st_eq; cbn [s0 s1 s2 s3 sadd sscal]; try (field; lra).
  - cbv zeta. unfold roe_normal, roe_enthalpy, roe_velocity, roe_density, roe_mean, euler_flux, normal_velocity, enthalpy.
    rewrite sqrt_mult by lra. cbn [vx vy].
    unfold pressure, ssub; cbv zeta; cbn [s0 s1 s2 s3].
    rewrite <- (sqrt_sqrt (s0 ul)), <- (sqrt_sqrt (s0 ur)) by lra.
    set (a := sqrt (s0 ul)) in *. set (b := sqrt (s0 ur)) in *.
    rewrite !(sqrt_square a), !(sqrt_square b) by lra.
    apply st_eq; cbn [s0 s1 s2 s3 ssub]; field; repeat split; try lra; nra.
Qed.

(** Each wave is an eigenvector of the Euler matrix at the averaged state. *)
Lemma waves_eigen ga ul ur n : 1 < ga -> physical ga ul -> physical ga ur -> unit_vec n ->
  let w := roe_normal ul ur n in let c := roe_sound ga ul ur in
  let A := euler_matrix ga (roe_velocity ul ur) (roe_enthalpy ga ul ur) n in
  A (wave_minus ga ul ur n) = sscal (w - c) (wave_minus ga ul ur n) /\
  A (wave_mid ga ul ur n) = sscal w (wave_mid ga ul ur n) /\
  A (wave_plus ga ul ur n) = sscal (w + c) (wave_plus ga ul ur n).
Proof.
  intros Hg Hl Hr Hn. pose proof (roe_sound_pos _ _ _ Hg Hl Hr) as Hc. pose proof (roe_c2 _ _ _ Hg Hl Hr) as HH.
  cbv zeta. unfold wave_minus, wave_mid, wave_plus, euler_matrix, roe_normal. cbv zeta. rewrite HH. clear HH.
  unfold unit_vec in Hn. assert (En : vy n * vy n = 1 - vx n * vx n) by lra.
  set (c := roe_sound ga ul ur) in *. set (rh := roe_density ul ur). set (v := roe_velocity ul ur).
  set (dp := pressure ga ur - pressure ga ul). clearbody dp c rh.
  unfold normal_velocity.
  assert (E1 : (s1 ur * vx n + s2 ur * vy n) / s0 ur - (s1 ul * vx n + s2 ul * vy n) / s0 ul
    = (s1 ur / s0 ur - s1 ul / s0 ul) * vx n + (s2 ur / s0 ur - s2 ul / s0 ul) * vy n).
  { destruct Hl, Hr. field. lra. }
  rewrite E1. set (dx := s1 ur / s0 ur - s1 ul / s0 ul). set (dy := s2 ur / s0 ur - s2 ul / s0 ul). clearbody dx dy.
  set (D := s0 ur - s0 ul). clearbody D. destruct v as [a b]. destruct n as [p q]. cbn [vx vy] in *.
  repeat split; apply st_eq; cbn [s0 s1 s2 s3 sadd sscal]; field_simplify_eq; try lra; ring [En] || idtac.
  all: replace (q^2) with (1 - p^2) by lra.
  all: replace (q^3) with (q * (1 - p^2)) by (replace (q^3) with (q * q^2) by ring; replace (q^2) with (1-p^2) by lra; ring).
  all: try ring.
Qed.

(** ** Roe flux in terms of waves; upwinding *)
Definition eps_fix : R := 1 / 10000.

Lemma harten_spec c l : 0 < c -> harten (fixeps * c) (Rabs l) = harten_speed eps_fix c l.
Proof.
  intros Hc. unfold harten, harten_speed, fixeps, eps_fix, Rltb.
  destruct (Rlt_dec (Rabs l) (1 / 10000 * c)); [|reflexivity].
  replace (Rabs l * Rabs l) with (l^2) by (rewrite <- Rabs_mult, Rabs_pos_eq by nra; ring).
  field. lra.
Qed.

Lemma roe_flux_waves G ul ur n : 1 < gam G -> physical (gam G) ul -> physical (gam G) ur ->
  let w := roe_normal ul ur n in let c := roe_sound (gam G) ul ur in
  roe_flux G ul ur n =
  sscal (1/2) (ssub (sadd (euler_flux (gam G) ul n) (euler_flux (gam G) ur n))
    (sadd (sscal (harten_speed eps_fix c (w - c)) (wave_minus (gam G) ul ur n))
      (sadd (sscal (harten_speed eps_fix c w) (wave_mid (gam G) ul ur n))
            (sscal (harten_speed eps_fix c (w + c)) (wave_plus (gam G) ul ur n))))).
Proof.
  intros Hg Hl Hr. cbv zeta. pose proof (roe_sound_pos _ _ _ Hg Hl Hr) as Hc.
  rewrite roe_flux_pair. cbv zeta. rewrite roe_adu_waves by auto.
  rewrite !(dflux_vars G) by auto.
  rewrite pair_roe_spec by auto. cbn [a_vn a_c]. rewrite !harten_spec by auto.
  apply st_eq; reflexivity.
Qed.

Lemma harten_large c l : eps_fix * c <= l -> 0 < c -> harten_speed eps_fix c l = l.
Proof.
  intros H Hc. unfold harten_speed. assert (0 < l) by (unfold eps_fix in H; lra).
  rewrite Rabs_pos_eq by lra. destruct (Rlt_dec l (eps_fix * c)); lra.
Qed.

Lemma roe_up G ul ur n : 1 < gam G -> physical (gam G) ul -> physical (gam G) ur ->
  (1 + eps_fix) * roe_sound (gam G) ul ur <= roe_normal ul ur n ->
  roe_flux G ul ur n = euler_flux (gam G) ul n.
Proof.
  intros Hg Hl Hr H. pose proof (roe_sound_pos _ _ _ Hg Hl Hr) as Hc.
  rewrite roe_flux_waves by auto. cbv zeta.
  assert (0 < eps_fix) by (unfold eps_fix; lra).
  rewrite !harten_large by nra. rewrite roe_property by auto.
  apply st_eq; cbn [sscal ssub sadd s0 s1 s2 s3]; field.
Qed.

(** ** Stationary contact *)
Lemma hllc_contact G ul ur n : 1 < gam G -> physical (gam G) ul -> physical (gam G) ur ->
  normal_velocity ul n = 0 -> normal_velocity ur n = 0 -> pressure (gam G) ul = pressure (gam G) ur ->
  hllc_flux G ul ur n = mks 0 (pressure (gam G) ul * vx n) (pressure (gam G) ul * vy n) 0.
Proof.
  intros Hg Hl Hr Hwl Hwr Hp. unfold hllc_flux. rewrite hll_speeds_spec, !vars_spec by auto. cbv zeta. vproj.
  rewrite Hwl, Hwr, <- Hp.
  pose proof (sound_pos _ _ Hg Hl). pose proof (sound_pos _ _ Hg Hr).
  pose proof (roe_sound_pos _ _ _ Hg Hl Hr).
  assert (Ew : roe_normal ul ur n = 0).
  { unfold roe_normal, roe_velocity, roe_mean; cbn [vx vy]. unfold normal_velocity in *.
    destruct Hl as [Hl _], Hr as [Hr _]. pose proof (sqrt_lt_R0 _ Hl). pose proof (sqrt_lt_R0 _ Hr).
    transitivity ((sqrt (s0 ul) * ((s1 ul * vx n + s2 ul * vy n) / s0 ul)
                 + sqrt (s0 ur) * ((s1 ur * vx n + s2 ur * vy n) / s0 ur)) / (sqrt (s0 ul) + sqrt (s0 ur))).
    field; repeat split; lra. rewrite Hwl, Hwr. field. lra. }
  rewrite Ew.
  set (sl := Rmin _ _). set (sr := Rmax _ _).
  assert (Hsl : sl < 0) by (unfold sl; apply Rmin_case; lra).
  assert (Hsr : 0 < sr) by (unfold sr; apply Rmax_case; lra).
  assert (Esm : hllc_sm ul ur 0 0 (pressure (gam G) ul) (pressure (gam G) ul) sl sr = 0).
  { unfold hllc_sm. unfold Rdiv. ring. }
  rewrite Esm. rewrite (Rltb_false 0 sl), (Rleb_true sl 0), (Rltb_false 0 0), (Rleb_true 0 0), (Rleb_true 0 sr) by lra.
  cbn [andb]. unfold getStarState, getDirectionalFlux. cbv zeta.
  apply st_eq; cbn [mkst cget s0 s1 s2 s3]; field; lra.
Qed.

Lemma harten_zero c : 0 < c -> harten_speed eps_fix c 0 = eps_fix * c / 2.
Proof.
  intros Hc. unfold harten_speed. rewrite Rabs_R0. unfold eps_fix.
  destruct (Rlt_dec 0 (1/10000*c)); [|lra]. field. lra.
Qed.

(** Roe's flux leaks at a stationary contact because the entropy fix also acts on the contact wave. *)
Lemma roe_contact G ul ur n : 1 < gam G -> physical (gam G) ul -> physical (gam G) ur ->
  normal_velocity ul n = 0 -> normal_velocity ur n = 0 -> pressure (gam G) ul = pressure (gam G) ur ->
  let c := roe_sound (gam G) ul ur in let p := pressure (gam G) ul in
  roe_flux G ul ur n = ssub (mks 0 (p * vx n) (p * vy n) 0) (sscal (eps_fix * c / 4) (ssub ur ul)).
Proof.
  intros Hg Hl Hr Hwl Hwr Hp. cbv zeta.
  pose proof (roe_sound_pos _ _ _ Hg Hl Hr) as Hc.
  assert (Ew : roe_normal ul ur n = 0).
  { unfold roe_normal, roe_velocity, roe_mean; cbn [vx vy]. unfold normal_velocity in *.
    destruct Hl as [Hl _], Hr as [Hr _]. pose proof (sqrt_lt_R0 _ Hl). pose proof (sqrt_lt_R0 _ Hr).
    transitivity ((sqrt (s0 ul) * ((s1 ul * vx n + s2 ul * vy n) / s0 ul)
                 + sqrt (s0 ur) * ((s1 ur * vx n + s2 ur * vy n) / s0 ur)) / (sqrt (s0 ul) + sqrt (s0 ur))).
    field; repeat split; lra. rewrite Hwl, Hwr. field. lra. }
  rewrite roe_flux_waves by auto. cbv zeta.
  rewrite <- (waves_jump (gam G) ul ur n Hg Hl Hr).
  rewrite Ew. rewrite harten_zero by auto.
  unfold wave_minus, wave_plus. cbv zeta. rewrite Hwl, Hwr, Hp, Ew.
  unfold euler_flux. cbv zeta. rewrite Hwl, Hwr, Hp.
  set (h := harten_speed eps_fix (roe_sound (gam G) ul ur) (0 - roe_sound (gam G) ul ur)).
  set (h' := harten_speed eps_fix (roe_sound (gam G) ul ur) (0 + roe_sound (gam G) ul ur)).
  set (W := wave_mid (gam G) ul ur n). clearbody W.
  apply st_eq; cbn [sscal ssub sadd s0 s1 s2 s3]; field; lra.
Qed.
