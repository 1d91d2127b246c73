(** The AUSM Jacobian is exact wherever the interface Mach number is not zero. *)
From Coq Require Import Reals Lra Psatz.
From Verif Require Import BaseR M_Gas M_Flux S_Gas S_Deriv S_Deriv2 Pf_Flux Pf_FluxCons Pf_HLLC Pf_FluxUp Pf_FluxMisc Pf_Deriv Pf_Gas Pf_FluxJac.
Open Scope R_scope.

(** ** Functions glued together from two differentiable pieces *)
Lemma dl_glue f g h t l : DL g t l -> DL h t l -> g t = h t -> f t = g t ->
  near t (fun s => (s <= t -> f s = g s) /\ (t <= s -> f s = h s)) -> DL f t l.
Proof.
  intros Hg Hh E Ef (d & Hd & N) eps Heps.
  destruct (Hg eps Heps) as [d1 K1]. destruct (Hh eps Heps) as [d2 K2].
  assert (Hm : 0 < Rmin d (Rmin d1 d2)) by (repeat apply Rmin_glb_lt; auto; apply cond_pos).
  exists (mkposreal _ Hm). intros x Hx Hxd. cbn [pos] in Hxd.
  assert (A1 : Rabs x < d) by (eapply Rlt_le_trans; [exact Hxd|apply Rmin_l]).
  assert (A2 : Rabs x < d1) by (eapply Rlt_le_trans; [exact Hxd|eapply Rle_trans; [apply Rmin_r|apply Rmin_l]]).
  assert (A3 : Rabs x < d2) by (eapply Rlt_le_trans; [exact Hxd|eapply Rle_trans; [apply Rmin_r|apply Rmin_r]]).
  destruct (N (t + x)) as [Ng Nh]. { replace (t + x - t) with x by ring. auto. }
  destruct (Rle_or_lt x 0) as [Hn|Hp].
  - rewrite Ng, Ef by lra. apply K1; auto.
  - rewrite Nh, Ef, E by lra. apply K2; auto.
Qed.

Lemma near_abs_lt t a b : a < t < b -> near t (fun s => a < s < b).
Proof.
  intros [A B]. exists (Rmin (t - a) (b - t)). split. { apply Rmin_glb_lt; lra. }
  intros s Hs. assert (X1 := Rlt_le_trans _ _ _ Hs (Rmin_l _ _)). assert (X2 := Rlt_le_trans _ _ _ Hs (Rmin_r _ _)).
  apply Rabs_def2 in X1. apply Rabs_def2 in X2. lra.
Qed.

Definition dmach_plus (m : R) : R := if Rleb (Rabs m) 1 then (1/2) * (m + 1) else if Rltb m (-1) then 0 else 1.
Definition dpress_plus (m : R) : R :=
  if Rleb (Rabs m) 1 then (1/2) * (m + 1) * (2 - m) - (1/4) * (m + 1) * (m + 1) else 0.

Lemma mach_plus_hi s : 1 <= s -> mach_plus s = s.
Proof. intros. unfold mach_plus. destruct (Rle_dec s (-1)); [lra|]. destruct (Rle_dec s 1); [|auto]. assert (s = 1) by lra. subst. field. Qed.
Lemma mach_plus_mid s : -1 <= s <= 1 -> mach_plus s = (s+1)^2/4.
Proof. intros. unfold mach_plus. destruct (Rle_dec s (-1)). assert (s = -1) by lra. subst; field. destruct (Rle_dec s 1); lra. Qed.
Lemma mach_plus_lo s : s <= -1 -> mach_plus s = 0.
Proof. intros. unfold mach_plus. destruct (Rle_dec s (-1)); [auto|lra]. Qed.
Lemma press_plus_hi s : 1 <= s -> press_plus s = 1.
Proof. intros. unfold press_plus. destruct (Rle_dec s (-1)); [lra|]. destruct (Rle_dec s 1); [|auto]. assert (s = 1) by lra. subst. field. Qed.
Lemma press_plus_mid s : -1 <= s <= 1 -> press_plus s = (s+1)^2 * (2 - s)/4.
Proof. intros. unfold press_plus. destruct (Rle_dec s (-1)). assert (s = -1) by lra. subst; field. destruct (Rle_dec s 1); lra. Qed.
Lemma press_plus_lo s : s <= -1 -> press_plus s = 0.
Proof. intros. unfold press_plus. destruct (Rle_dec s (-1)); [auto|lra]. Qed.

Lemma abs_le1 m : Rabs m <= 1 <-> -1 <= m <= 1.
Proof. unfold Rabs. destruct (Rcase_abs m); lra. Qed.

Ltac regions m :=
  destruct (Rlt_or_le m (-1)) as [?Ha|?Ha]; [|destruct (Req_dec m (-1)) as [?Hb|?Hb];
   [|destruct (Rlt_or_le m 1) as [?Hc|?Hc]; [|destruct (Req_dec m 1) as [?Hd|?Hd]]]].

Lemma d_mach_plus m : DL mach_plus m (dmach_plus m).
Proof.
  assert (Q : forall x, DL (fun s => (s + 1)^2/4) x ((1/2) * (x + 1))).
  { intros x. ad; try lra; field. }
  unfold dmach_plus. regions m.
  - rewrite Rleb_false, Rltb_true by (auto; apply Rnot_le_lt; intro K; apply abs_le1 in K; lra).
    eapply dl_local with (f := fun _ => 0); [|apply dl_const].
    eapply near_imp; [|apply (near_abs_lt m (m-1) (-1)); lra]. cbv beta. intros s Hs. apply mach_plus_lo; lra.
  - subst m. rewrite Rleb_true by (apply abs_le1; lra).
    apply (dl_glue _ (fun _ => 0) (fun s => (s+1)^2/4)).
    + eapply dl_eq; [apply dl_const|field]. + apply Q. + field. + apply mach_plus_lo; lra.
    + eapply near_imp; [|apply (near_abs_lt (-1) (-2) 0); lra]. cbv beta. intros s Hs.
      split; intros; [apply mach_plus_lo|apply mach_plus_mid]; lra.
  - rewrite Rleb_true by (apply abs_le1; lra). eapply dl_local; [|apply Q].
    eapply near_imp; [|apply (near_abs_lt m (-1) 1); lra]. cbv beta. intros s Hs. apply mach_plus_mid; lra.
  - subst m. rewrite Rleb_true by (apply abs_le1; lra).
    apply (dl_glue _ (fun s => (s+1)^2/4) (fun s => s)).
    + apply Q. + eapply dl_eq; [apply dl_id|field]. + field. + apply mach_plus_mid; lra.
    + eapply near_imp; [|apply (near_abs_lt 1 0 2); lra]. cbv beta. intros s Hs.
      split; intros; [apply mach_plus_mid|apply mach_plus_hi]; lra.
  - rewrite Rleb_false, Rltb_false by (try lra; apply Rnot_le_lt; intro K; apply abs_le1 in K; lra).
    eapply dl_local with (f := fun s => s); [|apply dl_id].
    eapply near_imp; [|apply (near_abs_lt m 1 (m+1)); lra]. cbv beta. intros s Hs. apply mach_plus_hi; lra.
Qed.

Lemma d_press_plus m : DL press_plus m (dpress_plus m).
Proof.
  assert (Q : forall x, DL (fun s => (s + 1)^2 * (2 - s)/4) x ((1/2) * (x + 1) * (2 - x) - (1/4) * (x + 1) * (x + 1))).
  { intros x. ad; try lra; field. }
  unfold dpress_plus. regions m.
  - rewrite Rleb_false by (apply Rnot_le_lt; intro K; apply abs_le1 in K; lra).
    eapply dl_local with (f := fun _ => 0); [|apply dl_const].
    eapply near_imp; [|apply (near_abs_lt m (m-1) (-1)); lra]. cbv beta. intros s Hs. apply press_plus_lo; lra.
  - subst m. rewrite Rleb_true by (apply abs_le1; lra).
    apply (dl_glue _ (fun _ => 0) (fun s => (s+1)^2*(2-s)/4)).
    + eapply dl_eq; [apply dl_const|field]. + apply Q. + field. + apply press_plus_lo; lra.
    + eapply near_imp; [|apply (near_abs_lt (-1) (-2) 0); lra]. cbv beta. intros s Hs.
      split; intros; [apply press_plus_lo|apply press_plus_mid]; lra.
  - rewrite Rleb_true by (apply abs_le1; lra). eapply dl_local; [|apply Q].
    eapply near_imp; [|apply (near_abs_lt m (-1) 1); lra]. cbv beta. intros s Hs. apply press_plus_mid; lra.
  - subst m. rewrite Rleb_true by (apply abs_le1; lra).
    apply (dl_glue _ (fun s => (s+1)^2*(2-s)/4) (fun s => 1)).
    + apply Q. + eapply dl_eq; [apply dl_const|field]. + field. + apply press_plus_mid; lra.
    + eapply near_imp; [|apply (near_abs_lt 1 0 2); lra]. cbv beta. intros s Hs.
      split; intros; [apply press_plus_mid|apply press_plus_hi]; lra.
  - rewrite Rleb_false by (apply Rnot_le_lt; intro K; apply abs_le1 in K; lra).
    eapply dl_local with (f := fun s => 1); [|apply dl_const].
    eapply near_imp; [|apply (near_abs_lt m 1 (m+1)); lra]. cbv beta. intros s Hs. apply press_plus_hi; lra.
Qed.

(** ** The splittings as coded *)
Lemma ausm_L_split m p : ausm_L m p = (mach_plus m, p * press_plus m).
Proof.
  unfold ausm_L. destruct (Rleb_spec (Rabs m) 1) as [H|H].
  - apply abs_le1 in H. rewrite mach_plus_mid, press_plus_mid by auto. f_equal; field.
  - destruct (Rltb_spec m (-1)). 
    + rewrite mach_plus_lo, press_plus_lo by lra. f_equal; ring.
    + assert (1 < m). { apply Rnot_le_lt. intro K. assert (Rabs m <= 1) by (apply abs_le1; lra). lra. }
      rewrite mach_plus_hi, press_plus_hi by lra. f_equal; ring.
Qed.
Lemma ausm_R_split m p : ausm_R m p = (- mach_plus (- m), p * press_plus (- m)).
Proof.
  unfold ausm_R. destruct (Rleb_spec (Rabs m) 1) as [H|H].
  - apply abs_le1 in H. rewrite mach_plus_mid, press_plus_mid by lra. f_equal; field.
  - destruct (Rltb_spec m (-1)). 
    + rewrite mach_plus_hi, press_plus_hi by lra. f_equal; ring.
    + assert (1 < m). { apply Rnot_le_lt. intro K. assert (Rabs m <= 1) by (apply abs_le1; lra). lra. }
      rewrite mach_plus_lo, press_plus_lo by lra. f_equal; ring.
Qed.

Lemma ausm_dL_split m p dmn dp : ausm_dL m p dmn dp =
  (mach_plus m, sscal (dmach_plus m) dmn, sadd (sscal (press_plus m) dp) (sscal (p * dpress_plus m) dmn)).
Proof.
  unfold ausm_dL, dmach_plus, dpress_plus. destruct (Rleb_spec (Rabs m) 1) as [H|H].
  - apply abs_le1 in H. rewrite mach_plus_mid, press_plus_mid by auto. cbv zeta.
    f_equal; [f_equal|]; [field|..]; apply st_eq; unfold mkst; cbn [sscal sadd s0 s1 s2 s3 cget]; field.
  - destruct (Rltb_spec m (-1)). 
    + rewrite mach_plus_lo, press_plus_lo by lra. f_equal; [f_equal|]; apply st_eq; unfold szero; cbn [sscal sadd s0 s1 s2 s3]; ring.
    + assert (1 < m). { apply Rnot_le_lt. intro K. assert (Rabs m <= 1) by (apply abs_le1; lra). lra. }
      rewrite mach_plus_hi, press_plus_hi by lra. f_equal; [f_equal|]; apply st_eq; unfold szero; cbn [sscal sadd s0 s1 s2 s3]; ring.
Qed.
Lemma ausm_dR_split m p dmn dp : ausm_dR m p dmn dp =
  (- mach_plus (- m), sscal (dmach_plus (- m)) dmn, ssub (sscal (press_plus (- m)) dp) (sscal (p * dpress_plus (- m)) dmn)).
Proof.
  unfold ausm_dR, dmach_plus, dpress_plus. rewrite Rabs_Ropp. destruct (Rleb_spec (Rabs m) 1) as [H|H].
  - apply abs_le1 in H. rewrite mach_plus_mid, press_plus_mid by lra. cbv zeta.
    f_equal; [f_equal|]; [field|..]; apply st_eq; unfold mkst; cbn [sscal sadd ssub s0 s1 s2 s3 cget]; field.
  - destruct (Rltb_spec m (-1)). 
    + rewrite mach_plus_hi, press_plus_hi, Rltb_false by lra. f_equal; [f_equal|]; try ring; apply st_eq; unfold szero; cbn [sscal ssub sadd s0 s1 s2 s3]; ring.
    + assert (1 < m). { apply Rnot_le_lt. intro K. assert (Rabs m <= 1) by (apply abs_le1; lra). lra. }
      rewrite mach_plus_lo, press_plus_lo, Rltb_true by lra. f_equal; [f_equal|]; try ring; apply st_eq; unfold szero; cbn [sscal ssub sadd s0 s1 s2 s3]; ring.
Qed.

Lemma d_machn G u n : 1 < gam G -> physical (gam G) u ->
  grad_is (fun x => normal_velocity x n / sound (gam G) x) u
    (ausm_dmn u n (sound (gam G) u) (normal_velocity u n) (getJacobianSoundSpeedWrtConserved G u szero)).
Proof.
  intros Hg Hp c t du H. pose proof Hp as [Hr _]. assert (Hr0 : s0 u <> 0) by lra.
  pose proof (d_normal n u Hr0 c t du H) as D1. pose proof (d_sound G u Hg Hp c t du H) as D2.
  pose proof (sound_pos _ _ Hg Hp) as Hc. cbv beta in *.
  ad; at_t H; try lra. set (J := getJacobianSoundSpeedWrtConserved G u szero). set (cc := sound _ _) in *. clearbody J cc.
  unfold ausm_dmn, normal_velocity, sdot; cbn [s0 s1 s2 s3]. field. split; lra.
Qed.

Lemma ausm_formula G ul ur n : 1 < gam G -> physical (gam G) ul -> physical (gam G) ur ->
  ausm_flux G ul ur n =
  let ga := gam G in
  let ml := normal_velocity ul n / sound ga ul in let mr := normal_velocity ur n / sound ga ur in
  let M := mach_plus ml - mach_plus (- mr) in
  let P := pressure ga ul * press_plus ml + pressure ga ur * press_plus (- mr) in
  let a := sscal (sound ga ul) (mks (s0 ul) (s1 ul) (s2 ul) (s3 ul + pressure ga ul)) in
  let b := sscal (sound ga ur) (mks (s0 ur) (s1 ur) (s2 ur) (s3 ur + pressure ga ur)) in
  sadd (ssub (sscal (M/2) (sadd a b)) (sscal (Rabs M / 2) (ssub b a))) (mks 0 (P * vx n) (P * vy n) 0).
Proof.
  intros Hg Hl Hr. unfold ausm_flux. rewrite !vars_spec by auto. cbv zeta. vproj. rewrite !sound_spec.
  rewrite ausm_L_split, ausm_R_split. cbn [fst snd].
  replace (mach_plus (normal_velocity ul n / sound (gam G) ul) + - mach_plus (- (normal_velocity ur n / sound (gam G) ur)))
   with (mach_plus (normal_velocity ul n / sound (gam G) ul) - mach_plus (- (normal_velocity ur n / sound (gam G) ur))) by ring.
  apply st_eq; cbn [sscal sadd ssub s0 s1 s2 s3]; ring.
Qed.

Lemma dsound_code G u : s0 u <> 0 ->
  getJacobianSoundSpeed G (s0 u) (pressure (gam G) u) (getJacobianPressureWrtConserved G u) (sound (gam G) u) szero
  = getJacobianSoundSpeedWrtConserved G u szero.
Proof.
  intros. unfold getJacobianSoundSpeedWrtConserved. rewrite pressure_code by auto. rewrite sound_spec. reflexivity.
Qed.

(** the convected quantities c (rho, rho v, rho H) and their gradients *)
Definition ausm_q (ga : R) (u : st) : st := sscal (sound ga u) (mks (s0 u) (s1 u) (s2 u) (s3 u + pressure ga u)).
Definition ausm_dq (c : R) (dc dp u : st) (p : R) (i : ix) : st :=
  match i with
  | I3 => sadd (sscal (s3 u + p) dc) (sscal c (sadd (unit_st I3) dp))
  | _ => sadd (sscal (cget u i) dc) (sscal c (unit_st i))
  end.
Lemma d_ausm_q G u i : 1 < gam G -> physical (gam G) u ->
  grad_is (fun x => cget (ausm_q (gam G) x) i) u
    (ausm_dq (sound (gam G) u) (getJacobianSoundSpeedWrtConserved G u szero) (getJacobianPressureWrtConserved G u) u
             (pressure (gam G) u) i).
Proof.
  intros Hg Hp c t du H. pose proof Hp as [Hr _]. assert (Hr0 : s0 u <> 0) by lra.
  pose proof (d_pressure_code G u Hr0 c t du H) as D1. pose proof (d_sound G u Hg Hp c t du H) as D2. cbv beta in *.
  set (Jc := getJacobianSoundSpeedWrtConserved G u szero) in *. set (Jp := getJacobianPressureWrtConserved G u) in *. clearbody Jc Jp.
  destruct i; unfold ausm_q, ausm_dq; cbn [cget sscal s0 s1 s2 s3]; sdl; cbn [cget];
    (ad; at_t H; ring).
Qed.

Definition nvec (n : v2) : st := mks 0 (vx n) (vy n) 0.

Lemma ausm_jac_exact G ul ur n : 1 < gam G -> physical (gam G) ul -> physical (gam G) ur ->
  mach_plus (normal_velocity ul n / sound (gam G) ul) - mach_plus (- (normal_velocity ur n / sound (gam G) ur)) <> 0 ->
  jac2_is (fun x y => ausm_flux G x y n) ul ur (mneg (dfdl (ausm_jac G ul ur n))) (dfdr (ausm_jac G ul ur n)).
Proof.
  intros Hg Hl Hr HM i. pose proof Hl as [Rl _]. pose proof Hr as [Rr _].
  assert (Rl0 : s0 ul <> 0) by lra. assert (Rr0 : s0 ur <> 0) by lra.
  eapply (grad2_local (gam G)); auto.
  { intros x y Hx Hy. rewrite (ausm_formula G x y n Hg Hx Hy) at 1. cbv zeta. reflexivity. }
  intros cl cr t dul dur Cl Cr.
  fold (ausm_q (gam G)).
  pose proof (d_machn G ul n Hg Hl cl t dul Cl) as Dml. pose proof (d_machn G ur n Hg Hr cr t dur Cr) as Dmr.
  pose proof (d_pressure_code G ul Rl0 cl t dul Cl) as Dpl. pose proof (d_pressure_code G ur Rr0 cr t dur Cr) as Dpr.
  pose proof (d_ausm_q G ul i Hg Hl cl t dul Cl) as Dql. pose proof (d_ausm_q G ur i Hg Hr cr t dur Cr) as Dqr.
  cbv beta in *.
  unfold ausm_jac. rewrite !vars_spec by auto. cbv zeta. vproj. rewrite !sound_spec, !dsound_code by auto.
  rewrite ausm_dL_split, ausm_dR_split.
  pose proof (cv_at _ _ _ _ Cl) as Al. pose proof (cv_at _ _ _ _ Cr) as Ar.
  assert (Dpp : DL (fun s => press_plus (normal_velocity (cl s) n / sound (gam G) (cl s))) t
     (dpress_plus (normal_velocity ul n / sound (gam G) ul) * sdot (ausm_dmn ul n (sound (gam G) ul) (normal_velocity ul n)
            (getJacobianSoundSpeedWrtConserved G ul szero)) dul)).
  { eapply dl_eq. apply (derivable_pt_lim_comp (fun s => normal_velocity (cl s) n / sound (gam G) (cl s)) press_plus); [exact Dml|apply d_press_plus].
    rewrite Al. ring. }
  assert (Dmp : DL (fun s => mach_plus (normal_velocity (cl s) n / sound (gam G) (cl s))) t
     (dmach_plus (normal_velocity ul n / sound (gam G) ul) * sdot (ausm_dmn ul n (sound (gam G) ul) (normal_velocity ul n)
            (getJacobianSoundSpeedWrtConserved G ul szero)) dul)).
  { eapply dl_eq. apply (derivable_pt_lim_comp (fun s => normal_velocity (cl s) n / sound (gam G) (cl s)) mach_plus); [exact Dml|apply d_mach_plus].
    rewrite Al. ring. }
  assert (Dmr' := dl_opp _ _ _ Dmr). cbv beta in Dmr'.
  assert (Dpm : DL (fun s => press_plus (- (normal_velocity (cr s) n / sound (gam G) (cr s)))) t
     (- (dpress_plus (- (normal_velocity ur n / sound (gam G) ur)) * sdot (ausm_dmn ur n (sound (gam G) ur) (normal_velocity ur n)
            (getJacobianSoundSpeedWrtConserved G ur szero)) dur))).
  { eapply dl_eq. apply (derivable_pt_lim_comp (fun s => - (normal_velocity (cr s) n / sound (gam G) (cr s))) press_plus); [exact Dmr'|apply d_press_plus].
    rewrite Ar. ring. }
  assert (Dmm : DL (fun s => mach_plus (- (normal_velocity (cr s) n / sound (gam G) (cr s)))) t
     (- (dmach_plus (- (normal_velocity ur n / sound (gam G) ur)) * sdot (ausm_dmn ur n (sound (gam G) ur) (normal_velocity ur n)
            (getJacobianSoundSpeedWrtConserved G ur szero)) dur))).
  { eapply dl_eq. apply (derivable_pt_lim_comp (fun s => - (normal_velocity (cr s) n / sound (gam G) (cr s))) mach_plus); [exact Dmr'|apply d_mach_plus].
    rewrite Ar. ring. }
  clear Dml Dmr Dmr'.
  pose proof (dl_abs _ t _ (dl_minus _ _ t _ _ Dmp Dmm)) as Dabs. cbv beta in Dabs. rewrite Al, Ar in Dabs. specialize (Dabs HM).
  set (M := mach_plus (normal_velocity ul n / sound (gam G) ul) - mach_plus (- (normal_velocity ur n / sound (gam G) ur))) in *.
  replace (mach_plus (normal_velocity ul n / sound (gam G) ul) + - mach_plus (- (normal_velocity ur n / sound (gam G) ur))) with M by (unfold M; ring).
  cbn [dfdl dfdr].
  set (dml := ausm_dmn ul _ _ _ _) in *. set (dmr := ausm_dmn ur _ _ _ _) in *.
  set (dMl := sscal (dmach_plus (normal_velocity ul n / sound (gam G) ul)) dml).
  set (dMr := sscal (dmach_plus (- (normal_velocity ur n / sound (gam G) ur))) dmr).
  set (dPl := sadd (sscal (press_plus (normal_velocity ul n / sound (gam G) ul)) _) _).
  set (dPr := ssub (sscal (press_plus (- (normal_velocity ur n / sound (gam G) ur))) _) _).
  set (sg := if Rleb 0 M then 1 else -1) in *.
  set (dcl := getJacobianSoundSpeedWrtConserved G ul szero) in *. set (dcr := getJacobianSoundSpeedWrtConserved G ur szero) in *.
  set (dpl := getJacobianPressureWrtConserved G ul) in *. set (dpr := getJacobianPressureWrtConserved G ur) in *.
  set (al := sound (gam G) ul) in *. set (ar := sound (gam G) ur) in *.
  set (pl := pressure (gam G) ul) in *. set (pr := pressure (gam G) ur) in *.
  set (dql := ausm_dq al dcl dpl ul pl i) in *. set (dqr := ausm_dq ar dcr dpr ur pr i) in *.
  set (ql := cget (sscal al (mks (s0 ul) (s1 ul) (s2 ul) (s3 ul + pl))) i). set (qr := cget (sscal ar (mks (s0 ur) (s1 ur) (s2 ur) (s3 ur + pr))) i).
  match goal with |- DL _ _ (sdot ?TL _ + sdot ?TR _) =>
    assert (ETL : TL = sadd (ssub (sadd (sscal ((ql + qr)/2) dMl) (sscal (M/2) dql))
                          (ssub (sscal (sg * (qr - ql)/2) dMl) (sscal (Rabs M/2) dql))) (sscal (cget (nvec n) i) dPl));
    [|assert (ETR : TR = sadd (ssub (sadd (sscal ((ql + qr)/2) dMr) (sscal (M/2) dqr))
                          (sadd (sscal (sg * (qr - ql)/2) dMr) (sscal (Rabs M/2) dqr))) (sscal (cget (nvec n) i) dPr))] end.
  { unfold ql, qr, dql. clearbody M sg dMl dMr dPl dPr al ar dcl dcr dpl dpr pl pr. clear.
    destruct i; unfold ausm_dq, nvec, unit_st, mneg, mget, mkmat, mkst; apply st_eq;
      cbn [mrow r0 r1 r2 r3 s0 s1 s2 s3 cget ix_eqb ssub sadd sneg sscal]; field. }
  { unfold ql, qr, dqr. clearbody M sg dMl dMr dPl dPr al ar dcl dcr dpl dpr pl pr. clear.
    destruct i; unfold ausm_dq, nvec, unit_st, mneg, mget, mkmat, mkst; apply st_eq;
      cbn [mrow r0 r1 r2 r3 s0 s1 s2 s3 cget ix_eqb ssub sadd sneg sscal]; field. }
  rewrite ETL, ETR. clear ETL ETR. unfold dMl, dMr, dPl, dPr. sdl.
  (* the function along the curves, with the row's scalars named *)
  eapply dl_ext with (f := fun s => 
     (mach_plus (normal_velocity (cl s) n / sound (gam G) (cl s)) - mach_plus (- (normal_velocity (cr s) n / sound (gam G) (cr s)))) / 2
        * (cget (ausm_q (gam G) (cl s)) i + cget (ausm_q (gam G) (cr s)) i)
     - Rabs (mach_plus (normal_velocity (cl s) n / sound (gam G) (cl s)) - mach_plus (- (normal_velocity (cr s) n / sound (gam G) (cr s)))) / 2
        * (cget (ausm_q (gam G) (cr s)) i - cget (ausm_q (gam G) (cl s)) i)
     + (pressure (gam G) (cl s) * press_plus (normal_velocity (cl s) n / sound (gam G) (cl s))
        + pressure (gam G) (cr s) * press_plus (- (normal_velocity (cr s) n / sound (gam G) (cr s)))) * cget (nvec n) i).
  { intros s. destruct i; cbn [cget nvec ausm_q sscal sadd ssub s0 s1 s2 s3]; ring. }
  assert (Eql : cget (ausm_q (gam G) (cl t)) i = ql) by (rewrite Al; reflexivity).
  assert (Eqr : cget (ausm_q (gam G) (cr t)) i = qr) by (rewrite Ar; reflexivity).
  set (x1 := sdot dml dul) in *. set (x2 := sdot dmr dur) in *. set (x3 := sdot dpl dul) in *. set (x4 := sdot dpr dur) in *.
  set (x5 := sdot dql dul) in *. set (x6 := sdot dqr dur) in *.
  ad; try lra. rewrite Eql, Eqr, Al, Ar. fold al ar pl pr. fold M.
  clearbody ql qr x1 x2 x3 x4 x5 x6. field.
Qed.
