(** Derivatives of the Roe averages as coded (getJacobiansRoeAveragesWrtConserved) *)
From Coq Require Import Reals Lra Psatz.
From Verif Require Import BaseR M_Gas M_Flux S_Gas S_Deriv S_Deriv2 Pf_Flux Pf_FluxCons Pf_HLLC Pf_FluxUp Pf_FluxMisc Pf_Deriv Pf_Gas Pf_FluxJac.
Open Scope R_scope.

Lemma sqrt_ratio_pos x y : 0 < s0 x -> 0 < s0 y -> 0 < sqrt (s0 y / s0 x).
Proof. intros. apply sqrt_lt_R0. apply Rdiv_lt_0_compat; auto. Qed.

(** What the derivative record means *)
Definition roe_deriv_ok (ga : R) (n : v2) (ul ur : st) (Di Dj : droe) : Prop :=
  grad2_is (fun x y => sqrt (s0 y / s0 x)) ul ur (dR_ Di) (dR_ Dj) /\
  grad2_is (fun x y => roe_density x y) ul ur (drho_ Di) (drho_ Dj) /\
  grad2_is (fun x y => vx (roe_velocity x y)) ul ur (dvx_ Di) (dvx_ Dj) /\
  grad2_is (fun x y => vy (roe_velocity x y)) ul ur (dvy_ Di) (dvy_ Dj) /\
  grad2_is (fun x y => (vx (roe_velocity x y))^2 + (vy (roe_velocity x y))^2) ul ur (dvm2_ Di) (dvm2_ Dj) /\
  grad2_is (fun x y => roe_normal x y n) ul ur (dvn_ Di) (dvn_ Dj) /\
  grad2_is (fun x y => roe_enthalpy ga x y) ul ur (dH_ Di) (dH_ Dj) /\
  grad2_is (fun x y => roe_sound ga x y) ul ur (dc_ Di) (dc_ Dj).

Lemma vars_grads G n u : s0 u <> 0 ->
  let d := getJacobianVarsWrtConserved G u n dvars0 in
  grad_is (fun w => s1 w / s0 w) u (d_vx d) /\ grad_is (fun w => s2 w / s0 w) u (d_vy d) /\
  grad_is (fun w => normal_velocity w n) u (d_vn d) /\
  grad_is (pressure (gam G)) u (d_p d) /\ grad_is (enthalpy (gam G)) u (d_H d).
Proof.
  intros Hr d. unfold d, getJacobianVarsWrtConserved, dvars0. cbv zeta. cbn [d_vx d_vy d_vn d_p d_H]. rewrite pressure_code by auto.
  split; [|split; [|split; [|split]]].
  4: apply d_pressure_code; auto.
  all: intros c t du H; try pose proof (d_pressure_code G u Hr c t du H) as Hp.
  4: set (J := getJacobianPressureWrtConserved G u) in *; unfold enthalpy.
  3: unfold normal_velocity.
  all: ad; at_t H; auto; unfold sdot, szero; cbn [s0 s1 s2 s3]; field; auto.
Qed.

(** mean of two quantities *)
Lemma d_mean (r a b : R -> R) t dr da db : DL r t dr -> DL a t da -> DL b t db -> 0 < r t ->
  DL (fun s => (r s * b s + a s) / (r s + 1)) t
     (/ ((r t + 1) * (r t + 1)) * ((dr * b t + r t * db + da) * (r t + 1) - (r t * b t + a t) * dr)).
Proof. intros Hr Ha Hb Hp. ad; try lra; try (field; lra). Qed.

Lemma grad2_mean ul ur (f : st -> R) gi gj Ri Rj : 0 < s0 ul -> 0 < s0 ur ->
  grad2_is (fun x y => sqrt (s0 y / s0 x)) ul ur Ri Rj -> grad_is f ul gi -> grad_is f ur gj ->
  grad2_is (fun x y => roe_mean x y (f x) (f y)) ul ur
   (let r := sqrt (s0 ur / s0 ul) in
    sscal (/ ((r+1)*(r+1))) (ssub (sscal (r + 1) (sadd (sscal (f ur) Ri) gi)) (sscal (r * f ur + f ul) Ri)))
   (let r := sqrt (s0 ur / s0 ul) in
    sscal (/ ((r+1)*(r+1))) (ssub (sscal (r + 1) (sadd (sscal (f ur) Rj) (sscal r gj))) (sscal (r * f ur + f ul) Rj))).
Proof.
  intros Pl Pr DR Df Df' cl cr t dul dur Cl Cr. cbv zeta.
  pose proof (cv_at _ _ _ _ Cl) as Al. pose proof (cv_at _ _ _ _ Cr) as Ar.
  eapply dl_local with (f := fun s => (sqrt (s0 (cr s) / s0 (cl s)) * f (cr s) + f (cl s)) / (sqrt (s0 (cr s) / s0 (cl s)) + 1)).
  { eapply near_imp; [|apply (near_and t (fun s => 0 < s0 (cl s)) (fun s => 0 < s0 (cr s)))].
    - cbv beta. intros s [A B]. symmetry. apply roe_mean_ratio; auto.
    - apply (near_lt (fun _ => 0) (fun s => s0 (cl s)) t 0 (s0 dul)); [apply dl_const|exact (cv0 _ _ _ _ Cl)|rewrite Al; auto].
    - apply (near_lt (fun _ => 0) (fun s => s0 (cr s)) t 0 (s0 dur)); [apply dl_const|exact (cv0 _ _ _ _ Cr)|rewrite Ar; auto]. }
  pose proof (DR cl cr t dul dur Cl Cr) as D1. pose proof (Df cl t dul Cl) as D2. pose proof (Df' cr t dur Cr) as D3. cbv beta in *.
  eapply dl_eq. apply (d_mean _ _ _ t _ _ _ D1 D2 D3).
  { rewrite Al, Ar. apply sqrt_ratio_pos; auto. }
  cbv beta. rewrite Al, Ar. sdl. ring.
Qed.

Lemma grad2_eq f ul ur a b a' b' : grad2_is f ul ur a b -> a = a' -> b = b' -> grad2_is f ul ur a' b'.
Proof. intros H -> ->. exact H. Qed.

Lemma grad2_R ul ur : 0 < s0 ul -> 0 < s0 ur ->
  let r := sqrt (s0 ur / s0 ul) in
  grad2_is (fun x y => sqrt (s0 y / s0 x)) ul ur
   (mks ((1/2) / r * (- s0 ur) / (s0 ul * s0 ul)) 0 0 0) (mks ((1/2) / r / s0 ul) 0 0 0).
Proof.
  intros Pl Pr r cl cr t dul dur Cl Cr.
  pose proof (cv_at _ _ _ _ Cl) as Al. pose proof (cv_at _ _ _ _ Cr) as Ar.
  assert (0 < s0 ur / s0 ul) by (apply Rdiv_lt_0_compat; auto).
  ad; rewrite ?Al, ?Ar; try lra. fold r.
  pose proof (sqrt_ratio_pos ul ur Pl Pr) as Hp. fold r in Hp. unfold sdot; cbn [s0 s1 s2 s3]. field. split; lra.
Qed.

Lemma roe_derivs G n ul ur : 1 < gam G -> physical (gam G) ul -> physical (gam G) ur ->
  let di := getJacobianVarsWrtConserved G ul n dvars0 in
  let dj := getJacobianVarsWrtConserved G ur n dvars0 in
  let D := getJacobiansRoeAverages G ul ur n (mkv (s1 ul / s0 ul) (s2 ul / s0 ul)) (enthalpy (gam G) ul)
              (mkv (s1 ur / s0 ur) (s2 ur / s0 ur)) (enthalpy (gam G) ur) (d_H di) (d_H dj) in
  roe_deriv_ok (gam G) n ul ur (fst D) (snd D).
Proof.
  intros Hg Hl Hr di dj. pose proof Hl as [Pl _]. pose proof Hr as [Pr _].
  assert (Rl0 : s0 ul <> 0) by lra. assert (Rr0 : s0 ur <> 0) by lra.
  destruct (vars_grads G n ul Rl0) as (Dx1 & Dy1 & _ & _ & DH1).
  destruct (vars_grads G n ur Rr0) as (Dx2 & Dy2 & _ & _ & DH2).
  fold di in Dx1, Dy1, DH1. fold dj in Dx2, Dy2, DH2.
  pose proof (grad2_R ul ur Pl Pr) as DR. cbv zeta in DR.
  pose proof (sqrt_ratio_pos ul ur Pl Pr) as Hp.
  set (r := sqrt (s0 ur / s0 ul)) in *.
  set (Ri := mks (1 / 2 / r * - s0 ur / (s0 ul * s0 ul)) 0 0 0) in *. set (Rj := mks (1 / 2 / r / s0 ul) 0 0 0) in *.
  cbv zeta. unfold getJacobiansRoeAverages. cbv zeta. cbn [fst snd].
  pose proof (pair_roe_spec G ul ur n Hg Hl Hr) as EA. unfold pair_roe in EA. rewrite !vars_spec in EA by auto.
  cbv zeta in EA. cbn [v_v v_H] in EA. rewrite EA. cbn [a_R a_v a_c vx vy]. fold r Ri Rj.
  set (dHi := d_H di) in *. set (dHj := d_H dj) in *.
  pose proof (grad2_mean ul ur _ _ _ _ _ Pl Pr DR Dx1 Dx2) as Gx. pose proof (grad2_mean ul ur _ _ _ _ _ Pl Pr DR Dy1 Dy2) as Gy.
  pose proof (grad2_mean ul ur _ _ _ _ _ Pl Pr DR DH1 DH2) as GH. cbv zeta in Gx, Gy, GH. fold r in Gx, Gy, GH.
  match type of Gx with grad2_is _ _ _ ?a ?b => 
    change (grad2_is (fun x y => vx (roe_velocity x y)) ul ur a b) in Gx; set (gxi := a) in Gx; set (gxj := b) in Gx end.
  match type of Gy with grad2_is _ _ _ ?a ?b => 
    change (grad2_is (fun x y => vy (roe_velocity x y)) ul ur a b) in Gy; set (gyi := a) in Gy; set (gyj := b) in Gy end.
  match type of GH with grad2_is _ _ _ ?a ?b => 
    change (grad2_is (fun x y => roe_enthalpy (gam G) x y) ul ur a b) in GH; set (gHi := a) in GH; set (gHj := b) in GH end.
  match goal with |- roe_deriv_ok _ _ _ _ (mkdroe _ _ ?a ?b _ _ _ _) (mkdroe _ _ ?a' ?b' _ _ _ _) =>
    assert (E1 : a = gxi); [|assert (E2 : b = gyi); [|assert (E3 : a' = gxj); [|assert (E4 : b' = gyj)]]] end.
  { unfold gxi, Ri, di, getJacobianVarsWrtConserved, dvars0. apply st_eq; cbn [d_vx szero s0 s1 s2 s3 sscal sadd ssub]; field; lra. }
  { unfold gyi, Ri, di, getJacobianVarsWrtConserved, dvars0. apply st_eq; cbn [d_vy szero s0 s1 s2 s3 sscal sadd ssub]; field; lra. }
  { unfold gxj, Rj, dj, getJacobianVarsWrtConserved, dvars0. apply st_eq; cbn [d_vx szero s0 s1 s2 s3 sscal sadd ssub]; field; lra. }
  { unfold gyj, Rj, dj, getJacobianVarsWrtConserved, dvars0. apply st_eq; cbn [d_vy szero s0 s1 s2 s3 sscal sadd ssub]; field; lra. }
  rewrite E1, E2, E3, E4. clear E1 E2 E3 E4.
  clearbody gxi gxj gyi gyj.
  set (X := vx (roe_velocity ul ur)) in *. set (Y := vy (roe_velocity ul ur)) in *.
  unfold roe_deriv_ok. cbn [dR_ drho_ dvx_ dvy_ dvm2_ dvn_ dH_ dc_].
  assert (Gv : grad2_is (fun x y => (vx (roe_velocity x y))^2 + (vy (roe_velocity x y))^2) ul ur
     (mkst (fun k => 2 * (X * cget gxi k + Y * cget gyi k))) (mkst (fun k => 2 * (X * cget gxj k + Y * cget gyj k)))).
  { eapply grad2_eq with (a := sscal 2 (sadd (sscal X gxi) (sscal Y gyi))) (b := sscal 2 (sadd (sscal X gxj) (sscal Y gyj))); [|reflexivity..].
    intros cl cr t dul dur Cl Cr. pose proof (Gx cl cr t dul dur Cl Cr) as D1. pose proof (Gy cl cr t dul dur Cl Cr) as D2. cbv beta in *.
    ad. rewrite (cv_at _ _ _ _ Cl), (cv_at _ _ _ _ Cr). fold X Y. sdl. ring. }
  assert (GHH : grad2_is (fun x y => roe_enthalpy (gam G) x y) ul ur
     (mkst (fun k => ((cget Ri k * enthalpy (gam G) ur + cget dHi k) * (r + 1) - (r * enthalpy (gam G) ur + enthalpy (gam G) ul) * cget Ri k) / ((r + 1) * (r + 1))))
     (mkst (fun k => ((cget Rj k * enthalpy (gam G) ur + r * cget dHj k) * (r + 1) - (r * enthalpy (gam G) ur + enthalpy (gam G) ul) * cget Rj k) / ((r + 1) * (r + 1))))).
  { eapply grad2_eq; [exact GH|..]; unfold gHi, gHj; clearbody Ri Rj dHi dHj r; apply st_eq; unfold mkst; cbn [s0 s1 s2 s3 sscal sadd ssub cget]; field; lra. }
  clear GH. clearbody dHi dHj.
  split; [exact DR|]. split.
  { apply (grad2_local (gam G) _ (fun x y => sqrt (s0 y / s0 x) * s0 x)); auto.
    { intros x y [Hx _] [Hy _]. unfold roe_density. rewrite sqrt_div_alt by auto. rewrite sqrt_mult by lra.
      pose proof (sqrt_lt_R0 _ Hx). replace (s0 x) with (sqrt (s0 x) * sqrt (s0 x)) at 3 by (apply sqrt_sqrt; lra). field. lra. }
    intros cl cr t dul dur Cl Cr. pose proof (DR cl cr t dul dur Cl Cr) as D1. cbv beta in *.
    ad. rewrite (cv_at _ _ _ _ Cl), (cv_at _ _ _ _ Cr). fold r. unfold Ri, Rj, sdot; cbn [s0 s1 s2 s3]. ring. }
  split; [exact Gx|]. split; [exact Gy|]. split; [exact Gv|]. split.
  { eapply grad2_eq with (a := sadd (sscal (vx n) gxi) (sscal (vy n) gyi)) (b := sadd (sscal (vx n) gxj) (sscal (vy n) gyj)).
    2,3: apply st_eq; unfold mkst; cbn [s0 s1 s2 s3 sscal sadd ssub cget]; ring.
    intros cl cr t dul dur Cl Cr. pose proof (Gx cl cr t dul dur Cl Cr) as D1. pose proof (Gy cl cr t dul dur Cl Cr) as D2. cbv beta in *.
    unfold roe_normal. ad. sdl. ring. }
  split; [exact GHH|].
  match type of GHH with grad2_is _ _ _ ?a ?b => set (hi := a) in *; set (hj := b) in * end.
  match type of Gv with grad2_is _ _ _ ?a ?b => set (wi := a) in *; set (wj := b) in * end.
  pose proof (roe_sound_pos _ _ _ Hg Hl Hr) as Hc.
  assert (Hrad : 0 < (gam G - 1) * (roe_enthalpy (gam G) ul ur - (vx (roe_velocity ul ur) ^ 2 + vy (roe_velocity ul ur) ^ 2) / 2)).
  { apply Rnot_le_lt. intro K. unfold roe_sound in Hc. cbv zeta in Hc. rewrite sqrt_neg_0 in Hc by auto. lra. }
  set (q := roe_sound (gam G) ul ur) in *.
  eapply grad2_eq with (a := sscal ((1/2) / q * (gam G - 1)) (ssub hi (sscal (1/2) wi))) (b := sscal ((1/2) / q * (gam G - 1)) (ssub hj (sscal (1/2) wj))); [|reflexivity..].
  intros cl cr t dul dur Cl Cr. pose proof (GHH cl cr t dul dur Cl Cr) as D1. pose proof (Gv cl cr t dul dur Cl Cr) as D2. cbv beta in *.
  unfold roe_sound. cbv zeta. clearbody hi hj wi wj.
  ad; rewrite ?(cv_at _ _ _ _ Cl), ?(cv_at _ _ _ _ Cr); auto; try lra.
  change (sqrt _) with q. sdl. field. lra.
Qed.
