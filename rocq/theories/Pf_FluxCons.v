(** Consistency and conservation of the numerical fluxes. *)
From Coq Require Import Reals Lra Psatz Bool.
From Verif Require Import BaseR M_Gas M_Flux S_Gas Pf_Flux.
Open Scope R_scope.

Ltac param u Hg Hp :=
  let r := fresh "r" in let a := fresh "a" in let b := fresh "b" in let c := fresh "c" in
  let Hr := fresh "Hr" in let Hc := fresh "Hc" in
  destruct (phys_param _ u Hg Hp) as (r & a & b & c & Hr & Hc & ->).

Ltac vproj := cbn [v_v v_vn v_p v_H vx vy].

Lemma U_s0 ga r a b c : s0 (U ga r a b c) = r. Proof. reflexivity. Qed.
Lemma U_s1 ga r a b c : s1 (U ga r a b c) = r * a. Proof. reflexivity. Qed.
Lemma U_s2 ga r a b c : s2 (U ga r a b c) = r * b. Proof. reflexivity. Qed.

(** *** Local Lax-Friedrichs *)
Lemma llf_consistent G u n : 1 < gam G -> physical (gam G) u -> llf_flux G u u n = euler_flux (gam G) u n.
Proof.
  intros Hg Hp. unfold llf_flux. rewrite dflux_euler by auto.
  apply st_ext; intros k. rewrite cget_mkst. field.
Qed.

Lemma dflux_neg G u n : getDirectionalFluxFromConserved G u (vneg n) = sneg (getDirectionalFluxFromConserved G u n).
Proof.
  unfold getDirectionalFluxFromConserved, getDirectionalFlux, sneg, vneg, dot2, Rdiv; apply st_eq; simpl; ring.
Qed.

Lemma dirflux_neg u n vn p : getDirectionalFlux u (vneg n) (- vn) p = sneg (getDirectionalFlux u n vn p).
Proof. unfold getDirectionalFlux, sneg, vneg; apply st_eq; simpl; ring. Qed.

Lemma vars_neg G u n :
  getVarsFromConserved G u (vneg n) =
  let w := getVarsFromConserved G u n in mkvars (v_v w) (- v_vn w) (v_p w) (v_H w).
Proof. unfold getVarsFromConserved, vneg, dot2; cbn. f_equal. ring. Qed.

Lemma llf_eig_swap G ul ur n : llf_eig G ur ul (vneg n) = llf_eig G ul ur n.
Proof.
  unfold llf_eig. rewrite !vars_neg. cbv zeta. vproj. rewrite !Rabs_Ropp.
  destruct (Rltb_spec (Rabs (v_vn (getVarsFromConserved G ul n)) + getSoundSpeed G (s0 ul) (v_p (getVarsFromConserved G ul n)))
    (Rabs (v_vn (getVarsFromConserved G ur n)) + getSoundSpeed G (s0 ur) (v_p (getVarsFromConserved G ur n))));
  destruct (Rltb_spec (Rabs (v_vn (getVarsFromConserved G ur n)) + getSoundSpeed G (s0 ur) (v_p (getVarsFromConserved G ur n)))
     (Rabs (v_vn (getVarsFromConserved G ul n)) + getSoundSpeed G (s0 ul) (v_p (getVarsFromConserved G ul n)))); lra.
Qed.

Lemma cget_sneg u k : cget (sneg u) k = - cget u k.
Proof. destruct k; reflexivity. Qed.

Lemma llf_antisym G ul ur n : llf_flux G ur ul (vneg n) = sneg (llf_flux G ul ur n).
Proof.
  unfold llf_flux. rewrite llf_eig_swap, !dflux_neg.
  apply st_ext; intros k. rewrite cget_sneg, !cget_mkst, !cget_sneg. field.
Qed.

(** *** Van Leer *)
Lemma sneg_szero : sneg szero = szero.
Proof. apply st_eq; simpl; ring. Qed.

Lemma vl_mirror G u n : vl_plus G u (vneg n) = sneg (vl_minus G u n).
Proof.
  unfold vl_plus, vl_minus. rewrite vars_neg. cbv zeta. vproj.
  set (w := getVarsFromConserved G u n). set (c := getSoundSpeed G (s0 u) (v_p w)).
  replace (- v_vn w / c) with (- (v_vn w / c)) by (unfold Rdiv; ring).
  destruct (Rltb_spec (- (v_vn w / c)) (-1)); destruct (Rltb_spec 1 (v_vn w / c)); try lra.
  - rewrite sneg_szero; reflexivity.
  - destruct (Rltb_spec 1 (- (v_vn w / c))); destruct (Rltb_spec (v_vn w / c) (-1)); try lra.
    + apply dirflux_neg.
    + unfold sneg, vneg; apply st_eq; cbn [s0 s1 s2 s3 vx vy]; unfold Rdiv; ring.
Qed.

Lemma vneg_vneg n : vneg (vneg n) = n.
Proof. apply v2_eq; simpl; ring. Qed.
Lemma sneg_sneg n : sneg (sneg n) = n.
Proof. apply st_eq; simpl; ring. Qed.

Lemma vanleer_antisym G ul ur n : vanleer_flux G ur ul (vneg n) = sneg (vanleer_flux G ul ur n).
Proof.
  unfold vanleer_flux. rewrite vl_mirror.
  assert (E : vl_minus G ul (vneg n) = sneg (vl_plus G ul n)).
  { rewrite <- (vneg_vneg n) at 2. rewrite vl_mirror, sneg_sneg. reflexivity. }
  rewrite E. unfold sadd, sneg; apply st_eq; simpl; ring.
Qed.

Lemma vanleer_consistent G u n : 1 < gam G -> physical (gam G) u -> unit_vec n ->
  vanleer_flux G u u n = euler_flux (gam G) u n.
Proof.
  intros Hg Hp Hn. param u Hg Hp. rewrite euler_U by auto.
  unfold vanleer_flux, vl_plus, vl_minus. rewrite vars_U by auto. cbv zeta; vproj.
  rewrite U_s0, sound_U by auto.
  set (w := a * vx n + b * vy n).
  destruct (Rltb_spec (w / c) (-1)); destruct (Rltb_spec 1 (w / c)); try lra.
  - unfold sadd, szero; apply st_eq; simpl; ring.
  - unfold sadd, szero; apply st_eq; simpl; ring.
  - unfold sadd, getDirectionalFlux; apply st_eq; cbn [s0 s1 s2 s3 U]; field; repeat split; try lra; nra.
Qed.

(** *** AUSM *)
Lemma ausm_L_mirror M p : ausm_L (- M) p = (- fst (ausm_R M p), snd (ausm_R M p)).
Proof.
  unfold ausm_L, ausm_R. rewrite Rabs_Ropp.
  destruct (Rleb_spec (Rabs M) 1); cbn [fst snd]; [f_equal; ring|].
  destruct (Rltb_spec (- M) (-1)); destruct (Rltb_spec M (-1)); cbn [fst snd]; try lra.
  - f_equal; ring.
  - reflexivity.
  - exfalso. apply n. apply Rabs_le. lra.
Qed.

Lemma ausm_R_mirror M p : ausm_R (- M) p = (- fst (ausm_L M p), snd (ausm_L M p)).
Proof.
  rewrite <- (Ropp_involutive M) at 2 3. rewrite ausm_L_mirror. cbn [fst snd].
  rewrite Ropp_involutive. destruct (ausm_R (-M) p); reflexivity.
Qed.

Lemma opp_div a b : - a / b = - (a / b).
Proof. unfold Rdiv; ring. Qed.

Lemma ausm_antisym G ul ur n : ausm_flux G ur ul (vneg n) = sneg (ausm_flux G ul ur n).
Proof.
  unfold ausm_flux. rewrite !vars_neg. cbv zeta. vproj.
  rewrite !opp_div, ausm_L_mirror, ausm_R_mirror. cbn [fst snd].
  set (i := getVarsFromConserved G ul n). set (j := getVarsFromConserved G ur n).
  set (ci := getSoundSpeed G (s0 ul) (v_p i)). set (cj := getSoundSpeed G (s0 ur) (v_p j)).
  destruct (ausm_L (v_vn i / ci) (v_p i)) as [ML pL].
  destruct (ausm_R (v_vn j / cj) (v_p j)) as [MR pR]. cbn [fst snd].
  replace (- MR + - ML) with (- (ML + MR)) by ring. rewrite Rabs_Ropp.
  unfold sneg, vneg; apply st_eq; cbn [s0 s1 s2 s3 vx vy]; unfold Rdiv; ring.
Qed.

Lemma ausm_sumM M p : fst (ausm_L M p) + fst (ausm_R M p) = M.
Proof.
  unfold ausm_L, ausm_R. destruct (Rleb_spec (Rabs M) 1); cbn [fst snd]; [field|].
  destruct (Rltb_spec M (-1)); cbn [fst snd]; lra.
Qed.
Lemma ausm_sump M p : snd (ausm_L M p) + snd (ausm_R M p) = p.
Proof.
  unfold ausm_L, ausm_R. destruct (Rleb_spec (Rabs M) 1); cbn [fst snd]; [field|].
  destruct (Rltb_spec M (-1)); cbn [fst snd]; lra.
Qed.

Lemma ausm_consistent G u n : 1 < gam G -> physical (gam G) u -> ausm_flux G u u n = euler_flux (gam G) u n.
Proof.
  intros Hg Hp. param u Hg Hp. rewrite euler_U by auto.
  unfold ausm_flux. rewrite vars_U by auto. cbv zeta; vproj.
  rewrite U_s0, sound_U by auto. rewrite ausm_sumM, ausm_sump.
  unfold getDirectionalFlux; apply st_eq; cbn [s0 s1 s2 s3 U]; field; repeat split; lra.
Qed.

(** *** AUSM+ *)
Lemma ausmp_L_mirror M p : ausmp_L (- M) p = (- fst (ausmp_R M p), snd (ausmp_R M p)).
Proof.
  unfold ausmp_L, ausmp_R. rewrite Rabs_Ropp.
  destruct (Rleb_spec (Rabs M) 1); cbn [fst snd]; [f_equal; field|].
  destruct (Rltb_spec (- M) (-1)); destruct (Rltb_spec M (-1)); cbn [fst snd]; try lra.
  - f_equal; ring.
  - reflexivity.
  - exfalso. apply n. apply Rabs_le. lra.
Qed.

Lemma ausmp_R_mirror M p : ausmp_R (- M) p = (- fst (ausmp_L M p), snd (ausmp_L M p)).
Proof.
  rewrite <- (Ropp_involutive M) at 2 3. rewrite ausmp_L_mirror. cbn [fst snd].
  rewrite Ropp_involutive. destruct (ausmp_R (-M) p); reflexivity.
Qed.

Lemma ausmp_chalf_swap G vni vnj ci cj mi mj :
  ausmp_chalf G (- vnj) (- vni) cj ci mj mi = ausmp_chalf G vni vnj ci cj mi mj.
Proof.
  unfold ausmp_chalf. rewrite Ropp_involutive.
  set (csi := sqrt ((ci * ci / (gam G - 1) + 1/2 * mi) * 2 * (gam G - 1) / (gam G + 1))).
  set (csj := sqrt ((cj * cj / (gam G - 1) + 1/2 * mj) * 2 * (gam G - 1) / (gam G + 1))).
  set (x := csi * csi / (if Rltb vni csi then csi else vni)).
  set (y := csj * csj / (if Rltb (- vnj) csj then csj else - vnj)).
  destruct (Rltb_spec y x); destruct (Rltb_spec x y); lra.
Qed.

Lemma ausmplus_antisym G ul ur n : ausmplus_flux G ur ul (vneg n) = sneg (ausmplus_flux G ul ur n).
Proof.
  unfold ausmplus_flux. rewrite !vars_neg. cbv zeta. vproj. rewrite ausmp_chalf_swap.
  rewrite !opp_div, ausmp_L_mirror, ausmp_R_mirror. cbn [fst snd].
  set (i := getVarsFromConserved G ul n). set (j := getVarsFromConserved G ur n).
  set (ch := ausmp_chalf _ _ _ _ _ _ _).
  destruct (ausmp_L (v_vn i / ch) (v_p i)) as [ML pL].
  destruct (ausmp_R (v_vn j / ch) (v_p j)) as [MR pR]. cbn [fst snd].
  replace (- MR + - ML) with (- (ML + MR)) by ring. rewrite Rabs_Ropp.
  unfold sneg, vneg; apply st_eq; cbn [s0 s1 s2 s3 vx vy]; unfold Rdiv; ring.
Qed.

Lemma ausmp_sumM M p : fst (ausmp_L M p) + fst (ausmp_R M p) = M.
Proof.
  unfold ausmp_L, ausmp_R. destruct (Rleb_spec (Rabs M) 1); cbn [fst snd]; [field|].
  destruct (Rltb_spec M (-1)); cbn [fst snd]; lra.
Qed.
Lemma ausmp_sump M p : snd (ausmp_L M p) + snd (ausmp_R M p) = p.
Proof.
  unfold ausmp_L, ausmp_R. destruct (Rleb_spec (Rabs M) 1); cbn [fst snd]; [field|].
  destruct (Rltb_spec M (-1)); cbn [fst snd]; lra.
Qed.

Lemma ausmp_chalf_pos G vni vnj ci cj mi mj : 1 < gam G -> 0 < ci -> 0 < cj -> 0 <= mi -> 0 <= mj ->
  0 < ausmp_chalf G vni vnj ci cj mi mj.
Proof.
  intros Hg Hi Hj Hmi Hmj. unfold ausmp_chalf.
  set (csi := sqrt ((ci * ci / (gam G - 1) + 1/2 * mi) * 2 * (gam G - 1) / (gam G + 1))).
  set (csj := sqrt ((cj * cj / (gam G - 1) + 1/2 * mj) * 2 * (gam G - 1) / (gam G + 1))).
  assert (P : forall c m, 0 < c -> 0 <= m -> 0 < (c * c / (gam G - 1) + 1/2 * m) * 2 * (gam G - 1) / (gam G + 1)).
  { intros c m Hc Hm. apply Rdiv_lt_0_compat; [|lra].
    replace ((c * c / (gam G - 1) + 1/2 * m) * 2 * (gam G - 1)) with (2 * (c*c) + m * (gam G - 1)) by (field; lra).
    assert (0 < c*c) by nra. assert (0 <= m * (gam G - 1)) by (apply Rmult_le_pos; lra). lra. }
  assert (0 < csi) by (apply sqrt_lt_R0, P; auto).
  assert (0 < csj) by (apply sqrt_lt_R0, P; auto).
  assert (0 < csi * csi / (if Rltb vni csi then csi else vni)).
  { apply Rdiv_lt_0_compat; [nra|]. destruct (Rltb_spec vni csi); lra. }
  assert (0 < csj * csj / (if Rltb (- vnj) csj then csj else - vnj)).
  { apply Rdiv_lt_0_compat; [nra|]. destruct (Rltb_spec (-vnj) csj); lra. }
  destruct (Rltb_spec (csi * csi / (if Rltb vni csi then csi else vni))
                      (csj * csj / (if Rltb (- vnj) csj then csj else - vnj))); auto.
Qed.

Lemma ausmplus_consistent G u n : 1 < gam G -> physical (gam G) u -> ausmplus_flux G u u n = euler_flux (gam G) u n.
Proof.
  intros Hg Hp. param u Hg Hp. rewrite euler_U by auto.
  unfold ausmplus_flux. rewrite vars_U by auto. cbv zeta; vproj.
  rewrite U_s0, sound_U by auto. rewrite ausmp_sumM, ausmp_sump.
  set (ch := ausmp_chalf _ _ _ _ _ _ _).
  assert (0 < ch) by (apply ausmp_chalf_pos; auto; unfold dot2; simpl; nra).
  unfold getDirectionalFlux; apply st_eq; cbn [s0 s1 s2 s3 U]; field; repeat split; lra.
Qed.

(** *** Roe averages of a pair of physical states, and under exchange of the sides *)
Definition pair_roe (G : gas) (ul ur : st) (n : v2) : roeav :=
  let i := getVarsFromConserved G ul n in
  let j := getVarsFromConserved G ur n in
  getRoeAverages G ul ur n (v_v i) (v_H i) (v_v j) (v_H j).

Lemma pair_roe_U G rl al bl cl q ar br cr n : 1 < gam G -> 0 < rl -> 0 < q ->
  pair_roe G (U (gam G) rl al bl cl) (U (gam G) (q^2*rl) ar br cr) n =
  mkroe q (q * rl) (mkv ((q*ar+al)/(q+1)) ((q*br+bl)/(q+1)))
      (((q*ar+al)/(q+1))^2 + ((q*br+bl)/(q+1))^2)
      ((q*ar+al)/(q+1) * vx n + (q*br+bl)/(q+1) * vy n)
      ((q * (cr^2/(gam G-1) + (ar^2+br^2)/2) + (cl^2/(gam G-1) + (al^2+bl^2)/2)) / (q+1))
      (sqrt (c2av (gam G) q al bl cl ar br cr)).
Proof.
  intros. assert (0 < q^2 * rl) by (apply Rmult_lt_0_compat; [apply pow_lt|]; auto).
  unfold pair_roe. rewrite !vars_U by auto. cbv zeta; vproj.
  apply roe_U; auto.
Qed.

Lemma pair_roe_swap G ul ur n : 1 < gam G -> physical (gam G) ul -> physical (gam G) ur ->
  pair_roe G ur ul (vneg n) =
  let A := pair_roe G ul ur n in
  mkroe (/ a_R A) (a_rho A) (a_v A) (a_vm2 A) (- a_vn A) (a_H A) (a_c A).
Proof.
  intros Hg Hl Hr. param ul Hg Hl. param ur Hg Hr.
  destruct (ratio_exists r r0 Hr0 Hr1) as (q & Hq & ->).
  assert (E : r = (/q)^2 * (q^2 * r)) by (field; lra).
  assert (0 < / q) by (apply Rinv_0_lt_compat; auto).
  rewrite E at 2. rewrite !pair_roe_U; auto.
  cbv zeta. cbn [a_R a_rho a_v a_vm2 a_vn a_H a_c vx vy vneg].
  f_equal; try (field; repeat split; lra).
  - f_equal; field; repeat split; lra.
  - f_equal. unfold c2av. field; repeat split; lra.
Qed.

Lemma pair_roe_c_pos G ul ur n : 1 < gam G -> physical (gam G) ul -> physical (gam G) ur ->
  0 < a_c (pair_roe G ul ur n).
Proof.
  intros Hg Hl Hr. param ul Hg Hl. param ur Hg Hr.
  destruct (ratio_exists r r0 Hr0 Hr1) as (q & Hq & ->).
  rewrite pair_roe_U by auto. cbn [a_c]. apply sqrt_lt_R0, c2av_pos; auto.
Qed.

Lemma vars_swap_side G u n : v_vn (getVarsFromConserved G u (vneg n)) = - v_vn (getVarsFromConserved G u n).
Proof. rewrite vars_neg; reflexivity. Qed.

(** *** Roe *)
Lemma roe_flux_pair G ul ur n : roe_flux G ul ur n =
  let i := getVarsFromConserved G ul n in
  let j := getVarsFromConserved G ur n in
  let A := pair_roe G ul ur n in
  let delta := fixeps * a_c A in
  let adu := roe_adu A n i j ul ur (harten delta (Rabs (a_vn A - a_c A)))
      (harten delta (Rabs (a_vn A))) (harten delta (Rabs (a_vn A + a_c A))) in
  let fi := getDirectionalFlux ul n (v_vn i) (v_p i) in
  let fj := getDirectionalFlux ur n (v_vn j) (v_p j) in
  mkst (fun k => (1/2) * (cget fi k + cget fj k - cget adu k)).
Proof. reflexivity. Qed.

Lemma roe_antisym G ul ur n : 1 < gam G -> physical (gam G) ul -> physical (gam G) ur ->
  roe_flux G ur ul (vneg n) = sneg (roe_flux G ul ur n).
Proof.
  intros Hg Hl Hr. rewrite !roe_flux_pair. rewrite pair_roe_swap by auto. rewrite !vars_neg. cbv zeta.
  cbn [v_v v_vn v_p v_H a_R a_rho a_v a_vm2 a_vn a_H a_c].
  rewrite !dirflux_neg.
  pose proof (pair_roe_c_pos G ul ur n Hg Hl Hr) as Hc.
  set (A := pair_roe G ul ur n) in *. set (i := getVarsFromConserved G ul n). set (j := getVarsFromConserved G ur n).
  replace (- a_vn A - a_c A) with (- (a_vn A + a_c A)) by ring.
  replace (- a_vn A + a_c A) with (- (a_vn A - a_c A)) by ring.
  rewrite !Rabs_Ropp.
  set (l0 := harten _ (Rabs (a_vn A - a_c A))). set (l1 := harten _ (Rabs (a_vn A))).
  set (l3 := harten _ (Rabs (a_vn A + a_c A))).
  apply st_ext; intros k. rewrite cget_sneg, !cget_mkst, !cget_sneg.
  assert (E : cget (roe_adu (mkroe (/ a_R A) (a_rho A) (a_v A) (a_vm2 A) (- a_vn A) (a_H A) (a_c A)) (vneg n)
     (mkvars (v_v j) (- v_vn j) (v_p j) (v_H j)) (mkvars (v_v i) (- v_vn i) (v_p i) (v_H i)) ur ul l3 l1 l0) k
     = - cget (roe_adu A n i j ul ur l0 l1 l3) k).
  { unfold roe_adu. cbn [v_v v_vn v_p v_H a_R a_rho a_v a_vm2 a_vn a_H a_c].
    destruct k; cbn [cget s0 s1 s2 s3 vneg vx vy]; field; lra. }
  rewrite E. field.
Qed.

Lemma roe_consistent G u n : 1 < gam G -> physical (gam G) u -> roe_flux G u u n = euler_flux (gam G) u n.
Proof.
  intros Hg Hp. rewrite roe_flux_pair. cbv zeta. rewrite dflux_vars by auto.
  pose proof (pair_roe_c_pos G u u n Hg Hp Hp) as Hc.
  apply st_ext; intros k. rewrite !cget_mkst. unfold roe_adu.
  destruct k; cbn [cget s0 s1 s2 s3]; field; lra.
Qed.

(** *** HLL *)
Lemma hll_speeds_pair G ul ur n : hll_speeds G ul ur n =
  let i := getVarsFromConserved G ul n in
  let j := getVarsFromConserved G ur n in
  let A := pair_roe G ul ur n in
  (einfeldt_sl (v_vn i) (getSoundSpeed G (s0 ul) (v_p i)) (a_vn A) (a_c A),
   einfeldt_sr (v_vn j) (getSoundSpeed G (s0 ur) (v_p j)) (a_vn A) (a_c A)).
Proof. reflexivity. Qed.

Lemma hll_speeds_swap G ul ur n : 1 < gam G -> physical (gam G) ul -> physical (gam G) ur ->
  hll_speeds G ur ul (vneg n) = (- snd (hll_speeds G ul ur n), - fst (hll_speeds G ul ur n)).
Proof.
  intros Hg Hl Hr. rewrite !hll_speeds_pair. rewrite pair_roe_swap by auto. rewrite !vars_neg. cbv zeta.
  cbn [v_v v_vn v_p v_H a_R a_rho a_v a_vm2 a_vn a_H a_c fst snd].
  set (A := pair_roe G ul ur n). set (i := getVarsFromConserved G ul n). set (j := getVarsFromConserved G ur n).
  set (ci := getSoundSpeed G (s0 ul) (v_p i)). set (cj := getSoundSpeed G (s0 ur) (v_p j)).
  unfold einfeldt_sl, einfeldt_sr. f_equal.
  - destruct (Rltb_spec (- a_vn A - a_c A) (- v_vn j - cj)); destruct (Rltb_spec (v_vn j + cj) (a_vn A + a_c A)); lra.
  - destruct (Rltb_spec (- v_vn i + ci) (- a_vn A + a_c A)); destruct (Rltb_spec (a_vn A - a_c A) (v_vn i - ci)); lra.
Qed.

Lemma hll_speeds_ordered G ul ur n : 1 < gam G -> physical (gam G) ul -> physical (gam G) ur ->
  fst (hll_speeds G ul ur n) < snd (hll_speeds G ul ur n).
Proof.
  intros Hg Hl Hr. rewrite hll_speeds_pair. cbv zeta. cbn [fst snd].
  pose proof (pair_roe_c_pos G ul ur n Hg Hl Hr) as Hc.
  set (A := pair_roe G ul ur n) in *. unfold einfeldt_sl, einfeldt_sr.
  destruct (Rltb_spec (a_vn A - a_c A) (v_vn (getVarsFromConserved G ul n) - getSoundSpeed G (s0 ul) (v_p (getVarsFromConserved G ul n))));
  destruct (Rltb_spec (v_vn (getVarsFromConserved G ur n) + getSoundSpeed G (s0 ur) (v_p (getVarsFromConserved G ur n))) (a_vn A + a_c A)); lra.
Qed.

Lemma hll_coeffs_mirror sl sr : sl < sr ->
  hll_coeffs (- sr) (- sl) = let t := hll_coeffs sl sr in mkhll (h_t2 t) (h_t1 t) (h_t3 t).
Proof.
  intros H. unfold hll_coeffs. cbv zeta. cbn [h_t1 h_t2 h_t3]. rewrite !Rabs_Ropp.
  assert (E : ((if Rltb 0 (- sl) then 0 else - sl) - (if Rltb 0 (- sr) then 0 else - sr)) / (- sl - - sr)
     = 1 - ((if Rltb 0 sr then 0 else sr) - (if Rltb 0 sl then 0 else sl)) / (sr - sl)).
  { destruct (Rltb_spec 0 (-sl)); destruct (Rltb_spec 0 (-sr)); destruct (Rltb_spec 0 sr); destruct (Rltb_spec 0 sl); try lra;
    try (field; lra).
    - assert (sr = 0) by lra. subst. field; lra.
    - assert (sl = 0) by lra. subst. field; lra. }
  rewrite E. f_equal; try (field; lra).
Qed.

Lemma H_rho G u n : 1 < gam G -> physical (gam G) u ->
  s0 u * v_H (getVarsFromConserved G u n) = s3 u + v_p (getVarsFromConserved G u n).
Proof. intros Hg [Hr _]. unfold getVarsFromConserved; cbn [v_H v_p]. field. lra. Qed.

Lemma hll_flux_alt G ul ur n : 1 < gam G -> physical (gam G) ul -> physical (gam G) ur ->
  hll_flux G ul ur n =
  let t := hll_coeffs (fst (hll_speeds G ul ur n)) (snd (hll_speeds G ul ur n)) in
  let fl := euler_flux (gam G) ul n in let fr := euler_flux (gam G) ur n in
  mkst (fun k => h_t1 t * cget fr k + h_t2 t * cget fl k - h_t3 t * (cget ur k - cget ul k)).
Proof.
  intros Hg Hl Hr. unfold hll_flux. destruct (hll_speeds G ul ur n) as [sl sr]. cbn [fst snd]. cbv zeta.
  rewrite <- (dflux_vars G ul n), <- (dflux_vars G ur n) by auto.
  pose proof (H_rho G ul n Hg Hl). pose proof (H_rho G ur n Hg Hr).
  unfold getDirectionalFlux. apply st_eq; cbn [mkst cget s0 s1 s2 s3]; try ring.
  rewrite !Rmult_assoc, H, H0. ring.
Qed.

Lemma euler_neg ga u n : euler_flux ga u (vneg n) = sneg (euler_flux ga u n).
Proof. unfold euler_flux, normal_velocity, sneg, vneg, Rdiv. apply st_eq; simpl; ring. Qed.

Lemma hll_antisym G ul ur n : 1 < gam G -> physical (gam G) ul -> physical (gam G) ur ->
  hll_flux G ur ul (vneg n) = sneg (hll_flux G ul ur n).
Proof.
  intros Hg Hl Hr. rewrite !hll_flux_alt by auto. rewrite hll_speeds_swap by auto. cbn [fst snd].
  rewrite hll_coeffs_mirror by (apply hll_speeds_ordered; auto). cbv zeta. cbn [h_t1 h_t2 h_t3].
  rewrite !euler_neg. apply st_ext; intros k. rewrite cget_sneg, !cget_mkst, !cget_sneg. ring.
Qed.

Lemma hll_t12 sl sr : h_t1 (hll_coeffs sl sr) + h_t2 (hll_coeffs sl sr) = 1.
Proof. unfold hll_coeffs; cbn; ring. Qed.

Lemma hll_consistent G u n : 1 < gam G -> physical (gam G) u -> hll_flux G u u n = euler_flux (gam G) u n.
Proof.
  intros Hg Hp. rewrite hll_flux_alt by auto. cbv zeta.
  set (sp := hll_speeds G u u n). pose proof (hll_t12 (fst sp) (snd sp)) as E.
  apply st_ext; intros k. rewrite cget_mkst. rewrite <- (Rmult_1_l (cget (euler_flux (gam G) u n) k)) at 3.
  rewrite <- E. ring.
Qed.
