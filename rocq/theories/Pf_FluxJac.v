(** Derivatives of the numerical fluxes: common lemmas, the frozen-coefficient Jacobians (LLF, HLL),
    the fully linearised LLF Jacobian. *)
From Coq Require Import Reals Lra Psatz.
From Verif Require Import BaseR M_Gas M_Flux S_Gas S_Deriv S_Deriv2 Pf_Flux Pf_FluxCons Pf_HLLC Pf_FluxUp Pf_FluxMisc Pf_Deriv Pf_Gas.
Open Scope R_scope.

(** ** Gradients with respect to two arguments *)
Lemma curve_const u t : curve_at (fun _ => u) t u szero.
Proof. split; [reflexivity|]. intros k. eapply dl_eq. apply dl_const. destruct k; reflexivity. Qed.

Lemma sdot_z g : sdot g szero = 0. Proof. unfold sdot, szero; cbn; ring. Qed.
Lemma sdot_zl g : sdot szero g = 0. Proof. unfold sdot, szero; cbn; ring. Qed.

Lemma grad2_left f ul ur gl gr : grad2_is f ul ur gl gr -> grad_is (fun x => f x ur) ul gl.
Proof.
  intros H c t du Hc. eapply dl_eq. exact (H c (fun _ => ur) t du szero Hc (curve_const ur t)).
  rewrite sdot_z. ring.
Qed.
Lemma grad2_right f ul ur gl gr : grad2_is f ul ur gl gr -> grad_is (fun y => f ul y) ur gr.
Proof.
  intros H c t du Hc. eapply dl_eq. exact (H (fun _ => ul) c t szero du (curve_const ul t) Hc).
  rewrite sdot_z. ring.
Qed.
Lemma jac2_left F ul ur JL JR : jac2_is F ul ur JL JR -> jac_is (fun x => F x ur) ul JL.
Proof. intros H i. exact (grad2_left _ _ _ _ _ (H i)). Qed.
Lemma jac2_right F ul ur JL JR : jac2_is F ul ur JL JR -> jac_is (fun y => F ul y) ur JR.
Proof. intros H i. exact (grad2_right _ _ _ _ _ (H i)). Qed.

Lemma mat_eq a b : (forall i, mrow a i = mrow b i) -> a = b.
Proof. intros H. destruct a, b. pose proof (H I0); pose proof (H I1); pose proof (H I2); pose proof (H I3). cbn in *. congruence. Qed.
Lemma mget_eq a b : (forall i k, mget a i k = mget b i k) -> a = b.
Proof. intros H. apply mat_eq. intros i. apply st_ext. intros k. exact (H i k). Qed.

Lemma jac2_unique F ul ur JL JR KL KR : jac2_is F ul ur JL JR -> jac2_is F ul ur KL KR -> JL = KL /\ JR = KR.
Proof.
  intros H K. split; apply mat_eq; intros i.
  - eapply grad_unique; [exact (grad2_left _ _ _ _ _ (H i))|exact (grad2_left _ _ _ _ _ (K i))].
  - eapply grad_unique; [exact (grad2_right _ _ _ _ _ (H i))|exact (grad2_right _ _ _ _ _ (K i))].
Qed.

Lemma near_physical ga c t u du : physical ga u -> curve_at c t u du -> near t (fun s => physical ga (c s)).
Proof.
  intros [Hr Hp] H. pose proof (cv_at _ _ _ _ H) as E. unfold physical. apply near_and.
  - apply (near_lt (fun _ => 0) (fun s => s0 (c s)) t 0 (s0 du)); [apply dl_const|exact (cv0 _ _ _ _ H)|rewrite E; auto].
  - assert (Hr0 : s0 u <> 0) by lra.
    apply (near_lt (fun _ => 0) (fun s => pressure ga (c s)) t 0 _ (dl_const _ _) (d_pressure ga u Hr0 c t du H)).
    rewrite E; auto.
Qed.

Lemma near_physical2 ga cl cr t ul ur dul dur : physical ga ul -> physical ga ur ->
  curve_at cl t ul dul -> curve_at cr t ur dur -> near t (fun s => physical ga (cl s) /\ physical ga (cr s)).
Proof.
  intros A B C D. apply near_and; [exact (near_physical ga cl t ul dul A C)|exact (near_physical ga cr t ur dur B D)].
Qed.

(** Two functions of the states that agree on physical states have the same gradients there. *)
Lemma grad2_local ga f h ul ur gl gr : physical ga ul -> physical ga ur ->
  (forall x y, physical ga x -> physical ga y -> f x y = h x y) -> grad2_is h ul ur gl gr -> grad2_is f ul ur gl gr.
Proof.
  intros Hl Hr E H cl cr t dul dur Cl Cr. eapply dl_local; [|exact (H cl cr t dul dur Cl Cr)].
  eapply near_imp; [|exact (near_physical2 ga cl cr t ul ur dul dur Hl Hr Cl Cr)]. cbv beta. intros s [A B]. auto.
Qed.

Lemma sdot_add a b d : sdot (sadd a b) d = sdot a d + sdot b d. Proof. unfold sdot, sadd; cbn [s0 s1 s2 s3]; ring. Qed.
Lemma sdot_sub a b d : sdot (ssub a b) d = sdot a d - sdot b d. Proof. unfold sdot, ssub; cbn [s0 s1 s2 s3]; ring. Qed.
Lemma sdot_scal c a d : sdot (sscal c a) d = c * sdot a d. Proof. unfold sdot, sscal; cbn [s0 s1 s2 s3]; ring. Qed.
Lemma sdot_neg a d : sdot (sneg a) d = - sdot a d. Proof. unfold sdot, sneg; cbn [s0 s1 s2 s3]; ring. Qed.
Lemma sdot_unit k d : sdot (unit_st k) d = cget d k. Proof. destruct k; unfold sdot, unit_st, mkst; cbn; ring. Qed.
Ltac sdl := repeat first [rewrite sdot_add | rewrite sdot_sub | rewrite sdot_scal | rewrite sdot_neg | rewrite sdot_unit | rewrite sdot_z | rewrite sdot_zl].

Lemma sdot_mneg J i d : sdot (mrow (mneg J) i) d = - sdot (mrow J i) d.
Proof. destruct J, i; unfold sdot, mneg, sneg; cbn; ring. Qed.

Lemma jac2_eq F ul ur A B A' B' : jac2_is F ul ur A B -> A = A' -> B = B' -> jac2_is F ul ur A' B'.
Proof. intros H -> ->. exact H. Qed.

Lemma near_ltc f g t : continuity_pt f t -> continuity_pt g t -> f t < g t -> near t (fun s => f s < g s).
Proof.
  intros Hf Hg Hlt. pose proof (continuity_pt_minus _ _ _ Hg Hf) as C.
  destruct (C ((g t - f t) / 2)) as (d & Hd & K); [lra|]. exists d. split; [lra|]. intros s Hs.
  destruct (Req_dec s t) as [->|Hne]; auto.
  assert (X : R_dist (g s - f s) (g t - f t) < (g t - f t) / 2).
  { apply K. split. split; [exact I|auto]. exact Hs. }
  unfold R_dist in X. apply Rabs_def2 in X. lra.
Qed.
Lemma cont_abs f t : continuity_pt f t -> continuity_pt (fun s => Rabs (f s)) t.
Proof. intros Hf. apply (continuity_pt_comp f Rabs); auto. apply Rcontinuity_abs. Qed.

(** ** Frozen coefficients *)
Definition frozen_flux (a b q : R) (ga : R) (n : v2) (x y : st) : st :=
  ssub (sadd (sscal a (euler_flux ga x n)) (sscal b (euler_flux ga y n))) (sscal q (ssub y x)).

Lemma d_frozen G a b q n ul ur : s0 ul <> 0 -> s0 ur <> 0 ->
  jac2_is (frozen_flux a b q (gam G) n) ul ur
    (mkmat (fun i k => a * mget (getJacobianDirectionalFluxWrtConserved G ul n) i k + (if ix_eqb i k then q else 0)))
    (mkmat (fun i k => b * mget (getJacobianDirectionalFluxWrtConserved G ur n) i k - (if ix_eqb i k then q else 0))).
Proof.
  intros Hl Hr i cl cr t dul dur Cl Cr.
  pose proof (d_flux G n ul Hl i cl t dul Cl) as Dl. pose proof (d_flux G n ur Hr i cr t dur Cr) as Dr.
  set (JL := getJacobianDirectionalFluxWrtConserved G ul n) in *. set (JR := getJacobianDirectionalFluxWrtConserved G ur n) in *.
  clearbody JL JR.
  replace (mrow _ i) with (sadd (sscal a (mrow JL i)) (sscal q (unit_st i))).
  2:{ destruct i; unfold unit_st, mget, mkmat, mkst; apply st_eq; cbn [mrow r0 r1 r2 r3 s0 s1 s2 s3 cget ix_eqb sadd sscal]; ring. }
  match goal with |- context [mrow (mkmat ?f) i] => replace (mrow (mkmat f) i) with (ssub (sscal b (mrow JR i)) (sscal q (unit_st i))) end.
  2:{ destruct i; unfold unit_st, mget, mkmat, mkst; apply st_eq; cbn [mrow r0 r1 r2 r3 s0 s1 s2 s3 cget ix_eqb ssub sscal]; ring. }
  sdl. set (A := sdot (mrow JL i) dul) in *. set (B := sdot (mrow JR i) dur) in *. clearbody A B.
  destruct i; unfold frozen_flux; cbn [cget ssub sadd sscal s0 s1 s2 s3] in *; cbv beta in *; (ad; ring).
Qed.

Lemma llf_eig_rus G ul ur n : 1 < gam G -> physical (gam G) ul -> physical (gam G) ur ->
  (if Rleb (Rabs (v_vn (getVarsFromConserved G ur n)) + getSoundSpeed G (s0 ur) (v_p (getVarsFromConserved G ur n)))
           (Rabs (v_vn (getVarsFromConserved G ul n)) + getSoundSpeed G (s0 ul) (v_p (getVarsFromConserved G ul n)))
   then Rabs (v_vn (getVarsFromConserved G ul n)) + getSoundSpeed G (s0 ul) (v_p (getVarsFromConserved G ul n))
   else Rabs (v_vn (getVarsFromConserved G ur n)) + getSoundSpeed G (s0 ur) (v_p (getVarsFromConserved G ur n)))
  = rusanov_speed (gam G) ul ur n.
Proof.
  intros Hg Hl Hr. rewrite !vars_spec by auto. vproj. rewrite !sound_spec. unfold rusanov_speed.
  match goal with |- (if Rleb ?a ?b then _ else _) = _ => destruct (Rleb_spec a b) end.
  - rewrite Rmax_left; lra. - rewrite Rmax_right; lra.
Qed.

Lemma llf_jac_frozen G ul ur n : 1 < gam G -> physical (gam G) ul -> physical (gam G) ur ->
  let lam := rusanov_speed (gam G) ul ur n in
  jac2_is (frozen_flux (1/2) (1/2) (lam/2) (gam G) n) ul ur (mneg (dfdl (llf_jac G ul ur n))) (dfdr (llf_jac G ul ur n)).
Proof.
  intros Hg Hl Hr lam. pose proof Hl as [Rl _]. pose proof Hr as [Rr _].
  unfold llf_jac. cbv zeta. rewrite llf_eig_rus by auto. fold lam. cbn [dfdl dfdr]. clearbody lam.
  eapply jac2_eq. apply d_frozen; lra.
  - apply mget_eq. intros i k. destruct i, k; unfold mneg, mkmat, mget, mkst, sneg; cbn [mrow r0 r1 r2 r3 cget s0 s1 s2 s3 ix_eqb]; field.
  - apply mget_eq. intros i k. destruct i, k; unfold mneg, mkmat, mget, mkst, sneg; cbn [mrow r0 r1 r2 r3 cget s0 s1 s2 s3 ix_eqb]; field.
Qed.

Lemma hll_jac_frozen G ul ur n : 1 < gam G -> physical (gam G) ul -> physical (gam G) ur ->
  let sl := Rmin (normal_velocity ul n - sound (gam G) ul) (roe_normal ul ur n - roe_sound (gam G) ul ur) in
  let sr := Rmax (normal_velocity ur n + sound (gam G) ur) (roe_normal ul ur n + roe_sound (gam G) ul ur) in
  let a := Rmin sl 0 in let b := Rmax sr 0 in
  a < b /\
  jac2_is (frozen_flux (b/(b-a)) (-a/(b-a)) (-(a*b)/(b-a)) (gam G) n) ul ur
    (mneg (dfdl (hll_jac G ul ur n))) (dfdr (hll_jac G ul ur n)).
Proof.
  intros Hg Hl Hr sl sr a b. pose proof Hl as [Rl _]. pose proof Hr as [Rr _].
  pose proof (hll_speeds_ordered G ul ur n Hg Hl Hr) as Ho.
  unfold hll_jac. rewrite hll_speeds_spec in * by auto. cbn [fst snd] in Ho. fold sl sr in Ho. fold sl sr. cbv zeta. cbn [dfdl dfdr].
  clearbody sl sr.
  assert (Hab : a < b).
  { unfold a, b, Rmin, Rmax. destruct (Rle_dec sl 0), (Rle_dec sr 0); lra. }
  split; [exact Hab|].
  assert (T : h_t1 (hll_coeffs sl sr) = - a / (b - a) /\ h_t2 (hll_coeffs sl sr) = b / (b - a) /\ h_t3 (hll_coeffs sl sr) = - (a * b) / (b - a)).
  { unfold hll_coeffs. cbn [h_t1 h_t2 h_t3]. unfold a, b.
    destruct (Rltb_spec 0 sl) as [A|A]; destruct (Rltb_spec 0 sr) as [B|B]; try lra.
    - rewrite Rmin_right, Rmax_left, !Rabs_pos_eq in * by lra. repeat split; field; lra.
    - rewrite Rmin_left, Rmax_left, (Rabs_left1 sl), (Rabs_pos_eq sr) in * by lra. repeat split; field; lra.
    - rewrite Rmin_left, Rmax_right, (Rabs_left1 sl), (Rabs_left1 sr) in * by lra. repeat split; field; lra. }
  destruct T as (-> & -> & ->).
  set (q1 := - a / (b - a)). set (q2 := b / (b - a)). set (q3 := - (a * b) / (b - a)).
  eapply jac2_eq. apply d_frozen; lra.
  - apply mget_eq. intros i k. destruct i, k; unfold mneg, mkmat, mget, mkst, sneg; cbn [mrow r0 r1 r2 r3 cget s0 s1 s2 s3 ix_eqb]; ring.
  - apply mget_eq. intros i k. destruct i, k; unfold mneg, mkmat, mget, mkst, sneg; cbn [mrow r0 r1 r2 r3 cget s0 s1 s2 s3 ix_eqb]; ring.
Qed.

Lemma frozen_llf G ul ur n : 1 < gam G -> physical (gam G) ul -> physical (gam G) ur ->
  frozen_flux (1/2) (1/2) (rusanov_speed (gam G) ul ur n / 2) (gam G) n ul ur = llf_flux G ul ur n.
Proof.
  intros Hg Hl Hr. rewrite llf_formula by auto. unfold llf_speed, frozen_flux.
  apply st_eq; cbn [sscal ssub sadd s0 s1 s2 s3]; field.
Qed.

(** ** The fully linearised LLF Jacobian *)
(** the error made in the derivative of |v.n| + c *)
Definition llf_dedu_err (ga : R) (u : st) (n : v2) : st :=
  sscal ((s0 u - 1) / (s0 u)^2)
    (mks (Rabs (normal_velocity u n)) (- (ga * (ga - 1) * s1 u / (2 * sound ga u)))
         (- (ga * (ga - 1) * s2 u / (2 * sound ga u))) 0).

Lemma d_spectral G u n : 1 < gam G -> physical (gam G) u -> normal_velocity u n <> 0 ->
  grad_is (fun x => Rabs (normal_velocity x n) + sound (gam G) x) u
    (ssub (llf_dedu G u n (normal_velocity u n)) (llf_dedu_err (gam G) u n)).
Proof.
  intros Hg Hp Hw c t du H. pose proof Hp as [Hr Hpp]. assert (Hr0 : s0 u <> 0) by lra.
  pose proof (d_normal n u Hr0 c t du H) as D1. pose proof (d_sound G u Hg Hp c t du H) as D2.
  pose proof (sound_pos _ _ Hg Hp) as Hc.
  ad; at_t H; auto.
  unfold getJacobianSoundSpeedWrtConserved, getJacobianSoundSpeed, getJacobianPressureWrtConserved, dot2, mom. cbv zeta.
  rewrite !pressure_code, ?sound_spec by auto.
  unfold llf_dedu, llf_dedu_err.
  replace (gam G * (gam G - 1) / s0 u * (s3 u - (s1 u * s1 u + s2 u * s2 u) / (2 * s0 u)))
    with (gam G * pressure (gam G) u / s0 u) by (unfold pressure; field; lra).
  change (sqrt (gam G * pressure (gam G) u / s0 u)) with (sound (gam G) u).
  set (cc := sound (gam G) u) in *.
  assert (Ew : Rabs (normal_velocity u n / (s0 u * s0 u)) = Rabs (normal_velocity u n) / (s0 u * s0 u)).
  { unfold Rdiv. rewrite Rabs_mult, (Rabs_pos_eq (/ _)); auto. left. apply Rinv_0_lt_compat. nra. }
  rewrite Ew. unfold sdot, szero, sscal, ssub; cbn [s0 s1 s2 s3 vx vy].
  destruct (Rleb_spec 0 (normal_velocity u n)) as [P|P].
  - rewrite Rltb_true by lra. rewrite Rabs_pos_eq by auto.
    set (w := normal_velocity u n). unfold pressure. field. split; lra.
  - rewrite Rltb_false by lra. rewrite Rabs_left by lra. set (w := normal_velocity u n). unfold pressure. field. split; lra.
Qed.

Lemma d_llf_full G (lm : bool) ul ur n : 1 < gam G -> physical (gam G) ul -> physical (gam G) ur ->
  (let el := Rabs (normal_velocity ul n) + sound (gam G) ul in
   let er := Rabs (normal_velocity ur n) + sound (gam G) ur in
   if lm then er < el /\ normal_velocity ul n <> 0 else el < er /\ normal_velocity ur n <> 0) ->
  jac2_is (fun x y => llf_flux G x y n) ul ur
    (madd (mneg (dfdl (llf_jac2 G ul ur n)))
       (if lm then outer (sscal (1/2) (ssub ur ul)) (llf_dedu_err (gam G) ul n) else mat0))
    (madd (dfdr (llf_jac2 G ul ur n))
       (if lm then mat0 else outer (sscal (1/2) (ssub ur ul)) (llf_dedu_err (gam G) ur n))).
Proof.
  intros Hg Hl Hr Hm i. cbv zeta in Hm. pose proof Hl as [Rl _]. pose proof Hr as [Rr _].
  apply (grad2_local (gam G) _ (fun x y => cget (sscal (1/2) (ssub (sadd (euler_flux (gam G) x n) (euler_flux (gam G) y n))
                    (sscal (rusanov_speed (gam G) x y n) (ssub y x)))) i)); auto.
  { intros x y Hx Hy. rewrite llf_formula by auto. reflexivity. }
  intros cl cr t dul dur Cl Cr.
  assert (Rl0 : s0 ul <> 0) by lra. assert (Rr0 : s0 ur <> 0) by lra.
  pose proof (d_flux G n ul Rl0 i cl t dul Cl) as Dl. pose proof (d_flux G n ur Rr0 i cr t dur Cr) as Dr.
  unfold llf_jac2. cbv zeta. rewrite llf_eig_rus by auto. rewrite !vars_spec by auto. vproj. rewrite !sound_spec.
  pose proof (dl_cont _ _ _ (d_normal n ul Rl0 cl t dul Cl)) as Wl. cbv beta in Wl.
  pose proof (dl_cont _ _ _ (d_normal n ur Rr0 cr t dur Cr)) as Wr. cbv beta in Wr.
  pose proof (dl_cont _ _ _ (d_sound G ul Hg Hl cl t dul Cl)) as Sl.
  pose proof (dl_cont _ _ _ (d_sound G ur Hg Hr cr t dur Cr)) as Sr.
  assert (El : continuity_pt (fun s => Rabs (normal_velocity (cl s) n) + sound (gam G) (cl s)) t).
  { apply (continuity_pt_plus (fun s => Rabs (normal_velocity (cl s) n)) (fun s => sound (gam G) (cl s))); auto. apply cont_abs; auto. }
  assert (Er : continuity_pt (fun s => Rabs (normal_velocity (cr s) n) + sound (gam G) (cr s)) t).
  { apply (continuity_pt_plus (fun s => Rabs (normal_velocity (cr s) n)) (fun s => sound (gam G) (cr s))); auto. apply cont_abs; auto. }
  pose proof (cv_at _ _ _ _ Cl) as Al. pose proof (cv_at _ _ _ _ Cr) as Ar.
  destruct lm; destruct Hm as [Hm Hw].
  - rewrite Rleb_true by lra.
    pose proof (d_spectral G ul n Hg Hl Hw cl t dul Cl) as De. cbv beta in De.
    assert (Ee : rusanov_speed (gam G) ul ur n = Rabs (normal_velocity ul n) + sound (gam G) ul) by (apply Rmax_left; lra).
    eapply dl_local with (f := fun s => cget (sscal (1/2) (ssub (sadd (euler_flux (gam G) (cl s) n) (euler_flux (gam G) (cr s) n))
                    (sscal (Rabs (normal_velocity (cl s) n) + sound (gam G) (cl s)) (ssub (cr s) (cl s))))) i).
    { eapply near_imp; [|apply (near_ltc _ _ t Er El); rewrite Al, Ar; exact Hm]. cbv beta. intros s Hs.
      unfold rusanov_speed. rewrite Rmax_left by lra. reflexivity. }
    rewrite Ee. set (dd := llf_dedu G ul n (normal_velocity ul n)) in *. set (er := llf_dedu_err (gam G) ul n) in *.
    set (JL := getJacobianDirectionalFluxWrtConserved G ul n) in *. set (JR := getJacobianDirectionalFluxWrtConserved G ur n) in *.
    clearbody JL JR dd er. clear Ee.
    cbn [dfdl dfdr]. set (ev := _ + sound (gam G) ul) in *.
    match goal with |- DL _ _ (sdot ?TL _ + sdot ?TR _) =>
      replace TL with (sscal (1/2) (ssub (sadd (mrow JL i) (sscal ev (unit_st i))) (sscal (cget ur i - cget ul i) (ssub dd er))));
      [replace TR with (sscal (1/2) (sadd (ssub (mrow JR i) (sscal ev (unit_st i))) szero))|] end.
    2,3: clear; destruct i; unfold unit_st, madd, mneg, outer, mat0, mget, mkmat, mkst, szero; apply st_eq;
      cbn [mrow r0 r1 r2 r3 s0 s1 s2 s3 cget ix_eqb ssub sadd sneg sscal]; field.
    sdl. rewrite sdot_sub in De. 
    set (A := sdot (mrow JL i) dul) in *. set (B := sdot (mrow JR i) dur) in *.
    set (E1 := sdot dd _) in *. set (E2 := sdot er _) in *. clearbody A B E1 E2.
    assert (Ev : ev = Rabs (normal_velocity (cl t) n) + sound (gam G) (cl t)) by (rewrite Al; reflexivity).
    rewrite Ev, <- Al, <- Ar. clear - A B E1 E2 Dl Dr De Cl Cr.
    destruct i; cbn [cget ssub sadd sscal s0 s1 s2 s3] in *; cbv beta in *; (ad; field).
  - rewrite Rleb_false by lra.
    pose proof (d_spectral G ur n Hg Hr Hw cr t dur Cr) as De. cbv beta in De.
    assert (Ee : rusanov_speed (gam G) ul ur n = Rabs (normal_velocity ur n) + sound (gam G) ur) by (apply Rmax_right; lra).
    eapply dl_local with (f := fun s => cget (sscal (1/2) (ssub (sadd (euler_flux (gam G) (cl s) n) (euler_flux (gam G) (cr s) n))
                    (sscal (Rabs (normal_velocity (cr s) n) + sound (gam G) (cr s)) (ssub (cr s) (cl s))))) i).
    { eapply near_imp; [|apply (near_ltc _ _ t El Er); rewrite Al, Ar; exact Hm]. cbv beta. intros s Hs.
      unfold rusanov_speed. rewrite Rmax_right by lra. reflexivity. }
    rewrite Ee. set (dd := llf_dedu G ur n (normal_velocity ur n)) in *. set (er := llf_dedu_err (gam G) ur n) in *.
    set (JL := getJacobianDirectionalFluxWrtConserved G ul n) in *. set (JR := getJacobianDirectionalFluxWrtConserved G ur n) in *.
    clearbody JL JR dd er. clear Ee.
    cbn [dfdl dfdr]. set (ev := _ + sound (gam G) ur) in *.
    match goal with |- DL _ _ (sdot ?TL _ + sdot ?TR _) =>
      replace TL with (sscal (1/2) (sadd (sadd (mrow JL i) (sscal ev (unit_st i))) szero));
      [replace TR with (sscal (1/2) (ssub (ssub (mrow JR i) (sscal ev (unit_st i))) (sscal (cget ur i - cget ul i) (ssub dd er))))|] end.
    2,3: clear; destruct i; unfold unit_st, madd, mneg, outer, mat0, mget, mkmat, mkst, szero; apply st_eq;
      cbn [mrow r0 r1 r2 r3 s0 s1 s2 s3 cget ix_eqb ssub sadd sneg sscal]; field.
    sdl. rewrite sdot_sub in De. 
    set (A := sdot (mrow JL i) dul) in *. set (B := sdot (mrow JR i) dur) in *.
    set (E1 := sdot dd _) in *. set (E2 := sdot er _) in *. clearbody A B E1 E2.
    assert (Ev : ev = Rabs (normal_velocity (cr t) n) + sound (gam G) (cr t)) by (rewrite Ar; reflexivity).
    rewrite Ev, <- Al, <- Ar. clear - A B E1 E2 Dl Dr De Cl Cr.
    destruct i; cbn [cget ssub sadd sscal s0 s1 s2 s3] in *; cbv beta in *; (ad; field).
Qed.

(** Off density one (with the flow and the jump not degenerate) the coded matrix is not the derivative. *)
Lemma llf_full_wrong G ul ur n : 1 < gam G -> physical (gam G) ul -> physical (gam G) ur ->
  Rabs (normal_velocity ur n) + sound (gam G) ur < Rabs (normal_velocity ul n) + sound (gam G) ul ->
  normal_velocity ul n <> 0 -> s0 ul <> 1 -> ul <> ur ->
  forall JR, ~ jac2_is (fun x y => llf_flux G x y n) ul ur (mneg (dfdl (llf_jac2 G ul ur n))) JR.
Proof.
  intros Hg Hl Hr Hm Hw H1 Hne JR HJ.
  pose proof (d_llf_full G true ul ur n Hg Hl Hr (conj Hm Hw)) as HT. cbv beta iota in HT.
  destruct (jac2_unique _ _ _ _ _ _ _ HJ HT) as [E _].
  pose proof Hl as [Rl _].
  assert (He : s0 (llf_dedu_err (gam G) ul n) <> 0).
  { unfold llf_dedu_err; cbn [sscal s0]. apply Rmult_integral_contrapositive_currified.
    - apply Rmult_integral_contrapositive_currified; [lra|]. apply Rinv_neq_0_compat. apply pow_nonzero. lra.
    - apply Rabs_no_R0; auto. }
  set (er := llf_dedu_err (gam G) ul n) in *. set (J := dfdl (llf_jac2 G ul ur n)) in *. clearbody er J.
  assert (Z : forall i, 1/2 * (cget ur i - cget ul i) * s0 er = 0).
  { intros i. assert (E2 : cget (mrow (mneg J) i) I0 = cget (mrow (madd (mneg J) (outer (sscal (1/2) (ssub ur ul)) er)) i) I0) by (rewrite <- E; reflexivity).
    destruct J as [q0 q1 q2 q3]. destruct i; unfold mneg, madd, outer in E2; cbn [mrow r0 r1 r2 r3 cget s0 sadd sneg sscal ssub s1 s2 s3] in *; lra. }
  apply Hne. symmetry. apply st_ext. intros i. specialize (Z i).
  apply Rmult_integral in Z. destruct Z as [Z|Z]; [lra|contradiction].
Qed.
