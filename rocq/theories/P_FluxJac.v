(** Properties C41-C43: the Jacobians returned by the inviscid flux classes.
    Everywhere, [jac2_is F ul ur JL JR] (S_Deriv2) says that JL and JR are the joint derivative of F
    with respect to the left and right state; the code returns minus the left one and plus the right one. *)
From Coq Require Import Reals Lra Psatz.
From Verif Require Import BaseR M_Gas M_Flux S_Gas S_Deriv S_Deriv2 Pf_Flux Pf_FluxCons Pf_HLLC Pf_FluxUp Pf_FluxMisc
  Pf_Deriv Pf_Gas Pf_FluxJac Pf_AusmJac Pf_RoeAvg Pf_HllcJac Pf_RoeJac P_Flux.
Open Scope R_scope.

(** a F(x) + b F(y) - q (y - x): the LLF and HLL fluxes with the coefficients held fixed *)
Definition held (a b q ga : R) (n : v2) (x y : st) : st :=
  ssub (sadd (sscal a (euler_flux ga x n)) (sscal b (euler_flux ga y n))) (sscal q (ssub y x)).

(** C41: LLF and HLL. The held flux agrees with the code's flux at the point of differentiation. *)
Theorem C41_llf : forall (G : gas) (ul ur : st) (n : v2),
  1 < gam G -> physical (gam G) ul -> physical (gam G) ur ->
  let q := rusanov_speed (gam G) ul ur n / 2 in
  held (1/2) (1/2) q (gam G) n ul ur = get_flux LLF G ul ur n /\
  jac2_is (held (1/2) (1/2) q (gam G) n) ul ur (mneg (dfdl (llf_jac G ul ur n))) (dfdr (llf_jac G ul ur n)).
Proof. intros G ul ur n Hg Hl Hr q. split; [apply frozen_llf; auto|apply llf_jac_frozen; auto]. Qed.
Print Assumptions C41_llf.

Theorem C41_hll : forall (G : gas) (ul ur : st) (n : v2),
  1 < gam G -> physical (gam G) ul -> physical (gam G) ur ->
  let sl := Rmin (normal_velocity ul n - sound (gam G) ul) (roe_normal ul ur n - roe_sound (gam G) ul ur) in
  let sr := Rmax (normal_velocity ur n + sound (gam G) ur) (roe_normal ul ur n + roe_sound (gam G) ul ur) in
  let a := Rmin sl 0 in let b := Rmax sr 0 in
  let F := held (b/(b-a)) (-a/(b-a)) (-(a*b)/(b-a)) (gam G) n in
  a < b /\ F ul ur = get_flux HLL G ul ur n /\
  jac2_is F ul ur (mneg (dfdl (hll_jac G ul ur n))) (dfdr (hll_jac G ul ur n)).
Proof.
  intros G ul ur n Hg Hl Hr sl sr a b F.
  destruct (hll_jac_frozen G ul ur n Hg Hl Hr) as [Hab HJ]. fold sl sr a b in Hab, HJ.
  split; [exact Hab|split; [|exact HJ]].
  destruct (hll_formula G ul ur n Hg Hl Hr) as [_ E]. rewrite hll_speeds_spec in E by auto. cbn [fst snd] in E.
  fold sl sr in E. fold a b in E. cbn [get_flux]. rewrite E. unfold F, held. clearbody a b.
  apply st_eq; cbn [sscal sadd ssub s0 s1 s2 s3]; field; lra.
Qed.
Print Assumptions C41_hll.

Example C41_ex : 1 < gam air /\ physical (gam air) uA /\ physical (gam air) uB.
Proof. split; [cbn; lra|split; apply ex_physical]. Qed.

(** C42: AUSM. Exact whenever the interface Mach number is not zero, even where a one-sided Mach
    number is exactly one. *)
Theorem C42_ausm : forall (G : gas) (ul ur : st) (n : v2),
  1 < gam G -> physical (gam G) ul -> physical (gam G) ur ->
  mach_plus (normal_velocity ul n / sound (gam G) ul) - mach_plus (- (normal_velocity ur n / sound (gam G) ur)) <> 0 ->
  jac2_is (fun x y => get_flux AUSM G x y n) ul ur (mneg (dfdl (ausm_jac G ul ur n))) (dfdr (ausm_jac G ul ur n)).
Proof. exact ausm_jac_exact. Qed.
Print Assumptions C42_ausm.

Lemma mach_plus_lo m : m < 0 -> mach_plus m < 1/4.
Proof. intros H. unfold mach_plus. destruct (Rle_dec m (-1)); [lra|]. destruct (Rle_dec m 1); [|lra]. assert (0 < m + 1 < 1) by lra. nra. Qed.
Lemma mach_plus_hi m : 0 < m -> 1/4 < mach_plus m.
Proof. intros H. unfold mach_plus. destruct (Rle_dec m (-1)); [lra|]. destruct (Rle_dec m 1); [|lra]. nra. Qed.

Example C42_ex_ausm :
  mach_plus (normal_velocity uA nA / sound (gam air) uA) - mach_plus (- (normal_velocity uB nA / sound (gam air) uB)) <> 0.
Proof.
  assert (HA := sound_pos (gam air) uA ltac:(cbn; lra) ltac:(apply ex_physical)).
  assert (HB := sound_pos (gam air) uB ltac:(cbn; lra) ltac:(apply ex_physical)).
  assert (NA : normal_velocity uA nA = 1/2) by (unfold normal_velocity; cbn; lra).
  assert (NB : normal_velocity uB nA = 1/10) by (unfold normal_velocity; cbn; lra).
  rewrite NA, NB. assert (0 < 1/2 / sound (gam air) uA) by (apply Rdiv_lt_0_compat; lra).
  assert (0 < 1/10 / sound (gam air) uB) by (apply Rdiv_lt_0_compat; lra).
  pose proof (mach_plus_hi _ H). pose proof (mach_plus_lo (- (1/10 / sound (gam air) uB)) ltac:(lra)). lra.
Qed.

(** C42: HLLC, off the boundaries between its branches: the fastest waves are decided strictly and
    none of the three wave speeds is zero, or everything moves one way. *)
Theorem C42_hllc : forall (G : gas) (ul ur : st) (n : v2),
  5/4 <= gam G -> physical (gam G) ul -> physical (gam G) ur -> unit_vec n ->
  let wl := normal_velocity ul n in let wr := normal_velocity ur n in
  let cl := sound (gam G) ul in let cr := sound (gam G) ur in
  let W := roe_normal ul ur n in let C := roe_sound (gam G) ul ur in
  let sl := Rmin (wl - cl) (W - C) in let sr := Rmax (wr + cr) (W + C) in
  let sm := (s0 ur * wr * (sr - wr) - s0 ul * wl * (sl - wl) + pressure (gam G) ul - pressure (gam G) ur)
            / (s0 ur * (sr - wr) - s0 ul * (sl - wl)) in
  (0 < sl \/ sr < 0 \/ (wl - cl <> W - C /\ wr + cr <> W + C /\ sl <> 0 /\ sm <> 0 /\ sr <> 0)) ->
  jac2_is (fun x y => get_flux HLLC G x y n) ul ur (mneg (dfdl (hllc_jac G ul ur n))) (dfdr (hllc_jac G ul ur n)).
Proof.
  intros G ul ur n Hg Hl Hr Hn wl wr cl cr W C sl sr sm Hs. apply hllc_jac_exact; auto.
Qed.
Print Assumptions C42_hllc.

Definition uM : st := mks 1 0 0 1.
Definition uN : st := mks 4 0 0 8.
Example C42_ex_hllc :
  let ul := uM in let ur := uN in let n := nA in let G := air in
  let wl := normal_velocity ul n in let wr := normal_velocity ur n in
  let cl := sound (gam G) ul in let cr := sound (gam G) ur in
  let W := roe_normal ul ur n in let C := roe_sound (gam G) ul ur in
  let sl := Rmin (wl - cl) (W - C) in let sr := Rmax (wr + cr) (W + C) in
  let sm := (s0 ur * wr * (sr - wr) - s0 ul * wl * (sl - wl) + pressure (gam G) ul - pressure (gam G) ur)
            / (s0 ur * (sr - wr) - s0 ul * (sl - wl)) in
  physical (gam G) ul /\ physical (gam G) ur /\
  wl - cl <> W - C /\ wr + cr <> W + C /\ sl <> 0 /\ sm <> 0 /\ sr <> 0.
Proof.
  intros ul ur n G wl wr cl cr W C sl sr sm.
  assert (Pl : physical (gam G) ul) by (unfold physical, pressure; cbn; lra).
  assert (Pr : physical (gam G) ur) by (unfold physical, pressure; cbn; lra).
  assert (E1 : wl = 0) by (unfold wl, normal_velocity; cbn; lra).
  assert (E2 : wr = 0) by (unfold wr, normal_velocity; cbn; lra).
  assert (S1 : sqrt (s0 uM) = 1) by (cbn; apply sqrt_1).
  assert (S4 : sqrt (s0 uN) = 2) by (cbn; replace 4 with (2*2) by ring; apply sqrt_square; lra).
  assert (E3 : W = 0) by (unfold W, roe_normal, roe_velocity, roe_mean; cbn; lra).
  assert (Ecl : cl = sqrt (14/25)) by (unfold cl, sound, pressure; cbn; f_equal; lra).
  assert (Ecr : cr = sqrt (28/25)) by (unfold cr, sound, pressure; cbn; f_equal; lra).
  assert (EC : C = sqrt (14/15)).
  { unfold C, roe_sound, roe_enthalpy, roe_velocity, roe_mean, ul, ur. rewrite S1, S4. unfold enthalpy, pressure; cbn. f_equal. lra. }
  assert (L1 : cl < C) by (rewrite Ecl, EC; apply sqrt_lt_1; lra).
  assert (L2 : C < cr) by (rewrite Ecr, EC; apply sqrt_lt_1; lra).
  assert (L0 : 0 < cl) by (rewrite Ecl; apply sqrt_lt_R0; lra).
  assert (Esl : sl = - C) by (unfold sl; rewrite E1, E3, Rmin_right; lra).
  assert (Esr : sr = cr) by (unfold sr; rewrite E2, E3, Rmax_left; lra).
  assert (Esm : sm <> 0).
  { unfold sm. rewrite E1, E2, Esl, Esr. replace (pressure (gam G) ul) with (2/5) by (unfold pressure; cbn; lra).
    replace (pressure (gam G) ur) with (16/5) by (unfold pressure; cbn; lra). cbn [ul ur uM uN s0].
    clearbody C cr. unfold Rdiv. apply Rmult_integral_contrapositive_currified; [lra|apply Rinv_neq_0_compat; lra]. }
  rewrite E1, E2, E3. rewrite Esl, Esr. repeat split; try apply Pl; try apply Pr; auto; lra.
Qed.

(** C43: the "full" LLF Jacobian. The true derivative is the returned matrices plus a rank-one
    correction, on the side where the spectral radius is strictly larger:
    1/2 (ur - ul) times this vector, which vanishes when the density is one. *)
Definition llf_error (ga : R) (u : st) (n : v2) : st :=
  sscal ((s0 u - 1) / (s0 u)^2)
    (mks (Rabs (normal_velocity u n)) (- (ga * (ga - 1) * s1 u / (2 * sound ga u)))
         (- (ga * (ga - 1) * s2 u / (2 * sound ga u))) 0).

Theorem C43_llf_error : forall (G : gas) (left_larger : bool) (ul ur : st) (n : v2),
  1 < gam G -> physical (gam G) ul -> physical (gam G) ur ->
  (let el := Rabs (normal_velocity ul n) + sound (gam G) ul in
   let er := Rabs (normal_velocity ur n) + sound (gam G) ur in
   if left_larger then er < el /\ normal_velocity ul n <> 0 else el < er /\ normal_velocity ur n <> 0) ->
  jac2_is (fun x y => get_flux LLF G x y n) ul ur
    (madd (mneg (dfdl (llf_jac2 G ul ur n)))
       (if left_larger then outer (sscal (1/2) (ssub ur ul)) (llf_error (gam G) ul n) else mat0))
    (madd (dfdr (llf_jac2 G ul ur n))
       (if left_larger then mat0 else outer (sscal (1/2) (ssub ur ul)) (llf_error (gam G) ur n))).
Proof. exact d_llf_full. Qed.
Print Assumptions C43_llf_error.

Theorem C43_llf_wrong : forall (G : gas) (ul ur : st) (n : v2),
  1 < gam G -> physical (gam G) ul -> physical (gam G) ur ->
  Rabs (normal_velocity ur n) + sound (gam G) ur < Rabs (normal_velocity ul n) + sound (gam G) ul ->
  normal_velocity ul n <> 0 -> s0 ul <> 1 -> ul <> ur ->
  forall JR, ~ jac2_is (fun x y => get_flux LLF G x y n) ul ur (mneg (dfdl (llf_jac2 G ul ur n))) JR.
Proof. exact llf_full_wrong. Qed.
Print Assumptions C43_llf_wrong.

Theorem C43_llf_refuted : exists (G : gas) (ul ur : st) (n : v2),
  1 < gam G /\ physical (gam G) ul /\ physical (gam G) ur /\ unit_vec n /\
  ~ jac2_is (fun x y => get_flux LLF G x y n) ul ur (mneg (dfdl (llf_jac2 G ul ur n))) (dfdr (llf_jac2 G ul ur n)).
Proof.
  exists air, (mks 2 2 0 4), uM, nX.
  assert (Pl : physical (gam air) (mks 2 2 0 4)) by (unfold physical, pressure; cbn; lra).
  assert (Pr : physical (gam air) uM) by (unfold physical, pressure; cbn; lra).
  split; [cbn; lra|]. split; [exact Pl|]. split; [exact Pr|]. split; [apply ex_unit|].
  assert (N1 : normal_velocity (mks 2 2 0 4) nX = 1) by (unfold normal_velocity; cbn; lra).
  assert (N2 : normal_velocity uM nX = 0) by (unfold normal_velocity; cbn; lra).
  apply C43_llf_wrong; auto.
  - cbn; lra.
  - rewrite N1, N2, Rabs_R0, Rabs_R1.
    assert (0 < sound (gam air) (mks 2 2 0 4)) by (apply sound_pos; auto; cbn; lra).
    assert (sound (gam air) uM < 1). { apply Rlt_le_trans with (sqrt 1); [unfold sound, pressure; apply sqrt_lt_1; cbn; lra|rewrite sqrt_1; lra]. }
    lra.
  - rewrite N1; lra.
  - cbn; lra.
  - intro K. apply (f_equal s0) in K. cbn in K. lra.
Qed.
Print Assumptions C43_llf_refuted.

Example C43_ex_llf : let ul := mks 2 2 0 4 in
  Rabs (normal_velocity uM nX) + sound (gam air) uM < Rabs (normal_velocity ul nX) + sound (gam air) ul /\ normal_velocity ul nX <> 0.
Proof.
  intros ul. assert (N1 : normal_velocity ul nX = 1) by (unfold normal_velocity; cbn; lra).
  assert (N2 : normal_velocity uM nX = 0) by (unfold normal_velocity; cbn; lra).
  rewrite N1, N2, Rabs_R0, Rabs_R1.
  assert (0 < sound (gam air) ul) by (apply sound_pos; [cbn; lra|unfold physical, pressure; cbn; lra]).
  assert (sound (gam air) uM < 1). { apply Rlt_le_trans with (sqrt 1); [unfold sound, pressure; apply sqrt_lt_1; cbn; lra|rewrite sqrt_1; lra]. }
  split; lra.
Qed.

(** C43: Roe. With Harten's entropy fix differentiated correctly ([harten_dl_true] instead of the
    code's [harten_dl], which has already overwritten the wave speed) the coded formulas give the
    derivative of the Roe flux at every pair of physical states. *)
Theorem C43_roe_true : forall (G : gas) (ul ur : st) (n : v2),
  1 < gam G -> physical (gam G) ul -> physical (gam G) ur ->
  let J := roe_jac_with harten_dl_true G ul ur n in
  jac2_is (fun x y => get_flux ROE G x y n) ul ur (mneg (dfdl J)) (dfdr J).
Proof. exact roe_jac_true. Qed.
Print Assumptions C43_roe_true.

(** The code instantiates the same formulas with its own derivative of the fix ... *)
Theorem C43_roe_code : forall (G : gas) (ul ur : st) (n : v2),
  roe_jac G ul ur n = roe_jac_with harten_dl G ul ur n.
Proof. exact roe_jac_with_code. Qed.
Print Assumptions C43_roe_code.

(** ... which differs from the right one by the following whenever the fix is active. *)
Theorem C43_fix_error : forall (delta l : R) (dl dc : st), 0 < delta -> 0 <= l < delta ->
  let l' := (l * l + delta * delta) / (2 * delta) in
  ssub (harten_dl delta l dl dc) (harten_dl_true delta l dl dc) =
  sadd (sscal ((l' - l) / delta) dl) (sscal (fixeps * (l * l - l' * l') / (2 * delta * delta)) dc) /\ l' <> l.
Proof.
  intros delta l dl dc Hd Hl l'. unfold harten_dl, harten_dl_true. rewrite Rltb_true by lra. fold l'. split.
  - apply st_eq; cbn [mkst cget sscal sadd ssub s0 s1 s2 s3]; field; lra.
  - unfold l'. intro K. assert ((l - delta) * (l - delta) = 0) by (apply (f_equal (fun x => x * (2 * delta))) in K; field_simplify in K; lra).
    assert (l - delta = 0) by nra. lra.
Qed.
Print Assumptions C43_fix_error.

(** So the returned Jacobian is exact where no wave speed is inside the fix, ... *)
Theorem C43_roe_exact_off_fix : forall (G : gas) (ul ur : st) (n : v2),
  1 < gam G -> physical (gam G) ul -> physical (gam G) ur ->
  let c := roe_sound (gam G) ul ur in let W := roe_normal ul ur n in
  fixeps * c <= Rabs (W - c) -> fixeps * c <= Rabs W -> fixeps * c <= Rabs (W + c) ->
  jac2_is (fun x y => get_flux ROE G x y n) ul ur (mneg (dfdl (roe_jac G ul ur n))) (dfdr (roe_jac G ul ur n)).
Proof. exact roe_jac_exact_off. Qed.
Print Assumptions C43_roe_exact_off_fix.

(** ... and wrong, for instance, at every stationary contact. *)
Theorem C43_roe_wrong : forall (G : gas) (rl rr E : R) (n : v2),
  1 < gam G -> 0 < rl -> 0 < rr -> 0 < E -> rl <> rr -> vx n <> 0 ->
  forall JR, ~ jac2_is (fun x y => get_flux ROE G x y n) (mks rl 0 0 E) (mks rr 0 0 E)
     (mneg (dfdl (roe_jac G (mks rl 0 0 E) (mks rr 0 0 E) n))) JR.
Proof. exact roe_jac_wrong_contact. Qed.
Print Assumptions C43_roe_wrong.

Theorem C43_roe_refuted : exists (G : gas) (ul ur : st) (n : v2),
  1 < gam G /\ physical (gam G) ul /\ physical (gam G) ur /\ unit_vec n /\
  ~ jac2_is (fun x y => get_flux ROE G x y n) ul ur (mneg (dfdl (roe_jac G ul ur n))) (dfdr (roe_jac G ul ur n)).
Proof.
  exists air, (mks 1 0 0 1), (mks 2 0 0 1), nA.
  split; [cbn; lra|]. split; [unfold physical, pressure; cbn; lra|]. split; [unfold physical, pressure; cbn; lra|].
  split; [apply ex_unit|]. apply C43_roe_wrong; cbn; lra.
Qed.
Print Assumptions C43_roe_refuted.

(** two states moving at half the sound speed along x *)
Example C43_ex_off : let u := mks 1 (1/2) 0 ((125/49)/(14/10*(4/10)) + 1/8) in
  let c := roe_sound (gam air) u u in let W := roe_normal u u nX in
  physical (gam air) u /\ fixeps * c <= Rabs (W - c) /\ fixeps * c <= Rabs W /\ fixeps * c <= Rabs (W + c).
Proof.
  intros u c W. assert (M : forall x, roe_mean u u x x = x) by (intros; unfold roe_mean; cbn [u s0]; rewrite sqrt_1; field).
  assert (EW : W = 1/2) by (unfold W, roe_normal, roe_velocity; rewrite !M; cbn; lra).
  assert (Ec : c = sqrt (125/49)).
  { unfold c, roe_sound, roe_enthalpy, roe_velocity. rewrite !M. unfold enthalpy, pressure. cbn. f_equal. field. }
  assert (1 < c < 2). { rewrite Ec. split; [rewrite <- sqrt_1 at 1; apply sqrt_lt_1; lra|]. replace 2 with (sqrt (2*2)) by (apply sqrt_square; lra). apply sqrt_lt_1; lra. }
  split; [unfold physical, pressure; cbn; lra|]. rewrite EW.
  unfold fixeps. rewrite (Rabs_left (1/2 - c)), (Rabs_pos_eq (1/2)), (Rabs_pos_eq (1/2 + c)) by lra. repeat split; lra.
Qed.
