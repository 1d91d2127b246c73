(** Properties C35, C36, C38: where the claims about the inviscid fluxes stop holding. *)
From Coq Require Import Reals Lra Psatz.
From Verif Require Import BaseR M_Gas M_Flux S_Gas Pf_Flux Pf_FluxCons Pf_HLLC Pf_FluxUp P_Flux.
Open Scope R_scope.

Definition thin : gas := mkgas (11/10) (1/2) 288 1000 (7/10).
Definition uP : st := U (11/10) 1 (2601/2000) 0 (1/5).          (* light and cold *)
Definition uQ : st := U (11/10) (4^2 * 1) (1601/2000) 0 1.      (* heavy and warm *)

Lemma thin_phys : physical (gam thin) uP /\ physical (gam thin) uQ.
Proof. split; apply U_physical; cbn; lra. Qed.

Lemma thin_speeds : hll_speeds thin uP uQ nX = (1/2000, 3601/2000).
Proof.
  rewrite hll_speeds_pair. cbv zeta. unfold uP, uQ.
  change (11/10) with (gam thin). rewrite pair_roe_U, !vars_U by (cbn; lra). vproj. cbn [a_vn a_c]. rewrite !U_s0, !sound_U by (cbn; lra).
  replace (sqrt (c2av (gam thin) 4 (2601/2000) 0 (1/5) (1601/2000) 0 1)) with (9/10).
  2:{ replace (c2av (gam thin) 4 (2601/2000) 0 (1/5) (1601/2000) 0 1) with (9/10 * (9/10)) by (unfold c2av; cbn; field).
      symmetry; apply sqrt_square; lra. }
  unfold einfeldt_sl, einfeldt_sr. cbn [nX vx vy].
  f_equal; match goal with |- context [Rltb ?a ?b] => destruct (Rltb_spec a b) end; lra.
Qed.

Lemma thin_vars : v_vn (getVarsFromConserved thin uP nX) = 2601/2000 /\ v_vn (getVarsFromConserved thin uQ nX) = 1601/2000 /\
  v_p (getVarsFromConserved thin uP nX) = 2/55 /\ v_p (getVarsFromConserved thin uQ nX) = 160/11.
Proof.
  unfold uP, uQ. change (11/10) with (gam thin). rewrite !vars_U by (cbn; lra). vproj. cbn [gam thin nX vx vy]. repeat split; lra.
Qed.

Lemma thin_sm_val : hllc_sm uP uQ (2601/2000) (1601/2000) (2/55) (160/11) (1/2000) (3601/2000) = (-2297/3806000).
Proof. unfold hllc_sm. cbn [uP uQ U s0]. field. Qed.
Lemma thin_sm : hllc_sm uP uQ (2601/2000) (1601/2000) (2/55) (160/11) (1/2000) (3601/2000) < 0.
Proof. rewrite thin_sm_val. lra. Qed.

(** C38: for every adiabatic index of at least 5/4 the waves are ordered (C38_hllc_waves); for 11/10 they need not be. *)
Theorem C38_hllc_refuted : exists (G : gas) (ul ur : st) (n : v2),
  1 < gam G /\ physical (gam G) ul /\ physical (gam G) ur /\ unit_vec n /\
  let sl := Rmin (normal_velocity ul n - sound (gam G) ul) (roe_normal ul ur n - roe_sound (gam G) ul ur) in
  let sr := Rmax (normal_velocity ur n + sound (gam G) ur) (roe_normal ul ur n + roe_sound (gam G) ul ur) in
  let sm := hllc_sm ul ur (normal_velocity ul n) (normal_velocity ur n) (pressure (gam G) ul) (pressure (gam G) ur) sl sr in
  sm < sl /\ s0 (getStarState ul n (normal_velocity ul n) (pressure (gam G) ul) sl sm) < 0.
Proof.
  exists thin, uP, uQ, nX. destruct thin_phys as [P1 P2]. assert (Hg : 1 < gam thin) by (cbn; lra).
  split; [auto|]. split; [auto|]. split; [auto|]. split; [apply ex_unit|]. cbv zeta.
  pose proof (hll_speeds_spec thin uP uQ nX Hg P1 P2) as E. rewrite thin_speeds in E.
  pose proof (f_equal fst E) as E1. pose proof (f_equal snd E) as E2. cbn [fst snd] in E1, E2. rewrite <- E1, <- E2. clear E E1 E2.
  destruct thin_vars as (V1 & V2 & V3 & V4). rewrite !vars_spec in V1, V2, V3, V4 by auto. cbn [v_vn v_p] in V1, V2, V3, V4. rewrite V1, V2, V3, V4.
  pose proof thin_sm as H. set (sm := hllc_sm _ _ _ _ _ _ _ _) in *. clearbody sm. split; [lra|].
  unfold getStarState. cbn [s0 uP U]. assert (0 < 1/2000 - sm) by lra. assert (0 < / (1/2000 - sm)) by (apply Rinv_0_lt_compat; auto). unfold Rdiv at 1. nra.
Qed.
Print Assumptions C38_hllc_refuted.

(** C35: then the two sides of one face disagree about the mass that passes it. *)
Theorem C35_hllc_refuted : exists (G : gas) (ul ur : st) (n : v2),
  1 < gam G /\ physical (gam G) ul /\ physical (gam G) ur /\ unit_vec n /\
  s0 (get_flux HLLC G ul ur n) > 13/10 /\ - (1/10) < s0 (get_flux HLLC G ur ul (vneg n)) < 1/10.
Proof.
  exists thin, uP, uQ, nX. destruct thin_phys as [P1 P2]. assert (Hg : 1 < gam thin) by (cbn; lra).
  split; [auto|]. split; [auto|]. split; [auto|]. split; [apply ex_unit|].
  destruct thin_vars as (V1 & V2 & V3 & V4). pose proof thin_sm as H. cbn [get_flux]. unfold hllc_flux.
  rewrite hll_speeds_swap, thin_speeds, !vars_neg by auto. cbv zeta. cbn [fst snd v_vn v_p]. rewrite V1, V2, V3, V4, hllc_sm_swap.
  split.
  - rewrite (Rltb_true 0 (1/2000)) by lra. unfold getDirectionalFlux. cbn [uP U s0]. lra.
  - rewrite (Rltb_false 0 (- (3601/2000))) by lra. rewrite (Rleb_true (- (3601/2000)) 0) by lra.
    rewrite Rltb_true by lra. cbn [andb]. cbn [mkst s0 cget].
    rewrite thin_sm_val. unfold getStarState, getDirectionalFlux. cbn [uP uQ U s0].
    match goal with |- _ < ?x < _ => let y := fresh in set (y := x); assert (E : y = (4594/856875)) by (unfold y; field) end. rewrite E. lra.
Qed.
Print Assumptions C35_hllc_refuted.

(** C36: both states and their Roe average move supersonically along the normal. *)
Definition all_supersonic (ga : R) (ul ur : st) (n : v2) : Prop :=
  sound ga ul < normal_velocity ul n /\ sound ga ur < normal_velocity ur n /\ roe_sound ga ul ur < roe_normal ul ur n.

Lemma U_normal ga r a b c n : 0 < r -> normal_velocity (U ga r a b c) n = a * vx n + b * vy n.
Proof. intros. unfold normal_velocity, U; cbn [s0 s1 s2]. field. lra. Qed.
Lemma U_sound G r a b c : 1 < gam G -> 0 < r -> 0 < c -> sound (gam G) (U (gam G) r a b c) = c.
Proof. intros. unfold sound. rewrite pressure_U by auto. cbn [U s0]. rewrite <- (sound_U G r c) at 2 by auto. reflexivity. Qed.

(** equal velocities and sound speeds, four times the density on the right *)
Lemma equal_super G r a b c : 1 < gam G -> 0 < r -> 0 < c -> c < a ->
  all_supersonic (gam G) (U (gam G) r a b c) (U (gam G) (2^2*r) a b c) nX.
Proof.
  intros Hg Hr Hc Ha. assert (P1 := U_physical (gam G) r a b c Hg Hr Hc).
  assert (P2 : physical (gam G) (U (gam G) (2^2*r) a b c)) by (apply U_physical; auto; lra).
  unfold all_supersonic. rewrite !U_normal, !U_sound by (auto; lra). cbn [nX vx vy]. repeat split; try lra.
  pose proof (pair_roe_spec G _ _ nX Hg P1 P2) as E. rewrite pair_roe_U in E by (auto; lra).
  pose proof (f_equal a_vn E) as E1. pose proof (f_equal a_c E) as E2. cbn [a_vn a_c] in E1, E2. rewrite <- E2. rewrite <- E1.
  replace (sqrt (c2av (gam G) 2 a b c a b c)) with c.
  2:{ replace (c2av (gam G) 2 a b c a b c) with (c*c) by (unfold c2av; field). symmetry; apply sqrt_square; lra. }
  cbn [nX vx vy]. field_simplify. lra.
Qed.

Theorem C36_not_upwinded_refuted : forall f : fluxname, f = LLF \/ f = AUSMPLUS \/ f = ROE ->
  exists (G : gas) (ul ur : st) (n : v2),
    1 < gam G /\ physical (gam G) ul /\ physical (gam G) ur /\ unit_vec n /\
    all_supersonic (gam G) ul ur n /\ get_flux f G ul ur n <> euler_flux (gam G) ul n.
Proof.
  assert (Hg : 1 < gam air) by (cbn; lra).
  intros f [->|[->| ->]].
  - exists air, (U (gam air) 1 2 0 1), (U (gam air) (2^2*1) 2 0 1), nX.
    split; [auto|]. split; [apply U_physical; lra|]. split; [apply U_physical; lra|]. split; [apply ex_unit|].
    split; [apply equal_super; lra|]. intros E. apply (f_equal s0) in E. revert E. cbn [get_flux]. unfold llf_flux, llf_eig.
    rewrite !vars_U, !dflux_U, euler_U by (auto; lra). cbv zeta. vproj. rewrite !U_s0, !sound_U by (auto; lra).
    cbn [mkst cget s0]. unfold getDirectionalFlux. cbn [U s0 nX vx vy]. rewrite !(Rabs_right (2*1+0*0)) by lra.
    rewrite Rltb_false by lra. lra.
  - exists air, (U (gam air) 1 3 11 2), (U (gam air) (2^2*1) 3 11 2), nX.
    split; [auto|]. split; [apply U_physical; lra|]. split; [apply U_physical; lra|]. split; [apply ex_unit|].
    split; [apply equal_super; lra|]. intros E. apply (f_equal s1) in E. revert E. cbn [get_flux]. unfold ausmplus_flux.
    rewrite !vars_U, euler_U by (auto; lra). cbv zeta. vproj. rewrite !U_s0, !sound_U by (auto; lra).
    assert (C : ausmp_chalf air (3 * vx nX + 11 * vy nX) (3 * vx nX + 11 * vy nX) 2 2 (dot2 (mkv 3 11) (mkv 3 11)) (dot2 (mkv 3 11) (mkv 3 11)) = 5).
    { unfold ausmp_chalf. replace ((2 * 2 / (gam air - 1) + 1 / 2 * dot2 (mkv 3 11) (mkv 3 11)) * 2 * (gam air - 1) / (gam air + 1)) with (5*5) by (unfold dot2; cbn [vx vy gam air]; field).
      rewrite sqrt_square by lra. cbn [nX vx vy]. cbv zeta. rewrite (Rltb_true (3 * 1 + 11 * 0) 5), (Rltb_true (- (3 * 1 + 11 * 0)) 5) by lra. rewrite Rltb_false by lra. lra. }
    rewrite C. cbn [nX vx vy].
    assert (EL : forall p, ausmp_L ((3 * 1 + 11 * 0) / 5) p = (1/4*(8/5)*(8/5) + 1/8*(16/25)*(16/25), p * (1/4*(8/5)*(8/5)*(7/5) + 3/16*(3/5)*(16/25)*(16/25)))).
    { intros p. unfold ausmp_L. rewrite Rabs_right, Rleb_true by lra. f_equal; field. }
    assert (ER : forall p, ausmp_R ((3 * 1 + 11 * 0) / 5) p = (- (1/4)*(2/5)*(2/5) - 1/8*(16/25)*(16/25), p * (1/4*(2/5)*(2/5)*(13/5) - 3/16*(3/5)*(16/25)*(16/25)))).
    { intros p. unfold ausmp_R. rewrite Rabs_right, Rleb_true by lra. f_equal; field. }
    rewrite EL, ER. unfold getDirectionalFlux. cbn [fst snd U s0 s1]. rewrite Rabs_right by lra. cbn [gam air nX vx vy]. lra.
  - exists air, (U (gam air) 1 (20001/20000) 0 1), (U (gam air) (2^2*1) (20001/20000) 0 1), nX.
    split; [auto|]. split; [apply U_physical; lra|]. split; [apply U_physical; lra|]. split; [apply ex_unit|].
    split; [apply equal_super; lra|]. intros E. apply (f_equal s0) in E. revert E. cbn [get_flux]. unfold roe_flux. cbv zeta.
    change (getRoeAverages air (U (gam air) 1 (20001/20000) 0 1) (U (gam air) (2^2*1) (20001/20000) 0 1) nX _ _ _ _)
      with (pair_roe air (U (gam air) 1 (20001/20000) 0 1) (U (gam air) (2^2*1) (20001/20000) 0 1) nX).
    rewrite pair_roe_U, !vars_U, euler_U by (auto; lra). vproj. cbn [a_vn a_c].
    replace (sqrt (c2av (gam air) 2 (20001/20000) 0 1 (20001/20000) 0 1)) with 1.
    2:{ replace (c2av (gam air) 2 (20001/20000) 0 1 (20001/20000) 0 1) with (1*1) by (unfold c2av; field). symmetry; apply sqrt_square; lra. }
    cbn [mkst cget s0]. unfold roe_adu, getDirectionalFlux, harten, fixeps. cbv zeta. cbn [a_c a_rho a_v s0 U v_vn v_p nX vx vy].
    rewrite !Rabs_right by lra. rewrite Rltb_true, !Rltb_false by lra. cbn [gam air]. lra.
Qed.
Print Assumptions C36_not_upwinded_refuted.
