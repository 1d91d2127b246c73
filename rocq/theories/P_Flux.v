(** Properties C34-C40, C44, C45: the inviscid numerical fluxes. *)
From Coq Require Import Reals Lra Psatz.
From Verif Require Import BaseR M_Gas M_Flux M_BC S_Gas Pf_Flux Pf_FluxCons Pf_HLLC Pf_FluxRot Pf_FluxUp
  Pf_FluxMisc Pf_Slip.
Open Scope R_scope.

(** Sample data used by the examples: air, two different states, an oblique unit normal. *)
Definition air : gas := mkgas (7/5) (1/2) 288 1000 (7/10).
Definition uA : st := mks 1 (1/2) (1/4) 3.
Definition uB : st := mks 2 (-1) 1 4.
Definition uS : st := mks 1 5 0 20.      (* supersonic along x *)
Definition uT : st := mks 2 12 1 50.     (* supersonic along x *)
Definition nA : v2 := mkv (3/5) (4/5).
Definition nX : v2 := mkv 1 0.

Lemma ex_physical : physical (gam air) uA /\ physical (gam air) uB /\ physical (gam air) uS /\ physical (gam air) uT.
Proof. unfold physical, pressure; cbn; repeat split; lra. Qed.
Lemma ex_unit : unit_vec nA /\ unit_vec nX.
Proof. unfold unit_vec; cbn; split; lra. Qed.

(** C34: equal states give the analytical flux. *)
Theorem C34_flux_consistent : forall (f : fluxname) (G : gas) (u : st) (n : v2),
  1 < gam G -> physical (gam G) u -> unit_vec n ->
  get_flux f G u u n = euler_flux (gam G) u n.
Proof. exact flux_consistent. Qed.
Print Assumptions C34_flux_consistent.

Example C34_ex : get_flux ROE air uA uA nA = euler_flux (7/5) uA nA.
Proof. apply (C34_flux_consistent ROE air uA nA); [cbn; lra|apply ex_physical|apply ex_unit]. Qed.

(** C35: exchanging the sides and reversing the normal negates the flux. *)
Theorem C35_flux_conservative : forall (f : fluxname) (G : gas) (ul ur : st) (n : v2),
  1 < gam G -> (f = HLLC -> 5/4 <= gam G) ->
  physical (gam G) ul -> physical (gam G) ur -> unit_vec n ->
  get_flux f G ur ul (vneg n) = sneg (get_flux f G ul ur n).
Proof. exact flux_antisym. Qed.
Print Assumptions C35_flux_conservative.

Example C35_ex : get_flux HLLC air uB uA (vneg nA) = sneg (get_flux HLLC air uA uB nA).
Proof. apply C35_flux_conservative; try apply ex_physical; try apply ex_unit; intros; cbn; lra. Qed.

(** C36: the condition under which each flux is expected to take everything from the left.
    AUSM+ measures Mach numbers by the critical sound speed; Roe's entropy fix needs a margin of
    1e-4; the Rusanov flux never upwinds. *)
Definition supersonic (f : fluxname) (ga : R) (ul ur : st) (n : v2) : Prop :=
  match f with
  | LLF => False
  | VANLEER | AUSM => sound ga ul < normal_velocity ul n /\ sound ga ur < normal_velocity ur n
  | AUSMPLUS => critical_sound ga ul < normal_velocity ul n /\ critical_sound ga ur < normal_velocity ur n
  | HLL | HLLC => sound ga ul < normal_velocity ul n /\ roe_sound ga ul ur < roe_normal ul ur n
  | ROE => (1 + 1/10000) * roe_sound ga ul ur <= roe_normal ul ur n
  end.

Lemma upwind_left : forall (f : fluxname) (G : gas) (ul ur : st) (n : v2),
  1 < gam G -> physical (gam G) ul -> physical (gam G) ur ->
  supersonic f (gam G) ul ur n -> get_flux f G ul ur n = euler_flux (gam G) ul n.
Proof.
  intros f G ul ur n Hg Hl Hr Hs. destruct f; cbn [get_flux supersonic] in *; try tauto.
  - apply vanleer_up; tauto.
  - apply ausm_up; tauto.
  - apply ausmplus_up; tauto.
  - apply roe_up; auto.
  - apply hll_up; auto; lra.
  - apply hllc_up; tauto.
Qed.

Theorem C36_supersonic_upwind : forall (f : fluxname) (G : gas) (ul ur : st) (n : v2),
  1 < gam G -> (f = HLLC -> 5/4 <= gam G) ->
  physical (gam G) ul -> physical (gam G) ur -> unit_vec n ->
  (supersonic f (gam G) ul ur n -> get_flux f G ul ur n = euler_flux (gam G) ul n) /\
  (supersonic f (gam G) ur ul (vneg n) -> get_flux f G ul ur n = euler_flux (gam G) ur n).
Proof.
  intros f G ul ur n Hg H5 Hl Hr Hn. split; [apply upwind_left; auto|].
  intros Hs. pose proof (flux_antisym f G ul ur n Hg H5 Hl Hr Hn) as E.
  rewrite (upwind_left f G ur ul (vneg n)) in E by auto. rewrite euler_neg in E.
  rewrite <- (sneg_sneg (euler_flux (gam G) ur n)), E, sneg_sneg. reflexivity.
Qed.
Print Assumptions C36_supersonic_upwind.

Lemma sqrt_lt_of_sq x y : 0 < y -> x < y ^ 2 -> sqrt x < y.
Proof.
  intros Hy H. destruct (Rle_or_lt x 0). { rewrite sqrt_neg_0; auto. }
  rewrite <- (sqrt_pow2 y) by lra. apply sqrt_lt_1; lra.
Qed.

Example C36_ex_cells : forall f, f = VANLEER \/ f = AUSM \/ f = AUSMPLUS -> supersonic f (gam air) uS uT nX.
Proof.
  intros f Hf. assert (N1 : normal_velocity uS nX = 5) by (unfold normal_velocity; cbn; lra).
  assert (N2 : normal_velocity uT nX = 6) by (unfold normal_velocity; cbn; lra).
  destruct Hf as [->|[->| ->]]; cbn [supersonic]; rewrite N1, N2; split;
    unfold sound, critical_sound, enthalpy, pressure; cbn; apply sqrt_lt_of_sq; lra.
Qed.

Lemma ex_roe_mean : forall x y, 5 <= x -> 5 <= y -> 5 <= roe_mean uS uT x y.
Proof.
  intros. unfold roe_mean. assert (0 < sqrt (s0 uS)) by (apply sqrt_lt_R0; cbn; lra).
  assert (0 < sqrt (s0 uT)) by (apply sqrt_lt_R0; cbn; lra).
  apply (Rmult_le_reg_r (sqrt (s0 uS) + sqrt (s0 uT))); [lra|].
  unfold Rdiv. rewrite Rmult_assoc, Rinv_l by lra. nra.
Qed.
Lemma ex_roe_mean_le : forall x y k, x <= k -> y <= k -> roe_mean uS uT x y <= k.
Proof.
  intros. unfold roe_mean. assert (0 < sqrt (s0 uS)) by (apply sqrt_lt_R0; cbn; lra).
  assert (0 < sqrt (s0 uT)) by (apply sqrt_lt_R0; cbn; lra).
  apply (Rmult_le_reg_r (sqrt (s0 uS) + sqrt (s0 uT))); [lra|].
  unfold Rdiv. rewrite Rmult_assoc, Rinv_l by lra. nra.
Qed.

Example C36_ex_roe : forall f, f = HLL \/ f = HLLC \/ f = ROE -> supersonic f (gam air) uS uT nX.
Proof.
  intros f Hf. assert (N1 : normal_velocity uS nX = 5) by (unfold normal_velocity; cbn; lra).
  assert (W : 5 <= roe_normal uS uT nX).
  { unfold roe_normal, roe_velocity; cbn [vx vy nX]. pose proof (ex_roe_mean (s1 uS / s0 uS) (s1 uT / s0 uT)).
    assert (5 <= roe_mean uS uT (s1 uS / s0 uS) (s1 uT / s0 uT)) by (apply H; cbn; lra). lra. }
  assert (C : roe_sound (gam air) uS uT < 4).
  { unfold roe_sound. cbv zeta. apply sqrt_lt_of_sq; [lra|].
    assert (roe_enthalpy (gam air) uS uT <= 30) by (apply ex_roe_mean_le; unfold enthalpy, pressure; cbn; lra).
    assert (5 <= vx (roe_velocity uS uT)) by (apply ex_roe_mean; cbn; lra).
    assert (0 <= (vy (roe_velocity uS uT))^2) by nra.
    assert (25 <= (vx (roe_velocity uS uT))^2) by nra.
    replace (gam air) with (7/5) in * by reflexivity. lra. }
  destruct Hf as [->|[->| ->]]; cbn [supersonic]; rewrite ?N1; try (split; [|lra]); try lra;
    unfold sound, pressure; cbn; apply sqrt_lt_of_sq; lra.
Qed.

(** C37: Rusanov and HLL formulas with their signal speeds. *)
Theorem C37_rusanov : forall (G : gas) (ul ur : st) (n : v2),
  1 < gam G -> physical (gam G) ul -> physical (gam G) ur ->
  let lam := rusanov_speed (gam G) ul ur n in
  get_flux LLF G ul ur n =
    sscal (1/2) (ssub (sadd (euler_flux (gam G) ul n) (euler_flux (gam G) ur n)) (sscal lam (ssub ur ul)))
  /\ Rabs (normal_velocity ul n) + sound (gam G) ul <= lam
  /\ Rabs (normal_velocity ur n) + sound (gam G) ur <= lam /\ 0 < lam.
Proof.
  intros G ul ur n Hg Hl Hr. split; [exact (llf_formula G ul ur n Hg Hl Hr)|].
  assert (A : Rabs (normal_velocity ul n) + sound (gam G) ul <= rusanov_speed (gam G) ul ur n) by apply Rmax_l.
  split; [exact A|]. split; [apply Rmax_r|].
  pose proof (sound_pos _ _ Hg Hl). pose proof (Rabs_pos (normal_velocity ul n)). lra.
Qed.
Print Assumptions C37_rusanov.

Theorem C37_hll : forall (G : gas) (ul ur : st) (n : v2),
  1 < gam G -> physical (gam G) ul -> physical (gam G) ur ->
  exists sl sr : R,
    sl = Rmin (normal_velocity ul n - sound (gam G) ul) (roe_normal ul ur n - roe_sound (gam G) ul ur) /\
    sr = Rmax (normal_velocity ur n + sound (gam G) ur) (roe_normal ul ur n + roe_sound (gam G) ul ur) /\
    sl < sr /\
    let a := Rmin sl 0 in let b := Rmax sr 0 in
    a < b /\
    get_flux HLL G ul ur n =
      sscal (/ (b - a)) (sadd (ssub (sscal b (euler_flux (gam G) ul n)) (sscal a (euler_flux (gam G) ur n)))
                              (sscal (a * b) (ssub ur ul))).
Proof.
  intros G ul ur n Hg Hl Hr.
  exists (fst (hll_speeds G ul ur n)), (snd (hll_speeds G ul ur n)).
  split; [rewrite hll_speeds_spec by auto; reflexivity|].
  split; [rewrite hll_speeds_spec by auto; reflexivity|].
  split; [apply hll_speeds_ordered; auto|]. exact (hll_formula G ul ur n Hg Hl Hr).
Qed.
Print Assumptions C37_hll.

(** C38: HLLC waves are strictly ordered, both star densities are positive, both star states move
    with the contact and have the same pressure. *)
Theorem C38_hllc_waves : forall (G : gas) (ul ur : st) (n : v2),
  5/4 <= gam G -> physical (gam G) ul -> physical (gam G) ur -> unit_vec n ->
  let sl := Rmin (normal_velocity ul n - sound (gam G) ul) (roe_normal ul ur n - roe_sound (gam G) ul ur) in
  let sr := Rmax (normal_velocity ur n + sound (gam G) ur) (roe_normal ul ur n + roe_sound (gam G) ul ur) in
  let wl := normal_velocity ul n in let wr := normal_velocity ur n in
  let pl := pressure (gam G) ul in let pr := pressure (gam G) ur in
  let sm := hllc_sm ul ur wl wr pl pr sl sr in
  let ul' := getStarState ul n wl pl sl sm in let ur' := getStarState ur n wr pr sr sm in
  0 < s0 ur * (sr - wr) - s0 ul * (sl - wl) /\
  sl < sm < sr /\ 0 < s0 ul' /\ 0 < s0 ur' /\
  normal_velocity ul' n = sm /\ normal_velocity ur' n = sm /\
  pl + s0 ul * (wl - sl) * (wl - sm) = pr + s0 ur * (wr - sr) * (wr - sm).
Proof.
  intros G ul ur n H5 Hl Hr Hn. pose proof (hllc_star_states G ul ur n H5 Hl Hr Hn) as H.
  rewrite hll_speeds_spec in H by (auto; lra). exact H.
Qed.
Print Assumptions C38_hllc_waves.

Example C38_ex : 5/4 <= gam air /\ physical (gam air) uA /\ physical (gam air) uB /\ unit_vec nA.
Proof. repeat split; try apply ex_physical; try apply ex_unit; cbn; lra. Qed.

(** C39: a contact discontinuity at rest relative to the face. HLLC keeps it exactly. *)
Theorem C39_hllc_contact : forall (G : gas) (ul ur : st) (n : v2),
  1 < gam G -> physical (gam G) ul -> physical (gam G) ur ->
  normal_velocity ul n = 0 -> normal_velocity ur n = 0 -> pressure (gam G) ul = pressure (gam G) ur ->
  get_flux HLLC G ul ur n = mks 0 (pressure (gam G) ul * vx n) (pressure (gam G) ul * vy n) 0.
Proof. exact hllc_contact. Qed.
Print Assumptions C39_hllc_contact.

(** Roe's flux does not: the entropy fix is applied to the contact wave too. Exact leak: *)
Theorem C39_roe_contact_leak : forall (G : gas) (ul ur : st) (n : v2),
  1 < gam G -> physical (gam G) ul -> physical (gam G) ur ->
  normal_velocity ul n = 0 -> normal_velocity ur n = 0 -> pressure (gam G) ul = pressure (gam G) ur ->
  let c := roe_sound (gam G) ul ur in let p := pressure (gam G) ul in
  get_flux ROE G ul ur n = ssub (mks 0 (p * vx n) (p * vy n) 0) (sscal (1/10000 * c / 4) (ssub ur ul)).
Proof. exact roe_contact. Qed.
Print Assumptions C39_roe_contact_leak.

Definition uC : st := mks 1 0 1 3.        (* density jump and shear at equal pressure 1 *)
Definition uD : st := mks 4 0 (-2) 3.
Example C39_ex : physical (gam air) uC /\ physical (gam air) uD /\
  normal_velocity uC nX = 0 /\ normal_velocity uD nX = 0 /\ pressure (gam air) uC = pressure (gam air) uD.
Proof. unfold physical, pressure, normal_velocity; cbn. repeat split; try lra; field. Qed.

Theorem C39_roe_contact_refuted : exists (G : gas) (ul ur : st) (n : v2),
  1 < gam G /\ physical (gam G) ul /\ physical (gam G) ur /\ unit_vec n /\
  normal_velocity ul n = 0 /\ normal_velocity ur n = 0 /\ pressure (gam G) ul = pressure (gam G) ur /\
  s0 (get_flux ROE G ul ur n) < 0.
Proof.
  destruct C39_ex as (P1 & P2 & E1 & E2 & E3). assert (H : 1 < gam air) by (cbn; lra).
  exists air, uC, uD, nX. repeat split; auto; try apply P1; try apply P2; try apply ex_unit.
  rewrite C39_roe_contact_leak by auto. pose proof (roe_sound_pos _ _ _ H P1 P2).
  cbn [ssub sscal s0 uC uD]. lra.
Qed.
Print Assumptions C39_roe_contact_refuted.

(** C40: Roe's decomposition. The three waves are eigenvectors of the Euler matrix at the averaged
    state, add up to the jump, and weighted by their speeds to the flux difference; the computed flux
    is the central flux minus half the waves weighted by their entropy-fixed absolute speeds. *)
Theorem C40_roe_property : forall (G : gas) (ul ur : st) (n : v2),
  1 < gam G -> physical (gam G) ul -> physical (gam G) ur -> unit_vec n ->
  let w := roe_normal ul ur n in let c := roe_sound (gam G) ul ur in
  let A := euler_matrix (gam G) (roe_velocity ul ur) (roe_enthalpy (gam G) ul ur) n in
  let W1 := wave_minus (gam G) ul ur n in let W2 := wave_mid (gam G) ul ur n in
  let W3 := wave_plus (gam G) ul ur n in
  A W1 = sscal (w - c) W1 /\ A W2 = sscal w W2 /\ A W3 = sscal (w + c) W3 /\
  sadd W1 (sadd W2 W3) = ssub ur ul /\
  sadd (sscal (w - c) W1) (sadd (sscal w W2) (sscal (w + c) W3))
    = ssub (euler_flux (gam G) ur n) (euler_flux (gam G) ul n) /\
  get_flux ROE G ul ur n =
  sscal (1/2) (ssub (sadd (euler_flux (gam G) ul n) (euler_flux (gam G) ur n))
    (sadd (sscal (harten_speed (1/10000) c (w - c)) W1)
      (sadd (sscal (harten_speed (1/10000) c w) W2) (sscal (harten_speed (1/10000) c (w + c)) W3)))).
Proof.
  intros G ul ur n Hg Hl Hr Hn. cbv zeta.
  destruct (waves_eigen (gam G) ul ur n Hg Hl Hr Hn) as (A & B & C).
  split; [exact A|]. split; [exact B|]. split; [exact C|].
  split; [exact (waves_jump (gam G) ul ur n Hg Hl Hr)|].
  split; [exact (roe_property (gam G) ul ur n Hg Hl Hr)|].
  exact (roe_flux_waves G ul ur n Hg Hl Hr).
Qed.
Print Assumptions C40_roe_property.

(** C44: rotating or reflecting everything rotates or reflects the flux (for any states). *)
Theorem C44_flux_rotation : forall (f : fluxname) (G : gas) (q : ortho) (ul ur : st) (n : v2),
  orthogonal q -> get_flux f G (qs q ul) (qs q ur) (qv q n) = qs q (get_flux f G ul ur n).
Proof. exact flux_rot. Qed.
Print Assumptions C44_flux_rotation.

Example C44_ex : orthogonal (mkortho (3/5) (-4/5) (4/5) (3/5)) /\ orthogonal (mkortho 1 0 0 (-1)).
Proof. unfold orthogonal; cbn; repeat split; lra. Qed.

(** C45: no mass, energy or tangential momentum passes a slip wall. *)
Theorem C45_slip_wall_no_flux : forall (f : fluxname) (G : gas) (u : st) (n : v2),
  1 < gam G -> (f = HLLC -> 5/4 <= gam G) -> physical (gam G) u -> unit_vec n ->
  let F := get_flux f G u (ghost_state G BSlip u n) n in
  s0 F = 0 /\ s3 F = 0 /\ s1 F * vy n - s2 F * vx n = 0.
Proof. exact slip_no_flux. Qed.
Print Assumptions C45_slip_wall_no_flux.

Example C45_ex : let F := get_flux HLLC air uB (ghost_state air BSlip uB nA) nA in s0 F = 0.
Proof. cbv zeta. apply C45_slip_wall_no_flux; try apply ex_physical; try apply ex_unit; intros; cbn; lra. Qed.
