(** Proofs about the numerical fluxes: consistency, conservation, rotational invariance. *)
From Coq Require Import Reals Lra Psatz Bool.
From Verif Require Import BaseR M_Gas M_Flux S_Gas.
Open Scope R_scope.

Ltac fld := field; repeat split; lra.

(** Physical states are exactly the rational image of (rho, a, b, c): density, velocity, sound speed *)
Definition U (ga rho a b c : R) : st :=
  mks rho (rho * a) (rho * b) (rho * c^2 / (ga * (ga - 1)) + rho * (a^2 + b^2) / 2).

Lemma sqrt_sq_pos x : 0 < x -> (sqrt x)^2 = x.
Proof. intros; rewrite pow2_sqrt; lra. Qed.

Lemma phys_param ga u : 1 < ga -> physical ga u ->
  exists rho a b c, 0 < rho /\ 0 < c /\ u = U ga rho a b c.
Proof.
  intros Hg [Hr Hp].
  exists (s0 u), (s1 u / s0 u), (s2 u / s0 u), (sqrt (ga * pressure ga u / s0 u)).
  assert (0 < ga * pressure ga u / s0 u).
  { apply Rdiv_lt_0_compat; [nra | auto]. }
  split; [auto | split; [apply sqrt_lt_R0; auto |]].
  unfold U; apply st_eq; simpl; try (fld); auto.
  change (sqrt (ga * pressure ga u / s0 u) * (sqrt (ga * pressure ga u / s0 u) * 1))
    with ((sqrt (ga * pressure ga u / s0 u))^2).
  rewrite sqrt_sq_pos by auto. unfold pressure. fld.
Qed.

Lemma pressure_U ga rho a b c : 1 < ga -> 0 < rho -> pressure ga (U ga rho a b c) = rho * c^2 / ga.
Proof. intros. unfold pressure, U; simpl. fld. Qed.

Lemma U_physical ga rho a b c : 1 < ga -> 0 < rho -> 0 < c -> physical ga (U ga rho a b c).
Proof.
  intros; split; [simpl; auto|]. rewrite pressure_U by auto.
  apply Rdiv_lt_0_compat; [|lra]. apply Rmult_lt_0_compat; nra.
Qed.

Lemma vars_U G rho a b c n : 1 < gam G -> 0 < rho ->
  getVarsFromConserved G (U (gam G) rho a b c) n =
  mkvars (mkv a b) (a * vx n + b * vy n) (rho * c^2 / gam G) (c^2 / (gam G - 1) + (a^2 + b^2) / 2).
Proof.
  intros Hg Hr. unfold getVarsFromConserved, U, dot2; simpl.
  f_equal; try fld.
  f_equal; fld.
Qed.

Lemma sound_U G rho c : 1 < gam G -> 0 < rho -> 0 < c -> getSoundSpeed G rho (rho * c^2 / gam G) = c.
Proof.
  intros. unfold getSoundSpeed.
  replace (gam G * (rho * c ^ 2 / gam G) / rho) with (c * c) by (fld).
  apply sqrt_square; lra.
Qed.

Lemma dflux_U G rho a b c n : 1 < gam G -> 0 < rho ->
  getDirectionalFluxFromConserved G (U (gam G) rho a b c) n =
  getDirectionalFlux (U (gam G) rho a b c) n (a * vx n + b * vy n) (rho * c^2 / gam G).
Proof.
  intros. unfold getDirectionalFluxFromConserved. f_equal.
  - unfold dot2, mom, U; simpl. fld.
  - unfold getPressure, dot2, mom, U; simpl. fld.
Qed.

Lemma euler_U ga rho a b c n : 1 < ga -> 0 < rho ->
  euler_flux ga (U ga rho a b c) n =
  getDirectionalFlux (U ga rho a b c) n (a * vx n + b * vy n) (rho * c^2 / ga).
Proof.
  intros. unfold euler_flux, getDirectionalFlux. rewrite pressure_U by auto.
  apply st_eq; unfold normal_velocity, U; simpl; fld.
Qed.

(** The analytical flux of the code is the Euler flux *)
Lemma dflux_euler G u n : 1 < gam G -> physical (gam G) u ->
  getDirectionalFluxFromConserved G u n = euler_flux (gam G) u n.
Proof.
  intros Hg Hp. destruct (phys_param _ _ Hg Hp) as (r & a & b & c & Hr & Hc & ->).
  rewrite dflux_U, euler_U; auto.
Qed.

Lemma dflux_vars G u n : 1 < gam G -> physical (gam G) u ->
  getDirectionalFlux u n (v_vn (getVarsFromConserved G u n)) (v_p (getVarsFromConserved G u n))
  = euler_flux (gam G) u n.
Proof.
  intros Hg Hp. destruct (phys_param _ _ Hg Hp) as (r & a & b & c & Hr & Hc & ->).
  rewrite vars_U, euler_U; auto.
Qed.

(** ** Roe averages of a pair of states, with rho_r = q^2 rho_l *)
Lemma sqrt_ratio r q : 0 < r -> 0 < q -> sqrt (q^2 * r / r) = q.
Proof. intros. replace (q^2*r/r) with (q*q) by (fld). apply sqrt_square; lra. Qed.

Lemma ratio_exists rl rr : 0 < rl -> 0 < rr -> exists q, 0 < q /\ rr = q^2 * rl.
Proof.
  intros. exists (sqrt (rr/rl)). assert (0 < rr/rl) by (apply Rdiv_lt_0_compat; auto).
  split; [apply sqrt_lt_R0; auto|]. rewrite sqrt_sq_pos by auto. fld.
Qed.

Definition c2av (ga q al bl cl ar br cr : R) : R :=
  (q * cr^2 + cl^2) / (q + 1) + (ga - 1) * q * ((ar - al)^2 + (br - bl)^2) / (2 * (q + 1)^2).

Lemma c2av_pos ga q al bl cl ar br cr : 1 < ga -> 0 < q -> 0 < cl -> 0 < cr ->
  0 < c2av ga q al bl cl ar br cr.
Proof.
  intros. unfold c2av. apply Rplus_lt_le_0_compat.
  - apply Rdiv_lt_0_compat; [|lra]. assert (0 < cr^2) by nra. nra.
  - apply Rmult_le_pos; [apply Rmult_le_pos; [nra|] |].
    + pose proof (pow2_ge_0 (ar-al)); pose proof (pow2_ge_0 (br-bl)); lra.
    + left; apply Rinv_0_lt_compat. assert (0 < (q+1)^2) by nra. lra.
Qed.

Lemma roe_U G rl al bl cl q ar br cr n :
  1 < gam G -> 0 < rl -> 0 < q ->
  getRoeAverages G (U (gam G) rl al bl cl) (U (gam G) (q^2*rl) ar br cr) n
    (mkv al bl) (cl^2/(gam G-1) + (al^2+bl^2)/2) (mkv ar br) (cr^2/(gam G-1) + (ar^2+br^2)/2)
  = mkroe q (q * rl) (mkv ((q*ar+al)/(q+1)) ((q*br+bl)/(q+1)))
      (((q*ar+al)/(q+1))^2 + ((q*br+bl)/(q+1))^2)
      ((q*ar+al)/(q+1) * vx n + (q*br+bl)/(q+1) * vy n)
      ((q * (cr^2/(gam G-1) + (ar^2+br^2)/2) + (cl^2/(gam G-1) + (al^2+bl^2)/2)) / (q+1))
      (sqrt (c2av (gam G) q al bl cl ar br cr)).
Proof.
  intros Hg Hr HR. unfold getRoeAverages.
  change (s0 (U (gam G) (q^2*rl) ar br cr)) with (q^2*rl).
  change (s0 (U (gam G) rl al bl cl)) with rl.
  rewrite sqrt_ratio by auto.
  unfold dot2; cbv [vx vy]; cbv beta zeta.
  f_equal.
  - ring.
  - f_equal. unfold c2av. fld.
Qed.
