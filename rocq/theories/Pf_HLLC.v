(** HLLC: ordering of the waves, consistency, conservation. *)
From Coq Require Import Reals Lra Psatz Bool.
From Verif Require Import BaseR M_Gas M_Flux S_Gas Pf_Flux Pf_FluxCons.
Open Scope R_scope.

(** The inequality behind sl < sm; A = vnl - sl, B = sr - vnr, (q+1) s = vnr - vnl,
    q^2 = rho_r/rho_l, C the averaged sound speed. *)
Lemma hllc_key g q A B C cl cr s :
  5/4 <= g -> 0 < q -> 0 < C -> 0 < cl -> 0 < cr ->
  q * cr^2 + cl^2 <= C^2 * (q + 1) ->
  cl <= A -> C - q * s <= A -> cr <= B -> C - s <= B -> (B = cr \/ B = C - s) ->
  0 < q^2 * (B * (A + (q+1) * s)) + A^2 + cl^2 / g - q^2 * cr^2 / g.
Proof.
  intros Hg Hq HC Hcl Hcr HCC HA1 HA2 HB1 HB2 HB.
  assert (Hq2 : 0 < q^2) by nra.
  assert (Hqc : 0 < q^2 * cr^2) by (apply Rmult_lt_0_compat; nra).
  assert (Hgi : q^2 * cr^2 / g <= q^2 * cr^2 * (4/5)).
  { apply Rmult_le_compat_l; [lra|]. replace (4/5) with (/ (5/4)) by field. apply Rinv_le_contravar; lra. }
  assert (Hcg : 0 < cl^2 / g) by (apply Rdiv_lt_0_compat; nra).
  cut (q^2 * cr^2 * (4/5) <= q^2 * (B * (A + (q+1)*s)) + A^2); [lra|].
  assert (HC1 : q * cr^2 <= C^2 * (q+1)) by nra.
  destruct (Rle_or_lt 0 s) as [Hs|Hs].
  - (* separating flow *)
    assert (HAd : C + s <= A + (q+1)*s) by nra.
    assert (HBA : cr * (C + s) <= B * (A + (q+1)*s)) by (apply Rmult_le_compat; nra).
    assert (HBA2 : q^2 * (cr * (C+s)) <= q^2 * (B * (A + (q+1)*s))) by (apply Rmult_le_compat_l; lra).
    assert (HAA : 0 <= A^2) by nra.
    destruct (Rle_or_lt (4/5 * cr) C) as [HCc|HCc].
    { assert (q^2 * (cr * (4/5*cr)) <= q^2 * (cr * (C+s))).
      { apply Rmult_le_compat_l; [lra|]. apply Rmult_le_compat_l; lra. }
      nra. }
    (* C < 4/5 cr: then q < 2 *)
    assert (Hq3 : q < 2). { assert (C^2 < (4/5*cr)^2) by nra. nra. }
    assert (HCk : 6/5 * (q * cr) <= (q+1) * C).
    { apply Rnot_lt_le; intro Hlt.
      assert (HX : ((q+1)*C)^2 < (6/5 * (q*cr))^2).
      { assert (0 < (q+1)*C) by nra. nra. }
      assert (HY : (q+1) * (q * cr^2) <= ((q+1)*C)^2) by nra.
      assert (HZ : 0 < q * cr^2) by nra. nra. }
    destruct (Rle_or_lt (C - q*s) 0) as [HX|HX].
    + assert (C <= q * s) by lra.
      assert (q * (cr * ((q+1)*C)) <= q^2 * (cr * (C + s))).
      { replace (q^2 * (cr * (C+s))) with (q * (cr * (q * C + q * s))) by ring.
        apply Rmult_le_compat_l; [lra|]. apply Rmult_le_compat_l; lra. }
      assert (q * (cr * (6/5 * (q*cr))) <= q * (cr * ((q+1)*C))).
      { apply Rmult_le_compat_l; [lra|]. apply Rmult_le_compat_l; lra. }
      nra.
    + set (X := C - q*s) in *.
      assert (HXA : X^2 <= A^2) by nra.
      assert (Es : q * s = C - X) by (unfold X; ring).
      assert (E : q^2 * (cr * (C + s)) = q * (cr * ((q+1) * C)) - q * cr * X).
      { replace (q^2 * (cr * (C+s))) with (q * cr * (q * C + q * s)) by ring. rewrite Es. ring. }
      assert (q * (cr * (6/5 * (q*cr))) <= q * (cr * ((q+1)*C))).
      { apply Rmult_le_compat_l; [lra|]. apply Rmult_le_compat_l; lra. }
      assert (0 <= (X - q * cr / 2)^2) by (apply pow2_ge_0).
      nra.
  - (* approaching flow *)
    assert (Hfin : forall B', B' = C - s -> q^2 * cr^2 * (4/5) <= q^2 * (B' * (A + (q+1)*s)) + A^2).
    { intros B' ->.
      assert (HB0 : 0 < C - s) by lra.
      assert (C + s <= A + (q+1)*s) by nra.
      assert ((C-s)*(C+s) <= (C-s)*(A + (q+1)*s)) by (apply Rmult_le_compat_l; lra).
      assert (q^2 * ((C-s)*(C+s)) <= q^2 * ((C-s)*(A + (q+1)*s))) by (apply Rmult_le_compat_l; lra).
      assert (0 < C - q*s) by nra.
      assert ((C-q*s)^2 <= A^2) by nra.
      assert (E : q^2 * ((C-s)*(C+s)) + (C-q*s)^2 = (q^2+1) * C^2 - 2 * q * C * s) by ring.
      assert (0 <= - (2*q*C*s)). { assert (0 < q*C) by nra. nra. }
      assert (q^2 * cr^2 * (4/5) <= (q^2+1) * C^2).
      { assert ((q^2+1) * (q*cr^2) <= (q^2+1) * (C^2*(q+1))) by (apply Rmult_le_compat_l; nra).
        assert (0 <= (q^2 + 1 - 4/5 * (q * (q+1))) * (q * cr^2)).
        { pose proof (pow2_ge_0 (q-2)). apply Rmult_le_pos; [nra|]. apply Rmult_le_pos; nra. }
        assert ((q+1) * (q^2*cr^2*(4/5)) <= (q+1) * ((q^2+1)*C^2)) by nra.
        apply Rmult_le_reg_l with (q+1); lra. }
      nra. }
    destruct (Rle_or_lt 0 (A + (q+1)*s)) as [HAs|HAs].
    + assert (q^2 * ((C-s) * (A+(q+1)*s)) <= q^2 * (B * (A+(q+1)*s))).
      { apply Rmult_le_compat_l; [lra|]. apply Rmult_le_compat_r; lra. }
      specialize (Hfin _ eq_refl). lra.
    + destruct HB as [HB|HB]; [|apply Hfin; auto].
      subst B.
      assert (HCs : C + s < 0) by nra.
      assert (Hss : - s <= cr - C) by lra.
      assert (H2C : 2 * C < cr) by lra.
      assert (Hq3 : q < 1/3). { assert ((2*C)^2 < cr^2) by nra. nra. }
      assert (cr * (2*C - cr) <= cr * (A + (q+1)*s)).
      { apply Rmult_le_compat_l; [lra|]. nra. }
      assert (q^2 * (cr * (2*C - cr)) <= q^2 * (cr * (A + (q+1)*s))) by (apply Rmult_le_compat_l; lra).
      assert (0 <= - (q*s)) by nra. assert (C <= A) by lra.
      assert (C^2 <= A^2) by nra.
      assert (0 < q^2 * (cr * (2*C))) by (apply Rmult_lt_0_compat; nra).
      assert (2 * (q^2 * cr^2) <= C^2).
      { apply Rmult_le_reg_l with (q+1); [lra|].
        assert (0 <= (1 - 2*q*(q+1)) * (q * cr^2)) by (apply Rmult_le_pos; nra). nra. }
      nra.
Qed.

(** ** Signal speeds of a pair of states in parametrised form *)
Lemma unit_cauchy x y n : unit_vec n -> (x * vx n + y * vy n)^2 <= x^2 + y^2.
Proof.
  unfold unit_vec; intros H.
  assert (0 <= (x * vy n - y * vx n)^2) by (apply pow2_ge_0).
  assert ((x * vx n + y * vy n)^2 + (x * vy n - y * vx n)^2 = (x^2+y^2) * ((vx n)^2 + (vy n)^2)) by ring.
  rewrite H in H1. lra.
Qed.

Definition pr_A G ul ur n := v_vn (getVarsFromConserved G ul n) - fst (hll_speeds G ul ur n).
Definition pr_B G ul ur n := snd (hll_speeds G ul ur n) - v_vn (getVarsFromConserved G ur n).

(** sl is below both left-running speeds, sr above both right-running speeds *)
Lemma hll_speeds_bounds G ul ur n :
  fst (hll_speeds G ul ur n) <= v_vn (getVarsFromConserved G ul n) - getSoundSpeed G (s0 ul) (v_p (getVarsFromConserved G ul n))
  /\ fst (hll_speeds G ul ur n) <= a_vn (pair_roe G ul ur n) - a_c (pair_roe G ul ur n)
  /\ v_vn (getVarsFromConserved G ur n) + getSoundSpeed G (s0 ur) (v_p (getVarsFromConserved G ur n)) <= snd (hll_speeds G ul ur n)
  /\ a_vn (pair_roe G ul ur n) + a_c (pair_roe G ul ur n) <= snd (hll_speeds G ul ur n)
  /\ (snd (hll_speeds G ul ur n) = v_vn (getVarsFromConserved G ur n) + getSoundSpeed G (s0 ur) (v_p (getVarsFromConserved G ur n))
      \/ snd (hll_speeds G ul ur n) = a_vn (pair_roe G ul ur n) + a_c (pair_roe G ul ur n)).
Proof.
  rewrite hll_speeds_pair. cbv zeta. cbn [fst snd]. unfold einfeldt_sl, einfeldt_sr.
  repeat match goal with |- context [Rltb ?a ?b] => destruct (Rltb_spec a b) end; repeat split; try lra; auto.
Qed.

Lemma hllc_sl_lt_sm G ul ur n : 5/4 <= gam G -> physical (gam G) ul -> physical (gam G) ur -> unit_vec n ->
  let i := getVarsFromConserved G ul n in let j := getVarsFromConserved G ur n in
  let sl := fst (hll_speeds G ul ur n) in let sr := snd (hll_speeds G ul ur n) in
  0 < s0 ur * (sr - v_vn j) - s0 ul * (sl - v_vn i) /\
  sl < hllc_sm ul ur (v_vn i) (v_vn j) (v_p i) (v_p j) sl sr.
Proof.
  intros Hg5 Hl Hr Hn. assert (Hg : 1 < gam G) by lra. cbv zeta.
  pose proof (hll_speeds_bounds G ul ur n) as Hb.
  set (sl := fst (hll_speeds G ul ur n)) in *. set (sr := snd (hll_speeds G ul ur n)) in *.
  clearbody sl sr. revert Hb.
  param ul Hg Hl. param ur Hg Hr.
  destruct (ratio_exists r r0 Hr0 Hr1) as (q & Hq & ->).
  rewrite pair_roe_U by auto. rewrite !vars_U by auto.
  cbn [v_v v_vn v_p v_H a_R a_rho a_v a_vm2 a_vn a_H a_c]. rewrite !U_s0.
  rewrite !sound_U by auto.
  pose proof (c2av_pos (gam G) q a b c a0 b0 c0 Hg Hq Hc Hc0) as HC2.
  set (C := sqrt (c2av (gam G) q a b c a0 b0 c0)) in *.
  assert (HC : 0 < C) by (apply sqrt_lt_R0; auto).
  assert (HCC : C^2 = c2av (gam G) q a b c a0 b0 c0) by (apply sqrt_sq_pos; auto).
  intros (B1 & B2 & B3 & B4 & B5).
  set (x := a * vx n + b * vy n) in *. set (y := a0 * vx n + b0 * vy n) in *.
  set (s := (y - x) / (q + 1)).
  assert (Ew : (q*a0+a)/(q+1) * vx n + (q*b0+b)/(q+1) * vy n = x + q * s)
    by (unfold s, x, y; field; lra).
  rewrite Ew in *.
  assert (Eyx : y = x + (q+1) * s) by (unfold s; field; lra).
  assert (Hq0 : 0 < q^2 * r) by (apply Rmult_lt_0_compat; [nra|auto]).
  assert (HD : 0 < q^2 * r * (sr - y) - r * (sl - x)).
  { assert (0 < q^2*r * (sr - y)) by (apply Rmult_lt_0_compat; lra).
    assert (0 < r * (x - sl)) by (apply Rmult_lt_0_compat; lra). lra. }
  split; [exact HD|].
  unfold hllc_sm. rewrite !U_s0.
  apply Rmult_lt_reg_r with (q^2 * r * (sr - y) - r * (sl - x)); auto.
  match goal with |- _ < ?N / ?D * ?D => replace (N / D * D) with N by (field; lra) end.
  assert (K : 0 < q^2 * ((sr - y) * ((x - sl) + (q+1) * s)) + (x-sl)^2 + c^2 / gam G - q^2 * c0^2 / gam G).
  { apply hllc_key with C; auto; try lra.
    - rewrite HCC. unfold c2av.
      assert (0 <= (gam G - 1) * q * ((a0 - a)^2 + (b0 - b)^2) / (2 * (q+1)^2)).
      { pose proof (pow2_ge_0 (a0-a)). pose proof (pow2_ge_0 (b0-b)).
        apply Rmult_le_pos; [apply Rmult_le_pos; [apply Rmult_le_pos|]; lra|].
        left; apply Rinv_0_lt_compat. assert (0 < (q+1)^2) by (apply pow_lt; lra). lra. }
      assert ((q * c0^2 + c^2) / (q+1) * (q+1) = q*c0^2 + c^2) by (field; lra).
      nra. }
  assert (E : q^2 * r * y * (sr - y) - r * x * (sl - x) + r * c^2 / gam G - q^2 * r * c0^2 / gam G
     - sl * (q^2 * r * (sr - y) - r * (sl - x))
     = r * (q^2 * ((sr - y) * ((x - sl) + (y - x))) + (x-sl)^2 + c^2 / gam G - q^2 * c0^2 / gam G)) by (field; lra).
  replace (y - x) with ((q+1) * s) in E by lra.
  assert (0 < r * (q^2 * ((sr - y) * ((x - sl) + (q+1)*s)) + (x-sl)^2 + c^2 / gam G - q^2 * c0^2 / gam G))
    by (apply Rmult_lt_0_compat; auto).
  lra.
Qed.

Lemma hllc_sm_swap ul ur vni vnj pi pj sl sr :
  hllc_sm ur ul (- vnj) (- vni) pj pi (- sr) (- sl) = - hllc_sm ul ur vni vnj pi pj sl sr.
Proof.
  unfold hllc_sm, Rdiv.
  replace (s0 ul * (- sl - - vni) - s0 ur * (- sr - - vnj)) with (s0 ur * (sr - vnj) - s0 ul * (sl - vni)) by ring.
  ring.
Qed.

Lemma unit_neg n : unit_vec n -> unit_vec (vneg n).
Proof. unfold unit_vec, vneg; simpl; lra. Qed.

Lemma hllc_order G ul ur n : 5/4 <= gam G -> physical (gam G) ul -> physical (gam G) ur -> unit_vec n ->
  let i := getVarsFromConserved G ul n in let j := getVarsFromConserved G ur n in
  let sl := fst (hll_speeds G ul ur n) in let sr := snd (hll_speeds G ul ur n) in
  let sm := hllc_sm ul ur (v_vn i) (v_vn j) (v_p i) (v_p j) sl sr in
  0 < s0 ur * (sr - v_vn j) - s0 ul * (sl - v_vn i) /\ sl < sm < sr.
Proof.
  intros Hg5 Hl Hr Hn. cbv zeta. assert (Hg : 1 < gam G) by lra.
  destruct (hllc_sl_lt_sm G ul ur n Hg5 Hl Hr Hn) as [H1 H2].
  destruct (hllc_sl_lt_sm G ur ul (vneg n) Hg5 Hr Hl (unit_neg _ Hn)) as [_ H3].
  rewrite hll_speeds_swap, !vars_neg in H3 by auto. cbn [fst snd v_vn v_p] in H3.
  rewrite hllc_sm_swap in H3. cbv zeta in H1, H2. repeat split; try assumption; lra.
Qed.

(** *** Consistency *)
Lemma pair_roe_same G r a b c n : 1 < gam G -> 0 < r -> 0 < c ->
  a_vn (pair_roe G (U (gam G) r a b c) (U (gam G) r a b c) n) = a * vx n + b * vy n /\
  a_c (pair_roe G (U (gam G) r a b c) (U (gam G) r a b c) n) = c.
Proof.
  intros. replace r with (1^2 * r) at 2 4 by ring. rewrite pair_roe_U by (auto; lra).
  cbn [a_vn a_c]. split; [field|].
  replace (c2av (gam G) 1 a b c a b c) with (c*c) by (unfold c2av; field). apply sqrt_square; lra.
Qed.

Lemma hllc_consistent G u n : 1 < gam G -> physical (gam G) u -> hllc_flux G u u n = euler_flux (gam G) u n.
Proof.
  intros Hg Hp. param u Hg Hp. rewrite euler_U by auto.
  unfold hllc_flux. rewrite hll_speeds_pair, vars_U by auto. cbv zeta; vproj.
  destruct (pair_roe_same G r a b c n Hg Hr Hc) as [E1 E2]. rewrite E1, E2.
  rewrite !U_s0, sound_U by auto. set (w := a * vx n + b * vy n).
  unfold einfeldt_sl, einfeldt_sr. rewrite (Rltb_false (w-c) (w-c)), (Rltb_false (w+c) (w+c)) by lra.
  assert (Em : hllc_sm (U (gam G) r a b c) (U (gam G) r a b c) w w (r * c^2/gam G) (r*c^2/gam G) (w - c) (w + c) = w).
  { unfold hllc_sm. rewrite U_s0. assert (0 < r * c) by nra.
    replace (r * (w + c - w) - r * (w - c - w)) with (2 * (r * c)) by ring. field. repeat split; lra. }
  rewrite Em.
  destruct (Rltb 0 (w - c)); [reflexivity|].
  destruct (Rleb (w - c) 0 && Rltb 0 w)%bool.
  { apply st_ext; intros k; rewrite cget_mkst. unfold getStarState, getDirectionalFlux.
    destruct k; cbn [cget s0 s1 s2 s3 U]; field; repeat split; lra. }
  destruct (Rleb w 0 && Rleb 0 (w + c))%bool; [|reflexivity].
  apply st_ext; intros k; rewrite cget_mkst. unfold getStarState, getDirectionalFlux.
  destruct k; cbn [cget s0 s1 s2 s3 U]; field; repeat split; lra.
Qed.

(** *** Conservation *)
Lemma star_mirror u n vn p ss sm : getStarState u (vneg n) (- vn) p (- ss) (- sm) = getStarState u n vn p ss sm.
Proof.
  unfold getStarState, vneg. apply st_eq; cbn [s0 s1 s2 s3 vx vy]; unfold Rdiv;
    replace (/ (- ss - - sm)) with (- / (ss - sm)) by (rewrite <- Rinv_opp; f_equal; ring); ring.
Qed.

(** the two star fluxes agree when the contact does not move *)
Lemma star_flux_zero ul ur n vni vnj pi pj sl sr k :
  s0 ur * (sr - vnj) - s0 ul * (sl - vni) <> 0 -> sl <> 0 -> sr <> 0 ->
  s1 ul * vx n + s2 ul * vy n = s0 ul * vni -> s1 ur * vx n + s2 ur * vy n = s0 ur * vnj ->
  hllc_sm ul ur vni vnj pi pj sl sr = 0 ->
  cget (getDirectionalFlux ul n vni pi) k + sl * (cget (getStarState ul n vni pi sl 0) k - cget ul k) =
  cget (getDirectionalFlux ur n vnj pj) k + sr * (cget (getStarState ur n vnj pj sr 0) k - cget ur k).
Proof.
  intros HD Hsl Hsr Hi Hj Hm. unfold hllc_sm in Hm.
  assert (E : s0 ur * vnj * (sr - vnj) - s0 ul * vni * (sl - vni) + pi - pj = 0).
  { apply Rmult_integral in Hm. destruct Hm as [Hm|Hm]; [lra|]. exfalso. revert Hm. apply Rinv_neq_0_compat; auto. }
  assert (Ep : pj = s0 ur * vnj * (sr - vnj) - s0 ul * vni * (sl - vni) + pi) by lra.
  unfold getStarState, getDirectionalFlux. rewrite Ep.
  destruct k; cbn [cget s0 s1 s2 s3]; field; auto.
Qed.

Lemma vn_mom G u n : 0 < s0 u -> s1 u * vx n + s2 u * vy n = s0 u * v_vn (getVarsFromConserved G u n).
Proof. intros. unfold getVarsFromConserved, dot2; cbn. field. lra. Qed.

Lemma hllc_antisym G ul ur n : 5/4 <= gam G -> physical (gam G) ul -> physical (gam G) ur -> unit_vec n ->
  hllc_flux G ur ul (vneg n) = sneg (hllc_flux G ul ur n).
Proof.
  intros Hg5 Hl Hr Hn. assert (Hg : 1 < gam G) by lra.
  pose proof (hllc_order G ul ur n Hg5 Hl Hr Hn) as Ho. cbv zeta in Ho.
  unfold hllc_flux. rewrite hll_speeds_swap, !vars_neg by auto. cbv zeta. cbn [v_vn v_p].
  destruct (hll_speeds G ul ur n) as [sl sr]. cbn [fst snd] in *.
  pose proof (vn_mom G ul n (proj1 Hl)) as Ei. pose proof (vn_mom G ur n (proj1 Hr)) as Ej.
  set (i := getVarsFromConserved G ul n) in *. set (j := getVarsFromConserved G ur n) in *.
  rewrite hllc_sm_swap. set (sm := hllc_sm ul ur (v_vn i) (v_vn j) (v_p i) (v_p j) sl sr) in *.
  destruct Ho as (HD & H1 & H2).
  rewrite !dirflux_neg, !star_mirror.
  destruct (Rltb_spec 0 sl).
  { rewrite Rltb_false by lra. rewrite (Rltb_false 0 (- sm)), (Rleb_false 0 (- sl)) by lra.
    rewrite !andb_false_r. reflexivity. }
  rewrite (Rleb_true sl 0) by lra. cbn [andb].
  destruct (Rltb_spec 0 sm).
  { rewrite (Rltb_false 0 (- sr)), (Rltb_false 0 (- sm)), (Rleb_true (- sm) 0), (Rleb_true 0 (- sl)) by lra.
    rewrite !andb_false_r. cbn [andb].
    apply st_ext; intros k. rewrite cget_sneg, !cget_mkst, cget_sneg. ring. }
  rewrite (Rleb_true sm 0) by lra. cbn [andb].
  destruct (Rleb_spec 0 sr).
  { rewrite (Rltb_false 0 (- sr)), (Rleb_true (- sr) 0) by lra. cbn [andb].
    destruct (Rltb_spec 0 (- sm)).
    - apply st_ext; intros k. rewrite cget_sneg, !cget_mkst, cget_sneg. ring.
    - assert (Hm0 : sm = 0) by lra.
      rewrite (Rleb_true (- sm) 0), (Rleb_true 0 (- sl)) by lra. cbn [andb].
      apply st_ext; intros k. rewrite cget_sneg, !cget_mkst, cget_sneg. rewrite Hm0.
      rewrite <- (star_flux_zero ul ur n (v_vn i) (v_vn j) (v_p i) (v_p j) sl sr k); auto; lra. }
  rewrite Rltb_true by lra. reflexivity.
Qed.
