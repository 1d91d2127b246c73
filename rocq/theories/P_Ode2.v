(** Properties C74, C75, C80, C87, C88: Runge-Kutta, relaxation, conservation of totals,
    the Runge-Kutta solver on several ranks, the implicit system. *)
From Coq Require Import Reals Lra Lia List Arith ZArith Bool FunctionalExtensionality.
From Verif Require Import Base BaseR BaseSum M_Gas M_Flux M_BC M_BCConf M_Mesh M_Geom M_Space S_Space Pf_Space M_Resid S_Gas S_Mesh S_Resid Pf_Resid Pf_Resid2
  Pf_Gas P_Gas P_Flux P_Geom P_Grad P_Resid M_Ode S_Ode Pf_Ode Pf_Ode2 P_Ode.
Import ListNotations.
Open Scope R_scope.

(** ** C74 *)
(** Share of the full step made by the scheme of each order. The third-order coefficients are decimal
    literals of 1/3 and 2/3. *)
Definition step_share (order : nat) : R := match order with 3%nat => 1 + 5 / 10 ^ 17 | _ => 1 end.

Lemma coeff_facts order junk : (1 <= order <= 3)%nat ->
  (forall k, (k < order)%nat -> tvdrk_coeffs order junk k 0%nat + tvdrk_coeffs order junk k 1%nat = 1) /\ theta (tvdrk_coeffs order junk) order = step_share order.
Proof.
  intros H. destruct order as [|[|[|[|o]]]]; try lia; split.
  - intros k Hk. destruct k as [|k]; [cbn; lra|lia].
  - cbn. lra.
  - intros k Hk. destruct k as [|[|k]]; [cbn; lra|cbn; lra|lia].
  - cbn. lra.
  - intros k Hk. destruct k as [|[|[|k]]]; [cbn; lra|cbn; lra|cbn; lra|lia].
  - cbn. lra.
Qed.

(** state of the solver between steps: ustage holds the solution *)
Definition tv_ok (n L LU : nat) (s : tv) : Prop :=
  alen (t_u s) = LU /\ (n <= alen (t_s s))%nat /\ alen (t_r s) = L /\ forall i, (i < n)%nat -> aat (t_s s) i = aat (t_u s) i.

(** One time step, for every residual function whose values in the own cells do not depend on the
    ghost entries of the array it adds to: a single explicit Euler step of the size of the smallest
    local time step times the CFL number, taken backwards; the steady solver adds the residual. *)
Theorem C74_step : forall n A cfl order junk Rf L s rho dt, (1 <= order <= 3)%nat -> (0 < n)%nat -> (n <= L)%nat -> (n <= alen A)%nat -> (n <= alen dt)%nat -> (n <= alen (t_u s))%nat ->
  tv_ok n L (alen (t_u s)) s -> evaluates n Rf L (t_u s) rho dt ->
  exists m s', (exists j, (j < n)%nat /\ m = aat dt j) /\ (forall i, (i < n)%nat -> m <= aat dt i) /\
  tvdrk_step n A cfl (tvdrk_coeffs order junk) order Rf s = Some (Val s') /\ tv_ok n L (alen (t_u s)) s' /\ t_time s' = t_time s + m * cfl /\
  (forall i, (i < n)%nat -> aat (t_u s') i = ssub (aat (t_u s) i) (sscal (step_share order * (m * cfl) / aat A i) (rho i))) /\
  (forall i, (n <= i)%nat -> aat (t_u s') i = aat (t_u s) i).
Proof.
  intros n A cfl order junk Rf L s rho dt HO Hn HL LA LD LU (K1 & K2 & K3 & K4) EV. destruct (coeff_facts order junk HO) as (C1 & C2).
  destruct (step_ok n A cfl (tvdrk_coeffs order junk) order Rf L s rho dt) as (m & s' & Mj & Mi & E & Et & L1 & L2 & L3 & P & Q); auto; try lia.
  exists m, s'. split; auto. split; auto. split; auto. split. { split; auto. split; [lia|]. split; auto. intros i Hi. apply P; auto. }
  split; auto. split; auto. intros i Hi. rewrite (proj1 (P i Hi)), C2. f_equal. f_equal. unfold Rdiv. ring.
Qed.
Print Assumptions C74_step.

(** Orders 1 and 2 give the same solution at all times, so the second-order scheme is first order. *)
Theorem C74_order_2_is_order_1 : forall n A cfl junk Rf L LU rho dt finaltime, (0 < n)%nat -> (n <= L)%nat -> (n <= LU)%nat -> (n <= alen A)%nat ->
  (forall u, alen u = LU -> (n <= alen (dt u))%nat /\ evaluates n Rf L u (rho u) (dt u)) ->
  forall fuel s1 s2, tv_ok n L LU s1 -> tv_ok n L LU s2 -> t_u s1 = t_u s2 -> t_time s1 = t_time s2 ->
  exists s1' s2', tvdrk_run n A cfl (tvdrk_coeffs 1 junk) 1 Rf finaltime fuel s1 = Some (Val s1') /\
    tvdrk_run n A cfl (tvdrk_coeffs 2 junk) 2 Rf finaltime fuel s2 = Some (Val s2') /\ t_u s1' = t_u s2' /\ t_time s1' = t_time s2'.
Proof.
  intros n A cfl junk Rf L LU rho dt ft Hn HL HU LA EV. induction fuel as [|k IH]; intros s1 s2 K1 K2 EU ET.
  - exists s1, s2. auto.
  - cbn [tvdrk_run]. rewrite <- ET. destruct (Rle_dec (t_time s1) (ft - 1e-12)); [|exists s1, s2; auto].
    assert (A1 : alen (t_u s1) = LU) by apply K1. assert (A2 : alen (t_u s2) = LU) by apply K2.
    destruct (EV (t_u s1) A1) as (D1 & V1).
    destruct (C74_step n A cfl 1 junk Rf L s1 (rho (t_u s1)) (dt (t_u s1))) as (m1 & s1' & (j1 & Hj1 & J1) & M1 & E1 & O1 & T1 & P1 & Q1); auto; try lia; try (rewrite A1; auto).
    destruct (C74_step n A cfl 2 junk Rf L s2 (rho (t_u s1)) (dt (t_u s1))) as (m2 & s2' & (j2 & Hj2 & J2) & M2 & E2 & O2 & T2 & P2 & Q2); auto; try lia; try (rewrite A2; auto); try (rewrite <- EU; auto).
    rewrite A1 in O1. rewrite A2 in O2. rewrite E1, E2. cbn [ebind].
    assert (EM : m1 = m2). { specialize (M1 j2 Hj2). specialize (M2 j1 Hj1). lra. }
    apply IH; auto.
    + assert (La : alen (t_u s1') = LU) by apply O1. assert (Lb : alen (t_u s2') = LU) by apply O2.
      destruct (t_u s1') as [l1 a1], (t_u s2') as [l2 a2]. cbn [alen aat] in *. f_equal; [congruence|]. apply functional_extensionality. intros i.
      destruct (Nat.lt_ge_cases i n) as [Hi|Hi]. rewrite P1, P2 by auto. rewrite EU, EM. reflexivity. rewrite Q1, Q2 by auto. rewrite EU. reflexivity.
    + rewrite T1, T2, ET, EM. reflexivity.
Qed.
Print Assumptions C74_order_2_is_order_1.

(** The sign: with the same cell time step, the steady solver moves a cell by +delta, the Runge-Kutta
    solver by -delta (times the share above). *)
Theorem C74_opposite_sign : forall n A c order junk Rf L s rho dt ro u', (1 <= order <= 3)%nat -> (0 < n)%nat -> (n <= L)%nat -> (n <= alen A)%nat -> (n <= alen dt)%nat -> (n <= alen (t_u s))%nat ->
  tv_ok n L (alen (t_u s)) s -> evaluates n Rf L (t_u s) rho dt -> (forall i, (i < n)%nat -> aat dt i = aat dt 0) ->
  rt_dt ro = dt -> (n <= alen (rt_r ro))%nat -> (forall i, (i < n)%nat -> aat (rt_r ro) i = rho i) -> fe_update n A c (t_u s) ro = Some u' ->
  exists s', tvdrk_step n A (cflinit c) (tvdrk_coeffs order junk) order Rf s = Some (Val s') /\
  forall i, (i < n)%nat -> ssub (aat (t_u s') i) (aat (t_u s) i) = sscal (- step_share order) (ssub (aat u' i) (aat (t_u s) i)).
Proof.
  intros n A c order junk Rf L s rho dt ro u' HO Hn HL LA LD LU K EV U ED LR ER E.
  destruct (C74_step n A (cflinit c) order junk Rf L s rho dt) as (m & s' & (j & Hj & Em) & _ & E1 & _ & _ & P & _); auto. exists s'. split; auto. intros i Hi.
  destruct (fe_update_ok n A c (t_u s) ro) as (u2 & E2 & _ & P2 & _); auto; [rewrite ED; auto|]. rewrite E2 in E. injection E as ->. rewrite P, P2 by auto. rewrite ED, ER, Em by auto. rewrite (U j), (U i) by auto.
  apply st_eq; cbn [ssub sadd sscal s0 s1 s2 s3]; unfold Rdiv; ring.
Qed.
Print Assumptions C74_opposite_sign.

(** An instance: du/dt = -u/2 as above, time step 1, CFL 1: instead of halving, the state grows. *)
Definition halving_rk (u r0 : arr st) : option (exc rout) :=
  Some (Val (mkrout (mkarr 1 (fun _ => sadd (aat r0 0) (sscal (-1/2) (aat u 0)))) (mkarr 1 (fun _ => 1)) true)).
Lemma halving_evaluates u : evaluates 1 halving_rk 1 u (fun _ => sscal (-1/2) (aat u 0)) (mkarr 1 (fun _ => 1)).
Proof.
  intros r0 L Z. eexists. split; [reflexivity|]. cbn [rt_fin rt_r rt_dt alen aat]. repeat (split; [reflexivity|]). split; auto. intros i Hi. rewrite Z by lia. apply st_eq; cbn; ring.
Qed.
Definition tv0 : tv := mktv (halves 0) (halves 0) (mkarr 1 (fun _ => szero)) 0.
Example C74_ex : forall order, (1 <= order <= 3)%nat ->
  exists s', tvdrk_step 1 one_cell 1 (tvdrk_coeffs order (fun _ _ => 0)) order halving_rk tv0 = Some (Val s') /\ t_time s' = 1 /\ 1 < s3 (aat (t_u s') 0).
Proof.
  intros order HO. assert (K : tv_ok 1 1 1 tv0) by (split; [reflexivity|]; split; [cbn; lia|]; split; reflexivity).
  destruct (C74_step 1 one_cell 1 order (fun _ _ => 0) halving_rk 1 tv0 (fun _ => sscal (-1/2) (aat (halves 0) 0)) (mkarr 1 (fun _ => 1)) HO ltac:(lia) ltac:(lia) ltac:(cbn; lia) ltac:(cbn; lia) ltac:(cbn; lia) K (halving_evaluates (halves 0)))
    as (m & s' & (j & Hj & Em) & _ & E & _ & ET & P & _).
  exists s'. split; auto. cbn in Em. subst m. split. rewrite ET. cbn. ring. rewrite P by lia. destruct order as [|[|[|[|o]]]]; try lia; cbn; unfold Rdiv; rewrite ?Rinv_1; lra.
Qed.

(** Other orders: 0 never advances (the loop does not end), 4 and more use unset coefficients. *)
Theorem C74_order_0_stuck : forall n A cfl cf Rf finaltime s, 0 <= finaltime - 1e-12 -> t_time s = 0 -> tv_ok n (alen (t_r s)) (alen (t_u s)) s -> (n <= alen (t_u s))%nat ->
  forall fuel, exists s', tvdrk_run n A cfl cf 0 Rf finaltime fuel s = Some (Val s') /\ t_time s' = 0 /\ forall i, (i < n)%nat -> aat (t_u s') i = aat (t_u s) i.
Proof.
  intros n A cfl cf Rf ft s Hf H0 K HU fuel. revert s H0 K HU. induction fuel as [|k IH]; intros s H0 K HU. { exists s. auto. }
  cbn [tvdrk_run]. rewrite H0. destruct (Rle_dec 0 (ft - 1e-12)); [|contradiction]. destruct K as (_ & K2 & _ & K4). unfold tvdrk_step. cbn [eloop g_u g_r g_dt].
  destruct (copy_own_ok n (t_s s) (t_u s)) as (u' & E & L & P & _); auto. rewrite E. cbn [bind ebind]. rewrite H0. replace (0 + 0 * cfl) with 0 by ring.
  destruct (IH (mktv u' (t_s s) (t_r s) 0)) as (s' & E' & T' & P'); auto.
  - split; auto. split; auto. split; auto. cbn [t_s t_u]. intros i Hi. rewrite P by auto. reflexivity.
  - cbn [t_u]. lia.
  - exists s'. split; auto. split; auto. intros i Hi. rewrite P' by auto. cbn [t_u]. rewrite P, K4 by auto. reflexivity.
Qed.
Print Assumptions C74_order_0_stuck.
Theorem C74_order_4_unset_refuted : exists junk junk' s1 s2, 
  tvdrk_step 1 one_cell 1 (tvdrk_coeffs 4 junk) 4 halving_rk tv0 = Some (Val s1) /\ tvdrk_step 1 one_cell 1 (tvdrk_coeffs 4 junk') 4 halving_rk tv0 = Some (Val s2) /\
  aat (t_u s1) 0 <> aat (t_u s2) 0.
Proof.
  set (j1 := fun _ _ : nat => 0). set (j2 := fun _ j : nat => match j with O => 1 | _ => 0 end). exists j1, j2.
  eexists. eexists. split; [reflexivity|]. split; [reflexivity|]. intros E. apply (f_equal s3) in E. cbn in E. unfold j1, j2, upd in E. change (0 =? 0)%nat with true in E. cbn in E. lra.
Qed.
Print Assumptions C74_order_4_unset_refuted.

(** ** C87 *)
(** The Runge-Kutta solver does not communicate: whatever the residual function does, the ghost
    entries of the solution keep their initial values during the whole run ... *)
Theorem C87_ghosts_stale : forall n A cfl cf order Rf finaltime fuel s s', (n <= alen (t_u s))%nat ->
  tvdrk_run n A cfl cf order Rf finaltime fuel s = Some (Val s') -> forall i, (n <= i)%nat -> aat (t_u s') i = aat (t_u s) i.
Proof. intros. eapply run_ghosts; eauto. Qed.
Print Assumptions C87_ghosts_stale.
(** ... and each rank advances by the smallest time step of its own cells, so the ranks are at
    different times after a step whenever those differ. *)
Theorem C87_ranks_drift : forall n1 A1 Rf1 L1 s1 rho1 dt1 n2 A2 Rf2 L2 s2 rho2 dt2 cfl order junk, (1 <= order <= 3)%nat ->
  (0 < n1)%nat -> (n1 <= L1)%nat -> (n1 <= alen A1)%nat -> (n1 <= alen dt1)%nat -> (n1 <= alen (t_u s1))%nat -> tv_ok n1 L1 (alen (t_u s1)) s1 -> evaluates n1 Rf1 L1 (t_u s1) rho1 dt1 ->
  (0 < n2)%nat -> (n2 <= L2)%nat -> (n2 <= alen A2)%nat -> (n2 <= alen dt2)%nat -> (n2 <= alen (t_u s2))%nat -> tv_ok n2 L2 (alen (t_u s2)) s2 -> evaluates n2 Rf2 L2 (t_u s2) rho2 dt2 ->
  t_time s1 = t_time s2 -> 0 < cfl -> (exists i, (i < n1)%nat /\ forall j, (j < n2)%nat -> aat dt1 i < aat dt2 j) ->
  exists s1' s2', tvdrk_step n1 A1 cfl (tvdrk_coeffs order junk) order Rf1 s1 = Some (Val s1') /\ tvdrk_step n2 A2 cfl (tvdrk_coeffs order junk) order Rf2 s2 = Some (Val s2') /\
  t_time s1' < t_time s2'.
Proof.
  intros n1 A1 Rf1 L1 s1 rho1 dt1 n2 A2 Rf2 L2 s2 rho2 dt2 cfl order junk HO a1 a2 a3 a4 a5 a6 a7 b1 b2 b3 b4 b5 b6 b7 ET HC (i & Hi & H).
  destruct (C74_step n1 A1 cfl order junk Rf1 L1 s1 rho1 dt1) as (m1 & s1' & _ & M1 & E1 & _ & T1 & _); auto.
  destruct (C74_step n2 A2 cfl order junk Rf2 L2 s2 rho2 dt2) as (m2 & s2' & (j & Hj & J2) & _ & E2 & _ & T2 & _); auto.
  exists s1', s2'. split; auto. split; auto. rewrite T1, T2, ET. apply Rplus_lt_compat_l. apply Rmult_lt_compat_r; auto. specialize (M1 i Hi). specialize (H j Hj). lra.
Qed.
Print Assumptions C87_ranks_drift.
Example C87_ex : exists Rf1 rho1 dt1 Rf2 rho2 dt2, evaluates 1 Rf1 1 (t_u tv0) rho1 dt1 /\ evaluates 1 Rf2 1 (t_u tv0) rho2 dt2 /\ tv_ok 1 1 1 tv0 /\ aat dt1 0 < aat dt2 0.
Proof.
  exists halving_rk, (fun _ => sscal (-1/2) (aat (halves 0) 0)), (mkarr 1 (fun _ => 1)).
  exists (fun u r0 => Some (Val (mkrout (mkarr 1 (fun _ => aat r0 0)) (mkarr 1 (fun _ => 2)) true))), (fun _ => szero), (mkarr 1 (fun _ => 2)).
  split; [apply halving_evaluates|]. split. { intros r0 L Z. eexists. split; [reflexivity|]. cbn. repeat (split; [reflexivity|]). split; auto. }
  split. { split; [reflexivity|]. split; [cbn; lia|]. split; reflexivity. } cbn. lra.
Qed.

(** ** C75 *)
Theorem C75_factor : forall G mf mf' u du, FlowSimpleUpdate_ctor mf = Val mf' -> 1 < gam G -> physical (gam G) u ->
  let w := FlowSimpleUpdate_factor G mf' du u in
  mf <= w <= 1 /\ 0 < w /\ (mf * Rabs (s0 du) < s0 u -> 0 < s0 (sadd u (sscal w du))).
Proof.
  intros G mf mf' u du E Hg (Hr & Hp). unfold FlowSimpleUpdate_ctor in E. destruct (Rle_dec mf 0); [discriminate|]. destruct (Rlt_dec 1 mf); [discriminate|]. injection E as <-.
  rewrite <- pressure_code in Hp by lra. cbv zeta. pose proof (factor_range G mf ltac:(lra) u du Hr Hp) as B. split; [exact B|]. split; [lra|].
  intros H. apply factor_density; auto; lra.
Qed.
Print Assumptions C75_factor.
Theorem C75_constructor : forall mf, FlowSimpleUpdate_ctor mf = Val mf <-> 0 < mf <= 1.
Proof. intros. unfold FlowSimpleUpdate_ctor. destruct (Rle_dec mf 0). split; [discriminate|lra]. destruct (Rlt_dec 1 mf). split; [discriminate|lra]. split; auto. lra. Qed.
Print Assumptions C75_constructor.

(** The bound on the density change is needed, for every factor: *)
Theorem C75_density_refuted : forall G mf, 1 < gam G -> 0 < mf <= 1 -> exists u du, physical (gam G) u /\ s0 (sadd u (sscal (FlowSimpleUpdate_factor G mf du u) du)) < 0.
Proof.
  intros G mf Hg Hm. exists (mks 1 0 0 1), (mks (- 2 / mf) 0 0 0). assert (PH : physical (gam G) (mks 1 0 0 1)) by (unfold physical, pressure; cbn; split; lra). split; auto.
  assert (HI : 1 <= / mf) by (rewrite <- Rinv_1; apply Rinv_le_contravar; lra).
  enough (E : FlowSimpleUpdate_factor G mf (mks (- 2 / mf) 0 0 0) (mks 1 0 0 1) = mf). { rewrite E. cbn [sadd sscal s0]. replace (1 + mf * (- 2 / mf)) with (-1) by (field; lra). lra. }
  unfold FlowSimpleUpdate_factor. cbv zeta. destruct (Rlt_dec _ (1 - mf)) as [H|]; auto. exfalso. cbn [s0] in H.
  match type of H with Rmax ?a ?b < _ => pose proof (Rmax_r a b) as M; set (mx := Rmax a b) in *; clearbody mx end. assert (E : Rabs (- 2 / mf) = 2 * / mf) by (unfold Rdiv; rewrite Rabs_left; lra). rewrite E in M. unfold Rdiv in M. rewrite Rinv_1 in M. lra.
Qed.
Print Assumptions C75_density_refuted.
(** The pressure is not protected at all: the change of x-momentum does not enter the pressure change
    (cf. C27), so the full update is taken although it makes the pressure negative. *)
Theorem C75_pressure_refuted : forall G mf, 1 < gam G -> 0 < mf < 1 -> exists u du, physical (gam G) u /\
  FlowSimpleUpdate_factor G mf du u = 1 /\ 0 < s0 (sadd u du) /\ pressure (gam G) (sadd u du) < 0.
Proof.
  intros G mf Hg Hm. exists (mks 1 0 0 1), (mks 0 2 0 0). split; [unfold physical, pressure; cbn; split; lra|]. split; [|split].
  - unfold FlowSimpleUpdate_factor. cbv zeta. assert (E : getDeltaPressureFromConserved G (mks 1 0 0 1) (mks 0 2 0 0) = 0) by (unfold getDeltaPressureFromConserved; cbn; field). rewrite E. cbn [s0]. rewrite Rabs_R0. unfold Rdiv. rewrite !Rmult_0_l. rewrite Rmax_left by lra. destruct (Rlt_dec 0 (1 - mf)); lra.
  - cbn. lra.
  - unfold pressure. cbn. nra.
Qed.
Print Assumptions C75_pressure_refuted.
Example C75_ex : exists mf', FlowSimpleUpdate_ctor (1/4) = Val mf' /\ physical (gam air) uA /\ 1/4 * Rabs (s0 (mks (-1/10) 0 0 0)) < s0 uA.
Proof.
  exists (1/4). split. apply C75_constructor. lra. split. apply ex_physical. rewrite Rabs_left by (cbn; lra). unfold uA. cbn. lra.
Qed.

(** ** C80 *)
(** total amount of component [v] *)
Definition total (n : nat) (A : arr R) (u : arr st) (v : ix) : R := rsum (fun i => aat A i * cget (aat u i) v) (seq 0 n).

(** One forward Euler step on any residual: the changes of the cells, each divided by its time step,
    add up to the CFL number times the sum of the residuals; with one time step for all cells the
    total changes by CFL times time step times that sum. *)
Theorem C80_step : forall n A c u ro u', fe_update n A c u ro = Some u' -> (n <= alen u)%nat -> (n <= alen A)%nat -> (n <= alen (rt_dt ro))%nat -> (n <= alen (rt_r ro))%nat ->
  (forall i, (i < n)%nat -> aat A i <> 0 /\ aat (rt_dt ro) i <> 0) -> forall v,
  rsum (fun i => aat A i / aat (rt_dt ro) i * (cget (aat u' i) v - cget (aat u i) v)) (seq 0 n) = cflinit c * rsum (fun i => cget (aat (rt_r ro) i) v) (seq 0 n) /\
  forall dt, (forall i, (i < n)%nat -> aat (rt_dt ro) i = dt) -> total n A u' v - total n A u v = cflinit c * dt * rsum (fun i => cget (aat (rt_r ro) i) v) (seq 0 n).
Proof.
  intros n A c u ro u' E L1 L2 L3 L4 HN v. destruct (fe_update_ok n A c u ro L1 L2 L3 L4) as (u2 & E2 & _ & P & _). rewrite E2 in E. injection E as ->.
  assert (D : forall i, (i < n)%nat -> cget (aat u' i) v = cget (aat u i) v + cflinit c * aat (rt_dt ro) i / aat A i * cget (aat (rt_r ro) i) v).
  { intros i Hi. rewrite P by auto. destruct v; reflexivity. }
  split.
  - rewrite <- rsum_scal. apply rsum_ext. intros i Hi. apply in_seq in Hi. rewrite D by lia. destruct (HN i ltac:(lia)). field. auto.
  - intros dt HD. unfold total. rewrite <- rsum_minus, <- rsum_scal. apply rsum_ext. intros i Hi. apply in_seq in Hi. rewrite D by lia. rewrite HD by lia. destruct (HN i ltac:(lia)). field. auto.
Qed.
Print Assumptions C80_step.

(** closed: slip walls on every boundary face, no connectivity faces, inviscid *)
Definition closed_box (S : smesh) (fl : flow) (bc : nat -> flowbc) : Prop :=
  sm_nc S = 0%nat /\ fl_visc fl = false /\ (forall k, (k < sm_nb S)%nat -> bc k = BSlip) /\ 1 < gam (fl_gas fl) /\ (fl_flux fl = HLLC -> 5/4 <= gam (fl_gas fl)).

(** In a closed box the first-order residuals of mass and energy add up to zero, for every mesh and
    flux. *)
Lemma box_residual m hs X ghost S fl bc u ul0 ur0 G dt0 ro : built m hs X ghost S -> distinct_ends m X -> bcs_cover S fl bc -> closed_box S fl bc ->
  alen u = sm_ne S -> alen ul0 = sm_nf_all S -> alen ur0 = sm_nf_all S ->
  (forall i, (i < sm_ne S)%nat -> physical (gam (fl_gas fl)) (aat u i)) ->
  flow_eval S fl ul0 ur0 G dt0 u = Some (Val ro) -> alen (rt_r ro) = sm_ne S /\
  forall v, v = I0 \/ v = I3 -> rsum (fun i => cget (aat (rt_r ro) i) v) (seq 0 (sm_ne S)) = 0.
Proof.
  intros B D C (N0 & NV & BS & Hg & HL) Lu L0 R0 HP E. pose proof (built_sm _ _ _ _ _ B) as OK.
  destruct (residual1_ok S fl bc u ul0 ur0 (mkarr (sm_ne S) (fun _ => szero)) G (Some dt0) OK C ltac:(lia) L0 R0 eq_refl) as (ul & ur & res' & _ & _ & _ & E' & L & P).
  unfold flow_eval in E. rewrite E' in E. destruct (maybe_dt S fl ul ur (Some dt0)) as [d|]; [|discriminate]. cbn [bind ro_dt ro_res] in E. destruct d as [d|]; [|discriminate]. injection E as <-. cbn [rt_r].
  split; auto. intros v Hv. rewrite (total_of S (thru1 S fl bc u) (mkarr (sm_ne S) (fun _ => szero)) res' OK P). unfold all_cells.
  rewrite (rsum_zero (fun i => cget (aat (mkarr (sm_ne S) (fun _ => szero)) i) v)) by (intros; destruct v; reflexivity).
  rewrite rsum_zero; [ring|]. intros k Hk. unfold outer_faces in Hk. rewrite N0 in Hk. cbn [seq] in Hk. rewrite app_nil_r in Hk. apply in_seq in Hk.
  assert (Hk' : (k < sm_nf_all S)%nat) by (unfold sm_nf_all; lia).
  unfold thru1, through. cbv zeta. unfold face_law. rewrite NV.
  assert (RV : right_value S (aat u) (bghost S fl bc u) k = ghost_state (fl_gas fl) BSlip (left_value S (aat u) k) (fm_n (aat (sm_M S) k))).
  { unfold right_value. destruct (Nat.ltb_spec k (sm_nb S)); [|lia]. unfold bghost. rewrite BS by lia. reflexivity. }
  rewrite RV. pose proof (C45_slip_wall_no_flux (fl_flux fl) (fl_gas fl) (left_value S (aat u) k) (fm_n (aat (sm_M S) k)) Hg HL) as (F0 & F3 & _).
  { apply HP. apply (so_left _ OK); auto. }
  { apply (face_unit m hs X ghost S B D k Hk'). }
  destruct Hv as [-> | ->]; cbn [cget sscal sadd szero s0 s3]; [rewrite F0|rewrite F3]; ring.
Qed.

(** Every forward Euler step in a closed box conserves mass and energy if all cells have the same time
    step; with different time steps it conserves the sums weighted by the inverse time steps. *)
Theorem C80_closed_box : forall m hs X ghost S, built m hs X ghost S -> distinct_ends m X ->
  (forall i, (i < sm_ne S)%nat -> 0 < aat (sm_A S) i) ->
  forall fl bc c ul0 ur0 G dt0 N run rs cf its, bcs_cover S fl bc -> closed_box S fl bc ->
  alen ul0 = sm_nf_all S -> alen ur0 = sm_nf_all S ->
  steps (sm_ne S) (sm_A S) c (flow_eval S fl ul0 ur0 G dt0) 0.3 0.25 (fe_upd (sm_ne S) (sm_A S) c) (cflinit c) N run rs cf its ->
  (forall k, (k < N)%nat -> alen (run k) = sm_ne S /\ alen (rt_dt (rs k)) = sm_ne S /\ forall i, (i < sm_ne S)%nat -> physical (gam (fl_gas fl)) (aat (run k) i) /\ aat (rt_dt (rs k)) i <> 0) ->
  forall v, v = I0 \/ v = I3 -> 
  (forall k, (k < N)%nat -> rsum (fun i => aat (sm_A S) i / aat (rt_dt (rs k)) i * (cget (aat (run (k + 1)%nat) i) v - cget (aat (run k) i) v)) (seq 0 (sm_ne S)) = 0) /\
  ((forall k i, (k < N)%nat -> (i < sm_ne S)%nat -> aat (rt_dt (rs k)) i = aat (rt_dt (rs k)) 0) -> total (sm_ne S) (sm_A S) (run N) v = total (sm_ne S) (sm_A S) (run 0%nat) v).
Proof.
  intros m hs X ghost S B D HA fl bc c ul0 ur0 G dt0 N run rs cf its C CB L0 R0 T H v Hv. pose proof (built_sm _ _ _ _ _ B) as OK.
  assert (LA : alen (sm_A S) = sm_ne S) by apply (so_A _ OK).
  assert (K : forall k, (k < N)%nat ->
    rsum (fun i => aat (sm_A S) i / aat (rt_dt (rs k)) i * (cget (aat (run (k + 1)%nat) i) v - cget (aat (run k) i) v)) (seq 0 (sm_ne S)) = 0 /\
    forall dt, (forall i, (i < sm_ne S)%nat -> aat (rt_dt (rs k)) i = dt) -> total (sm_ne S) (sm_A S) (run (k + 1)%nat) v - total (sm_ne S) (sm_A S) (run k) v = 0).
  { intros k Hk. destruct (H k Hk) as (H1 & H2 & H3). pose proof (sp_upd T k Hk) as E. unfold fe_upd in E. destruct (fe_update (sm_ne S) (sm_A S) c (run k) (rs k)) as [u'|] eqn:EU; [|discriminate]. cbn [bind] in E. injection E as E _. rewrite <- E.
    destruct (box_residual m hs X ghost S fl bc (run k) ul0 ur0 G dt0 (rs k) B D C CB H1 L0 R0 ltac:(intros; apply H3; auto) (sp_eval T k Hk)) as (LR & Z).
    destruct (C80_step (sm_ne S) (sm_A S) c (run k) (rs k) u' EU) with (v := v) as (Q1 & Q2); try lia.
    { intros i Hi. split; [apply Rgt_not_eq; apply HA; auto|apply H3; auto]. }
    rewrite Q1, (Z v Hv). split; [ring|]. intros dt HD. rewrite (Q2 dt HD), (Z v Hv). ring. }
  split. { intros k Hk. apply K; auto. }
  intros U. assert (I : forall j, (j <= N)%nat -> total (sm_ne S) (sm_A S) (run j) v = total (sm_ne S) (sm_A S) (run 0%nat) v).
  { induction j as [|j IH]; intros Hj; [reflexivity|]. destruct (K j ltac:(lia)) as (_ & Q). specialize (Q _ (fun i Hi => U j i ltac:(lia) Hi)). rewrite Nat.add_1_r in Q. rewrite <- IH by lia. lra. }
  apply I. auto.
Qed.
Print Assumptions C80_closed_box.

(** The Runge-Kutta solver uses one time step for all cells of a rank, hence conserves the totals (if
    the residual sums vanish) whatever the local time steps are. *)
Theorem C80_runge_kutta : forall n A cfl order junk Rf L s rho dt v, (1 <= order <= 3)%nat -> (0 < n)%nat -> (n <= L)%nat -> (n <= alen A)%nat -> (n <= alen dt)%nat -> (n <= alen (t_u s))%nat ->
  tv_ok n L (alen (t_u s)) s -> evaluates n Rf L (t_u s) rho dt -> (forall i, (i < n)%nat -> aat A i <> 0) -> rsum (fun i => cget (rho i) v) (seq 0 n) = 0 ->
  exists s', tvdrk_step n A cfl (tvdrk_coeffs order junk) order Rf s = Some (Val s') /\ total n A (t_u s') v = total n A (t_u s) v.
Proof.
  intros n A cfl order junk Rf L s rho dt v HO Hn HL LA LD LU K EV HA Z. destruct (C74_step n A cfl order junk Rf L s rho dt) as (m & s' & _ & _ & E & _ & _ & P & _); auto.
  exists s'. split; auto. apply Rminus_diag_uniq. unfold total. rewrite <- rsum_minus.
  rewrite (rsum_ext _ (fun i => - (step_share order * (m * cfl)) * cget (rho i) v)); [rewrite rsum_scal, Z; ring|]. intros i Hi. apply in_seq in Hi. rewrite P by lia. specialize (HA i ltac:(lia)).
  assert (E1 : cget (ssub (aat (t_u s) i) (sscal (step_share order * (m * cfl) / aat A i) (rho i))) v = cget (aat (t_u s) i) v - step_share order * (m * cfl) / aat A i * cget (rho i) v) by (destruct v; reflexivity). rewrite E1. field. auto.
Qed.
Print Assumptions C80_runge_kutta.

(** ** C88 *)
(** The pseudo-time term: the diagonal block of every own cell gets area / (CFL * time step) times the
    identity, nothing else changes, and the same factor is left in dtm for the matrix-free product. *)
Theorem C88_pseudo_time : forall n A glob cfl dtm M, (forall i j, (i < n)%nat -> (j < n)%nat -> glob i = glob j -> i = j) -> (n <= alen dtm)%nat -> (n <= alen A)%nat ->
  exists dtm' M', add_pseudo_time n A glob cfl dtm M = Some (dtm', M') /\
  (forall i, (i < n)%nat -> aat dtm' i = aat A i / (cfl * aat dtm i)) /\
  (forall i a b, (i < n)%nat -> mget (M' (glob i) (glob i)) a b = mget (M (glob i) (glob i)) a b + (if ix_eqb a b then aat dtm' i else 0)) /\
  (forall p q, p <> q \/ (forall i, (i < n)%nat -> p <> glob i) -> M' p q = M p q).
Proof.
  intros n A glob cfl dtm M Hg L1 L2. destruct (pseudo_ok n A glob Hg cfl dtm M L1 L2) as (dtm' & M' & E & _ & P1 & _ & P2 & P3). exists dtm', M'. split; auto. split; auto. split; auto.
  intros i a b Hi. rewrite P2, P1 by auto. unfold mplus. rewrite mget_mkmat. f_equal. destruct a, b; reflexivity.
Qed.
Print Assumptions C88_pseudo_time.
(** The alternative with scalar insertions adds the same entries. *)
Theorem C88_scalar_variant : forall n A glob cfl dtm M, (forall i j, (i < n)%nat -> (j < n)%nat -> glob i = glob j -> i = j) -> (n <= alen dtm)%nat -> (n <= alen A)%nat ->
  exists dtm' M', add_pseudo_time_slow n A glob cfl dtm M = Some (dtm', M') /\
  (forall i, (i < n)%nat -> aat dtm' i = aat A i / (cfl * aat dtm i)) /\
  (forall i v, (i < n)%nat -> (v < 4)%nat -> let r := (glob i * 4 + v)%nat in M' r r = M r r + aat dtm' i) /\
  (forall p q, p <> q \/ (forall i v, (i < n)%nat -> (v < 4)%nat -> p <> (glob i * 4 + v)%nat) -> M' p q = M p q).
Proof.
  intros n A glob cfl dtm M Hg L1 L2. destruct (pseudo_slow_ok n A glob Hg cfl dtm M L1 L2) as (dtm' & M' & E & _ & P1 & _ & P2 & P3). exists dtm', M'. split; auto. split; auto. split; auto.
  intros i v Hi Hv. cbv zeta. rewrite P2, P1 by auto. reflexivity.
Qed.
Print Assumptions C88_scalar_variant.

(** matrix times vector, row [p], for the columns of the cells in [cols] *)
Definition block_row (M : bmat) (cols : list nat) (x : nat -> st) (p : nat) (v : ix) : R :=
  rsum (fun q => mget (M p q) v I0 * s0 (x q) + mget (M p q) v I1 * s1 (x q) + mget (M p q) v I2 * s2 (x q) + mget (M p q) v I3 * s3 (x q)) cols.

(** If the linear system is solved exactly, every full (unrelaxed) backward Euler step satisfies
      area / (CFL dt) (u' - u) + J (u' - u) = r
    in every own cell. Cells are numbered globally by [glob]; [cols] lists all global cells. *)
Theorem C88_linearised_step : forall n A c Rf glob Jf ksp N run rs cf its, (forall i j, (i < n)%nat -> (j < n)%nat -> glob i = glob j -> i = j) ->
  steps n A c Rf 0.25 0.3 (be_upd n A glob Jf ksp FullUpdate_factor) 0 N run rs cf its ->
  forall k cols du, (k < N)%nat -> NoDup cols -> (forall i, (i < n)%nat -> In (glob i) cols) -> (n <= alen A)%nat -> (n <= alen (run k))%nat -> (n <= alen (rt_dt (rs k)))%nat ->
  (forall J dtm M d t, Jf (run k) = Some (Val J) -> add_pseudo_time n A glob (cf k) (rt_dt (rs k)) J = Some (dtm, M) -> ksp k M dtm (run k) (rt_r (rs k)) = (d, t) ->
    (n <= alen d)%nat /\ (forall i, (i < n)%nat -> aat d i = du (glob i)) /\ forall i v, (i < n)%nat -> block_row M cols du (glob i) v = cget (aat (rt_r (rs k)) i) v) ->
  exists J, Jf (run k) = Some (Val J) /\
  forall i v, (i < n)%nat -> aat A i / (cf k * aat (rt_dt (rs k)) i) * (cget (aat (run (k + 1)%nat) i) v - cget (aat (run k) i) v) + block_row J cols du (glob i) v = cget (aat (rt_r (rs k)) i) v /\
    ssub (aat (run (k + 1)%nat) i) (aat (run k) i) = du (glob i).
Proof.
  intros n A c Rf glob Jf ksp N run rs cf its Hg T k cols du Hk ND HI LA LU LD HS. pose proof (sp_upd T k Hk) as E. unfold be_upd in E.
  destruct (Jf (run k)) as [[J|]|] eqn:EJ; try discriminate. exists J. split; auto.
  destruct (C88_pseudo_time n A glob (cf k) (rt_dt (rs k)) J Hg LD LA) as (dtm & M & EP & P1 & P2 & P3). rewrite EP in E. cbn [bind] in E.
  destruct (ksp k M dtm (run k) (rt_r (rs k))) as (d & t) eqn:EK. destruct (HS _ _ _ _ _ eq_refl EP EK) as (Ld & Hd & Hr).
  destruct (be_update_ok n FullUpdate_factor (run k) d LU Ld) as (u' & EU & _ & U & _). rewrite EU in E. cbn [bind] in E. injection E as E _. rewrite <- E.
  intros i v Hi. assert (DU : ssub (aat u' i) (aat (run k) i) = du (glob i)).
  { rewrite U, Hd by auto. unfold FullUpdate_factor. apply st_eq; cbn; ring. }
  split; auto. rewrite <- (Hr i v Hi).
  assert (DV : cget (aat u' i) v - cget (aat (run k) i) v = cget (du (glob i)) v) by (rewrite <- DU; destruct v; reflexivity). rewrite DV, <- P1 by auto.
  unfold block_row. transitivity (rsum (fun q => (if (q =? glob i)%nat then aat dtm i * cget (du (glob i)) v else 0)) cols + rsum (fun q => mget (J (glob i) q) v I0 * s0 (du q) + mget (J (glob i) q) v I1 * s1 (du q) + mget (J (glob i) q) v I2 * s2 (du q) + mget (J (glob i) q) v I3 * s3 (du q)) cols).
  - f_equal. symmetry. transitivity (rsum (fun q => if (q =? glob i)%nat then aat dtm i * cget (du q) v else 0) cols). { apply rsum_ext. intros q _. destruct (Nat.eqb_spec q (glob i)) as [->|]; reflexivity. }
    clear - ND HI Hi. specialize (HI i Hi). revert HI ND. generalize (glob i) as g. induction cols as [|q l IH]; intros g HI ND; [destruct HI|]. inversion ND; subst. cbn [rsum]. destruct HI as [->|HI].
    + rewrite Nat.eqb_refl. rewrite rsum_zero; [ring|]. intros x Hx. destruct (Nat.eqb_spec x g) as [->|]; [contradiction|reflexivity].
    + destruct (Nat.eqb_spec q g) as [->|]; [contradiction|]. rewrite IH by auto. ring.
  - rewrite <- rsum_plus. apply rsum_ext. intros q Hq. destruct (Nat.eqb_spec q (glob i)) as [->|NE].
    + rewrite !P2 by auto. destruct v; cbn [ix_eqb cget]; ring.
    + rewrite P3 by auto. ring.
Qed.
Print Assumptions C88_linearised_step.
