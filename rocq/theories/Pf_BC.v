(** Proofs about the boundary conditions *)
From Coq Require Import Reals Lra Psatz List String ZArith Bool Lia.
From Verif Require Import BaseR M_Gas M_Flux M_BC M_BCConf S_Gas S_Deriv Pf_Flux Pf_FluxUp Pf_Deriv Pf_Gas S_Deriv2 Pf_FluxJac.
Import ListNotations.
Open Scope R_scope.

(** ** Jacobians *)
Lemma slip_same ins n : slip_gs ins n = g_s (slip_jac ins n).
Proof. unfold slip_gs, slip_jac; cbn [g_s]. apply st_eq; cbn [s0 s1 s2 s3]; ring. Qed.

Lemma slip_d ins n : 0 < s0 ins -> jac_is (fun u => slip_gs u n) ins (g_d (slip_jac ins n)).
Proof.
  intros Hr i c t du H. assert (Hr0 : s0 ins <> 0) by lra.
  unfold slip_gs, slip_jac, dot2, mom. cbv zeta. cbn [g_d vx vy].
  destruct i; cbn [cget mrow r0 r1 r2 r3 s0 s1 s2 s3]; ad; at_t H; auto; unfold sdot; cbn [s0 s1 s2 s3]; field; auto.
Qed.

Lemma adia2_d tv ins n : jac_is (fun u => adia2_gs tv u n) ins (g_d (adia2_jac tv ins n)).
Proof.
  intros i c t du H. unfold adia2_gs, adia2_jac. cbv zeta. cbn [g_d].
  destruct i; cbn [cget mrow r0 r1 r2 r3 s0 s1 s2 s3]; ad; at_t H; auto; unfold sdot; cbn [s0 s1 s2 s3]; ring.
Qed.

Lemma const_d k ins : jac_is (fun _ => k) ins mat0.
Proof.
  intros i c t du H. eapply dl_eq; [apply dl_const|]. unfold mat0, szero, sdot. destruct i; cbn; ring.
Qed.

Lemma id_d ins : jac_is (fun u => u) ins (diag4 1 1 1 1).
Proof.
  intros i c t du [_ H]. eapply dl_eq; [exact (H i)|]. unfold diag4, sdot. destruct i; cbn; ring.
Qed.

Definition subsonic_ghost (ga pinf : R) (u : st) : st :=
  mks (s0 u) (s1 u) (s2 u) (pinf / (ga - 1) + ((s1 u)^2 + (s2 u)^2) / (2 * s0 u)).

Lemma subsonic_code G p u : s0 u <> 0 ->
  getEnergyFromPressure G p (s0 u) (dot2 (mom u) (mom u) / (s0 u * s0 u)) = p / (gam G - 1) + ((s1 u)^2 + (s2 u)^2) / (2 * s0 u).
Proof. intros. unfold getEnergyFromPressure, dot2, mom. cbn [vx vy]. f_equal. field. auto. Qed.

Lemma subsonic_pressure ga p u : s0 u <> 0 -> ga <> 1 -> pressure ga (subsonic_ghost ga p u) = p.
Proof. intros. unfold pressure, subsonic_ghost; cbn [s0 s1 s2 s3]. field. split; auto; lra. Qed.

Lemma mach_sign G u n : 1 < gam G -> physical (gam G) u ->
  let M := dot2 (mom u) n / s0 u / getSoundSpeedFromConserved G u in
  (M <= 0 <-> normal_velocity u n <= 0) /\ (M < 1 <-> normal_velocity u n < sound (gam G) u) /\ (M <= 1 <-> normal_velocity u n <= sound (gam G) u).
Proof.
  intros Hg Hp M. pose proof Hp as [Hr _]. unfold M. rewrite sound_code by lra.
  pose proof (sound_pos _ _ Hg Hp) as Hc. change (dot2 (mom u) n / s0 u) with (normal_velocity u n).
  set (w := normal_velocity u n) in *. set (c := sound (gam G) u) in *. clearbody w c. clear M.
  assert (E : w = w / c * c) by (field; lra).
  split; [|split]; split; intro H.
  - rewrite E. nra.
  - unfold Rdiv. assert (0 < / c) by (apply Rinv_0_lt_compat; auto). nra.
  - rewrite E. nra.
  - apply (Rmult_lt_reg_r c); auto. rewrite <- E. lra.
  - rewrite E. nra.
  - apply (Rmult_le_reg_r c); auto. rewrite <- E. lra.
Qed.

Lemma inout_gs_spec G uinf u n : 1 < gam G -> physical (gam G) u ->
  (normal_velocity u n <= 0 -> inout_gs G uinf u n = uinf) /\
  (0 < normal_velocity u n < sound (gam G) u -> inout_gs G uinf u n = subsonic_ghost (gam G) (getFreestreamPressure G) u) /\
  (sound (gam G) u <= normal_velocity u n -> inout_gs G uinf u n = u).
Proof.
  intros Hg Hp. pose proof Hp as [Hr _]. destruct (mach_sign G u n Hg Hp) as (A & B & _). cbv zeta in A, B.
  pose proof (sound_pos _ _ Hg Hp) as Hc.
  unfold inout_gs. cbv zeta. rewrite subsonic_code by lra.
  set (M := dot2 (mom u) n / s0 u / getSoundSpeedFromConserved G u) in *. clearbody M.
  split; [|split]; intros H.
  - rewrite Rleb_true by tauto. reflexivity.
  - rewrite Rleb_false, Rltb_true; auto; [tauto|]. apply Rnot_le_lt. intro. apply A in H0. lra.
  - rewrite Rleb_false, Rltb_false; auto.
    + apply Rnot_lt_le. intro K. apply B in K. lra.
    + apply Rnot_le_lt. intro K. apply A in K. lra.
Qed.

Lemma inout_jac_spec G uinf u n : 1 < gam G -> physical (gam G) u ->
  let D := mkm (mks 1 0 0 0) (mks 0 1 0 0) (mks 0 0 1 0) (mks (- (1/2) * dot2 (mom u) (mom u) / (s0 u * s0 u)) (s1 u / s0 u) (s2 u / s0 u) 0) in
  (normal_velocity u n <= 0 -> inout_jac G uinf u n = mkgsj uinf mat0) /\
  (0 < normal_velocity u n <= sound (gam G) u -> inout_jac G uinf u n = mkgsj (subsonic_ghost (gam G) (getPressureFromConserved G uinf) u) D) /\
  (sound (gam G) u < normal_velocity u n -> inout_jac G uinf u n = mkgsj u (diag4 1 1 1 1)).
Proof.
  intros Hg Hp D. pose proof Hp as [Hr _]. destruct (mach_sign G u n Hg Hp) as (A & _ & B). cbv zeta in A, B.
  pose proof (sound_pos _ _ Hg Hp) as Hc.
  unfold inout_jac. cbv zeta. rewrite subsonic_code by lra. fold D.
  set (M := dot2 (mom u) n / s0 u / getSoundSpeedFromConserved G u) in *. clearbody M.
  split; [|split]; intros H.
  - rewrite Rleb_true by tauto. reflexivity.
  - rewrite Rleb_false, Rleb_true; auto; [tauto|]. apply Rnot_le_lt. intro. apply A in H0. lra.
  - rewrite Rleb_false, Rleb_false; auto.
    + apply Rnot_le_lt. intro K. apply B in K. lra.
    + apply Rnot_le_lt. intro K. apply A in K. lra.
Qed.

Lemma subsonic_d ga p u : s0 u <> 0 -> jac_is (subsonic_ghost ga p) u
  (mkm (mks 1 0 0 0) (mks 0 1 0 0) (mks 0 0 1 0) (mks (- (1/2) * dot2 (mom u) (mom u) / (s0 u * s0 u)) (s1 u / s0 u) (s2 u / s0 u) 0)).
Proof.
  intros Hr i c t du H. unfold subsonic_ghost, dot2, mom. cbn [vx vy].
  destruct i; cbn [cget mrow r0 r1 r2 r3 s0 s1 s2 s3]; ad; at_t H; try lra; auto; unfold sdot; cbn [s0 s1 s2 s3]; try (field; auto); ring.
Qed.

(** locality for functions of one state *)
Lemma grad_local (P : st -> Prop) f g u G : (forall c t du, curve_at c t u du -> near t (fun s => P (c s))) ->
  (forall x, P x -> f x = g x) -> grad_is g u G -> grad_is f u G.
Proof.
  intros HP HE Hg c t du H. eapply dl_local; [|exact (Hg c t du H)]. eapply near_imp; [|exact (HP c t du H)].
  cbv beta. intros s Hs. symmetry. symmetry. auto.
Qed.

Lemma near_inout G n c t u du : 1 < gam G -> physical (gam G) u -> curve_at c t u du ->
  (normal_velocity u n < 0 -> near t (fun s => physical (gam G) (c s) /\ normal_velocity (c s) n <= 0)) /\
  (0 < normal_velocity u n < sound (gam G) u ->
     near t (fun s => physical (gam G) (c s) /\ 0 < normal_velocity (c s) n < sound (gam G) (c s))) /\
  (sound (gam G) u < normal_velocity u n -> near t (fun s => physical (gam G) (c s) /\ sound (gam G) (c s) <= normal_velocity (c s) n)).
Proof.
  intros Hg Hp H. pose proof Hp as [Hr _]. assert (Hr0 : s0 u <> 0) by lra.
  pose proof (cv_at _ _ _ _ H) as E.
  pose proof (d_normal n u Hr0 c t du H) as Dw. pose proof (d_sound G u Hg Hp c t du H) as Dc. cbv beta in Dw, Dc.
  pose proof (near_physical (gam G) c t u du Hp H) as NP.
  split; [|split]; intros K; apply near_and; auto.
  - eapply near_imp; [|apply (near_lt _ _ t _ _ Dw (dl_const 0 t)); rewrite E; auto]. cbv beta; intros; lra.
  - apply near_and.
    + apply (near_lt _ _ t _ _ (dl_const 0 t) Dw); rewrite E; tauto.
    + apply (near_lt _ _ t _ _ Dw Dc); rewrite E; tauto.
  - eapply near_imp; [|apply (near_lt _ _ t _ _ Dc Dw); rewrite E; auto]. cbv beta; intros; lra.
Qed.

Lemma inout_d G uinf u n : 1 < gam G -> physical (gam G) u ->
  pressure (gam G) uinf = getFreestreamPressure G -> s0 uinf <> 0 ->
  normal_velocity u n <> 0 -> normal_velocity u n <> sound (gam G) u ->
  g_s (inout_jac G uinf u n) = inout_gs G uinf u n /\
  jac_is (fun x => inout_gs G uinf x n) u (g_d (inout_jac G uinf u n)).
Proof.
  intros Hg Hp HP Hf Hw Hc. pose proof Hp as [Hr _]. assert (Hr0 : s0 u <> 0) by lra.
  destruct (inout_gs_spec G uinf u n Hg Hp) as (A1 & A2 & A3). destruct (inout_jac_spec G uinf u n Hg Hp) as (B1 & B2 & B3). cbv zeta in B2.
  rewrite pressure_code, HP in B2 by auto.
  pose proof (sound_pos _ _ Hg Hp) as Pc.
  destruct (Rtotal_order (normal_velocity u n) 0) as [K|[K|K]]; [|contradiction|].
  - rewrite A1, B1 by lra. cbn [g_s g_d]. split; auto. intros i.
    apply (grad_local (fun x => physical (gam G) x /\ normal_velocity x n <= 0) _ (fun _ => cget uinf i)).
    + intros c t du H. apply (proj1 (near_inout G n c t u du Hg Hp H)); auto.
    + intros x [X Y]. destruct (inout_gs_spec G uinf x n Hg X) as (C1 & _). rewrite C1; auto.
    + exact (const_d uinf u i).
  - destruct (Rtotal_order (normal_velocity u n) (sound (gam G) u)) as [L|[L|L]]; [|contradiction|].
    + rewrite A2, B2 by lra. cbn [g_s g_d]. split; auto. intros i.
      apply (grad_local (fun x => physical (gam G) x /\ 0 < normal_velocity x n < sound (gam G) x) _ (fun x => cget (subsonic_ghost (gam G) (getFreestreamPressure G) x) i)).
      * intros c t du H. apply (proj1 (proj2 (near_inout G n c t u du Hg Hp H))); auto.
      * intros x [X Y]. destruct (inout_gs_spec G uinf x n Hg X) as (_ & C2 & _). rewrite C2; auto.
      * exact (subsonic_d (gam G) _ u Hr0 i).
    + rewrite A3, B3 by lra. cbn [g_s g_d]. split; auto. intros i.
      apply (grad_local (fun x => physical (gam G) x /\ sound (gam G) x <= normal_velocity x n) _ (fun x => cget x i)).
      * intros c t du H. apply (proj2 (proj2 (near_inout G n c t u du Hg Hp H))); auto.
      * intros x [X Y]. destruct (inout_gs_spec G uinf x n Hg X) as (_ & _ & C3). rewrite C3; auto.
      * exact (id_d u i).
Qed.

(** ** Isothermal wall *)
Lemma iso_temperature G tv tw u n : 1 < gam G -> 0 < s0 u -> Minf G <> 0 ->
  temperature (gam G) (Minf G) (iso_gs G tv tw u n) = 2 * tw - temperature (gam G) (Minf G) u.
Proof.
  intros Hg Hr HM. unfold iso_gs. cbv zeta. rewrite pressure_code by lra.
  unfold temperature, getTemperature, getEnergyFromTemperature, pressure. cbn [s0 s1 s2 s3].
  field. repeat split; try lra; auto.
Qed.

Lemma iso_mismatch G tv tw u n : 1 < gam G -> 0 < s0 u -> Minf G <> 0 ->
  s3 (iso_gs G tv tw u n) - s3 (g_s (iso_jac G tv tw u n)) =
  s0 u * (tw - temperature (gam G) (Minf G) u) / (gam G * (gam G - 1) * (Minf G)^2).
Proof.
  intros Hg Hr HM. unfold iso_gs, iso_jac. cbv zeta. rewrite pressure_code by lra. cbn [g_s s3].
  unfold getEnergyFromTemperature. unfold temperature, getTemperature. set (p := pressure (gam G) u). clearbody p.
  field. repeat split; try lra; auto.
Qed.

(** the derivative of the isothermal ghost energy, component by component *)
Lemma iso_d G tv tw u n : 1 < gam G -> 0 < s0 u -> Minf G <> 0 ->
  jac_is (fun x => iso_gs G tv tw x n) u
   (let g1 := 2 * tv * vy n * s0 u - s1 u in let g2 := - 2 * tv * vx n * s0 u - s2 u in
    let k := / (gam G * (gam G - 1) * (Minf G)^2) in
    mkm (mks 1 0 0 0) (mks (2 * tv * vy n) (-1) 0 0) (mks (- 2 * tv * vx n) 0 (-1) 0)
      (mks (2 * tw * k + (1/2) * ((4 * tv * tv * ((vx n)^2 + (vy n)^2)) - ((s1 u)^2 + (s2 u)^2) / (s0 u)^2) - (1/2) * ((s1 u)^2 + (s2 u)^2) / (s0 u)^2)
           (- g1 / s0 u + s1 u / s0 u) (- g2 / s0 u + s2 u / s0 u) (-1))).
Proof.
  intros Hg Hr HM. cbv zeta. assert (Hr0 : s0 u <> 0) by lra.
  set (E := fun x => mks (s0 x) (s0 x * (2 * tv * vy n) - s1 x) (s0 x * (- 2 * tv * vx n) - s2 x)
    (2 * tw * s0 x / (gam G * (gam G - 1) * (Minf G)^2) - (s3 x - ((s1 x)^2 + (s2 x)^2) / (2 * s0 x)) +
     (1/2) * ((s0 x * (2 * tv * vy n) - s1 x)^2 + (s0 x * (- 2 * tv * vx n) - s2 x)^2) / s0 x)).
  assert (EE : forall x, 0 < s0 x -> iso_gs G tv tw x n = E x).
  { intros x Hx. unfold iso_gs, E. cbv zeta. rewrite pressure_code by lra.
    unfold getEnergyFromTemperature, getTemperature, pressure. apply st_eq; cbn [s0 s1 s2 s3]; field; repeat split; try lra; auto. }
  intros i. apply (grad_local (fun x => 0 < s0 x) _ (fun x => cget (E x) i)).
  - intros c t du H. apply (near_lt _ _ t _ _ (dl_const 0 t) (cv0 _ _ _ _ H)). rewrite (cv_at _ _ _ _ H). auto.
  - intros x Hx. rewrite EE; auto.
  - unfold E. clear E EE. intros c t du H.
    assert (K0 : gam G * (gam G - 1) * Minf G ^ 2 <> 0) by (repeat apply Rmult_integral_contrapositive_currified; try lra; apply pow_nonzero; auto).
    destruct i; cbn [cget mrow r0 r1 r2 r3 s0 s1 s2 s3]; ad; at_t H; auto; try lra; try exact K0; unfold sdot; cbn [s0 s1 s2 s3]; try (field; repeat split; try lra; auto).
Qed.

Lemma jac_unique F u J K : jac_is F u J -> jac_is F u K -> J = K.
Proof. intros H L. apply mat_eq. intros i. eapply grad_unique; [exact (H i)|exact (L i)]. Qed.

Lemma iso_jac_wrong G tv tw u n : 1 < gam G -> 0 < s0 u -> Minf G <> 0 ->
  ~ jac_is (fun x => iso_gs G tv tw x n) u (g_d (iso_jac G tv tw u n)).
Proof.
  intros Hg Hr HM H. pose proof (jac_unique _ _ _ _ H (iso_d G tv tw u n Hg Hr HM)) as E. cbv zeta in E.
  apply (f_equal r3) in E. apply (f_equal s3) in E. unfold iso_jac in E. cbv zeta in E. cbn [g_d r3 s3] in E.
  unfold getJacobianEnergyFromJacobiansTemperatureVmag2, szero in E. cbv zeta in E. cbn [s0 s1 s2 s3] in E. lra.
Qed.

(** by how much it is wrong: the rows of density and momentum are right, the energy row is not *)
Lemma iso_error G tv tw u n : 1 < gam G -> 0 < s0 u -> Minf G <> 0 ->
  exists J, jac_is (fun x => iso_gs G tv tw x n) u J /\ let K := g_d (iso_jac G tv tw u n) in
    let gx := 2 * tv * s0 u * vy n - s1 u in let gy := - 2 * tv * s0 u * vx n - s2 u in
    r0 K = r0 J /\ r1 K = r1 J /\ r2 K = r2 J /\
    s0 (r3 J) - s0 (r3 K) = tw / (gam G * (gam G - 1) * (Minf G)^2) + 2 * tv^2 * ((vx n)^2 + (vy n)^2) - ((s1 u)^2 + (s2 u)^2) / (s0 u)^2 + (gx^2 + gy^2) / (2 * (s0 u)^2) /\
    s1 (r3 J) - s1 (r3 K) = (s1 u - gx / 2) / s0 u /\ s2 (r3 J) - s2 (r3 K) = (s2 u - gy / 2) / s0 u /\ s3 (r3 J) - s3 (r3 K) = -1.
Proof.
  intros Hg Hr HM. eexists. split; [apply iso_d; auto|]. cbv zeta. unfold iso_jac, getJacobianEnergyFromJacobiansTemperatureVmag2, szero. cbv zeta. cbn [g_d r0 r1 r2 r3 s0 s1 s2 s3].
  repeat (split; [try reflexivity; try (field; repeat split; lra)|]); try (field; repeat split; lra).
Qed.

(** ** Inflow from total conditions *)
(** Velocity and sound speed obtained by the code's formula from an invariant Rm and a stagnation
    sound speed squared co2 *)
Lemma inflow_algebra ga Rm co2 : 1 < ga -> Rm < 0 -> 0 <= (ga + 1) * co2 / ((ga - 1) * Rm * Rm) - (ga - 1) / 2 ->
  let q := sqrt ((ga + 1) * co2 / ((ga - 1) * Rm * Rm) - (ga - 1) / 2) in
  let cg := - Rm * (ga - 1) / (ga + 1) * (1 + q) in
  let w := Rm + 2 * cg / (ga - 1) in
  0 < cg /\ cg^2 + (ga - 1) / 2 * w^2 = co2 /\ sqrt (2 / (ga - 1) * (co2 - cg * cg)) = Rabs w.
Proof.
  intros Hg HR HQ q cg w.
  assert (Hq : q * q = (ga + 1) * co2 / ((ga - 1) * Rm * Rm) - (ga - 1) / 2) by (apply sqrt_sqrt; auto).
  assert (Hq0 : 0 <= q) by apply sqrt_pos.
  assert (E : cg^2 + (ga - 1) / 2 * w^2 = co2).
  { assert (Eco : co2 = (q * q + (ga - 1) / 2) * ((ga - 1) * Rm * Rm) / (ga + 1)) by (rewrite Hq; field; repeat split; lra).
    clearbody q. unfold w, cg. rewrite Eco. field. lra. }
  split; [|split; auto].
  - unfold cg. apply Rmult_lt_0_compat; [|lra]. apply Rdiv_lt_0_compat; nra.
  - replace (2 / (ga - 1) * (co2 - cg * cg)) with (Rsqr w). apply sqrt_Rsqr_abs.
    rewrite <- E. unfold Rsqr. field. lra.
Qed.

Definition inflow_R (ga : R) (u : st) (n : v2) : R := normal_velocity u n - sound ga u / (2 * ga - 1).
Definition inflow_co2 (ga : R) (u : st) : R := (sound ga u)^2 + (ga - 1) / 2 * (((s1 u)^2 + (s2 u)^2) / (s0 u)^2).
Definition inflow_cg (ga : R) (u : st) (n : v2) : R :=
  - inflow_R ga u n * (ga - 1) / (ga + 1) *
    (1 + sqrt ((ga + 1) * inflow_co2 ga u / ((ga - 1) * inflow_R ga u n * inflow_R ga u n) - (ga - 1) / 2)).

Lemma inflow_spec G pt ttl u n : 1 < gam G -> physical (gam G) u -> unit_vec n -> Minf G <> 0 -> 0 < pt -> 0 < ttl ->
  normal_velocity u n <= 0 ->
  0 <= (gam G + 1) * inflow_co2 (gam G) u / ((gam G - 1) * inflow_R (gam G) u n * inflow_R (gam G) u n) - (gam G - 1) / 2 ->
  normal_velocity (inflow_gs G pt ttl u n) n = Rabs (inflow_R (gam G) u n + 2 * inflow_cg (gam G) u n / (gam G - 1)).
Proof.
  intros Hg Hp Hn HM Hpt Htt Hw HQ. pose proof Hp as [Hr _]. set (ga := gam G) in *.
  pose proof (sound_pos _ _ Hg Hp) as Hc. fold ga in Hc.
  assert (HR : inflow_R ga u n < 0).
  { unfold inflow_R. assert (0 < sound ga u / (2 * ga - 1)) by (apply Rdiv_lt_0_compat; lra). lra. }
  pose proof (inflow_algebra ga (inflow_R ga u n) (inflow_co2 ga u) Hg HR HQ) as (Cg & _ & Vg). cbv zeta in Cg, Vg. fold (inflow_cg ga u n) in Cg, Vg.
  unfold inflow_gs. cbv zeta. rewrite sound_code by lra. fold ga.
  replace (dot2 (mom u) n / s0 u - sound ga u / (2 * ga - 1)) with (inflow_R ga u n) by reflexivity.
  replace (sound ga u * sound ga u + (ga - 1) / 2 * dot2 (mom u) (mom u) / (s0 u * s0 u)) with (inflow_co2 ga u)
    by (unfold inflow_co2, dot2, mom; cbn [vx vy]; field; lra).
  fold (inflow_cg ga u n). rewrite Vg. rewrite <- Vg. 
  set (v := sqrt (2 / (ga - 1) * (inflow_co2 ga u - inflow_cg ga u n * inflow_cg ga u n))) in *.
  set (cg := inflow_cg ga u n) in *.
  assert (Hco : 0 < inflow_co2 ga u).
  { unfold inflow_co2. assert (0 < sound ga u ^ 2) by (apply pow_lt; auto).
    assert (0 <= ((s1 u)^2 + (s2 u)^2) / (s0 u)^2). { apply Rmult_le_pos; [nra|]. left. apply Rinv_0_lt_compat. apply pow_lt; auto. }
    nra. }
  clearbody v. clearbody cg. clear Vg HQ.
  set (tg := ttl * cg * cg / inflow_co2 ga u). assert (Htg : 0 < tg) by (unfold tg; apply Rdiv_lt_0_compat; auto; repeat apply Rmult_lt_0_compat; auto).
  set (pg := pt * Rpower (tg / ttl) (ga / (ga - 1))). assert (Hpg : 0 < pg) by (unfold pg; apply Rmult_lt_0_compat; auto; unfold Rpower; apply exp_pos).
  unfold normal_velocity, getDensityFromPressureTemperature. cbn [s0 s1 s2 s3 vx vy]. fold ga.
  set (rho := ga * Minf G * Minf G * pg / tg).
  assert (Hrho : rho <> 0). { unfold rho, Rdiv. clearbody pg tg ga. assert (/ tg <> 0) by (apply Rinv_neq_0_compat; lra). repeat apply Rmult_integral_contrapositive_currified; auto; try lra. }
  clearbody rho. unfold unit_vec in Hn. replace ((rho * (v * 1 * vx n) * vx n + rho * (v * 1 * vy n) * vy n) / rho) with (v * (vx n ^ 2 + vy n ^ 2)) by (field; auto).
  rewrite Hn. ring.
Qed.

(** fluid at rest in front of an inlet, gamma = 7/5 *)
Lemma inflow_rest G pt ttl r E n : gam G = 7/5 -> 0 < r -> 0 < E -> unit_vec n -> Minf G <> 0 -> 0 < pt -> 0 < ttl ->
  let u := mks r 0 0 E in
  physical (gam G) u /\ 19/10 * sound (gam G) u < normal_velocity (inflow_gs G pt ttl u n) n.
Proof.
  intros Eg Hr HE Hn HM Hpt Htt u.
  assert (Hp : physical (gam G) u) by (rewrite Eg; unfold physical, pressure, u; cbn [s0 s1 s2 s3]; split; [auto|]; replace (0^2 + 0^2) with 0 by ring; unfold Rdiv; nra).
  split; [exact Hp|].
  assert (Hw : normal_velocity u n = 0) by (unfold normal_velocity, u; cbn [s0 s1 s2]; unfold Rdiv; ring).
  pose proof (sound_pos (gam G) u ltac:(rewrite Eg; lra) Hp) as Hc. set (c := sound (gam G) u) in *.
  assert (ER : inflow_R (gam G) u n = - (5/9) * c) by (unfold inflow_R; rewrite Hw; fold c; rewrite Eg; field).
  assert (EC : inflow_co2 (gam G) u = c^2) by (unfold inflow_co2; fold c; unfold u; cbn [s0 s1 s2]; field; lra).
  assert (EQ : (gam G + 1) * inflow_co2 (gam G) u / ((gam G - 1) * inflow_R (gam G) u n * inflow_R (gam G) u n) - (gam G - 1) / 2 = 481/25).
  { rewrite ER, EC, Eg. field. lra. }
  rewrite inflow_spec; auto; try (rewrite EQ; lra); try (rewrite Eg; lra); try lra.
  unfold inflow_cg. rewrite EQ, ER. 
  assert (S1 : sqrt (481/25) < 44/10) by (replace (44/10) with (sqrt ((44/10)*(44/10))) by (apply sqrt_square; lra); apply sqrt_lt_1; lra).
  assert (S2 : 438/100 < sqrt (481/25)) by (replace (438/100) with (sqrt ((438/100)*(438/100))) by (apply sqrt_square; lra); apply sqrt_lt_1; lra).
  set (q := sqrt (481/25)) in *. clearbody q. rewrite Eg. clear - Hc S1 S2. clearbody c. 
  replace (- (5 / 9) * c + 2 * (- (- (5 / 9) * c) * (7 / 5 - 1) / (7 / 5 + 1) * (1 + q)) / (7 / 5 - 1)) with (c * (5/9) * (5/6 * (1 + q) - 1)) by field.
  rewrite Rabs_pos_eq; nra.
Qed.
