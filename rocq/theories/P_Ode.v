(** Properties C71-C75, C80, C87-C89: CFL ramps, steady solvers, relaxation, Runge-Kutta. *)
From Coq Require Import Reals Lra Lia List Arith ZArith Bool.
From Verif Require Import Base BaseR BaseSum M_Gas S_Gas M_Resid M_Ode S_Ode Pf_Ode Pf_Ode2.
Import ListNotations.
Open Scope R_scope.

(** ** C71 *)
Theorem C71_linear_ramp : forall cstart cend (itstart itend : Z),
  (forall it, Rmin cstart cend <= linearRamp cstart cend itstart itend it <= Rmax cstart cend) /\
  (forall it it', cstart <= cend -> (it <= it')%Z -> linearRamp cstart cend itstart itend it <= linearRamp cstart cend itstart itend it') /\
  (forall it, (it < itstart)%Z -> linearRamp cstart cend itstart itend it = cstart) /\
  (forall it, (itstart <= it)%Z -> (itend <= it)%Z -> linearRamp cstart cend itstart itend it = cend) /\
  (forall it, (itstart <= it < itend)%Z -> linearRamp cstart cend itstart itend it = cstart + (cend - cstart) * (IZR (it - itstart) / IZR (itend - itstart))).
Proof.
  intros. split; [|split; [|split; [|split]]].
  - intros. apply linear_ramp_bounds.
  - intros. apply linear_ramp_mono; auto.
  - intros it H. unfold linearRamp. destruct (Z.ltb_spec it itstart); auto; lia.
  - intros it H H'. unfold linearRamp. destruct (Z.ltb_spec it itstart); [lia|]. destruct (Z.ltb_spec it itend); auto; lia.
  - intros it H. unfold linearRamp. destruct (Z.ltb_spec it itstart); [lia|]. destruct (Z.ltb_spec it itend); [|lia]. destruct (Z.leb_spec (itend - itstart) 0); [lia|].
    field. apply not_0_IZR. lia.
Qed.
Print Assumptions C71_linear_ramp.
Example C71_linear_ex : linearRamp 1 11 10 20 15 = 6.
Proof. cbn. lra. Qed.

(** [ratio]: old residual over new residual. *)
Theorem C71_residual_ramp : forall cflmin cflmax prev up down, cflmin <= cflmax -> 0 <= prev -> 0 <= up -> 0 <= down ->
  (forall ratio, cflmin <= expResidualRamp cflmin cflmax prev ratio up down <= cflmax) /\
  (forall ratio ratio', ratio <= ratio' -> expResidualRamp cflmin cflmax prev ratio up down <= expResidualRamp cflmin cflmax prev ratio' up down) /\
  (cflmin <= prev <= cflmax -> expResidualRamp cflmin cflmax prev 1 up down = prev).
Proof.
  intros lo hi p a b H Hp Ha Hb. split; [|split].
  - intros. apply residual_ramp_bounds; auto.
  - intros. apply residual_ramp_mono; auto.
  - intros. apply residual_ramp_one; auto.
Qed.
Print Assumptions C71_residual_ramp.

(** Inside the limits the ramp is the documented power of the ratio. *)
Theorem C71_residual_ramp_law : forall cflmin cflmax prev ratio up down, cflmin <= cflmax -> 0 < ratio ->
  let new := prev * Rpower ratio (if Rlt_dec 1 ratio then up else down) in
  expResidualRamp cflmin cflmax prev ratio up down = Rmax cflmin (Rmin cflmax new).
Proof.
  intros lo hi p r a b H Hr. cbv zeta. rewrite ramp_raw by auto. unfold raw, powr. destruct (Rle_dec r 0); [lra|]. destruct (Rlt_dec 1 r); reflexivity.
Qed.
Print Assumptions C71_residual_ramp_law.
Example C71_ramp_ex : expResidualRamp 1 10 2 16 (1/2) (1/2) = 8.
Proof.
  rewrite C71_residual_ramp_law by lra. cbv zeta. assert (E : Rpower 16 (1/2) = 4).
  { replace 16 with (Rpower 4 2). rewrite Rpower_mult. replace (2 * (1/2)) with 1 by field. apply Rpower_1. lra. replace 2 with (1 + 1) by ring. rewrite Rpower_plus, Rpower_1 by lra. ring. }
  destruct (Rlt_dec 1 16); [|lra]. rewrite E. rewrite Rmin_right by lra. rewrite Rmax_right by lra. ring.
Qed.

(** Every CFL number a steady solver computes is between the configured ones ([update], exponents
    and start value arbitrary, so both solvers are covered). *)
Theorem C71_history : forall n A c Rf up down update cfl0 N run rs cf its,
  steps n A c Rf up down update cfl0 N run rs cf its -> cflinit c <= cflfin c -> forall k, (k < N)%nat -> cflinit c <= cf k <= cflfin c.
Proof. intros n A c Rf up down update cfl0 N run rs cf its T H k Hk. rewrite (sp_cfl T k Hk). apply residual_ramp_bounds; auto. Qed.
Print Assumptions C71_history.

(** The second CFL number of the forward Euler solver is computed from the ratio of 1 to the first
    residual: it grows exactly if the first residual happens to be smaller than 1 in the units used,
    whether or not the residual has been reduced. *)
Theorem C71_second_step : forall n A c Rf update N run rs cf its,
  steps n A c Rf 0.3 0.25 update (cflinit c) N run rs cf its -> (2 <= N)%nat -> 0 < cflinit c < cflfin c -> 0 < norm_at n A rs 0 ->
  cf 0%nat = cflinit c /\ (cflinit c < cf 1%nat <-> norm_at n A rs 0 < 1).
Proof.
  intros n A c Rf update N run rs cf its T H2 HC HN.
  assert (E0 : cf 0%nat = cflinit c).
  { rewrite (sp_cfl T 0%nat) by lia. cbn [cfl_before norm_before Nat.pred]. replace (1 / 1) with 1 by field. apply residual_ramp_one. lra. }
  split; auto. pose proof (sp_cfl T 1%nat ltac:(lia)) as E1. cbn [cfl_before norm_before Nat.pred] in E1. rewrite E0 in E1. set (x := norm_at n A rs 0) in *.
  assert (HX : 0 < 1 / x) by (apply Rmult_lt_0_compat; [lra|apply Rinv_0_lt_compat; auto]).
  assert (ER : 1 < 1 / x <-> x < 1).
  { split; intros H. apply Rmult_lt_reg_r with (1 / x); auto. replace (x * (1 / x)) with 1 by (field; lra). lra.
    apply Rmult_lt_reg_r with x; auto. replace (1 / x * x) with 1 by (field; lra). lra. }
  rewrite C71_residual_ramp_law in E1 by (auto; lra). cbv zeta in E1. destruct (Rlt_dec 1 (1 / x)) as [L|L].
  - assert (PW : 1 < Rpower (1 / x) 0.3). { rewrite <- (Rpower_O (1 / x)) at 1 by auto. apply Rpower_lt; lra. }
    assert (cflinit c < cflinit c * Rpower (1 / x) 0.3). { rewrite <- (Rmult_1_r (cflinit c)) at 1. apply Rmult_lt_compat_l; lra. }
    split; intros _. tauto. rewrite E1. apply Rlt_le_trans with (Rmin (cflfin c) (cflinit c * Rpower (1 / x) 0.3)); [|apply Rmax_r]. apply Rmin_glb_lt; lra.
  - assert (PW : Rpower (1 / x) 0.25 <= 1). { destruct (Rle_lt_or_eq_dec (1 / x) 1 ltac:(lra)) as [LT| ->]. 2: unfold Rpower; rewrite ln_1, Rmult_0_r, exp_0; lra. unfold Rpower. apply Rle_trans with (exp 0); [|rewrite exp_0; lra]. left. apply exp_increasing. assert (LN : ln (1 / x) < 0) by (rewrite <- ln_1; apply ln_increasing; auto). set (y := ln (1 / x)) in *. clearbody y. lra. }
    assert (cflinit c * Rpower (1 / x) 0.25 <= cflinit c). { rewrite <- (Rmult_1_r (cflinit c)) at 2. apply Rmult_le_compat_l; lra. }
    split; intros H'; [|tauto]. rewrite E1 in H'. exfalso. apply (Rlt_irrefl (cflinit c)). apply Rlt_le_trans with (1 := H'). apply Rmax_lub; [lra|]. apply Rle_trans with (2 := H). apply Rmin_r.
Qed.
Print Assumptions C71_second_step.

(** ** C72 *)
(** What forward Euler can do: return or throw, always after at most maxiter steps. [N] counts the
    completed steps; residual evaluation [k] happens before update [k]. *)
Theorem C72_forward : forall n A c Rf u conv0 r, (0 < maxiter c)%Z -> fe_solve n A c Rf u conv0 = Some r ->
  exists N run rs cf its, run 0%nat = u /\ (Z.of_nat N <= maxiter c)%Z /\ finite_upto N rs /\
  (forall k, (k + 1 < N)%nat -> norm_at n A rs 0 <> 0 /\ tol c < rel_at n A rs k) /\
  let done := steps n A c Rf 0.3 0.25 (fe_upd n A c) (cflinit c) in
  match r with
  | SReturn s conv => done N run rs cf its /\ conv = true /\ m_u s = run N /\ m_step s = N /\ (Z.of_nat N < maxiter c)%Z /\
      (N = 0%nat /\ 1 <= tol c \/ N = 1%nat /\ norm_at n A rs 0 = 0 \/ exists k, N = (k + 1)%nat /\ norm_at n A rs 0 <> 0 /\ rel_at n A rs k <= tol c)
  | SThrow Tolerance_error => done N run rs cf its /\ Z.of_nat N = maxiter c
  | SThrow Numerical_error => done (N + 1)%nat run rs cf its /\ rt_fin (rs N) = false
  | SThrow Other_error => done N run rs cf its /\ Rf (run N) = Some Exn
  end.
Proof.
  intros n A c Rf u conv0 r HM E. unfold fe_solve in E. destruct (Z.leb_spec (maxiter c) 0); [lia|]. cbv zeta in E.
  destruct (steady_loop _ _ _ _) as [q|] eqn:EL; [|discriminate].
  destruct (loop_result n A c Rf 0.3 0.25 (fe_upd n A c) (cflinit c) u q HM EL) as (N & run & rs & cf & its & R0 & M & F & C & _ & P).
  exists N, run, rs, cf, its. repeat (split; [solve [auto]|]). cbv zeta. destruct q as [s|e].
  - destruct P as (P1 & -> & P3). cbn [mon_at m_step] in E. destruct (Z.eqb_spec (Z.of_nat N) (maxiter c)) as [EZ|EZ]; injection E as <-.
    + auto.
    + destruct P3 as [P3|(P3 & P4)]; [contradiction|]. repeat (split; [solve [auto]|]). destruct N as [|k]; cbn in P4; auto. right. destruct P4 as [(Z & ->)|P4]; auto. right. exists k. split; [lia|auto].
  - injection E as <-. destruct e; auto; try contradiction. destruct P as (P1 & P2 & P3); auto.
    destruct P as (P1 & P2 & [P3|(ro & cfl & P3 & P4)]); auto. unfold fe_upd in P4. destruct (fe_update n A c (run N) ro); discriminate.
Qed.
Print Assumptions C72_forward.

(** Backward Euler: as above, except that it also throws Numerical_error if the first residual was
    exactly zero (0/0 is not at most the tolerance). *)
Theorem C72_backward : forall n A c Rf glob Jf ksp relax u conv0 r, (0 < maxiter c)%Z ->
  be_solve n A c Rf glob Jf ksp relax u conv0 = Some r ->
  exists N run rs cf its, run 0%nat = u /\ (Z.of_nat N <= maxiter c)%Z /\ finite_upto N rs /\ 
  (forall k, (k + 1 < N)%nat -> norm_at n A rs 0 <> 0 /\ tol c < rel_at n A rs k) /\
  let done := steps n A c Rf 0.25 0.3 (be_upd n A glob Jf ksp relax) 0 in
  match r with
  | SReturn s conv => done N run rs cf its /\ conv = true /\ m_u s = run N /\ m_step s = N /\ (Z.of_nat N < maxiter c)%Z /\
      exists k, N = (k + 1)%nat /\ norm_at n A rs 0 <> 0 /\ rel_at n A rs k <= tol c
  | SThrow Tolerance_error => done N run rs cf its /\ Z.of_nat N = maxiter c
  | SThrow Numerical_error => done (N + 1)%nat run rs cf its /\ rt_fin (rs N) = false \/
      done N run rs cf its /\ N = 1%nat /\ norm_at n A rs 0 = 0
  | SThrow Other_error => done N run rs cf its /\ (Rf (run N) = Some Exn \/ Jf (run N) = Some Exn)
  end.
Proof.
  intros n A c Rf glob Jf ksp relax u conv0 r HM E. unfold be_solve in E. destruct (Z.leb_spec (maxiter c) 0); [lia|]. cbv zeta in E.
  destruct (steady_loop _ _ _ _) as [q|] eqn:EL; [|discriminate].
  destruct (loop_result n A c Rf 0.25 0.3 (be_upd n A glob Jf ksp relax) 0 u q HM EL) as (N & run & rs & cf & its & R0 & M & F & C & _ & P).
  exists N, run, rs, cf, its. repeat (split; [solve [auto]|]). cbv zeta. destruct q as [s|e].
  - destruct P as (P1 & -> & P3). change (m_step (mon_at n A 0 run rs cf its N)) with N in E. destruct N as [|k]; [cbn in E; discriminate|].
    change (Datatypes.S k =? 0)%nat with false in E. cbn iota in E. replace (Datatypes.S k) with (k + 1)%nat in * by lia.
    destruct P3 as [P3|(P3 & P4)].
    + destruct (Z.ltb_spec (Z.of_nat (k + 1)) (maxiter c)); [lia|]. cbn [andb] in E. destruct (Z.leb_spec (maxiter c) (Z.of_nat (k + 1))); [|lia]. injection E as <-. auto.
    + destruct (Z.ltb_spec (Z.of_nat (k + 1)) (maxiter c)); [|lia]. cbn [andb] in E. rewrite Nat.add_1_r in P4. cbn [stopped] in P4. destruct P4 as [(Z & ->)|(Z & L)].
      * unfold rel_le in E. cbn [mon_at m_init m_resi norm_before Nat.add] in E. rewrite Z in E. destruct (Req_EM_T 0 0); [|contradiction]. destruct (Z.leb_spec (maxiter c) (Z.of_nat (0 + 1))); [cbn in *; lia|].
        match type of E with context [if ?b then _ else _] => replace b with false in E by (symmetry; apply Z.leb_gt; lia) end. injection E as <-. right. auto.
      * rewrite (proj2 (rel_le_at n A c 0 run rs cf its k Z) L) in E. injection E as <-. repeat (split; [solve [auto]|]). exists k. auto.
  - injection E as <-. destruct e; auto; try contradiction. destruct P as (P1 & P2 & P3); auto.
    destruct P as (P1 & P2 & [P3|(ro & cfl & P3 & P4)]); auto. split; auto. right. unfold be_upd in P4. destruct (Jf (run N)) as [[J|]|]; auto; [|discriminate]. exfalso.
    destruct (add_pseudo_time n A glob cfl (rt_dt ro) J) as [(dtm & M')|]; [|discriminate]. cbn [bind] in P4. destruct (ksp N M' dtm (run N) (rt_r ro)) as (du & it). destruct (be_update n relax (run N) du); discriminate.
Qed.
Print Assumptions C72_backward.

(** Conversely, given the steps the solver would make. Convergence in evaluation [k] is reported
    with the state after update [k], if that is not the last permitted step. *)
Theorem C72_forward_converges : forall n A c Rf k run rs cf its conv0,
  steps n A c Rf 0.3 0.25 (fe_upd n A c) (cflinit c) (k + 1) run rs cf its -> finite_upto (k + 1) rs ->
  (Z.of_nat (k + 1) < maxiter c)%Z -> tol c < 1 -> norm_at n A rs 0 <> 0 -> (forall j, (j < k)%nat -> tol c < rel_at n A rs j) -> rel_at n A rs k <= tol c ->
  exists s, fe_solve n A c Rf (run 0%nat) conv0 = Some (SReturn s true) /\ m_u s = run (k + 1)%nat /\ m_step s = (k + 1)%nat.
Proof.
  intros n A c Rf k run rs cf its conv0 T F M T1 Z H L. unfold fe_solve. destruct (Z.leb_spec (maxiter c) 0); [lia|]. cbv zeta.
  replace (Z.to_nat (maxiter c)) with ((k + 1) + (Z.to_nat (maxiter c) - (k + 1)))%nat by lia.
  rewrite (loop_follows n A c Rf 0.3 0.25 (fe_upd n A c) (cflinit c) (k + 1) run rs cf its) by (auto; try lia; intros; split; auto; apply H; lia).
  rewrite loop_stops by (rewrite Nat.add_1_r; cbn; auto). cbn [mon_at m_step]. destruct (Z.eqb_spec (Z.of_nat (k + 1)) (maxiter c)); [lia|]. eexists. split; [reflexivity|]. auto.
Qed.
Print Assumptions C72_forward_converges.

(** When the permitted number of steps is reached the solver throws, no matter how small the
    residual of the last evaluation was. *)
Theorem C72_forward_last_step : forall n A c Rf N run rs cf its conv0,
  steps n A c Rf 0.3 0.25 (fe_upd n A c) (cflinit c) N run rs cf its -> finite_upto N rs ->
  Z.of_nat N = maxiter c -> (0 < N)%nat -> tol c < 1 -> norm_at n A rs 0 <> 0 -> (forall j, (j + 1 < N)%nat -> tol c < rel_at n A rs j) ->
  fe_solve n A c Rf (run 0%nat) conv0 = Some (SThrow Tolerance_error).
Proof.
  intros n A c Rf N run rs cf its conv0 T F M HN T1 Z H. unfold fe_solve. destruct (Z.leb_spec (maxiter c) 0); [lia|]. cbv zeta.
  replace (Z.to_nat (maxiter c)) with (N + 0)%nat by lia.
  rewrite (loop_follows n A c Rf 0.3 0.25 (fe_upd n A c) (cflinit c) N run rs cf its) by (auto; lia).
  cbn [steady_loop mon_at m_step]. destruct (Z.eqb_spec (Z.of_nat N) (maxiter c)); [reflexivity|contradiction].
Qed.
Print Assumptions C72_forward_last_step.

Theorem C72_backward_converges : forall n A c Rf glob Jf ksp relax k run rs cf its conv0,
  steps n A c Rf 0.25 0.3 (be_upd n A glob Jf ksp relax) 0 (k + 1) run rs cf its -> finite_upto (k + 1) rs ->
  (Z.of_nat (k + 1) < maxiter c)%Z -> tol c < 1 -> norm_at n A rs 0 <> 0 -> (forall j, (j < k)%nat -> tol c < rel_at n A rs j) -> rel_at n A rs k <= tol c ->
  exists s, be_solve n A c Rf glob Jf ksp relax (run 0%nat) conv0 = Some (SReturn s true) /\ m_u s = run (k + 1)%nat /\ m_step s = (k + 1)%nat.
Proof.
  intros n A c Rf glob Jf ksp relax k run rs cf its conv0 T F M T1 Z H L. unfold be_solve. destruct (Z.leb_spec (maxiter c) 0); [lia|]. cbv zeta.
  replace (Z.to_nat (maxiter c)) with ((k + 1) + (Z.to_nat (maxiter c) - (k + 1)))%nat by lia.
  rewrite (loop_follows n A c Rf 0.25 0.3 (be_upd n A glob Jf ksp relax) 0 (k + 1) run rs cf its) by (auto; try lia; intros; split; auto; apply H; lia).
  rewrite loop_stops by (rewrite Nat.add_1_r; cbn; auto). rewrite (proj2 (rel_le_at n A c 0 run rs cf its k Z) L). change (m_step (mon_at n A 0 run rs cf its (k + 1))) with (k + 1)%nat.
  destruct (Nat.eqb_spec (k + 1) 0); [lia|]. destruct (Z.ltb_spec (Z.of_nat (k + 1)) (maxiter c)); [|lia]. cbn [andb]. eexists. split; [reflexivity|]. auto.
Qed.
Print Assumptions C72_backward_converges.

(** Started from an exact steady state, forward Euler reports convergence after one step, backward
    Euler throws Numerical_error ("blew up"). *)
Theorem C72_steady_start : forall n A c Rf glob Jf ksp relax run rs cf its run' cf' its' conv0, (1 < maxiter c)%Z -> tol c < 1 ->
  steps n A c Rf 0.3 0.25 (fe_upd n A c) (cflinit c) 1 run rs cf its -> finite_upto 1 rs -> norm_at n A rs 0 = 0 ->
  steps n A c Rf 0.25 0.3 (be_upd n A glob Jf ksp relax) 0 1 run' rs cf' its' ->
  (exists s, fe_solve n A c Rf (run 0%nat) conv0 = Some (SReturn s true) /\ m_step s = 1%nat) /\
  be_solve n A c Rf glob Jf ksp relax (run' 0%nat) conv0 = Some (SThrow Numerical_error).
Proof.
  intros n A c Rf glob Jf ksp relax run rs cf its run' cf' its' conv0 M T1 T F Z T'. unfold fe_solve, be_solve. destruct (Z.leb_spec (maxiter c) 0); [lia|]. cbv zeta.
  replace (Z.to_nat (maxiter c)) with (1 + (Z.to_nat (maxiter c) - 1))%nat by lia.
  rewrite (loop_follows n A c Rf 0.3 0.25 (fe_upd n A c) (cflinit c) 1 run rs cf its) by (auto; lia).
  rewrite (loop_follows n A c Rf 0.25 0.3 (be_upd n A glob Jf ksp relax) 0 1 run' rs cf' its') by (auto; lia).
  rewrite !loop_stops by (cbn; auto). cbn [mon_at m_step m_resi m_init norm_before Nat.eqb]. split.
  - destruct (Z.eqb_spec (Z.of_nat 1) (maxiter c)); [cbn in *; lia|]. eexists. split; reflexivity.
  - unfold rel_le. rewrite Z. destruct (Req_EM_T 0 0); [|contradiction]. rewrite andb_false_r. destruct (Z.leb_spec (maxiter c) (Z.of_nat 1)); [cbn in *; lia|reflexivity].
Qed.
Print Assumptions C72_steady_start.

(** With a tolerance of 1 or more neither solver makes a step: forward Euler reports convergence,
    backward Euler computes the average number of linear iterations per step from zero steps, which
    is undefined behaviour. With maxiter <= 0 both return without doing anything. *)
Theorem C72_no_steps : forall n A c Rf glob Jf ksp relax u conv0,
  ((0 < maxiter c)%Z -> 1 <= tol c ->
    (exists s, fe_solve n A c Rf u conv0 = Some (SReturn s true) /\ m_u s = u /\ m_step s = 0%nat) /\ be_solve n A c Rf glob Jf ksp relax u conv0 = None) /\
  ((maxiter c <= 0)%Z ->
    (exists s, fe_solve n A c Rf u conv0 = Some (SReturn s conv0) /\ m_u s = u) /\ exists s, be_solve n A c Rf glob Jf ksp relax u conv0 = Some (SReturn s conv0) /\ m_u s = u).
Proof.
  intros n A c Rf glob Jf ksp relax u conv0. unfold fe_solve, be_solve. split.
  - intros M T. destruct (Z.leb_spec (maxiter c) 0); [lia|]. cbv zeta. set (z := mkrout (mkarr 0 (fun _ => szero)) (mkarr 0 (fun _ => 0)) true).
    rewrite <- (start_at n A (cflinit c) u (fun _ => u) (fun _ => z) (fun _ => 0) (fun _ => 0%nat) eq_refl).
    rewrite <- (start_at n A 0 u (fun _ => u) (fun _ => z) (fun _ => 0) (fun _ => 0%nat) eq_refl). rewrite !loop_stops by exact T.
    cbn [mon_at m_step]. split; [|reflexivity]. destruct (Z.eqb_spec (Z.of_nat 0) (maxiter c)); [cbn in *; lia|]. eexists. split; [reflexivity|]. auto.
  - intros M. destruct (Z.leb_spec (maxiter c) 0); [|lia]. split; eexists; split; reflexivity.
Qed.
Print Assumptions C72_no_steps.

(** An instance: one cell of area 1 whose residual is minus half its state; the state halves. *)
Definition halving (u : arr st) : option (exc rout) := Some (Val (mkrout (mkarr 1 (fun _ => sscal (-1/2) (aat u 0))) (mkarr 1 (fun _ => 1)) true)).
Fixpoint halves (k : nat) : arr st :=
  match k with
  | O => mkarr 1 (fun _ => mks 1 0 0 1)
  | Datatypes.S j => mkarr 1 (upd (aat (halves j)) 0 (sadd (aat (halves j) 0) (sscal (1 * 1 * 1 / 1) (sscal (-1/2) (aat (halves j) 0)))))
  end.
Definition one_cell : arr R := mkarr 1 (fun _ => 1).
Definition half_conf (N : Z) : sconf := mksconf 1 10 (1/3) N.
Definition half_rs (k : nat) : rout := mkrout (mkarr 1 (fun _ => sscal (-1/2) (aat (halves k) 0))) (mkarr 1 (fun _ => 1)) true.
Fixpoint ramp_seq (c : sconf) (a b cfl0 : R) (nb : nat -> R) (k : nat) : R :=
  expResidualRamp (cflinit c) (cflfin c) (match k with O => cfl0 | Datatypes.S j => ramp_seq c a b cfl0 nb j end) (nb (Nat.pred k) / nb k) a b.
Lemma ramp_seq_eq c a b cfl0 nb k : ramp_seq c a b cfl0 nb k = expResidualRamp (cflinit c) (cflfin c) (cfl_before cfl0 (ramp_seq c a b cfl0 nb) k) (nb (Nat.pred k) / nb k) a b.
Proof. destruct k; reflexivity. Qed.
Lemma halves_len k : alen (halves k) = 1%nat. Proof. destruct k; reflexivity. Qed.
Lemma halves_val k : s3 (aat (halves k) 0) = (1/2) ^ k.
Proof. induction k as [|k IH]; [reflexivity|]. cbn [halves aat]. rewrite upd_eq. cbn [sadd sscal s3]. rewrite IH. cbn [pow]. field. Qed.
Lemma half_norm k : norm_at 1 one_cell half_rs k = (1/2) ^ (k + 1).
Proof.
  unfold norm_at. cbn [seq rsum half_rs rt_r aat one_cell sscal s3]. rewrite halves_val. rewrite Nat.add_1_r. cbn [pow].
  assert (P : 0 <= 1/2 * (1/2) ^ k) by (apply Rmult_le_pos; [lra|apply pow_le; lra]).
  rewrite <- (sqrt_Rsqr (1/2 * (1/2) ^ k)) by auto. f_equal. unfold Rsqr. field.
Qed.
Lemma half_rel k : rel_at 1 one_cell half_rs k = (1/2) ^ k.
Proof. unfold rel_at. rewrite !half_norm. rewrite Nat.add_1_r. cbn [pow Nat.add]. field. Qed.
Lemma half_steps M N : exists cf its, steps 1 one_cell (half_conf M) halving 0.3 0.25 (fe_upd 1 one_cell (half_conf M)) 1 N halves half_rs cf its.
Proof.
  exists (ramp_seq (half_conf M) 0.3 0.25 1 (norm_before 1 one_cell half_rs)), (fun _ => 0%nat). constructor; intros k Hk.
  - reflexivity.
  - apply ramp_seq_eq.
  - destruct k as [|k]; [reflexivity|]. rewrite Nat.add_1_r. reflexivity.
Qed.
(** tolerance 1/3 is met by evaluation 2: with five permitted steps the solver converges in three,
    with three it throws *)
Example C72_ex : (exists s, fe_solve 1 one_cell (half_conf 5) halving (halves 0) false = Some (SReturn s true) /\ m_step s = 3%nat) /\
  fe_solve 1 one_cell (half_conf 3) halving (halves 0) false = Some (SThrow Tolerance_error) /\ rel_at 1 one_cell half_rs 2 <= tol (half_conf 3).
Proof.
  assert (Z : norm_at 1 one_cell half_rs 0 <> 0) by (rewrite half_norm; cbn; lra). split; [|split].
  - destruct (half_steps 5 3) as (cf & its & T). destruct (C72_forward_converges 1 one_cell (half_conf 5) halving 2 halves half_rs cf its false) as (s & E & _ & Es); eauto.
    + intros k Hk. reflexivity. + reflexivity. + cbn; lra. + intros j Hj. rewrite half_rel. cbn [tol half_conf]. destruct j as [|[|j]]; [cbn; lra|cbn; lra|lia]. + rewrite half_rel. cbn. lra.
  - destruct (half_steps 3 3) as (cf & its & T). apply (C72_forward_last_step 1 one_cell (half_conf 3) halving 3 halves half_rs cf its false); auto.
    + intros k Hk. reflexivity. + cbn; lra. + intros j Hj. rewrite half_rel. cbn [tol half_conf]. destruct j as [|[|j]]; [cbn; lra|cbn; lra|lia].
  - rewrite half_rel. cbn. lra.
Qed.

(** The tolerance is met by the residual before the last update; nothing is known about the residual
    of the state that is returned. *)
Definition jumpy (u : arr st) : option (exc rout) :=
  let x := s3 (aat u 0) in
  let f := if Req_EM_T x 0 then 1 else if Req_EM_T x 1 then 1/4 else 10 in
  Some (Val (mkrout (mkarr 1 (fun _ => mks 0 0 0 f)) (mkarr 1 (fun _ => 1)) true)).
Theorem C72_returned_state_refuted : exists n A c Rf u s ro0 ro, fe_solve n A c Rf u false = Some (SReturn s true) /\
  Rf u = Some (Val ro0) /\ Rf (m_u s) = Some (Val ro) /\ tol c * res_norm n A (rt_r ro0) < res_norm n A (rt_r ro).
Proof.
  set (c := mksconf 1 10 (1/2) 5). set (u := mkarr 1 (fun _ : nat => mks 0 0 0 0)).
  set (u1 := mkarr 1 (upd (aat u) 0 (sadd (aat u 0%nat) (sscal (1 * 1 * 1 / 1) (mks 0 0 0 1))))).
  set (u2 := mkarr 1 (upd (aat u1) 0 (sadd (aat u1 0%nat) (sscal (1 * 1 * 1 / 1) (mks 0 0 0 (1/4)))))).
  set (ro f := mkrout (mkarr 1 (fun _ : nat => mks 0 0 0 f)) (mkarr 1 (fun _ : nat => 1)) true).
  assert (E0 : jumpy u = Some (Val (ro 1))). { unfold jumpy. cbn. destruct (Req_EM_T 0 0); [reflexivity|lra]. }
  assert (V1 : s3 (aat u1 0) = 1) by (unfold u1; cbn [aat]; rewrite upd_eq; unfold u; cbn [aat sadd sscal s3]; field).
  assert (V2 : s3 (aat u2 0) = 5/4) by (unfold u2; cbn [aat]; rewrite upd_eq; cbn [sadd sscal s3]; rewrite V1; field).
  assert (E1 : jumpy u1 = Some (Val (ro (1/4)))). { unfold jumpy. rewrite V1. cbv zeta. destruct (Req_EM_T 1 0); [exfalso; lra|]. destruct (Req_EM_T 1 1); [reflexivity|congruence]. }
  assert (E2 : jumpy u2 = Some (Val (ro 10))). { unfold jumpy. rewrite V2. cbv zeta. destruct (Req_EM_T (5/4) 0); [exfalso; lra|]. destruct (Req_EM_T (5/4) 1); [exfalso; lra|reflexivity]. }
  set (run k := match k with O => u | 1%nat => u1 | _ => u2 end). set (rs k := match k with O => ro 1 | _ => ro (1/4) end).
  assert (NR : forall f, 0 <= f -> res_norm 1 one_cell (rt_r (ro f)) = f).
  { intros f Hf. unfold res_norm. cbn. rewrite Rmult_1_r, Rplus_0_r. apply sqrt_square; auto. }
  assert (N0 : norm_at 1 one_cell rs 0 = 1) by (rewrite <- norm_same; apply NR; lra).
  assert (N1 : norm_at 1 one_cell rs 1 = 1/4) by (rewrite <- norm_same; apply NR; lra).
  destruct (C72_forward_converges 1 one_cell c jumpy 1 run rs (ramp_seq c 0.3 0.25 1 (norm_before 1 one_cell rs)) (fun _ => 0%nat) false) as (s & E & Eu & _).
  - constructor; intros k Hk.
    + destruct k as [|[|k]]; [exact E0|exact E1|lia].
    + apply ramp_seq_eq.
    + destruct k as [|[|k]]; [reflexivity|reflexivity|lia].
  - intros k Hk. destruct k as [|k]; reflexivity.
  - reflexivity.
  - cbn. lra.
  - rewrite N0. lra.
  - intros j Hj. replace j with 0%nat by lia. unfold rel_at. rewrite N0. cbn. lra.
  - unfold rel_at. rewrite N0, N1. cbn. lra.
  - exists 1%nat, one_cell, c, jumpy, u, s, (ro 1), (ro 10). split; [exact E|]. split; [exact E0|]. split; [rewrite Eu; exact E2|]. rewrite !NR by lra. cbn. lra.
Qed.
Print Assumptions C72_returned_state_refuted.

(** ** C73 *)
Theorem C73_initial_cfl : forall n A c Rf N run rs cf its, steps n A c Rf 0.3 0.25 (fe_upd n A c) (cflinit c) N run rs cf its ->
  forall k i, (k < N)%nat -> (i < n)%nat -> (n <= alen A)%nat -> (n <= alen (run k))%nat -> (n <= alen (rt_dt (rs k)))%nat -> (n <= alen (rt_r (rs k)))%nat ->
  aat (run (k + 1)%nat) i = sadd (aat (run k) i) (sscal (cflinit c * aat (rt_dt (rs k)) i / aat A i) (aat (rt_r (rs k)) i)).
Proof.
  intros n A c Rf N run rs cf its T k i Hk Hi LA LU LD LR. pose proof (sp_upd T k Hk) as E. unfold fe_upd in E.
  destruct (fe_update_ok n A c (run k) (rs k)) as (u' & E' & _ & P & _); auto. rewrite E' in E. cbn [bind] in E. injection E as E _. rewrite <- E. apply P. auto.
Qed.
Print Assumptions C73_initial_cfl.

(** The final CFL number and the ramp have no influence on the solution: with another cflfin the
    solver goes through the same states. *)
Theorem C73_final_cfl_unused : forall n A c cflfin' Rf u conv0,
  let c' := mksconf (cflinit c) cflfin' (tol c) (maxiter c) in
  match fe_solve n A c Rf u conv0, fe_solve n A c' Rf u conv0 with
  | Some (SReturn s b), Some (SReturn s' b') => m_u s = m_u s' /\ m_step s = m_step s' /\ m_resi s = m_resi s' /\ b = b'
  | Some (SThrow e), Some (SThrow e') => e = e'
  | None, None => True
  | _, _ => False
  end.
Proof.
  intros n A c cf' Rf u conv0 c'. unfold fe_solve. cbn [maxiter cflinit c']. destruct (maxiter c <=? 0)%Z. { cbn. auto. }
  set (same := fun s s' => m_u s = m_u s' /\ m_step s = m_step s' /\ m_resi s = m_resi s' /\ m_old s = m_old s' /\ m_init s = m_init s').
  assert (G : forall f s s', same s s' ->
    match steady_loop c (steady_body n A c Rf 0.3 0.25 (fe_upd n A c)) f s, steady_loop c' (steady_body n A c' Rf 0.3 0.25 (fe_upd n A c')) f s' with
    | Some (SNext a), Some (SNext b) => same a b | Some (SErr e), Some (SErr e') => e = e' | None, None => True | _, _ => False end).
  { induction f as [|f IH]; intros s s' H. exact H. cbn [steady_loop]. destruct H as (H1 & H2 & H3 & H4 & H5).
    assert (EC : steady_cont c' s' = steady_cont c s) by (unfold steady_cont; rewrite H2, H3, H5; reflexivity). rewrite EC.
    destruct (steady_cont c s). 2: repeat split; auto.
    unfold steady_body. rewrite <- H1. destruct (Rf (m_u s)) as [[ro|]|]; auto. cbv zeta. unfold fe_upd, fe_update. cbn [cflinit c'].
    match goal with |- context [floop n ?b (m_u s)] => destruct (floop n b (m_u s)) as [u'|] end; cbn [bind]; auto. destruct (rt_fin ro); auto. apply IH. unfold same. cbn [m_u m_step m_resi m_old m_init]. rewrite H2, H3, H5. auto. }
  specialize (G (Z.to_nat (maxiter c)) (mkmon u 0 1 1 1 (cflinit c) 0 []) (mkmon u 0 1 1 1 (cflinit c) 0 []) ltac:(unfold same; auto)).
  destruct (steady_loop c _ _ _) as [[a|e]|]; destruct (steady_loop c' _ _ _) as [[b|e']|]; try contradiction; auto.
  destruct G as (G1 & G2 & G3 & _). rewrite <- G2. destruct (Z.of_nat (m_step a) =? maxiter c)%Z; auto.
Qed.
Print Assumptions C73_final_cfl_unused.

(** The reported CFL numbers are others: in the instance the second one is larger than the one used. *)
Theorem C73_reported_refuted : exists n A c Rf N run rs cf its k, steps n A c Rf 0.3 0.25 (fe_upd n A c) (cflinit c) N run rs cf its /\
  (k < N)%nat /\ cf k <> cflinit c /\ (forall k i, (k < N)%nat -> (i < n)%nat ->
    aat (run (k + 1)%nat) i = sadd (aat (run k) i) (sscal (cflinit c * aat (rt_dt (rs k)) i / aat A i) (aat (rt_r (rs k)) i))).
Proof.
  destruct (half_steps 5 3) as (cf & its & T). exists 1%nat, one_cell, (half_conf 5), halving, 3%nat, halves, half_rs, cf, its, 1%nat. split; [exact T|]. split; [lia|]. split.
  - destruct (C71_second_step 1 one_cell (half_conf 5) halving (fe_upd 1 one_cell (half_conf 5)) 3 halves half_rs cf its) as (_ & (_ & H)); auto; [cbn; lra|rewrite half_norm; cbn; lra|].
    rewrite half_norm in H. cbn [Nat.add pow] in H. specialize (H ltac:(lra)). lra.
  - intros k i Hk Hi. apply (C73_initial_cfl 1 one_cell (half_conf 5) halving 3 halves half_rs cf its); auto. rewrite halves_len. lia.
Qed.
Print Assumptions C73_reported_refuted.
