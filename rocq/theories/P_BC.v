(** Properties C46-C49 and C78, C85: boundary conditions. *)
From Coq Require Import Reals Lra Psatz List String ZArith Bool.
From Verif Require Import BaseR M_Gas M_BC M_BCConf S_Gas S_Deriv Pf_Flux Pf_FluxUp Pf_Deriv Pf_Gas Pf_Slip Pf_BC Pf_BCConf P_Flux P_Gas.
Import ListNotations.
Open Scope R_scope.

(** C46. The conditions with a Jacobian, and where the ghost state is a smooth function. *)
Definition smooth_at (ga : R) (b : flowbc) (u : st) (n : v2) : Prop :=
  match b with
  | BSlip | BFar _ | BExtrap | BAdia _ => True
  | BInOut _ => normal_velocity u n <> 0 /\ normal_velocity u n <> sound ga u
  | BInflow _ _ | BIso _ _ => False
  end.
(** The far-field state handed to the inflow/outflow condition has the free-stream pressure. *)
Definition far_ok (G : gas) (b : flowbc) : Prop :=
  match b with
  | BInOut uinf => 0 < s0 uinf /\ pressure (gam G) uinf = / (gam G * (Minf G)^2)
  | _ => True
  end.

Theorem C46_bc_jacobian : forall (G : gas) (b : flowbc) (u : st) (n : v2),
  1 < gam G -> Minf G <> 0 -> physical (gam G) u -> far_ok G b -> smooth_at (gam G) b u n ->
  exists r, ghost_jac G b u n = Some r /\ g_s r = ghost_state G b u n /\
            jac_is (fun x => ghost_state G b x n) u (g_d r).
Proof.
  intros G b u n Hg HM Hp Hf Hs. pose proof Hp as [Hr _].
  destruct b; cbn [smooth_at far_ok ghost_jac ghost_state] in *; try tauto; eexists; (split; [reflexivity|]).
  - split; [symmetry; apply slip_same|apply slip_d; auto].
  - split; [reflexivity|exact (const_d uinf u)].
  - destruct Hf as [F1 F2]. apply inout_d; auto; try tauto; try lra.
    rewrite F2. unfold getFreestreamPressure. field. split; [auto|lra].
  - split; [reflexivity|exact (id_d u)].
  - split; [reflexivity|exact (adia2_d tv u n)].
Qed.
Print Assumptions C46_bc_jacobian.

(** The state the solver passes as far field satisfies the hypothesis. *)
Theorem C46_freestream_ok : forall (G : gas) (aoa : R), 1 < gam G -> 0 < Minf G ->
  far_ok G (BInOut (compute_freestream_state G aoa)).
Proof.
  intros G aoa Hg HM. destruct (C27_freestream G aoa Hg HM) as (A & _ & _ & _ & C & _). cbn [far_ok].
  split; [rewrite A; lra|exact C].
Qed.
Print Assumptions C46_freestream_ok.

Example C46_ex : exists r, ghost_jac air (BInOut (compute_freestream_state air 0)) uA nA = Some r /\
  jac_is (fun x => ghost_state air (BInOut (compute_freestream_state air 0)) x nA) uA (g_d r).
Proof.
  destruct (C46_bc_jacobian air (BInOut (compute_freestream_state air 0)) uA nA) as (r & A & _ & B).
  - cbn; lra.
  - cbn; lra.
  - apply ex_physical.
  - apply C46_freestream_ok; cbn; lra.
  - cbn [smooth_at]. assert (N : normal_velocity uA nA = 1/2) by (unfold normal_velocity; cbn; lra). rewrite N.
    assert (1 < sound (gam air) uA).
    { apply Rle_lt_trans with (sqrt 1); [rewrite sqrt_1; lra|]. apply sqrt_lt_1; unfold pressure; cbn; lra. }
    split; lra.
  - exists r. auto.
Qed.

(** The isothermal wall's Jacobian is wrong at every state, and its ghost state differs from the one
    used in the residual unless the interior already has the wall temperature. *)
Theorem C46_isothermal_wrong : forall (G : gas) (tv tw : R) (u : st) (n : v2),
  1 < gam G -> 0 < s0 u -> Minf G <> 0 ->
  exists r, ghost_jac G (BIso tv tw) u n = Some r /\
    ~ jac_is (fun x => ghost_state G (BIso tv tw) x n) u (g_d r) /\
    s3 (ghost_state G (BIso tv tw) u n) - s3 (g_s r) =
      s0 u * (tw - temperature (gam G) (Minf G) u) / (gam G * (gam G - 1) * (Minf G)^2).
Proof.
  intros G tv tw u n Hg Hr HM. eexists. split; [reflexivity|]. split; [apply iso_jac_wrong; auto|apply iso_mismatch; auto].
Qed.
Print Assumptions C46_isothermal_wrong.
(** By how much: its rows of density and momentum are those of the derivative J of the ghost state in the residual; its energy row is not. *)
Theorem C46_isothermal_error : forall (G : gas) (tv tw : R) (u : st) (n : v2), 1 < gam G -> 0 < s0 u -> Minf G <> 0 ->
  exists r J, ghost_jac G (BIso tv tw) u n = Some r /\ jac_is (fun x => ghost_state G (BIso tv tw) x n) u J /\
    let K := g_d r in let gx := 2 * tv * s0 u * vy n - s1 u in let gy := - 2 * tv * s0 u * vx n - s2 u in
    r0 K = r0 J /\ r1 K = r1 J /\ r2 K = r2 J /\
    s0 (r3 J) - s0 (r3 K) = tw / (gam G * (gam G - 1) * (Minf G)^2) + 2 * tv^2 * ((vx n)^2 + (vy n)^2) - ((s1 u)^2 + (s2 u)^2) / (s0 u)^2 + (gx^2 + gy^2) / (2 * (s0 u)^2) /\
    s1 (r3 J) - s1 (r3 K) = (s1 u - gx / 2) / s0 u /\ s2 (r3 J) - s2 (r3 K) = (s2 u - gy / 2) / s0 u /\ s3 (r3 J) - s3 (r3 K) = -1.
Proof. intros G tv tw u n Hg Hr HM. destruct (iso_error G tv tw u n Hg Hr HM) as (J & A & B). eexists. exists J. split; [reflexivity|]. split; [exact A|exact B]. Qed.
Print Assumptions C46_isothermal_error.

(** C47: inflow/outflow. *)
Theorem C47_inout : forall (G : gas) (uinf u : st) (n : v2), 1 < gam G -> Minf G <> 0 -> physical (gam G) u ->
  let w := normal_velocity u n in let c := sound (gam G) u in
  let gs := ghost_state G (BInOut uinf) u n in
  (w <= 0 -> gs = uinf) /\ (c <= w -> gs = u) /\
  (0 < w < c -> s0 gs = s0 u /\ s1 gs = s1 u /\ s2 gs = s2 u /\ pressure (gam G) gs = / (gam G * (Minf G)^2)).
Proof.
  intros G uinf u n Hg HM Hp w c gs. destruct (inout_gs_spec G uinf u n Hg Hp) as (A & B & C). pose proof Hp as [Hr _].
  split; [exact A|split; [exact C|]]. intros H. unfold gs; cbn [ghost_state]. rewrite B by exact H.
  repeat split. rewrite subsonic_pressure by lra. unfold getFreestreamPressure. field. split; [auto|lra].
Qed.
Print Assumptions C47_inout.

(** Residual and Jacobian disagree exactly when the normal Mach number is one
    (unless the interior pressure is the free-stream pressure). *)
Theorem C47_switch_mismatch : forall (G : gas) (uinf u : st) (n : v2),
  1 < gam G -> Minf G <> 0 -> physical (gam G) u -> 0 < s0 uinf ->
  pressure (gam G) uinf = / (gam G * (Minf G)^2) ->
  exists r, ghost_jac G (BInOut uinf) u n = Some r /\
   (g_s r = ghost_state G (BInOut uinf) u n <->
    normal_velocity u n <> sound (gam G) u \/ pressure (gam G) u = / (gam G * (Minf G)^2)).
Proof.
  intros G uinf u n Hg HM Hp Hf HP. eexists. split; [reflexivity|]. cbn [ghost_state]. pose proof Hp as [Hr _].
  pose proof (sound_pos _ _ Hg Hp) as Hc.
  assert (HP' : pressure (gam G) uinf = getFreestreamPressure G) by (rewrite HP; unfold getFreestreamPressure; field; split; [auto|lra]).
  destruct (inout_gs_spec G uinf u n Hg Hp) as (A1 & A2 & A3). destruct (inout_jac_spec G uinf u n Hg Hp) as (B1 & B2 & B3). cbv zeta in B2.
  rewrite pressure_code, HP' in B2 by lra.
  destruct (Rle_lt_dec (normal_velocity u n) 0) as [K|K].
  - rewrite A1, B1 by auto. cbn [g_s]. split; [|reflexivity]. intros _. left. lra.
  - destruct (Rtotal_order (normal_velocity u n) (sound (gam G) u)) as [L|[L|L]].
    + rewrite A2, B2 by lra. cbn [g_s]. split; [|reflexivity]. intros _. left; lra.
    + rewrite A3, B2 by lra. cbn [g_s]. split.
      * intros E. right. rewrite <- E. rewrite subsonic_pressure by lra. rewrite <- HP, HP'. reflexivity.
      * intros [F|F]; [contradiction|]. unfold subsonic_ghost. apply st_eq; cbn [s0 s1 s2 s3]; auto.
        rewrite <- HP', HP, <- F. unfold pressure. field. lra.
    + rewrite A3, B3 by lra. cbn [g_s]. split; [|reflexivity]. intros _. left; lra.
Qed.
Print Assumptions C47_switch_mismatch.

(** a state moving along x at exactly its sound speed, away from the free-stream pressure *)
Example C47_ex : let u := mks 1 (7/5) 0 (7/5/(2/5) + 49/50) in
  physical (gam air) u /\ normal_velocity u nX = sound (gam air) u /\ pressure (gam air) u <> / (gam air * (Minf air)^2).
Proof.
  assert (P : pressure (gam air) (mks 1 (7/5) 0 (7/5/(2/5) + 49/50)) = 7/5) by (unfold pressure; cbn; lra).
  repeat split.
  - cbn; lra.
  - rewrite P; lra.
  - unfold sound. rewrite P. unfold normal_velocity; cbn. symmetry.
    replace (7 / 5 * (7 / 5) / 1) with ((7/5) * (7/5)) by field. rewrite sqrt_square; lra.
  - rewrite P. cbn. lra.
Qed.

(** C48: the general adiabatic wall always reads past the end of its two wall-velocity components. *)
Theorem C48_adiabaticwall_overrun : forall (w0 w1 : R) (u : st) (n : v2),
  adia_gs [w0; w1] u n = None /\ adia_jac [w0; w1] u n = None.
Proof. intros. split; reflexivity. Qed.
Print Assumptions C48_adiabaticwall_overrun.

(** What the total-condition inflow computes: the formulas would preserve an invariant R and the
    stagnation sound speed if R were v.n - 2c/(gamma-1) and the velocity R + 2c/(gamma-1) along n ... *)
Theorem C48_inflow_formula : forall (ga Rm co2 : R), 1 < ga -> Rm < 0 ->
  0 <= (ga + 1) * co2 / ((ga - 1) * Rm * Rm) - (ga - 1) / 2 ->
  let q := sqrt ((ga + 1) * co2 / ((ga - 1) * Rm * Rm) - (ga - 1) / 2) in
  let cg := - Rm * (ga - 1) / (ga + 1) * (1 + q) in
  let w := Rm + 2 * cg / (ga - 1) in
  0 < cg /\ cg^2 + (ga - 1) / 2 * w^2 = co2 /\ w - 2 * cg / (ga - 1) = Rm.
Proof.
  intros ga Rm co2 Hg HR HQ q cg w. destruct (inflow_algebra ga Rm co2 Hg HR HQ) as (A & B & _). cbv zeta in A, B.
  split; [exact A|split; [exact B|unfold w; ring]].
Qed.
Print Assumptions C48_inflow_formula.

(** ... but the code uses R = v.n - c/(2 gamma - 1) and the absolute value of that velocity along the
    outward normal: at an inlet the ghost velocity never points into the domain. *)
Theorem C48_inflow_outward : forall (G : gas) (pt ttl : R) (u : st) (n : v2),
  1 < gam G -> physical (gam G) u -> unit_vec n -> Minf G <> 0 -> 0 < pt -> 0 < ttl ->
  normal_velocity u n <= 0 ->
  let ga := gam G in let c := sound ga u in
  let Rm := normal_velocity u n - c / (2 * ga - 1) in
  let co2 := c^2 + (ga - 1) / 2 * (((s1 u)^2 + (s2 u)^2) / (s0 u)^2) in
  let D := (ga + 1) * co2 / ((ga - 1) * Rm * Rm) - (ga - 1) / 2 in
  0 <= D ->
  let cg := - Rm * (ga - 1) / (ga + 1) * (1 + sqrt D) in
  normal_velocity (ghost_state G (BInflow pt ttl) u n) n = Rabs (Rm + 2 * cg / (ga - 1)) /\
  0 <= normal_velocity (ghost_state G (BInflow pt ttl) u n) n.
Proof.
  intros G pt ttl u n Hg Hp Hn HM Hpt Htt Hw ga c Rm co2 D HD cg. cbn [ghost_state].
  assert (E := inflow_spec G pt ttl u n Hg Hp Hn HM Hpt Htt Hw HD). split; [exact E|]. rewrite E. apply Rabs_pos.
Qed.
Print Assumptions C48_inflow_outward.

(** Fluid at rest before an inlet (gamma = 7/5): the ghost state should be at rest too; the code
    returns one that leaves the domain at more than 1.9 times the speed of sound, whatever the total
    conditions. *)
Theorem C48_inflow_refuted : forall (G : gas) (pt ttl r E : R) (n : v2), gam G = 7/5 -> 0 < r -> 0 < E ->
  unit_vec n -> Minf G <> 0 -> 0 < pt -> 0 < ttl ->
  let u := mks r 0 0 E in
  physical (gam G) u /\
  19/10 * sound (gam G) u < normal_velocity (ghost_state G (BInflow pt ttl) u n) n.
Proof. exact inflow_rest. Qed.
Print Assumptions C48_inflow_refuted.

Example C48_ex : 19/10 * sound (gam air) (mks 1 0 0 2) < normal_velocity (ghost_state air (BInflow 1 1) (mks 1 0 0 2) nA) nA.
Proof. apply (C48_inflow_refuted air 1 1 1 2 nA); try apply ex_unit; cbn; lra. Qed.

Example C48_ex_outward : let u := mks 1 0 0 2 in let ga := gam air in let c := sound ga u in
  let Rm := normal_velocity u nA - c / (2 * ga - 1) in
  let co2 := c^2 + (ga - 1) / 2 * (((s1 u)^2 + (s2 u)^2) / (s0 u)^2) in
  physical ga u /\ normal_velocity u nA <= 0 /\ 0 <= (ga + 1) * co2 / ((ga - 1) * Rm * Rm) - (ga - 1) / 2.
Proof.
  intros u ga c Rm co2. assert (Hp : physical ga u) by (unfold physical, pressure; cbn; lra).
  assert (W : normal_velocity u nA = 0) by (unfold normal_velocity; cbn; lra).
  split; [exact Hp|]. split; [lra|]. assert (Hc : 0 < c) by (apply sound_pos; auto; cbn; lra).
  unfold Rm, co2. rewrite W. cbn [s0 s1 s2 u]. unfold ga. cbn [gam air]. clearbody c.
  replace ((7 / 5 + 1) * (c ^ 2 + (7 / 5 - 1) / 2 * ((0 ^ 2 + 0 ^ 2) / 1 ^ 2)) / ((7 / 5 - 1) * (0 - c / (2 * (7 / 5) - 1)) * (0 - c / (2 * (7 / 5) - 1))) - (7 / 5 - 1) / 2)
    with (481/25) by (field; lra). lra.
Qed.

(** C49: wall values on average. The wall moves with velocity tv along (ny, -nx). *)
Definition vel (u : st) : v2 := mkv (s1 u / s0 u) (s2 u / s0 u).
Definition mid (a b : v2) : v2 := mkv ((vx a + vx b) / 2) ((vy a + vy b) / 2).

Theorem C49_adiabatic : forall (G : gas) (tv : R) (u : st) (n : v2), 0 < s0 u ->
  let gs := ghost_state G (BAdia tv) u n in
  s0 gs = s0 u /\ mid (vel u) (vel gs) = mkv (tv * vy n) (- tv * vx n) /\
  (tv = 0 -> pressure (gam G) gs = pressure (gam G) u /\ temperature (gam G) (Minf G) gs = temperature (gam G) (Minf G) u).
Proof.
  intros G tv u n Hr gs. unfold gs; cbn [ghost_state]. unfold adia2_gs; cbn [s0 s1 s2 s3].
  split; [reflexivity|]. split.
  - unfold mid, vel; cbn [s0 s1 s2 vx vy]. f_equal; field; lra.
  - intros ->. assert (E : pressure (gam G) (mks (s0 u) (2 * (0 * s0 u) * vy n - s1 u) (- 2 * (0 * s0 u) * vx n - s2 u) (s3 u)) = pressure (gam G) u)
      by (unfold pressure; cbn [s0 s1 s2 s3]; field; lra).
    split; [exact E|]. unfold temperature. rewrite E. reflexivity.
Qed.
Print Assumptions C49_adiabatic.

(** With a moving wall the energy is copied but the speed is not, so the ghost gets another
    pressure. *)
Theorem C49_moving_wall : forall (G : gas) (tv : R) (u : st) (n : v2), 0 < s0 u -> unit_vec n ->
  let gs := ghost_state G (BAdia tv) u n in
  let vt := (s1 u * vy n - s2 u * vx n) / s0 u in
  pressure (gam G) gs - pressure (gam G) u = - (gam G - 1) * 2 * s0 u * tv * (tv - vt).
Proof.
  intros G tv u n Hr Hn gs vt. unfold gs, vt; cbn [ghost_state]. unfold adia2_gs, pressure; cbn [s0 s1 s2 s3]. unfold unit_vec in Hn.
  assert (K : vx n ^ 2 = 1 - vy n ^ 2) by lra. 
  field_simplify_eq; [|lra]. ring_simplify. rewrite K. ring.
Qed.
Print Assumptions C49_moving_wall.

Theorem C49_moving_wall_refuted : exists (G : gas) (tv : R) (u : st) (n : v2),
  1 < gam G /\ Minf G <> 0 /\ physical (gam G) u /\ unit_vec n /\
  temperature (gam G) (Minf G) (ghost_state G (BAdia tv) u n) <> temperature (gam G) (Minf G) u.
Proof.
  exists air, (1/2), (mks 1 0 0 2), nX. repeat split; try (unfold pressure; cbn; lra); try apply ex_unit.
  unfold temperature. cbn [ghost_state]. unfold adia2_gs, pressure; cbn. lra.
Qed.
Print Assumptions C49_moving_wall_refuted.

Theorem C49_isothermal : forall (G : gas) (tv tw : R) (u : st) (n : v2), 1 < gam G -> 0 < s0 u -> Minf G <> 0 ->
  let gs := ghost_state G (BIso tv tw) u n in
  mid (vel u) (vel gs) = mkv (tv * vy n) (- tv * vx n) /\
  (temperature (gam G) (Minf G) u + temperature (gam G) (Minf G) gs) / 2 = tw.
Proof.
  intros G tv tw u n Hg Hr HM gs. unfold gs; cbn [ghost_state]. rewrite iso_temperature by auto. split; [|field].
  unfold iso_gs, mid, vel; cbn [s0 s1 s2 vx vy]. f_equal; field; lra.
Qed.
Print Assumptions C49_isothermal.

Example C49_ex : 0 < s0 uA /\ unit_vec nA /\ Minf air <> 0. Proof. cbn; repeat split; try lra; apply ex_unit. Qed.

(** ** C78: names *)
Theorem C78_names : 
  (forall t : bctype, exists s, left_find bcTypeMap t = Some s /\ right_at bcTypeMap s = Some t) /\
  (forall s t, right_at bcTypeMap s = Some t -> left_find bcTypeMap t = Some s).
Proof. split; [exact name_of_type|exact type_of_name]. Qed.
Print Assumptions C78_names.

(** Any configuration containing a periodic boundary fails when the objects are created: the
    exception is thrown, unless an earlier entry already reads missing boundary values. *)
Theorem C78_periodic_fails : forall (uinf : st) (conf : list fbcconf),
  (exists c, In c conf /\ fb_type c = PERIODIC_BC) ->
  forall m, create_const_flowBCs uinf conf <> COk m.
Proof. intros uinf conf H m. apply create_periodic; auto. Qed.
Print Assumptions C78_periodic_fails.

Theorem C78_create : forall (uinf : st) (conf : list fbcconf),
  (forall c, In c conf -> fb_type c <> PERIODIC_BC /\ enough_vals c) ->
  exists m, create_const_flowBCs uinf conf = COk m /\
   forall k, match last_with k conf with
     | Some c => exists b, create_flowBC uinf (mkbcconf (fb_tag c) (fb_type c) (fb_vals c)) = BcOk b /\ mfind m k = Some b
     | None => mfind m k = None
     end.
Proof.
  intros uinf conf H. destruct (create_ok uinf conf [] H) as [m E]. exists m. split; [exact E|].
  intros k. pose proof (create_lookup uinf conf [] m E k). destruct (last_with k conf); auto.
Qed.
Print Assumptions C78_create.

Definition cfg1 : list fbcconf := [mkfbc 2 SLIP_WALL_BC [] []; mkfbc 4 INFLOW_OUTFLOW_BC [] []; mkfbc 2 ADIABATIC_WALL_BC [0] []].
Example C78_ex : (forall c, In c cfg1 -> fb_type c <> PERIODIC_BC /\ enough_vals c) /\
  exists m, create_const_flowBCs uA cfg1 = COk m /\ mfind m 2%Z = Some (BAdia 0) /\ mfind m 4%Z = Some (BInOut uA).
Proof.
  split.
  - intros c [<-|[<-|[<-|[]]]]; cbn; (split; [discriminate|auto with arith]).
  - eexists. split; [reflexivity|]. split; reflexivity.
Qed.
Example C78_ex_periodic : exists c, In c [mkfbc 2 SLIP_WALL_BC [] []; mkfbc 5 PERIODIC_BC [] [5%Z; 6%Z]] /\ fb_type c = PERIODIC_BC.
Proof. exists (mkfbc 5 PERIODIC_BC [] [5%Z; 6%Z]). split; [right; left; reflexivity|reflexivity]. Qed.

(** ** C85: the control file's boundary sections *)
Theorem C85_parse : forall (t : bctree),
  parse_BC_options t <> PFuel /\
  forall l, parse_BC_options t = POk l ->
    (forall k, (k < List.length l)%nat -> exists s, get_sec t k = Some s /\ parse_sec s = nth_error l k) /\
    get_sec t (List.length l) = None.
Proof.
  intros t. split; [apply parse_fuel|]. intros l H. exact (parse_some _ t 0 l H).
Qed.
Print Assumptions C85_parse.

(** Sections after a gap in the numbering are ignored without a message. *)
Theorem C85_gap_ignored : forall (t t' : bctree) (g : nat) (l : list fbcconf),
  (forall i, (i <= g)%nat -> get_sec t i = get_sec t' i) -> get_sec t g = None ->
  parse_BC_options t = POk l -> parse_BC_options t' = POk l.
Proof.
  intros t t' g l Hs Hg H.
  destruct (parse_some _ t 0 l H) as [A B]. cbn [Nat.add] in *.
  assert (Hlen : (List.length l <= g)%nat).
  { destruct (Nat.le_gt_cases (List.length l) g); auto. destruct (A g H0) as (s & E & _). congruence. }
  destruct (parse_BC_options t') as [l'| |] eqn:E'.
  - destruct (parse_some _ t' 0 l' E') as [A' B']. cbn [Nat.add] in *. f_equal.
    assert (L : List.length l' = List.length l).
    { destruct (Nat.lt_trichotomy (List.length l') (List.length l)) as [K|[K|K]]; auto.
      - destruct (A _ K) as (s & S1 & _). rewrite Hs in S1 by (apply Nat.lt_le_incl; eapply Nat.lt_le_trans; eauto). congruence.
      - destruct (A' _ K) as (s & S1 & _). rewrite <- Hs in S1 by auto. congruence. }
    apply nth_error_ext_local. intros k. destruct (Nat.lt_ge_cases k (List.length l)) as [K|K].
    + destruct (A k K) as (s & S1 & S2). rewrite <- L in K. destruct (A' k K) as (s' & S1' & S2').
      rewrite <- Hs in S1' by (rewrite L in K; apply Nat.lt_le_incl; eapply Nat.lt_le_trans; eauto). rewrite S1 in S1'. injection S1' as <-. congruence.
    + rewrite (proj2 (nth_error_None l k) K). apply nth_error_None. rewrite L. exact K.
  - exfalso. revert E'. unfold parse_BC_options. apply parse_no_throw with (k := List.length l); [rewrite <- Hs; auto|].
    intros i Hi. destruct (A i Hi) as (s & S1 & S2). exists s. rewrite <- Hs by (apply Nat.lt_le_incl; eapply Nat.lt_le_trans; eauto).
    split; [exact S1|]. rewrite S2. apply nth_error_Some. exact Hi.
  - exfalso. revert E'. apply parse_fuel.
Qed.
Print Assumptions C85_gap_ignored.

(** The parser does not check how many boundary values it read; too few are read out of range. *)
Theorem C85_short_values_refuted : exists (t : bctree) (l : list fbcconf) (uinf : st),
  parse_BC_options t = POk l /\ create_const_flowBCs uinf l = CUB.
Proof.
  exists [(0%nat, mkbcsec (Some "IsothermalWall"%string) (Some 3%Z) (Some [0]) None)].
  eexists. exists uA. split; [vm_compute; reflexivity|reflexivity].
Qed.
Print Assumptions C85_short_values_refuted.

Example C85_ex : 
  let s ty m := mkbcsec (Some ty) (Some m) None None in
  parse_BC_options [(0%nat, s "SlipWall"%string 2%Z); (2%nat, s "farfield"%string 4%Z)] = POk [mkfbc 2 SLIP_WALL_BC [] []].
Proof. vm_compute. reflexivity. Qed.
