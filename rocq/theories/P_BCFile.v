(** Property C97: what a boundary section of the control file makes the solver do. *)
From Coq Require Import Reals Lra Psatz List String Ascii ZArith Bool Lia.
From Verif Require Import BaseR M_Gas M_BC M_BCConf S_Gas S_Deriv Pf_Flux Pf_FluxUp Pf_Deriv Pf_Gas Pf_Slip Pf_BC Pf_BCConf P_Flux P_Gas P_BC.
Import ListNotations.
Open Scope R_scope.

(** ** Specification: the effect of a boundary type, by its name in the control file, on the state
    beyond the boundary. [vals] is the list of boundary values; the documented order
    (doc/example-control-file.ctrl 43-68) is total pressure, total temperature for the inlet, wall
    velocity for the adiabatic wall, wall velocity, wall temperature for the isothermal wall.
    Temperatures are in units of the free-stream temperature here. *)
Definition tangent (n : v2) : v2 := mkv (vy n) (- vx n).
Definition bc_means (G : gas) (uinf : st) (name : string) (vals : list R) (ghost : st -> v2 -> st) : Prop :=
  let p := pressure (gam G) in let T := temperature (gam G) (Minf G) in
  if String.eqb name "slipwall" then
    forall u n, physical (gam G) u -> unit_vec n ->
      s0 (ghost u n) = s0 u /\ p (ghost u n) = p u /\
      normal_velocity (ghost u n) n = - normal_velocity u n /\
      normal_velocity (ghost u n) (tangent n) = normal_velocity u (tangent n)
  else if String.eqb name "farfield" then forall u n, ghost u n = uinf
  else if String.eqb name "extrapolation" then forall u n, ghost u n = u
  else if String.eqb name "inflowoutflow" then
    forall u n, physical (gam G) u ->
      (normal_velocity u n <= 0 -> ghost u n = uinf) /\
      (sound (gam G) u <= normal_velocity u n -> ghost u n = u) /\
      (0 < normal_velocity u n < sound (gam G) u ->
         s0 (ghost u n) = s0 u /\ s1 (ghost u n) = s1 u /\ s2 (ghost u n) = s2 u /\
         p (ghost u n) = / (gam G * (Minf G)^2))
  else if String.eqb name "adiabaticwall" then
    exists v rest, vals = v :: rest /\
    forall u n, 0 < s0 u -> s0 (ghost u n) = s0 u /\ mid (vel u) (vel (ghost u n)) = vscal v (tangent n)
  else if String.eqb name "isothermalwall" then
    exists v tw rest, vals = v :: tw :: rest /\
    forall u n, 0 < s0 u ->
      mid (vel u) (vel (ghost u n)) = vscal v (tangent n) /\ (T u + T (ghost u n)) / 2 = tw
  else if String.eqb name "subsonic_inflow" then
    exists pt tt rest, vals = pt :: tt :: rest /\
    forall u n, 0 < pt -> 0 < tt -> physical (gam G) u -> unit_vec n -> normal_velocity u n <= 0 ->
      0 <= (gam G + 1) * inflow_co2 (gam G) u / ((gam G - 1) * inflow_R (gam G) u n * inflow_R (gam G) u n) - (gam G - 1) / 2 ->
      0 < T (ghost u n) /\ p (ghost u n) / pt = Rpower (T (ghost u n) / tt) (gam G / (gam G - 1))
  else False.

(** The names of the boundary types; a name in the file may use capital or small letters. *)
Definition type_names : list (bctype * string) :=
  [(SLIP_WALL_BC, "slipwall"%string); (ISOTHERMAL_WALL_BC, "isothermalwall"%string); (ADIABATIC_WALL_BC, "adiabaticwall"%string);
   (FARFIELD_BC, "farfield"%string); (INFLOW_OUTFLOW_BC, "inflowoutflow"%string); (SUBSONIC_INFLOW_BC, "subsonic_inflow"%string);
   (EXTRAPOLATION_BC, "extrapolation"%string); (PERIODIC_BC, "periodic"%string)].
Definition letters : list (ascii * ascii) :=
  combine (list_ascii_of_string "ABCDEFGHIJKLMNOPQRSTUVWXYZ") (list_ascii_of_string "abcdefghijklmnopqrstuvwxyz").
Definition reads_as (ty name : string) : Prop :=
  Forall2 (fun a b => a = b \/ In (a, b) letters) (list_ascii_of_string ty) (list_ascii_of_string name).

(** The section that decides for a marker: the last one with this marker among the sections
    numbered without a gap from 0. *)
Definition deciding_section (t : bctree) (tag : Z) (s : bcsec) : Prop :=
  exists k, get_sec t k = Some s /\ f_marker s = Some tag /\
    (forall i, (i <= k)%nat -> get_sec t i <> None) /\
    (forall j s', (k < j)%nat -> (forall i, (i <= j)%nat -> get_sec t i <> None) ->
       get_sec t j = Some s' -> f_marker s' <> Some tag).

(** ** Proofs *)
Lemma lower_char a : lower_ascii a = a \/ In (a, lower_ascii a) letters.
Proof. destruct a as [[|] [|] [|] [|] [|] [|] [|] [|]]; vm_compute; tauto. Qed.
Lemma lower_pair a b : In (a, b) letters -> lower_ascii a = b.
Proof. vm_compute. intros H. repeat destruct H as [H|H]; try (injection H as <- <-; reflexivity). destruct H. Qed.
Lemma lower_reads ty : reads_as ty (to_lower ty).
Proof.
  unfold reads_as. induction ty as [|a ty IH]; cbn [to_lower list_ascii_of_string]; constructor; auto.
  destruct (lower_char a) as [E|E]; [left; symmetry; exact E|right; exact E].
Qed.
Lemma reads_lower ty : forall name, reads_as ty name -> (forall a, In a (list_ascii_of_string name) -> lower_ascii a = a) -> to_lower ty = name.
Proof.
  unfold reads_as. induction ty as [|a ty IH]; intros [|b name] H L; cbn [list_ascii_of_string] in H; inversion H as [|x y p q H1 H2]; subst; [reflexivity|].
  cbn [to_lower]. f_equal; [|apply IH; auto; intros c Hc; apply L; right; exact Hc].
  destruct H1 as [->|H1]; [apply L; left; reflexivity|apply lower_pair; exact H1].
Qed.
Lemma names_lower t name : In (t, name) type_names -> forall a, In a (list_ascii_of_string name) -> lower_ascii a = a.
Proof.
  intros H. repeat destruct H as [H|H]; try (injection H as <- <-; intros a Ha; repeat destruct Ha as [<-|Ha]; try reflexivity; destruct Ha). destruct H.
Qed.
Lemma names_right name t : right_at bcTypeMap name = Some t <-> In (t, name) type_names.
Proof.
  split.
  - intros H. apply type_of_name in H. destruct t; vm_compute in H; injection H as <-; vm_compute; tauto.
  - intros H. repeat destruct H as [H|H]; try (injection H as <- <-; vm_compute; reflexivity). destruct H.
Qed.

(** Which type a section gets. *)
Theorem C97_names : forall (ty : string) (t : bctype),
  right_at bcTypeMap (to_lower ty) = Some t <-> exists name, In (t, name) type_names /\ reads_as ty name.
Proof.
  intros ty t. rewrite names_right. split.
  - intros H. exists (to_lower ty). split; [exact H|apply lower_reads].
  - intros (name & H & R). rewrite (reads_lower ty name R); [exact H|]. eapply names_lower; eauto.
Qed.
Print Assumptions C97_names.

Lemma inflow_isentropic G pt ttl u n : 1 < gam G -> physical (gam G) u -> unit_vec n -> Minf G <> 0 -> 0 < pt -> 0 < ttl ->
  normal_velocity u n <= 0 ->
  0 <= (gam G + 1) * inflow_co2 (gam G) u / ((gam G - 1) * inflow_R (gam G) u n * inflow_R (gam G) u n) - (gam G - 1) / 2 ->
  let gs := inflow_gs G pt ttl u n in
  0 < temperature (gam G) (Minf G) gs /\
  pressure (gam G) gs / pt = Rpower (temperature (gam G) (Minf G) gs / ttl) (gam G / (gam G - 1)).
Proof.
  intros Hg Hp Hn HM Hpt Htt Hw HQ gs. pose proof Hp as [Hr _]. set (ga := gam G) in *.
  pose proof (sound_pos _ _ Hg Hp) as Hc. fold ga in Hc.
  assert (HR : inflow_R ga u n < 0).
  { unfold inflow_R. assert (0 < sound ga u / (2 * ga - 1)) by (apply Rdiv_lt_0_compat; lra). lra. }
  pose proof (inflow_algebra ga (inflow_R ga u n) (inflow_co2 ga u) Hg HR HQ) as (Cg & _ & _). cbv zeta in Cg. fold (inflow_cg ga u n) in Cg.
  assert (Hco : 0 < inflow_co2 ga u).
  { unfold inflow_co2. assert (0 < sound ga u ^ 2) by (apply pow_lt; auto).
    assert (0 <= ((s1 u)^2 + (s2 u)^2) / (s0 u)^2). { apply Rmult_le_pos; [nra|]. left. apply Rinv_0_lt_compat. apply pow_lt; auto. }
    nra. }
  unfold gs, inflow_gs. cbv zeta. rewrite sound_code by lra. fold ga.
  replace (dot2 (mom u) n / s0 u - sound ga u / (2 * ga - 1)) with (inflow_R ga u n) by reflexivity.
  replace (sound ga u * sound ga u + (ga - 1) / 2 * dot2 (mom u) (mom u) / (s0 u * s0 u)) with (inflow_co2 ga u)
    by (unfold inflow_co2, dot2, mom; cbn [vx vy]; field; lra).
  fold (inflow_cg ga u n). set (cg := inflow_cg ga u n) in *. clearbody cg.
  set (v := sqrt _). clearbody v.
  set (tg := ttl * cg * cg / inflow_co2 ga u). assert (Htg : 0 < tg) by (unfold tg; apply Rdiv_lt_0_compat; auto; repeat apply Rmult_lt_0_compat; auto).
  set (pg := pt * Rpower (tg / ttl) (ga / (ga - 1))). assert (Hpg : 0 < pg) by (unfold pg; apply Rmult_lt_0_compat; auto; unfold Rpower; apply exp_pos).
  unfold getDensityFromPressureTemperature. fold ga.
  assert (HM2 : 0 < Minf G * Minf G) by nra.
  set (rho := ga * Minf G * Minf G * pg / tg).
  assert (Hrho : 0 < rho) .
  { unfold rho; apply Rdiv_lt_0_compat; auto. apply Rmult_lt_0_compat; auto. rewrite Rmult_assoc. apply Rmult_lt_0_compat; lra. }
  assert (P : pressure ga (mks rho (rho * vx (mkv (v * 1 * vx n) (v * 1 * vy n))) (rho * vy (mkv (v * 1 * vx n) (v * 1 * vy n)))
     (getEnergyFromPressure G pg rho (v * v))) = pg).
  { unfold pressure, getEnergyFromPressure; cbn [s0 s1 s2 s3 vx vy]. fold ga. unfold unit_vec in Hn.
    replace ((rho * (v * 1 * vx n))^2 + (rho * (v * 1 * vy n))^2) with (rho * rho * v * v * (vx n ^ 2 + vy n ^ 2)) by ring.
    rewrite Hn. field. lra. }
  assert (T : temperature ga (Minf G) (mks rho (rho * vx (mkv (v * 1 * vx n) (v * 1 * vy n))) (rho * vy (mkv (v * 1 * vx n) (v * 1 * vy n)))
     (getEnergyFromPressure G pg rho (v * v))) = tg).
  { unfold temperature. rewrite P. cbn [s0]. unfold rho. field. repeat split; lra. }
  rewrite P, T. split; [exact Htg|]. unfold pg. field. lra.
Qed.

Lemma slip_means G u n : physical (gam G) u -> unit_vec n ->
  let gs := slip_gs u n in
  s0 gs = s0 u /\ pressure (gam G) gs = pressure (gam G) u /\
  normal_velocity gs n = - normal_velocity u n /\ normal_velocity gs (tangent n) = normal_velocity u (tangent n).
Proof.
  intros [Hr _] Hn gs. unfold unit_vec in Hn. unfold gs, slip_gs, pressure, normal_velocity, tangent, dot2, mom; cbv zeta; cbn [s0 s1 s2 s3 vx vy].
  assert (K : vx n ^ 2 = 1 - vy n ^ 2) by lra.
  split; [reflexivity|]. split; [|split].
  - set (w := (s1 u * vx n + s2 u * vy n) / s0 u).
    assert (W : s1 u * vx n + s2 u * vy n = w * s0 u) by (unfold w; field; lra).
    replace ((s1 u - 2 * w * vx n * s0 u) ^ 2 + (s2 u - 2 * w * vy n * s0 u) ^ 2)
      with (s1 u ^ 2 + s2 u ^ 2 - 4 * w * s0 u * (s1 u * vx n + s2 u * vy n) + 4 * w * w * s0 u * s0 u * (vx n ^ 2 + vy n ^ 2)) by ring.
    rewrite W, Hn. f_equal. f_equal. f_equal. ring.
  - field_simplify_eq; [|lra]. ring_simplify. replace (vx n ^ 3) with ((vx n ^2)*(vx n)) by ring. rewrite !K. ring.
  - field. lra.
Qed.

Lemma created_means G uinf c b name : 1 < gam G -> Minf G <> 0 ->
  right_at bcTypeMap name = Some (fb_type c) ->
  create_flowBC uinf (mkbcconf (fb_tag c) (fb_type c) (fb_vals c)) = BcOk b ->
  bc_means G uinf name (fb_vals c) (ghost_state G b).
Proof.
  intros Hg HM N C. apply type_of_name in N. unfold create_flowBC in C; cbn [bc_type bc_vals] in C.
  destruct (fb_type c); vm_compute in N; injection N as <-; unfold bc_means; cbv zeta; cbn [String.eqb Ascii.eqb Bool.eqb].
  - injection C as <-. intros u n Hp Hn. exact (slip_means G u n Hp Hn).
  - injection C as <-. reflexivity.
  - injection C as <-. intros u n Hp. exact (C47_inout G uinf u n Hg HM Hp).
  - destruct (fb_vals c) as [|pt [|ttl rest]]; try discriminate. injection C as <-. exists pt, ttl, rest. split; [reflexivity|].
    intros u n Hpt Htt Hp Hn Hw HQ. exact (inflow_isentropic G pt ttl u n Hg Hp Hn HM Hpt Htt Hw HQ).
  - injection C as <-. reflexivity.
  - discriminate.
  - destruct (fb_vals c) as [|tv [|tw rest]]; try discriminate. injection C as <-. exists tv, tw, rest. split; [reflexivity|].
    intros u n Hr. destruct (C49_isothermal G tv tw u n Hg Hr HM) as [A B]. split; [|exact B]. rewrite A.
    unfold vscal, tangent; cbn [vx vy]. f_equal; ring.
  - destruct (fb_vals c) as [|tv rest]; try discriminate. injection C as <-. exists tv, rest. split; [reflexivity|].
    intros u n Hr. destruct (C49_adiabatic G tv u n Hr) as (A & B & _). split; [exact A|]. rewrite B.
    unfold vscal, tangent; cbn [vx vy]. f_equal; ring.
Qed.

Lemma last_with_nth k (l : list fbcconf) c : last_with k l = Some c ->
  exists i, nth_error l i = Some c /\ fb_tag c = k /\ forall j d, (i < j)%nat -> nth_error l j = Some d -> fb_tag d <> k.
Proof.
  unfold last_with. revert c. induction l as [|x l IH] using rev_ind; intros c H; [discriminate|].
  rewrite rev_app_distr in H. cbn [rev app find] in H. destruct (Z.eqb_spec (fb_tag x) k) as [E|E].
  - injection H as <-. exists (List.length l). rewrite nth_error_app2, Nat.sub_diag by lia. split; [reflexivity|]. split; [exact E|].
    intros j d Hj Hn. assert (Q : nth_error (l ++ [x]) j <> None) by congruence. apply nth_error_Some in Q. rewrite app_length in Q; cbn in Q. lia.
  - destruct (IH c H) as (i & A & B & D). exists i. assert (Q : nth_error l i <> None) by congruence. apply nth_error_Some in Q.
    rewrite nth_error_app1 by auto. split; [exact A|]. split; [exact B|]. intros j d Hj Hn.
    destruct (Nat.lt_ge_cases j (List.length l)) as [L|L].
    + rewrite nth_error_app1 in Hn by auto. eauto.
    + rewrite nth_error_app2 in Hn by auto. destruct (j - List.length l)%nat as [|q] eqn:Ej; cbn in Hn; [|destruct q; discriminate].
      injection Hn as <-. exact E.
Qed.

Lemma parse_sec_inv s c : parse_sec s = Some c ->
  exists ty, f_type s = Some ty /\ right_at bcTypeMap (to_lower ty) = Some (fb_type c) /\ f_marker s = Some (fb_tag c) /\
    (f_values s = Some (fb_vals c) \/ fb_vals c = []).
Proof.
  unfold parse_sec. destruct (f_type s) as [ty|]; [|discriminate]. destruct (right_at bcTypeMap (to_lower ty)) as [t|] eqn:N; [|discriminate].
  destruct (f_marker s) as [tag|]; [|discriminate]. intros H. exists ty. split; [reflexivity|].
  destruct t; cbn in H; try (injection H as <-; cbn; repeat split; auto; fail).
  all: try (destruct (f_values s) as [v|]; [|discriminate]; injection H as <-; cbn; repeat split; auto; fail).
  destruct (f_options s); [|discriminate]. injection H as <-. cbn. repeat split; auto.
Qed.

(** A control file that is accepted: every boundary object acts as its deciding section says; a
    marker has an object exactly when it has a section. *)
Theorem C97_boundary_sections : forall (G : gas) (uinf : st) (t : bctree) (l : list fbcconf) (m : list (Z * flowbc)) (tag : Z),
  1 < gam G -> Minf G <> 0 -> parse_BC_options t = POk l -> create_const_flowBCs uinf l = COk m ->
  (forall b, mfind m tag = Some b ->
    exists s ty name vals, deciding_section t tag s /\ f_type s = Some ty /\ reads_as ty name /\
      (f_values s = Some vals \/ vals = []) /\
      bc_means G uinf name vals (ghost_state G b)) /\
  (forall s, deciding_section t tag s -> mfind m tag <> None).
Proof.
  intros G uinf t l m tag Hg HM HP HC.
  destruct (parse_some _ t 0 l HP) as [A B]. cbn [Nat.add] in A, B.
  pose proof (create_lookup uinf l [] m HC tag) as L. cbn [mfind] in L.
  assert (IN : forall j, (forall i, (i <= j)%nat -> get_sec t i <> None) -> (j < List.length l)%nat).
  { intros j H. destruct (Nat.lt_ge_cases j (List.length l)) as [Q|Q]; [exact Q|]. exfalso. exact (H _ Q B). }
  destruct (last_with tag l) as [c|] eqn:E.
  - destruct L as (b0 & C & F). split; [|intros s _ K; congruence]. intros b Hb. rewrite Hb in F. injection F as ->.
    destruct (last_with_nth _ _ _ E) as (i & N & T & U).
    assert (Li : (i < List.length l)%nat) by (apply nth_error_Some; congruence).
    destruct (A i Li) as (s & S1 & S2). rewrite N in S2. destruct (parse_sec_inv s c S2) as (ty & F1 & F2 & F3 & F4).
    exists s, ty, (to_lower ty), (fb_vals c). split; [|split; [exact F1|split; [apply lower_reads|split]]].
    + exists i. split; [exact S1|]. split; [congruence|]. split.
      * intros q Hq. assert (Lq : (q < List.length l)%nat) by lia. destruct (A q Lq) as (x & X & _). congruence.
      * intros j s' Hj Hall Hs Hm. assert (Lj := IN j Hall). destruct (A j Lj) as (x & X1 & X2). rewrite Hs in X1. injection X1 as <-.
        destruct (nth_error l j) as [d|] eqn:Nd; [|apply nth_error_None in Nd; lia].
        destruct (parse_sec_inv s' d X2) as (_ & _ & _ & M & _). rewrite Hm in M. injection M as M. exact (U j d Hj Nd (eq_sym M)).
    + exact F4.
    + eapply created_means; eauto.
  - split; [intros b Hb; congruence|]. intros s (k & K1 & K2 & K3 & _) _.
    assert (Lk := IN k K3). destruct (A k Lk) as (x & X1 & X2). rewrite K1 in X1. injection X1 as <-.
    destruct (nth_error l k) as [d|] eqn:Nd; [|apply nth_error_None in Nd; lia].
    destruct (parse_sec_inv s d X2) as (_ & _ & _ & M & _). rewrite K2 in M. injection M as M.
    unfold last_with in E. assert (Q := find_none _ _ E d). cbv beta in Q. rewrite <- M, Z.eqb_refl in Q.
    assert (In d (rev l)) by (apply in_rev; rewrite rev_involutive; eapply nth_error_In; eauto). specialize (Q H). discriminate.
Qed.
Print Assumptions C97_boundary_sections.

(** The documentation gives the wall temperature in kelvin. The solver's temperature unit is the
    free-stream temperature [Tinf G] (C27: the free stream has temperature 1), and the value is used
    as it stands: a wall given as being at T kelvin is at T times the free-stream temperature. In
    particular a wall at exactly the free-stream temperature is not in thermal equilibrium with it. *)
Theorem C97_wall_temperature_unit : forall (G : gas) (aoa tv T : R) (n : v2), 1 < gam G -> 0 < Minf G -> 0 < Tinf G ->
  let uinf := compute_freestream_state G aoa in
  let gs := ghost_state G (BIso tv T) uinf n in
  let wall := (temperature (gam G) (Minf G) uinf + temperature (gam G) (Minf G) gs) / 2 in
  wall = T /\ (wall = T / Tinf G <-> T = 0 \/ Tinf G = 1) /\
  (T = Tinf G -> temperature (gam G) (Minf G) gs = 2 * Tinf G - 1).
Proof.
  intros G aoa tv T n Hg HM HT uinf gs wall. destruct (C27_freestream G aoa Hg HM) as (A & _ & _ & _ & _ & B & _).
  fold uinf in A, B.
  destruct (C49_isothermal G tv T uinf n Hg) as [_ W]; [rewrite A; lra|lra|]. fold gs in W. fold wall in W.
  split; [exact W|]. split.
  - rewrite W. split.
    + intros E. apply (Rmult_eq_compat_r (Tinf G)) in E. replace (T / Tinf G * Tinf G) with T in E by (field; lra).
      destruct (Req_dec T 0) as [Z|Z]; [left; exact Z|right]. apply (Rmult_eq_reg_l T); [lra|exact Z].
    + intros [->|E]; [unfold Rdiv; ring|rewrite E; field].
  - intros E. unfold wall in W. rewrite B in W. lra.
Qed.
Print Assumptions C97_wall_temperature_unit.

(** The same for the inlet: the ghost density is inversely proportional to the number given as total
    temperature and the ghost velocity does not depend on it, so that a total temperature in kelvin
    makes the density [Tinf G] times too small. *)
Theorem C97_inlet_temperature_unit : forall (G : gas) (pt T : R) (u : st) (n : v2) (s : R), 0 < s -> 0 < T ->
  let a := ghost_state G (BInflow pt T) u n in let b := ghost_state G (BInflow pt (s * T)) u n in
  s0 b = s0 a / s /\ (s0 a <> 0 -> vel b = vel a).
Proof.
  intros G pt T u n s Hs HT a b. unfold a, b; cbn [ghost_state]. unfold inflow_gs; cbv zeta; cbn [s0 s1 s2].
  set (co2 := getSoundSpeedFromConserved G u * getSoundSpeedFromConserved G u + _).
  set (cg := - _ * _ / _ * _). set (v := sqrt _).
  assert (E : forall r, 0 < r -> r * cg * cg / co2 / r = cg * cg / co2).
  { intros r Hr. unfold Rdiv. replace (r * cg * cg * / co2 * / r) with (r * / r * (cg * cg * / co2)) by ring. rewrite Rinv_r by lra. ring. }
  rewrite !E by nra. set (pg := pt * _). unfold getDensityFromPressureTemperature.
  assert (D : gam G * Minf G * Minf G * pg / (s * T * cg * cg / co2) = gam G * Minf G * Minf G * pg / (T * cg * cg / co2) / s).
  { unfold Rdiv. replace (s * T * cg * cg * / co2) with (s * (T * cg * cg * / co2)) by ring. rewrite Rinv_mult. ring. }
  split; [exact D|]. rewrite !D. set (r := _ / (T * cg * cg / co2)). clearbody r. intros H. unfold vel; cbn [s0 s1 s2 vx vy].
  f_equal; field; lra.
Qed.
Print Assumptions C97_inlet_temperature_unit.

(** A file with two sections for the same marker, the example values of the documentation. *)
Definition doc_tree : bctree :=
  [(0%nat, mkbcsec (Some "farfield"%string) (Some 4%Z) None None);
   (1%nat, mkbcsec (Some "SlipWall"%string) (Some 7%Z) None None);
   (2%nat, mkbcsec (Some "isothermalwall"%string) (Some 7%Z) (Some [10; 290]) None)].
Example C97_ex : exists l m, parse_BC_options doc_tree = POk l /\ create_const_flowBCs uA l = COk m /\
  mfind m 7%Z = Some (BIso 10 290) /\
  deciding_section doc_tree 7 (mkbcsec (Some "isothermalwall"%string) (Some 7%Z) (Some [10; 290]) None).
Proof.
  eexists. eexists. split; [vm_compute; reflexivity|]. split; [reflexivity|]. split; [reflexivity|].
  exists 2%nat. split; [reflexivity|]. split; [reflexivity|]. split.
  - intros [|[|[|i]]] Hi; try (cbn; discriminate). lia.
  - intros j s' Hj Hall. exfalso. apply (Hall 3%nat); [lia|reflexivity].
Qed.
Example C97_ex_air : 1 < gam air /\ 0 < Minf air /\ 0 < Tinf air /\ Tinf air <> 1. Proof. cbn; repeat split; lra. Qed.
