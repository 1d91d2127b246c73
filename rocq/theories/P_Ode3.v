(** Properties C72, C80, C88: further examples, and conservation refuted for local time steps. *)
From Coq Require Import Reals Lra Lia List Arith ZArith Bool Permutation.
From Verif Require Import Base BaseR BaseSum M_Gas M_Flux M_Visc M_BC M_BCConf M_Mesh M_Geom M_Space S_Space Pf_Space M_Resid S_Gas S_Mesh S_Geom S_Resid Pf_Resid Pf_Resid2
  Pf_Full Pf_Faces Pf_Geom Pf_Incid ChkMesh Pf_Gas P_Gas P_Flux P_Geom P_Grad P_Resid M_Ode S_Ode Pf_Ode Pf_Ode2 P_Ode P_Ode2.
Import ListNotations.
Open Scope R_scope.

(** ** A closed box: quadrilaterals of areas 1 and 2, slip walls all around, LLF flux *)
Definition bx : umesh := mkmesh 6 [[0;1;2;3]; [1;4;5;2]]%nat 4 [mkbf 0 1 [1%Z]; mkbf 1 4 [1%Z]; mkbf 4 5 [1%Z]; mkbf 5 2 [1%Z]; mkbf 2 3 [1%Z]; mkbf 3 0 [1%Z]] [].
Definition bxX : arr v2 := mkarr 6 (fun k => nth k [mkv 0 0; mkv 1 0; mkv 1 1; mkv 0 1; mkv 3 0; mkv 3 1] vzero).
Definition bxh : list (nat * nat) := [(0,0); (1,0); (1,1); (1,2); (0,2); (0,3)]%nat.
Definition bxg : nat -> v2 := fun _ => vzero.
Definition bxfl : flow := mkflow air LLF LLF false true [(1%Z, BSlip)].
(** both cells at rest; sound speeds 1 and [a] *)
Definition bxu (a : R) : arr st := mkarr 2 (fun i => match i with O => mks 1 0 0 (1 / (7/5 * (2/5))) | _ => mks 4 0 0 (4 * a^2 / (7/5 * (2/5))) end).

Lemma bx_tiled : tiled bx bxh. Proof. apply tiledb_ok; vm_compute; reflexivity. Qed.
Lemma bx_built : exists S, built bx bxh bxX bxg S.
Proof.
  destruct (C86_setup_total bx bxh bxX bxg (fun _ _ => 0%Z) (fun _ => mkface 0 0 0 0) (fun _ _ => 0%nat) (fun _ => []) (fun _ => mkfm vzero 0) (fun _ => 0%R) (fun _ => vzero) (fun _ => vzero)) as (S & _ & B); eauto.
  exact bx_tiled. intros c [<-|[<-|[]]]; cbn; auto.
Qed.
Lemma bx_distinct : distinct_ends bx bxX.
Proof.
  intros i f Hi Hf. cbn in Hi. destruct i as [|[|i]]; try lia; cbn in Hf; destruct f as [|[|[|[|f]]]]; try lia; cbn; intros E; inversion E; lra.
Qed.

Lemma bx_shape S : built bx bxh bxX bxg S -> sm_ne S = 2%nat /\ sm_nb S = 6%nat /\ sm_nc S = 0%nat /\ (0 < sm_ni S)%nat /\ aat (sm_A S) 0%nat = 1 /\ aat (sm_A S) 1%nat = 2.
Proof.
  intros B. destruct (built_ok _ _ _ _ _ B) as (p & e & ni & s & il & TO & OK & E1 & E2 & E3 & E4 & E5 & E6 & IA & _).
  split; [exact E1|]. split; [exact E2|]. split; [exact E4|]. split.
  - rewrite E3. destruct ni; [|lia]. exfalso.
    pose proof (halves_perm bx bxh _ il bx_tiled (to_ranges _ _ _ _ _ _ _ TO)) as P. apply Permutation_length in P.
    assert (L : alen (intfac s) = 6%nat) by (rewrite (to_len _ _ _ _ _ _ _ TO); reflexivity).
    rewrite <- E5 in P, L. revert P. unfold alist. rewrite L. cbn [seq map flat_map]. cbv beta.
    unfold Pf_Incid.halves. rewrite !(so_phy _ OK) by (rewrite E2; cbn; lia). rewrite E1, E4. cbn. discriminate.
  - rewrite !IA by (cbn; lia). unfold polygon_area, cross; cbn; split; lra.
Qed.
Lemma bx_cover S : built bx bxh bxX bxg S -> exists bc, bcs_cover S bxfl bc /\ closed_box S bxfl bc.
Proof.
  intros B. destruct (bx_shape S B) as (E1 & E2 & E3 & _). destruct (cover_by_tag bx bxh bxX bxg S bxfl B) as (bc & C & Q).
  { intros bf Hb. cbn in Hb. destruct Hb as [<-|[<-|[<-|[<-|[<-|[<-|[]]]]]]]; do 3 eexists; split; reflexivity. }
  exists bc. split; auto. split; auto. split; [reflexivity|]. split; [|split; [cbn; lra|discriminate]].
  intros k Hk. rewrite E2 in Hk. destruct k as [|[|[|[|[|[|k]]]]]]; try lia;
  match goal with |- bc ?k = _ => destruct (nth_error (bfaces bx) k) as [bf|] eqn:En; cbn in En; inversion En; subst;
    specialize (Q k _ _ _ En eq_refl); cbn in Q; injection Q as <-; reflexivity end.
Qed.

Lemma bx_sound a : 0 < a -> physical (7/5) (aat (bxu a) 0) /\ physical (7/5) (aat (bxu a) 1) /\ sound (7/5) (aat (bxu a) 0) = 1 /\ sound (7/5) (aat (bxu a) 1) = a.
Proof.
  intros Ha. assert (0 < a * a) by (apply Rmult_lt_0_compat; auto). unfold physical, sound, pressure; cbn. split; [split; lra|]. split; [split; lra|]. split.
  - transitivity (sqrt 1); [f_equal; field|apply sqrt_1].
  - transitivity (sqrt (a * a)); [f_equal; field|apply sqrt_square; lra].
Qed.
Lemma bx_flux a n : 0 < a -> unit_vec n -> exists lam, 0 < lam /\ s0 (llf_flux air (aat (bxu a) 0) (aat (bxu a) 1) n) = - (3/2) * lam.
Proof.
  intros Ha U. exists (llf_eig air (aat (bxu a) 0) (aat (bxu a) 1) n). destruct (bx_sound a Ha) as (P0 & P1 & S0 & S1). split.
  - unfold llf_eig. cbv zeta.
    match goal with |- 0 < (if _ then Rabs ?x + ?c else Rabs ?y + ?d) => assert (Hc : 0 < c); [|assert (Hd : 0 < d)] end.
    all: try (unfold getSoundSpeed; cbn; apply sqrt_lt_R0; assert (0 < a * a) by (apply Rmult_lt_0_compat; auto)).
    3:{ match goal with |- 0 < (if _ then Rabs ?x + ?c else Rabs ?y + ?d) => pose proof (Rabs_pos x); pose proof (Rabs_pos y) end. destruct (Rltb _ _); lra. }
    { unfold dot2; cbn. match goal with |- 0 < ?x => replace x with 1 by field end. lra. }
    { unfold dot2; cbn. match goal with |- 0 < ?x => replace x with (a * a) by field end. auto. }
  - unfold llf_flux. cbv zeta. generalize (llf_eig air (aat (bxu a) 0) (aat (bxu a) 1) n). intros l. cbn. unfold dot2; cbn. field.
Qed.

Lemma rsum_pos : forall (l : list nat) (f : nat -> R) (k : nat), (forall j, In j l -> 0 <= f j) -> In k l -> 0 < f k -> 0 < rsum f l.
Proof.
  induction l as [|j l IH]; intros f k H HI HK; [destruct HI|]. cbn [rsum]. destruct HI as [->|HI].
  - assert (0 <= rsum f l) by (apply rsum_nonneg; intros; apply H; cbn; auto). lra.
  - assert (0 <= f j) by (apply H; cbn; auto). assert (0 < rsum f l) by (apply (IH f k); auto; intros; apply H; cbn; auto). lra.
Qed.
(** One forward Euler step of the box *)
Lemma bx_eval S bc a : built bx bxh bxX bxg S -> bcs_cover S bxfl bc -> closed_box S bxfl bc -> 0 < a -> forall ul0 ur0 G dt0,
  alen ul0 = sm_nf_all S -> alen ur0 = sm_nf_all S -> alen dt0 = 2%nat ->
  exists ro P0 P1, flow_eval S bxfl ul0 ur0 G dt0 (bxu a) = Some (Val ro) /\ alen (rt_r ro) = 2%nat /\ alen (rt_dt ro) = 2%nat /\
    0 < P0 /\ 0 < P1 /\ aat (rt_dt ro) 0%nat * P0 = 1 /\ aat (rt_dt ro) 1%nat * (a * P1) = 2 /\ 0 < s0 (aat (rt_r ro) 0%nat) /\
    (forall a' ro', 0 < a' -> flow_eval S bxfl ul0 ur0 G dt0 (bxu a') = Some (Val ro') -> aat (rt_dt ro') 0%nat * P0 = 1 /\ aat (rt_dt ro') 1%nat * (a' * P1) = 2).
Proof.
  intros B C CB Ha ul0 ur0 G dt0 L0 R0 LD. destruct (bx_shape S B) as (E1 & E2 & E3 & Hni & A0 & A1). pose proof (built_sm _ _ _ _ _ B) as OK.
  set (faces i := filter (fun k => (f_left (aat (sm_F S) k) =? i) || (f_right (aat (sm_F S) k) =? i))%nat%bool (all_faces S)).
  set (P i := rsum (fun k => fm_len (aat (sm_M S) k)) (faces i)).
  assert (HP : forall b, 0 < b -> forall i, (i < sm_ne S)%nat -> physical (gam (fl_gas bxfl)) (aat (bxu b) i)).
  { intros b Hb i Hi. rewrite E1 in Hi. destruct (bx_sound b Hb) as (Q0 & Q1 & _). destruct i as [|[|i]]; [exact Q0|exact Q1|lia]. }
  assert (EV : forall b, 0 < b -> exists res' dt', flow_eval S bxfl ul0 ur0 G dt0 (bxu b) = Some (Val (mkrout res' dt' true)) /\ alen res' = 2%nat /\ alen dt' = 2%nat /\
    (forall v i, (i < sm_ne S)%nat -> cget (aat res' i) v = 0 - outflow S (thru1 S bxfl bc (bxu b)) i v) /\
    aat dt' 0%nat * P 0%nat = 1 /\ aat dt' 1%nat * (b * P 1%nat) = 2).
  { intros b Hb. destruct (residual1_ok S bxfl bc (bxu b) ul0 ur0 (mkarr (sm_ne S) (fun _ => szero)) G (Some dt0) OK C ltac:(rewrite E1, E3; reflexivity) L0 R0 eq_refl) as (ul & ur & res' & Ll & Lr & V & E & L & Q).
    assert (HA : forall i, (i < sm_ne S)%nat -> 0 < aat (sm_A S) i) by (intros i Hi; rewrite E1 in Hi; destruct i as [|[|i]]; [rewrite A0|rewrite A1|]; lra || lia).
    destruct (C68_time_step _ _ _ _ _ B bx_distinct HA bxfl ul ur dt0) as (d2 & ED & LD2 & _); auto; try (cbn; lra).
    { discriminate. } { lia. }
    { intros k Hk. rewrite (proj1 (V k Hk)). apply HP; auto. apply (so_left _ OK); auto. }
    { intros k Hk. assert (Hk' : (k < sm_nf_all S)%nat) by (unfold sm_nf_all; lia). rewrite (proj2 (V k Hk')). unfold right_value. destruct (Nat.ltb_spec k (sm_nb S)); [lia|]. apply HP; auto. apply (so_int _ OK); auto. }
    destruct (C68_first_order _ _ _ _ _ B bx_distinct HA bxfl bc (bxu b) ul0 ur0 (mkarr (sm_ne S) (fun _ => szero)) G dt0 C) as (out & dt' & EO & ET & D); auto; try (cbn; lra).
    { discriminate. } { rewrite E1, E3; reflexivity. } { lia. }
    cbn [maybe_dt] in E. rewrite ED in E. cbn [bind] in E. rewrite E in EO. injection EO as <-. cbn [ro_dt] in ET. injection ET as <-.
    exists res', d2. unfold flow_eval. rewrite E. cbn [ro_dt ro_res]. split; [reflexivity|]. split; [lia|]. split; [lia|]. split. { intros v i Hi. rewrite Q by auto. destruct v; reflexivity. }
    assert (W : forall i c, (i < 2)%nat -> sound (7/5) (aat (bxu b) i) = c -> s1 (aat (bxu b) i) = 0 -> s2 (aat (bxu b) i) = 0 ->
      rsum (fun k => wave_rate bxfl (aat (sm_A S) i) (aat (bxu b) i) (fm_n (aat (sm_M S) k)) (fm_len (aat (sm_M S) k))) (faces i) = c * P i).
    { intros i c Hi Hc H1 H2. unfold P. rewrite <- rsum_scal. apply rsum_ext. intros k _. unfold wave_rate. cbn [fl_visc bxfl fl_gas]. change (gam air) with (7/5). rewrite Hc. unfold normal_velocity. rewrite H1, H2.
      replace ((0 * vx (fm_n (aat (sm_M S) k)) + 0 * vy (fm_n (aat (sm_M S) k))) / s0 (aat (bxu b) i)) with 0 by (unfold Rdiv; ring). rewrite Rabs_R0. ring. }
    destruct (bx_sound b Hb) as (_ & _ & S0 & S1).
    destruct (D 0%nat) as (_ & D0); [lia|]. destruct (D 1%nat) as (_ & D1); [lia|]. fold (faces 0%nat) in D0. fold (faces 1%nat) in D1.
    rewrite (W 0%nat 1) in D0 by (auto; lia). rewrite (W 1%nat b) in D1 by (auto; lia). rewrite A0 in D0. rewrite A1 in D1. split; [|exact D1]. rewrite <- D0. ring. }
  assert (IN : forall k, (sm_nb S <= k < sm_nb S + sm_ni S)%nat -> f_left (aat (sm_F S) k) = 0%nat /\ f_right (aat (sm_F S) k) = 1%nat).
  { intros k Hk. pose proof (so_int _ OK k Hk). lia. }
  assert (PP : forall i, (i < 2)%nat -> 0 < P i).
  { intros i Hi. assert (In (sm_nb S) (faces i)).
    { apply filter_In. split; [apply in_seq; unfold sm_nf_all; lia|]. destruct (IN (sm_nb S) ltac:(lia)) as (-> & ->). destruct i as [|[|i]]; try lia; reflexivity. }
    apply rsum_pos with (k := sm_nb S); auto.
    - intros j Hj. apply filter_In in Hj. destruct Hj as (Hj & _). apply in_seq in Hj. left. apply (face_unit _ _ _ _ _ B bx_distinct). lia.
    - apply (face_unit _ _ _ _ _ B bx_distinct). unfold sm_nf_all; lia. }
  destruct (EV a Ha) as (res' & dt' & E & L & LT & Q & D0 & D1). exists (mkrout res' dt' true), (P 0%nat), (P 1%nat). split; [exact E|]. split; [exact L|]. split; [exact LT|].
  split; [apply PP; lia|]. split; [apply PP; lia|]. split; [exact D0|]. split; [exact D1|]. split.
  - cbn [rt_r]. change (0 < cget (aat res' 0%nat) I0). rewrite Q by lia. unfold outflow.
    match goal with |- 0 < 0 - rsum ?f _ => set (g := f) end. replace (0 - rsum g (all_faces S)) with (rsum (fun k => - g k) (all_faces S)) by (rewrite rsum_opp; ring).
    assert (GI : forall k, (sm_nb S <= k < sm_nb S + sm_ni S)%nat -> 0 < - g k).
    { intros k Hk. unfold g. destruct (IN k Hk) as (El & Er). rewrite El, Er. change (0 =? 0)%nat with true. change (1 =? 0)%nat with false. cbv iota. unfold thru1, through. cbv zeta. unfold face_law, left_value, right_value. rewrite El, Er.
      destruct (Nat.ltb_spec k (sm_nb S)); [lia|]. cbn [fl_visc bxfl fl_flux fl_gas get_flux cget sscal sadd szero s0].
      destruct (face_unit _ _ _ _ _ B bx_distinct k) as (U & Lp); [unfold sm_nf_all; lia|].
      destruct (bx_flux a _ Ha U) as (lam & Hl & Ef). rewrite Ef. set (len := fm_len _) in *. assert (0 < len * lam) by (apply Rmult_lt_0_compat; auto).
      match goal with |- 0 < ?x => replace x with (3/2 * (len * lam)) by field end. lra. }
    assert (GB : forall k, (k < sm_nb S)%nat -> g k = 0).
    { intros k Hk. assert (Z : cget (thru1 S bxfl bc (bxu a) k) I0 = 0).
      { assert (Hk' : (k < sm_nf_all S)%nat) by (unfold sm_nf_all; lia). destruct CB as (_ & _ & BS & _). unfold thru1, through. cbv zeta. unfold face_law. cbn [fl_visc bxfl].
        assert (RV : right_value S (aat (bxu a)) (bghost S bxfl bc (bxu a)) k = ghost_state air BSlip (left_value S (aat (bxu a)) k) (fm_n (aat (sm_M S) k))).
        { unfold right_value. destruct (Nat.ltb_spec k (sm_nb S)); [|lia]. unfold bghost. rewrite BS by lia. reflexivity. }
        rewrite RV. pose proof (C45_slip_wall_no_flux LLF air (left_value S (aat (bxu a)) k) (fm_n (aat (sm_M S) k)) ltac:(cbn; lra) ltac:(discriminate)) as (F0 & _).
        { apply (HP a Ha). apply (so_left _ OK); auto. }
        { apply (face_unit _ _ _ _ _ B bx_distinct k Hk'). }
        change (fl_flux bxfl) with LLF. change (fl_gas bxfl) with air. cbn [cget sscal sadd szero s0]. rewrite F0. ring. }
      unfold g. rewrite Z. destruct (_ =? _)%nat, (_ =? _)%nat; ring. }
    apply rsum_pos with (k := sm_nb S).
    + intros j Hj. apply in_seq in Hj. unfold sm_nf_all in Hj. destruct (Nat.lt_ge_cases j (sm_nb S)); [rewrite GB by auto; lra|left; apply GI; lia].
    + apply in_seq. unfold sm_nf_all. lia.
    + apply GI. lia.
  - intros a' ro' Ha' E'. destruct (EV a' Ha') as (res2 & dt2 & E2' & _ & _ & _ & D2). rewrite E' in E2'. injection E2' as ->. exact D2.
Qed.

(** With the local time steps of compute_max_timestep the total mass in a closed box changes. *)
Theorem C80_local_steps_refuted : exists m hs X ghost S fl bc c ul0 ur0 G dt0 run rs cf its,
  built m hs X ghost S /\ distinct_ends m X /\ (forall i, (i < sm_ne S)%nat -> 0 < aat (sm_A S) i) /\ bcs_cover S fl bc /\ closed_box S fl bc /\
  alen ul0 = sm_nf_all S /\ alen ur0 = sm_nf_all S /\
  steps (sm_ne S) (sm_A S) c (flow_eval S fl ul0 ur0 G dt0) 0.3 0.25 (fe_upd (sm_ne S) (sm_A S) c) (cflinit c) 1 run rs cf its /\
  (forall k, (k < 1)%nat -> alen (run k) = sm_ne S /\ alen (rt_dt (rs k)) = sm_ne S /\ forall i, (i < sm_ne S)%nat -> physical (gam (fl_gas fl)) (aat (run k) i) /\ aat (rt_dt (rs k)) i <> 0) /\
  total (sm_ne S) (sm_A S) (run 1%nat) I0 <> total (sm_ne S) (sm_A S) (run 0%nat) I0.
Proof.
  destruct bx_built as (S & B). destruct (bx_cover S B) as (bc & C & CB). destruct (bx_shape S B) as (E1 & E2 & E3 & Hni & A0 & A1). pose proof (built_sm _ _ _ _ _ B) as OK.
  set (z := mkarr (sm_nf_all S) (fun _ => szero)). set (G := mkarr 2 (fun _ => mkgrad szero szero)). set (dt0 := mkarr 2 (fun _ : nat => 0)).
  assert (HA : forall i, (i < sm_ne S)%nat -> 0 < aat (sm_A S) i) by (intros i Hi; rewrite E1 in Hi; destruct i as [|[|i]]; [rewrite A0|rewrite A1|]; lra || lia).
  set (c := mksconf 1 10 (1/10) 5).
  assert (M : exists a ro, 0 < a /\ flow_eval S bxfl z z G dt0 (bxu a) = Some (Val ro) /\ alen (rt_r ro) = 2%nat /\ alen (rt_dt ro) = 2%nat /\ 0 < s0 (aat (rt_r ro) 0%nat) /\
    aat (rt_dt ro) 0%nat <> 0 /\ aat (rt_dt ro) 1%nat <> 0 /\ aat (rt_dt ro) 0%nat <> aat (rt_dt ro) 1%nat).
  { destruct (bx_eval S bc 1 B C CB ltac:(lra) z z G dt0 eq_refl eq_refl eq_refl) as (ro1 & P0 & P1 & EV1 & L1 & L1' & HP0 & HP1 & D0 & D1 & RP1 & U1).
    destruct (bx_eval S bc 2 B C CB ltac:(lra) z z G dt0 eq_refl eq_refl eq_refl) as (ro2 & Q0 & Q1 & EV2 & L2 & L2' & HQ0 & HQ1 & F0 & F1 & RP2 & U2).
    pose proof (U1 2 ro2 ltac:(lra) EV2) as (V1 & V2).
    assert (NZ : forall x y k, x * y = k -> k <> 0 -> x <> 0) by (intros x y k <- Hk ->; apply Hk; ring).
    destruct (Req_EM_T (aat (rt_dt ro1) 0%nat) (aat (rt_dt ro1) 1%nat)) as [EQ|NE].
    - exists 2, ro2. repeat (split; [first [lra|assumption]|]). split; [apply (NZ _ _ _ F0); lra|]. split; [apply (NZ _ _ _ F1); lra|].
      intros EQ2. rewrite <- EQ in D1. rewrite <- EQ2 in V2. assert (aat (rt_dt ro1) 0%nat = aat (rt_dt ro2) 0%nat) as EE by (apply Rmult_eq_reg_r with P0; lra). rewrite EE in D1. lra.
    - exists 1, ro1. repeat (split; [first [lra|assumption]|]). split; [apply (NZ _ _ _ D0); lra|]. split; [apply (NZ _ _ _ D1); lra|exact NE]. }
  destruct M as (a & ro & Ha & EV & LR & LT & RP & N0 & N1 & NE).
  assert (LA : alen (sm_A S) = 2%nat) by (rewrite (so_A _ OK); exact E1).
  destruct (fe_update_ok 2 (sm_A S) c (bxu a) ro) as (u' & EU & LU & PU & _); [cbn; lia|lia|lia|lia|].
  set (run k := match k with O => bxu a | _ => u' end). set (cf := ramp_seq c 0.3 0.25 1 (norm_before 2 (sm_A S) (fun _ => ro))).
  assert (ST : steps (sm_ne S) (sm_A S) c (flow_eval S bxfl z z G dt0) 0.3 0.25 (fe_upd (sm_ne S) (sm_A S) c) (cflinit c) 1 run (fun _ => ro) cf (fun _ => 0%nat)).
  { constructor; intros k Hk; assert (k = 0%nat) by lia; subst k.
    - exact EV. - rewrite E1. apply ramp_seq_eq. - unfold fe_upd. rewrite E1. cbn [run]. rewrite EU. reflexivity. }
  assert (PH : forall k, (k < 1)%nat -> alen (run k) = sm_ne S /\ alen (rt_dt ro) = sm_ne S /\ forall i, (i < sm_ne S)%nat -> physical (gam (fl_gas bxfl)) (aat (run k) i) /\ aat (rt_dt ro) i <> 0).
  { intros k Hk. assert (k = 0%nat) by lia; subst k. rewrite E1. split; [reflexivity|]. split; [exact LT|]. intros i Hi. destruct (bx_sound a Ha) as (Q0 & Q1 & _).
    destruct i as [|[|i]]; [split; [exact Q0|exact N0]|split; [exact Q1|exact N1]|lia]. }
  exists bx, bxh, bxX, bxg, S, bxfl, bc, c, z, z, G, dt0, run, (fun _ => ro), cf, (fun _ => 0%nat).
  split; [exact B|]. split; [exact bx_distinct|]. split; [exact HA|]. split; [exact C|]. split; [exact CB|]. split; [reflexivity|]. split; [reflexivity|]. split; [exact ST|]. split; [exact PH|].
  destruct (C80_closed_box _ _ _ _ _ B bx_distinct HA bxfl bc c z z G dt0 1 run (fun _ => ro) cf (fun _ => 0%nat) C CB eq_refl eq_refl ST PH I0 (or_introl eq_refl)) as (W & _).
  specialize (W 0%nat ltac:(lia)). rewrite E1 in *. cbn [Nat.add run seq rsum] in W. rewrite A0, A1 in W.
  unfold total. cbn [seq rsum run]. rewrite A0, A1.
  assert (D0 : cget (aat u' 0%nat) I0 - cget (aat (bxu a) 0%nat) I0 = aat (rt_dt ro) 0%nat * s0 (aat (rt_r ro) 0%nat)).
  { rewrite PU by lia. cbn [cget sadd sscal s0]. rewrite A0. cbn [cflinit c]. field. }
  intros EQ. set (x := cget (aat u' 0%nat) I0 - cget (aat (bxu a) 0%nat) I0) in *. set (y := cget (aat u' 1%nat) I0 - cget (aat (bxu a) 1%nat) I0) in *.
  assert (XY : x + 2 * y = 0) by (unfold x, y; lra). assert (W2 : x / aat (rt_dt ro) 0%nat + 2 * y / aat (rt_dt ro) 1%nat = 0) by (rewrite <- W; field; auto).
  assert (HX : x = 0). { assert (Y : 2 * y = - x) by lra. rewrite Y in W2. set (d0 := aat (rt_dt ro) 0%nat) in *. set (d1 := aat (rt_dt ro) 1%nat) in *.
    assert (x * (d1 - d0) = 0). { replace (x * (d1 - d0)) with ((x / d0 + - x / d1) * (d0 * d1)) by (field; auto). rewrite W2. ring. }
    apply Rmult_integral in H. destruct H; auto. exfalso. apply NE. lra. }
  rewrite HX in D0. symmetry in D0. apply Rmult_integral in D0. destruct D0; [auto|lra].
Qed.
Print Assumptions C80_local_steps_refuted.


(** The weighted sums and the equal-step statement of C80_closed_box are not vacuous: the box above
    meets all hypotheses except equal steps. The Runge-Kutta solver takes equal steps by itself: *)
Definition swap_rk (u r0 : arr st) : option (exc rout) :=
  Some (Val (mkrout (mkarr 2 (fun i => sadd (aat r0 i) (match i with O => ssub (aat u 1) (aat u 0) | _ => ssub (aat u 0) (aat u 1) end))) (mkarr 2 (fun i => INR (i + 1))) true)).
Definition tv2 : tv := mktv (bxu 1) (bxu 1) (mkarr 2 (fun _ => szero)) 0.
Definition two_cells : arr R := mkarr 2 (fun i => INR (i + 1)).
Example C80_runge_kutta_ex : forall order, (1 <= order <= 3)%nat -> exists s', tvdrk_step 2 two_cells 1 (tvdrk_coeffs order (fun _ _ => 0)) order swap_rk tv2 = Some (Val s') /\
  total 2 two_cells (t_u s') I0 = total 2 two_cells (bxu 1) I0.
Proof.
  intros order HO. apply (C80_runge_kutta 2 two_cells 1 order (fun _ _ => 0) swap_rk 2 tv2 (fun i => match i with O => ssub (aat (bxu 1) 1) (aat (bxu 1) 0) | _ => ssub (aat (bxu 1) 0) (aat (bxu 1) 1) end) (mkarr 2 (fun i => INR (i + 1))) I0); auto; try (cbn; lia).
  - split; [reflexivity|]. split; [cbn; lia|]. split; reflexivity.
  - intros r0 L Z. eexists. split; [reflexivity|]. cbn [rt_fin rt_r rt_dt alen aat]. repeat (split; [reflexivity|]). split; auto.
    intros i Hi. rewrite Z by lia. destruct i; apply st_eq; cbn; ring.
  - intros i Hi. cbn [aat two_cells]. apply not_0_INR. lia.
  - cbn. ring.
Qed.

(** ** One implicit step: du/dt = -u in one cell, exact Jacobian, exact solver *)
Definition decay (u : arr st) : option (exc rout) := Some (Val (mkrout (mkarr 1 (fun _ => sscal (-1) (aat u 0))) (mkarr 1 (fun _ => 1)) true)).
Definition decayJ : bmat := fun p q => if ((p =? 0) && (q =? 0))%nat%bool then mkmat (fun a b => if ix_eqb a b then 1 else 0) else mat0.
Definition decayK (k : nat) (M : bmat) (dtm : arr R) (u b : arr st) : arr st * nat := (mkarr 1 (fun _ => sscal (/ mget (M 0%nat 0%nat) I0 I0) (aat b 0)), 1%nat).
Definition gid (i : nat) : nat := i.
Lemma gid_inj : forall i j, (i < 1)%nat -> (j < 1)%nat -> gid i = gid j -> i = j. Proof. auto. Qed.
Notation decay_upd := (be_upd 1 one_cell gid (fun _ => Some (Val decayJ)) decayK FullUpdate_factor).
Lemma decay_step k cfl u ro : alen u = 1%nat -> decay u = Some (Val ro) -> 0 < cfl ->
  exists u', decay_upd k cfl u ro = Some (Val (u', 1%nat)) /\ alen u' = 1%nat /\ aat u' 0 = sscal (/ (1 + cfl)) (aat u 0).
Proof.
  intros L E Hc. injection E as <-. unfold be_upd. cbn [rt_dt rt_r].
  destruct (C88_pseudo_time 1 one_cell gid cfl (mkarr 1 (fun _ => 1)) decayJ gid_inj ltac:(cbn; lia) ltac:(cbn; lia)) as (dtm & M & EP & P1 & P2 & _). rewrite EP. cbn [bind]. unfold decayK.
  match goal with |- context [be_update 1 FullUpdate_factor u ?d] => destruct (be_update_ok 1 FullUpdate_factor u d) as (u' & EU & LU & PU & _); [lia|cbn; lia|] end.
  rewrite EU. cbn [bind]. exists u'. split; [reflexivity|]. split; [lia|]. rewrite PU by lia. cbn [aat].
  pose proof (P2 0%nat I0 I0 ltac:(lia)) as Q. cbn [gid ix_eqb] in Q. rewrite P1 in Q by lia. unfold gid in Q. rewrite Q. change (decayJ 0%nat 0%nat) with (mkmat (fun a b => if ix_eqb a b then 1 else 0)). rewrite mget_mkmat. cbn [ix_eqb one_cell aat].
  unfold FullUpdate_factor. apply st_eq; cbn [sadd sscal s0 s1 s2 s3]; field; repeat split; lra.
Qed.
Definition decay_conf : sconf := mksconf 1 10 (1/2) 5.
Lemma decay_steps : exists run rs cf its, steps 1 one_cell decay_conf decay 0.25 0.3 decay_upd 0 2 run rs cf its /\ (forall k, rt_fin (rs k) = true) /\ (forall k, alen (run k) = 1%nat) /\
  (forall k, alen (rt_dt (rs k)) = 1%nat) /\ run 0%nat = halves 0 /\ (forall k, aat (rt_r (rs k)) 0 = sscal (-1) (aat (run k) 0)) /\ aat (run 1%nat) 0 = sscal (1/2) (aat (run 0%nat) 0).
Proof.
  set (ev u := mkrout (mkarr 1 (fun _ => sscal (-1) (aat u 0))) (mkarr 1 (fun _ : nat => 1)) true).
  destruct (decay_step 0 1 (halves 0) (ev (halves 0)) eq_refl eq_refl ltac:(lra)) as (u1 & E1 & L1 & V1).
  set (rs0 k := match k with O => ev (halves 0) | _ => ev u1 end).
  set (c1 := expResidualRamp 1 10 1 (norm_before 1 one_cell rs0 0 / norm_before 1 one_cell rs0 1) 0.25 0.3).
  assert (H1 : 1 <= c1 <= 10) by (apply residual_ramp_bounds; lra).
  destruct (decay_step 1 c1 u1 (ev u1) L1 eq_refl ltac:(lra)) as (u2 & E2 & L2 & V2).
  exists (fun k => match k with O => halves 0 | 1%nat => u1 | _ => u2 end), (fun k => ev (match k with O => halves 0 | 1%nat => u1 | _ => u2 end)), (fun k => match k with O => 1 | _ => c1 end), (fun _ => 1%nat).
  split; [constructor; intros k Hk; destruct k as [|[|k]]; try lia|].
  - reflexivity. - reflexivity.
  - cbn [cfl_before norm_before Nat.pred]. unfold expResidualRamp. cbv zeta. cbn [decay_conf cflinit cflfin]. destruct (Rlt_dec 1 (1/1)); [lra|]. rewrite Rmult_0_l. destruct (Rlt_dec 0 1); [reflexivity|lra].
  - reflexivity.
  - exact E1. - exact E2.
  - split; [reflexivity|]. split; [intros [|[|k]]; auto|]. split; [reflexivity|]. split; [reflexivity|]. split; [intros [|[|k]]; reflexivity|]. rewrite V1. f_equal. field.
Qed.
(** the hypotheses of C72_backward_converges and the solver's answer *)
Example C72_backward_ex : exists s, be_solve 1 one_cell decay_conf decay gid (fun _ => Some (Val decayJ)) decayK FullUpdate_factor (halves 0) false = Some (SReturn s true) /\ m_step s = 2%nat.
Proof.
  destruct decay_steps as (run & rs & cf & its & T & F & _ & _ & R0 & RR & R1).
  assert (N0 : norm_at 1 one_cell rs 0 = 1).
  { unfold norm_at. cbn [seq rsum]. rewrite RR, R0. cbn. transitivity (sqrt 1); [f_equal; ring|apply sqrt_1]. }
  assert (N1 : norm_at 1 one_cell rs 1 = 1/2).
  { unfold norm_at. cbn [seq rsum]. rewrite RR, R1, R0. cbn. transitivity (sqrt (1/2 * (1/2))); [f_equal; field|apply sqrt_square; lra]. }
  rewrite <- R0. destruct (C72_backward_converges 1 one_cell decay_conf decay gid (fun _ => Some (Val decayJ)) decayK FullUpdate_factor 1 run rs cf its false T) as (s & E & _ & Es).
  - intros k _. apply F. - cbn. lia. - cbn. lra. - rewrite N0. lra.
  - intros j Hj. assert (j = 0%nat) by lia. subst j. unfold rel_at. rewrite N0. cbn. lra.
  - unfold rel_at. rewrite N0, N1. cbn. lra.
  - exists s. auto.
Qed.
(** the hypotheses of C88_linearised_step: the step solves (1 + 1/CFL) (u' - u) = -u *)
Example C88_ex : exists run rs cf its, steps 1 one_cell decay_conf decay 0.25 0.3 decay_upd 0 2 run rs cf its /\
  aat one_cell 0 / (cf 0%nat * aat (rt_dt (rs 0%nat)) 0) * (s3 (aat (run 1%nat) 0) - s3 (aat (run 0%nat) 0)) + s3 (ssub (aat (run 1%nat) 0) (aat (run 0%nat) 0)) = s3 (aat (rt_r (rs 0%nat)) 0) /\ s3 (aat (rt_r (rs 0%nat)) 0) = -1.
Proof.
  destruct decay_steps as (run & rs & cf & its & T & F & LR & LD & R0 & RR & R1). exists run, rs, cf, its. split; [exact T|].
  destruct (C88_linearised_step 1 one_cell decay_conf decay gid (fun _ => Some (Val decayJ)) decayK 2 run rs cf its gid_inj T 0%nat [0%nat] (fun _ => ssub (aat (run 1%nat) 0) (aat (run 0%nat) 0))) as (J & EJ & H).
  - lia. - constructor; [intros []|constructor]. - intros i Hi. left. unfold gid. lia. - cbn; lia. - rewrite LR. lia. - rewrite LD. lia.
  - intros J dtm M d t EJ EP EK. injection EJ as <-. unfold decayK in EK. injection EK as <- <-. split; [cbn; lia|].
    destruct (C88_pseudo_time 1 one_cell gid (cf 0%nat) (rt_dt (rs 0%nat)) decayJ gid_inj ltac:(rewrite LD; lia) ltac:(cbn; lia)) as (dtm' & M' & EP' & P1 & P2 & _). rewrite EP in EP'. injection EP' as <- <-.
    assert (Ed : rt_dt (rs 0%nat) = mkarr 1 (fun _ => 1)). { pose proof (sp_eval T 0%nat ltac:(lia)) as E. injection E as <-. reflexivity. }
    assert (C0 : cf 0%nat = 1). { rewrite (sp_cfl T 0%nat ltac:(lia)). cbn [cfl_before norm_before Nat.pred]. unfold expResidualRamp. cbv zeta. cbn [decay_conf cflinit cflfin]. destruct (Rlt_dec 1 (1/1)); [lra|]. rewrite Rmult_0_l. destruct (Rlt_dec 0 1); [reflexivity|lra]. }
    assert (Q : forall a b, mget (M 0%nat 0%nat) a b = if ix_eqb a b then 2 else 0).
    { intros a b. pose proof (P2 0%nat a b ltac:(lia)) as P2e. unfold gid in P2e. rewrite P2e. rewrite P1 by lia. unfold gid. change (decayJ 0%nat 0%nat) with (mkmat (fun a b => if ix_eqb a b then 1 else 0)). rewrite mget_mkmat, C0, Ed. cbn [aat one_cell]. destruct (ix_eqb a b); field. }
    split.
    + intros i Hi. cbn [aat]. change (s0 (r0 (M 0%nat 0%nat))) with (mget (M 0%nat 0%nat) I0 I0). rewrite Q, RR, R1. apply st_eq; cbn; field.
    + intros i v Hi. assert (i = 0%nat) by lia. subst i. unfold block_row, gid. cbn [rsum]. rewrite !Q, RR, R1. destruct v; cbn; field.
  - injection EJ as <-. destruct (H 0%nat I3 ltac:(lia)) as (H1 & _). cbn [Nat.add cget] in H1. split; [|rewrite RR, R0; cbn; lra].
    rewrite <- H1. f_equal. unfold block_row, gid. cbn [rsum]. change (decayJ 0%nat 0%nat) with (mkmat (fun a b => if ix_eqb a b then 1 else 0)). rewrite !mget_mkmat. cbn [ix_eqb]. ring.
Qed.
(** a steady start: the residual is zero everywhere *)
Definition still (u : arr st) : option (exc rout) := Some (Val (mkrout (mkarr 1 (fun _ => szero)) (mkarr 1 (fun _ => 1)) true)).
Definition stayK (k : nat) (M : bmat) (dtm : arr R) (u b : arr st) : arr st * nat := (b, 1%nat).
Example C72_steady_start_ex : (exists s, fe_solve 1 one_cell decay_conf still (halves 0) false = Some (SReturn s true)) /\
  be_solve 1 one_cell decay_conf still gid (fun _ => Some (Val decayJ)) stayK FullUpdate_factor (halves 0) false = Some (SThrow Numerical_error).
Proof.
  set (ro := mkrout (mkarr 1 (fun _ => szero)) (mkarr 1 (fun _ : nat => 1)) true).
  destruct (fe_update_ok 1 one_cell decay_conf (halves 0) ro) as (u1 & E1 & _); try (cbn; lia).
  destruct (C88_pseudo_time 1 one_cell gid 1 (mkarr 1 (fun _ => 1)) decayJ gid_inj ltac:(cbn; lia) ltac:(cbn; lia)) as (dtm & M & EP & _).
  destruct (be_update_ok 1 FullUpdate_factor (halves 0) (rt_r ro)) as (u2 & E2 & _); try (cbn; lia).
  assert (C0 : forall p up down, 0 <= p <= 1 -> 1 = expResidualRamp 1 10 p (1 / 1) up down).
  { intros p up down Hp. unfold expResidualRamp. cbv zeta. destruct (Rlt_dec 1 (1/1)); [lra|]. unfold powr. replace (1/1) with 1 by field. destruct (Rle_dec 1 0); [lra|].
    assert (W : Rpower 1 down = 1) by (unfold Rpower; rewrite ln_1, Rmult_0_r; apply exp_0). rewrite ?W. try (destruct (Rle_dec 1 0); [lra|]). destruct (Rlt_dec (p * 1) 1); [reflexivity|]. destruct (Rlt_dec 10 (p * 1)); lra. }
  destruct (C72_steady_start 1 one_cell decay_conf still gid (fun _ => Some (Val decayJ)) stayK FullUpdate_factor
    (fun k => match k with O => halves 0 | _ => u1 end) (fun _ => ro) (fun _ => 1) (fun _ => 0%nat) (fun k => match k with O => halves 0 | _ => u2 end) (fun _ => 1) (fun _ => 1%nat) false) as ((s & Q & _) & Q2).
  - cbn; lia. - cbn; lra.
  - constructor; intros k Hk; assert (k = 0%nat) by lia; subst k; [reflexivity|apply C0; cbn; lra|]. unfold fe_upd. rewrite E1. reflexivity.
  - intros k _. reflexivity.
  - unfold norm_at. cbn. transitivity (sqrt 0); [f_equal; ring|apply sqrt_0].
  - constructor; intros k Hk; assert (k = 0%nat) by lia; subst k; [reflexivity|apply C0; cbn; lra|]. unfold be_upd. change (rt_dt ro) with (mkarr 1 (fun _ : nat => 1)). rewrite EP. cbn [bind]. unfold stayK. rewrite E2. reflexivity.
  - split; [exists s; exact Q|exact Q2].
Qed.
