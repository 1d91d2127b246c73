(** The effect of the functions of M_Resid.v. *)
From Coq Require Import Reals Lra List Arith Lia ZArith Bool.
From Verif Require Import Base BaseR BaseSum M_Gas M_Flux M_Visc M_BC M_BCConf M_Mesh M_Geom S_Geom Pf_Geom M_Space S_Space Pf_Space
  M_Grad Pf_Grad M_Recon M_Resid S_Gas S_Resid Pf_Gas Pf_FluxUp.
Import ListNotations.
Open Scope R_scope.

Lemma cget_add a b v : cget (sadd a b) v = cget a v + cget b v.
Proof. destruct v; reflexivity. Qed.
Lemma cget_neg a v : cget (sneg a) v = - cget a v.
Proof. destruct v; reflexivity. Qed.
Lemma cget_scal c a v : cget (sscal c a) v = c * cget a v.
Proof. destruct v; reflexivity. Qed.
Lemma cget_zero v : cget szero v = 0.
Proof. destruct v; reflexivity. Qed.
Lemma cget_additive v : additive sadd (fun x => cget x v).
Proof. intros a b. apply cget_add. Qed.

(** ** fluxes *)
Section Fluxes.
Variables (S : smesh) (fl : flow) (second : bool) (u ul ur ug : arr st) (G : arr grad).
Hypothesis OK : sm_ok S.
Hypothesis Lu : alen u = (sm_ne S + sm_nc S)%nat.
Hypothesis Ll : alen ul = sm_nf_all S.
Hypothesis Lr : alen ur = sm_nf_all S.
Hypothesis Lg : alen ug = sm_nb S.
Hypothesis LG : second = true -> alen G = (sm_ne S + sm_nc S)%nat.

Definition thru (k : nat) : st := through S fl second (aat u) (aat G) (aat ug) (aat ul) (aat ur) k.

Lemma far_c k : (k < sm_nf_all S)%nat -> far_centre S k (aat (sm_F S) k) = Some (right_value S (aat (sm_rc S)) (aat (sm_rcbp S)) k).
Proof. intros Hk. apply (far_centre_ok S OK); auto. Qed.
Lemma far_u k : (k < sm_nf_all S)%nat -> far_value S u ug k (aat (sm_F S) k) = Some (right_value S (aat u) (aat ug) k).
Proof.
  intros Hk. unfold far_value, right_value. destruct (Nat.ltb_spec k (sm_nb S)).
  - apply aget_ok. rewrite Lg. auto.
  - apply aget_ok. rewrite Lu. apply right_lt; auto.
Qed.

Lemma face_flux_ok k : (k < sm_nf_all S)%nat -> face_flux S fl second u G ul ur ug k = Some (thru k).
Proof.
  intros Hk. unfold face_flux, thru, through, face_law, left_value. pose proof (so_left _ OK k Hk) as HL.
  rewrite (aget_ok _ (sm_M S)) by (rewrite (so_M _ OK); auto). cbn [bind].
  rewrite (aget_ok _ (sm_F S)) by (rewrite (so_F _ OK); auto). cbn [bind].
  rewrite (aget_ok _ ul) by lia. cbn [bind]. rewrite (aget_ok _ ur) by lia. cbn [bind]. cbv zeta.
  destruct (fl_visc fl).
  - rewrite (aget_ok _ (sm_rc S)) by (rewrite (so_rc _ OK); lia). cbn [bind]. rewrite far_c by auto. cbn [bind].
    rewrite (aget_ok _ u) by lia. cbn [bind]. rewrite far_u by auto. cbn [bind].
    destruct second eqn:Es.
    + rewrite (aget_ok _ G) by (rewrite (LG eq_refl); lia). cbn [bind]. destruct (Nat.ltb_spec k (sm_nb S)).
      * cbn [bind]. f_equal. apply st_ext; intros v. rewrite cget_add, !cget_scal, cget_add. ring.
      * rewrite (aget_ok _ G) by (rewrite (LG eq_refl); apply right_lt; auto). cbn [bind]. f_equal. apply st_ext; intros v. rewrite cget_add, !cget_scal, cget_add. ring.
    + cbn [bind]. f_equal. apply st_ext; intros v. rewrite cget_add, !cget_scal, cget_add. ring.
  - f_equal. apply st_ext; intros v. rewrite !cget_scal, cget_add, cget_zero. ring.
Qed.

Lemma flux_incs_ok k : (k < sm_nf_all S)%nat -> flux_incs S fl second u G ul ur ug k = Some (two S (fun k => sneg (thru k)) thru k).
Proof.
  intros Hk. unfold flux_incs. rewrite face_flux_ok by auto. cbn [bind]. rewrite aget_ok by (rewrite (so_F _ OK); auto). reflexivity.
Qed.

Lemma fluxes_ok (res : arr st) : alen res = sm_ne S -> exists res', compute_fluxes S fl second u G ul ur ug res = Some res' /\ alen res' = sm_ne S /\
  forall i v, (i < sm_ne S)%nat -> cget (aat res' i) v = cget (aat res i) v - outflow S thru i v.
Proof.
  intros LR. unfold compute_fluxes.
  destruct (acc_loop_ok sadd 0 (sm_nf_all S) (flux_incs S fl second u G ul ur ug) res (two S (fun k => sneg (thru k)) thru)) as (res' & E & L & P & _).
  - lia.
  - intros k Hk. split; [apply flux_incs_ok; lia|]. intros p Hp. rewrite LR. eapply two_in; eauto. lia.
  - exists res'. split; auto. split; [lia|]. intros i v Hi. rewrite (P (fun x => cget x v) (cget_additive v) i).
    unfold outflow, all_faces. rewrite Nat.sub_0_r. match goal with |- ?a + ?b = _ - ?c => enough (b = - c) by lra end.
    rewrite <- rsum_opp. apply rsum_ext. intros k Hk. rewrite added_two by auto. rewrite cget_neg.
    destruct (_ =? i)%nat, (_ =? i)%nat; lra.
Qed.
End Fluxes.

(** the outflows of all cells add up to the flux through the outer faces *)
Lemma outflow_total S f v : sm_ok S ->
  rsum (fun i => outflow S f i v) (all_cells S) = rsum (fun k => cget (f k) v) (outer_faces S).
Proof.
  intros OK. unfold outflow. rewrite rsum_swap. unfold all_faces, sm_nf_all, outer_faces. rewrite rsum_split3, rsum_app.
  assert (Pick : forall j (x : R), (j < sm_ne S)%nat -> rsum (fun i => if (j =? i)%nat then x else 0) (all_cells S) = x).
  { intros j x Hj. unfold all_cells. etransitivity; [|exact (rsum_single (fun _ => x) (sm_ne S) j Hj)]. apply rsum_ext. intros i _. rewrite Nat.eqb_sym. reflexivity. }
  assert (Miss : forall j (x : R), (sm_ne S <= j)%nat -> rsum (fun i => if (j =? i)%nat then x else 0) (all_cells S) = 0).
  { intros j x Hj. apply rsum_zero. intros i Hi. apply in_seq in Hi. destruct (Nat.eqb_spec j i); auto. lia. }
  assert (E0 : forall a b, a = b -> forall c, a + c = b + c) by (intros; lra).
  assert (Inn : rsum (fun k => rsum (fun i => (if (f_left (aat (sm_F S) k) =? i)%nat then cget (f k) v else 0) - (if (f_right (aat (sm_F S) k) =? i)%nat then cget (f k) v else 0)) (all_cells S)) (seq (sm_nb S) (sm_ni S)) = 0).
  { apply rsum_zero. intros k Hk. apply in_seq in Hk. pose proof (so_int _ OK k ltac:(lia)). rewrite rsum_minus, !Pick by lia. lra. }
  rewrite Inn, Rplus_0_l. f_equal; apply rsum_ext; intros k Hk; apply in_seq in Hk; pose proof (so_left _ OK k ltac:(unfold sm_nf_all; lia)); rewrite rsum_minus, Pick by auto.
  - rewrite Miss by (rewrite (so_phy _ OK k) by lia; lia). lra.
  - rewrite Miss by (rewrite (so_con _ OK k) by (unfold sm_nf_all; lia); lia). lra.
Qed.

(** ** face states *)
Lemma boundary_left_ok S u ul0 : sm_ok S -> alen u = (sm_ne S + sm_nc S)%nat -> alen ul0 = sm_nf_all S ->
  exists ul, boundary_left S u ul0 = Some ul /\ alen ul = sm_nf_all S /\
    (forall k, (k < sm_nb S)%nat -> aat ul k = aat u (f_left (aat (sm_F S) k))) /\ (forall k, (sm_nb S <= k)%nat -> aat ul k = aat ul0 k).
Proof.
  intros OK Lu L0. unfold boundary_left.
  match goal with |- context [floop _ ?bb ?ss] =>
    destruct (floop_inv _ (fun j (a : arr st) => alen a = sm_nf_all S /\ (forall k, (k < j)%nat -> aat a k = aat u (f_left (aat (sm_F S) k))) /\ (forall k, (j <= k)%nat -> aat a k = aat ul0 k)) (sm_nb S) bb ss) as (a & E & L & P & Q) end.
  - split; auto. split; auto. intros; lia.
  - intros k a Hk (L & P & Q). assert (K : (k < sm_nf_all S)%nat) by (unfold sm_nf_all; lia). pose proof (so_left _ OK k K).
    rewrite aget_ok by (rewrite (so_F _ OK); auto). cbn [bind]. rewrite aget_ok by lia. cbn [bind]. rewrite aset_ok by lia. eexists; split; [reflexivity|].
    cbn. split; auto. split; intros q Hq; unfold upd; destruct (Nat.eqb_spec q k); subst; auto; try lia. apply P; lia. apply Q; lia.
  - eauto.
Qed.

Lemma first_order_ok S u ul0 ur0 : sm_ok S -> alen u = (sm_ne S + sm_nc S)%nat -> alen ul0 = sm_nf_all S -> alen ur0 = sm_nf_all S ->
  exists ul ur, first_order_faces S u (ul0, ur0) = Some (ul, ur) /\ alen ul = sm_nf_all S /\ alen ur = sm_nf_all S /\
    (forall k, (sm_nb S <= k < sm_nf_all S)%nat -> aat ul k = aat u (f_left (aat (sm_F S) k)) /\ aat ur k = aat u (f_right (aat (sm_F S) k))) /\
    (forall k, (k < sm_nb S)%nat -> aat ul k = aat ul0 k /\ aat ur k = aat ur0 k).
Proof.
  intros OK Lu L0 R0. unfold first_order_faces.
  assert (LE : (sm_nb S <= sm_nf_all S)%nat) by (unfold sm_nf_all; lia).
  match goal with |- context [frange ?lo ?hi ?bb ?ss] =>
    destruct (frange_inv _ (fun j (a : faces2) => alen (fst a) = sm_nf_all S /\ alen (snd a) = sm_nf_all S /\
      (forall k, (sm_nb S <= k < j)%nat -> aat (fst a) k = aat u (f_left (aat (sm_F S) k)) /\ aat (snd a) k = aat u (f_right (aat (sm_F S) k))) /\
      (forall k, (k < sm_nb S)%nat -> aat (fst a) k = aat ul0 k /\ aat (snd a) k = aat ur0 k)) lo hi bb ss LE) as (a & E & L1 & L2 & P & Q) end.
  - cbn. split; auto. split; auto. split; auto. intros; lia.
  - intros k a Hk (L1 & L2 & P & Q). pose proof (so_left _ OK k ltac:(lia)). pose proof (right_lt S k OK Hk).
    rewrite aget_ok by (rewrite (so_F _ OK); lia). cbn [bind]. rewrite !aget_ok by lia. cbn [bind]. rewrite !aset_ok by lia. cbn [bind]. eexists; split; [reflexivity|].
    cbn [fst snd alen aat]. split; auto. split; auto. split; intros q Hq; unfold upd; destruct (Nat.eqb_spec q k); subst; auto; try lia. apply P; lia.
  - destruct a as [ul ur]. exists ul, ur. auto.
Qed.

(** every physical boundary face has a boundary condition *)
Definition bcs_cover (S : smesh) (fl : flow) (bc : nat -> flowbc) : Prop := forall k, (k < sm_nb S)%nat -> face_bc S fl k = Some (bc k).

Lemma boundary_states_ok S fl bc ul ur0 : sm_ok S -> bcs_cover S fl bc -> alen ul = sm_nf_all S -> alen ur0 = sm_nf_all S ->
  exists ur, compute_boundary_states S fl ul ur0 = Some ur /\ alen ur = sm_nf_all S /\
    (forall k, (k < sm_nb S)%nat -> aat ur k = ghost_state (fl_gas fl) (bc k) (aat ul k) (fm_n (aat (sm_M S) k))) /\ (forall k, (sm_nb S <= k)%nat -> aat ur k = aat ur0 k).
Proof.
  intros OK C Lu L0. unfold compute_boundary_states.
  match goal with |- context [floop _ ?bb ?ss] =>
    destruct (floop_inv _ (fun j (a : arr st) => alen a = sm_nf_all S /\ (forall k, (k < j)%nat -> aat a k = ghost_state (fl_gas fl) (bc k) (aat ul k) (fm_n (aat (sm_M S) k))) /\ (forall k, (j <= k)%nat -> aat a k = aat ur0 k)) (sm_nb S) bb ss) as (a & E & L & P & Q) end.
  - split; auto. split; auto. intros; lia.
  - intros k a Hk (L & P & Q). assert (K : (k < sm_nf_all S)%nat) by (unfold sm_nf_all; lia).
    rewrite aget_ok by lia. cbn [bind]. unfold compute_boundary_state. rewrite aget_ok by (rewrite (so_M _ OK); auto). cbn [bind]. rewrite (C k Hk). cbn [bind].
    rewrite aset_ok by lia. eexists; split; [reflexivity|].
    cbn. split; auto. split; intros q Hq; unfold upd; destruct (Nat.eqb_spec q k); subst; auto; try lia. apply P; lia. apply Q; lia.
  - eauto.
Qed.

(** ** first order *)
Section First.
Variables (S : smesh) (fl : flow) (bc : nat -> flowbc) (u : arr st).
(** the boundary ghost state, the states on the two sides of a face, and the flux through it *)
Definition bghost (k : nat) : st := ghost_state (fl_gas fl) (bc k) (left_value S (aat u) k) (fm_n (aat (sm_M S) k)).
Definition thru1 (k : nat) : st := through S fl false (aat u) (fun _ => grad0) bghost (left_value S (aat u)) (right_value S (aat u) bghost) k.

Lemma residual1_ok ul0 ur0 res G dt : sm_ok S -> bcs_cover S fl bc -> alen u = (sm_ne S + sm_nc S)%nat ->
  alen ul0 = sm_nf_all S -> alen ur0 = sm_nf_all S -> alen res = sm_ne S ->
  exists ul ur res', alen ul = sm_nf_all S /\ alen ur = sm_nf_all S /\
    (forall k, (k < sm_nf_all S)%nat -> aat ul k = left_value S (aat u) k /\ aat ur k = right_value S (aat u) bghost k) /\
    compute_residual1 S fl u ul0 ur0 res G dt = (dt' <- maybe_dt S fl ul ur dt ;; Some (mkro res' ul ur G dt')) /\
    alen res' = sm_ne S /\ forall i v, (i < sm_ne S)%nat -> cget (aat res' i) v = cget (aat res i) v - outflow S thru1 i v.
Proof.
  intros OK C Lu L0 R0 LR. unfold compute_residual1.
  destruct (boundary_left_ok S u ul0 OK Lu L0) as (ul1 & E1 & L1 & P1 & _). rewrite E1. cbn [bind].
  destruct (first_order_ok S u ul1 ur0 OK Lu L1 R0) as (ul & ur2 & E2 & L2 & L3 & P2 & Q2). rewrite E2. cbn [bind].
  destruct (boundary_states_ok S fl bc ul ur2 OK C L2 L3) as (ur & E3 & L4 & P3 & Q3). rewrite E3. cbn [bind].
  assert (Hl : forall k, (k < sm_nf_all S)%nat -> aat ul k = left_value S (aat u) k).
  { intros k Hk. destruct (Nat.lt_ge_cases k (sm_nb S)). rewrite (proj1 (Q2 k ltac:(auto))). apply P1; auto. apply P2; auto. }
  assert (Hr : forall k, (k < sm_nf_all S)%nat -> aat ur k = right_value S (aat u) bghost k).
  { intros k Hk. unfold right_value. destruct (Nat.ltb_spec k (sm_nb S)). rewrite P3 by auto. rewrite Hl by auto. reflexivity. rewrite Q3 by auto. apply P2; auto. }
  destruct (fluxes_ok S fl false u ul ur (mkarr (sm_nb S) (aat ur)) G OK Lu L2 L4 eq_refl ltac:(discriminate) res LR) as (res' & E5 & L5 & P5).
  rewrite E5. cbn [bind]. exists ul, ur, res'. split; auto. split; auto. split; auto. split; auto. split; auto.
  intros i v Hi. rewrite P5 by auto. f_equal. unfold outflow. apply rsum_ext. intros k Hk. apply in_seq in Hk.
  assert (E : thru S fl false u ul ur (mkarr (sm_nb S) (aat ur)) G k = thru1 k); [|rewrite E; reflexivity].
  unfold thru, thru1, through. rewrite Hl, Hr by lia. cbv zeta. f_equal. f_equal. unfold right_value. destruct (Nat.ltb_spec k (sm_nb S)); auto.
  cbn [aat]. rewrite Hr by lia. unfold right_value. destruct (Nat.ltb_spec k (sm_nb S)); auto. lia.
Qed.
End First.

(** ** time steps *)
Lemma visc_u G u : 0 < s0 u -> 0 < temperature (gam G) (Minf G) u ->
  getViscosityCoeffFromConserved G u = sutherland (Tinf G) (Reinf G) (temperature (gam G) (Minf G) u).
Proof.
  intros Hr HT. unfold getViscosityCoeffFromConserved. rewrite temperature_code by lra. apply sutherland_code; auto.
Qed.

(** what the viscous part needs *)
Definition visc_ok (fl : flow) : Prop := fl_visc fl = true -> 0 < Prn (fl_gas fl) /\ 0 < Reinf (fl_gas fl) /\ (fl_cst fl = false -> 0 < Tinf (fl_gas fl) /\ Minf (fl_gas fl) <> 0).

Lemma temp_pos' G u : 1 < gam G -> Minf G <> 0 -> physical (gam G) u -> 0 < temperature (gam G) (Minf G) u.
Proof.
  intros Hg HM [H1 H2]. unfold temperature. assert (0 < Minf G ^ 2) by (assert (0 < Minf G * Minf G) by (apply Rsqr_pos_lt; auto); nra).
  apply Rdiv_lt_0_compat; auto. apply Rmult_lt_0_compat; auto. apply Rmult_lt_0_compat; lra.
Qed.

Lemma sutherland_pos Ti Re T : 0 < Ti -> 0 < Re -> 0 < T -> 0 < sutherland Ti Re T.
Proof.
  intros. unfold sutherland; cbv zeta. assert (0 < 221/2/Ti) by (apply Rdiv_lt_0_compat; lra).
  apply Rmult_lt_0_compat; [|apply Rmult_lt_0_compat; auto; apply sqrt_lt_R0; auto].
  apply Rmult_lt_0_compat; [apply Rinv_0_lt_compat; auto|apply Rdiv_lt_0_compat; lra].
Qed.

Lemma specrad_ok fl area u n len : 1 < gam (fl_gas fl) -> physical (gam (fl_gas fl)) u -> visc_ok fl ->
  specrad fl (Some area) u n len = wave_rate fl area u n len.
Proof.
  intros Hg P V. pose proof P as [Hr Hp]. unfold specrad, wave_rate; cbv zeta. rewrite sound_code by lra.
  assert (N : dot2 (mom u) n / s0 u = normal_velocity u n) by reflexivity. rewrite N.
  destruct (fl_visc fl) eqn:Ev; [|lra]. specialize (V Ev). f_equal.
  assert (M : max_real (4 / (3 * s0 u)) (gam (fl_gas fl) / s0 u) = Rmax (4/3) (gam (fl_gas fl)) / s0 u).
  { unfold max_real. destruct (Rltb_spec (4 / (3 * s0 u)) (gam (fl_gas fl) / s0 u)) as [L|L].
    - rewrite Rmax_right. reflexivity. assert (4/3 / s0 u < gam (fl_gas fl) / s0 u). { replace (4/3/s0 u) with (4/(3 * s0 u)) by (field; lra). auto. }
      apply Rmult_lt_reg_r in H. lra. apply Rinv_0_lt_compat; auto.
    - rewrite Rmax_left. field; lra. destruct (Rle_or_lt (gam (fl_gas fl)) (4/3)); auto. exfalso. apply L. replace (4/(3 * s0 u)) with (4/3/s0 u) by (field; lra).
      apply Rmult_lt_compat_r. apply Rinv_0_lt_compat; auto. auto. }
  rewrite M. set (co := Rmax (4/3) (gam (fl_gas fl)) / s0 u).
  assert (U : (if fl_cst fl then getConstantViscosityCoeff (fl_gas fl) else getViscosityCoeffFromConserved (fl_gas fl) u) =
              (if fl_cst fl then / Reinf (fl_gas fl) else sutherland (Tinf (fl_gas fl)) (Reinf (fl_gas fl)) (temperature (gam (fl_gas fl)) (Minf (fl_gas fl)) u))).
  { destruct (fl_cst fl) eqn:Ec. unfold getConstantViscosityCoeff. lra. apply visc_u; auto. apply temp_pos'; auto. apply (proj2 (proj2 V) eq_refl). }
  rewrite U. set (mu := if fl_cst fl then _ else _). unfold Rdiv. ring.
Qed.

Lemma wave_pos fl area u n len : 1 < gam (fl_gas fl) -> physical (gam (fl_gas fl)) u -> visc_ok fl -> 0 < area -> 0 <= len ->
  0 <= wave_rate fl area u n len /\ (0 < len -> 0 < wave_rate fl area u n len).
Proof.
  intros Hg P V Ha Hl. pose proof (sound_pos (gam (fl_gas fl)) u Hg P) as Sp. pose proof (Rabs_pos (normal_velocity u n)) as Ab. unfold wave_rate.
  set (x := Rabs (normal_velocity u n) + sound (gam (fl_gas fl)) u). assert (X : 0 < x) by (unfold x; lra).
  match goal with |- 0 <= _ + ?t /\ _ => assert (Tp : 0 <= t) end.
  { destruct (fl_visc fl) eqn:Ev; [|lra]. destruct (V Ev) as (V1 & V2 & V3). destruct P as [P1 P2].
    assert (0 < (if fl_cst fl then / Reinf (fl_gas fl) else sutherland (Tinf (fl_gas fl)) (Reinf (fl_gas fl)) (temperature (gam (fl_gas fl)) (Minf (fl_gas fl)) u))).
    { destruct (fl_cst fl). apply Rinv_0_lt_compat; auto. apply sutherland_pos; try tauto. apply temp_pos'; auto. tauto. split; auto. }
    set (mu := if fl_cst fl then _ else _) in *.
    assert (0 < Rmax (4/3) (gam (fl_gas fl))) by (apply Rlt_le_trans with (4/3); [lra|apply Rmax_l]).
    apply Rmult_le_pos; [|left; apply Rinv_0_lt_compat; auto]. apply Rmult_le_pos; [|apply Rmult_le_pos; auto].
    apply Rmult_le_pos; [|left; apply Rinv_0_lt_compat; auto]. apply Rmult_le_pos; [|lra]. left. apply Rdiv_lt_0_compat; auto. }
  split. assert (0 <= x * len) by (apply Rmult_le_pos; lra). lra. intros. assert (0 < x * len) by (apply Rmult_lt_0_compat; lra). lra.
Qed.

Section Steps.
Variables (S : smesh) (fl : flow) (ul ur : arr st).
Hypothesis OK : sm_ok S.
Hypothesis Ll : alen ul = sm_nf_all S.
Hypothesis Lr : alen ur = sm_nf_all S.

Definition spl (k : nat) : R := specrad fl (Some (aat (sm_A S) (f_left (aat (sm_F S) k)))) (aat ul k) (fm_n (aat (sm_M S) k)) (fm_len (aat (sm_M S) k)).
Definition spr (k : nat) : R := specrad fl (Some (aat (sm_A S) (f_right (aat (sm_F S) k)))) (aat ur k) (fm_n (aat (sm_M S) k)) (fm_len (aat (sm_M S) k)).

Lemma specrad_incs_ok k : (k < sm_nf_all S)%nat -> specrad_incs S fl ul ur k = Some (two S spl spr k).
Proof.
  intros Hk. unfold specrad_incs, two. pose proof (so_left _ OK k Hk).
  rewrite (aget_ok _ (sm_M S)) by (rewrite (so_M _ OK); auto). cbn [bind]. rewrite (aget_ok _ (sm_F S)) by (rewrite (so_F _ OK); auto). cbn [bind].
  rewrite !aget_ok by (try rewrite (so_A _ OK); lia). cbn [bind]. destruct (Nat.ltb_spec (f_right (aat (sm_F S) k)) (sm_ne S)); auto.
  rewrite aget_ok by (rewrite (so_A _ OK); lia). reflexivity.
Qed.

(** total rate of the waves leaving cell [i] *)
Definition rate (i : nat) : R := rsum (fun k => (if (f_left (aat (sm_F S) k) =? i)%nat then spl k else 0) + (if (f_right (aat (sm_F S) k) =? i)%nat then spr k else 0)) (all_faces S).

Lemma timestep_ok (dt : arr R) : alen dt = sm_ne S -> (forall i, (i < sm_ne S)%nat -> rate i <> 0) ->
  exists dt', compute_max_timestep S fl ul ur dt = Some dt' /\ alen dt' = sm_ne S /\ forall i, (i < sm_ne S)%nat -> aat dt' i = aat (sm_A S) i / rate i.
Proof.
  intros Ld NZ. unfold compute_max_timestep.
  destruct (acc_loop_ok Rplus 0 (sm_nf_all S) (specrad_incs S fl ul ur) (aconst (sm_ne S) 0) (two S spl spr)) as (W & E & L & P & _).
  - lia.
  - intros k Hk. split; [apply specrad_incs_ok; lia|]. intros p Hp. cbn. eapply two_in; eauto. lia.
  - rewrite E. cbn [bind]. cbn in L.
    assert (HW : forall i, (i < sm_ne S)%nat -> aat W i = rate i).
    { intros i Hi. rewrite (P (fun x => x) ltac:(intros a b; reflexivity) i). cbn [aconst aat]. rewrite Rplus_0_l, Nat.sub_0_r. unfold rate, all_faces. apply rsum_ext. intros k _. apply added_two; auto. }
    match goal with |- context [floop _ ?bb ?ss] =>
      destruct (floop_inv _ (fun j (a : arr R) => alen a = sm_ne S /\ forall k, (k < j)%nat -> aat a k = aat (sm_A S) k / rate k) (sm_ne S) bb ss) as (a & E1 & L1 & P1) end.
    + split; auto. intros; lia.
    + intros k a Hk (L1 & P1). rewrite aget_ok by (rewrite (so_A _ OK); auto). cbn [bind]. rewrite aget_ok by lia. cbn [bind]. rewrite HW by auto.
      unfold rdiv. destruct (Req_EM_T (rate k) 0) as [Z|_]; [exfalso; apply (NZ k Hk Z)|]. cbn [bind]. rewrite aset_ok by lia. eexists; split; [reflexivity|].
      cbn. split; auto. intros q Hq. unfold upd. destruct (Nat.eqb_spec q k); subst; auto. apply P1; lia.
    + eauto.
Qed.
End Steps.
