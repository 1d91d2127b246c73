(** C66, second order: gradients, face states, residual and time steps do not depend on the partition. *)
From Coq Require Import Reals List Arith ZArith Lia Lra Bool.
From Verif Require Import Base BaseR BaseSum M_Gas M_Flux M_Visc M_BC M_BCConf M_Mesh M_Geom M_Part M_Space M_Grad M_Recon S_Space S_Gas S_Mesh S_Recon M_Resid S_Resid S_Par
  Pf_Host Pf_Topo Pf_Incid Pf_Full Pf_Geom Pf_Space Pf_Grad Pf_Recon Pf_Resid Pf_Resid2 Pf_Part Pf_Restrict Pf_Part2 Pf_Linalg Pf_Gas Pf_Slip P_Geom P_Grad P_Flux P_Visc P_Recon P_Resid P_Part Pf_Par P_Par Pf_Par2 ChkMesh.
Import ListNotations.
Open Scope R_scope.

(** What one rank, or a run on one process, is given. [si_gg], [si_rf]: what arrives from the
    neighbours (gradients of ghost cells, states of the other side of shared faces). *)
Record side := mkside { si_gs : gradscheme; si_gg : nat -> grad; si_rf : nat -> st; si_u : arr st; si_ul : arr st; si_ur : arr st;
  si_res : arr st; si_G : arr grad; si_jp : nat -> st; si_dt : option (arr R) }.
Definition run_side (S : smesh) (fl : flow) (rs : recscheme) (x : side) : option resout :=
  compute_residual2 S fl (si_gs x) rs (si_gg x) (si_rf x) (si_u x) (si_ul x) (si_ur x) (si_res x) (si_G x) (si_jp x) (si_dt x).
Record sized (S : smesh) (x : side) : Prop := {
  sz_u : alen (si_u x) = (sm_ne S + sm_nc S)%nat; sz_l : alen (si_ul x) = sm_nf_all S; sz_r : alen (si_ur x) = sm_nf_all S;
  sz_res : alen (si_res x) = sm_ne S; sz_G : alen (si_G x) = (sm_ne S + sm_nc S)%nat; sz_dt : forall d, si_dt x = Some d -> alen d = sm_ne S }.
(** the same gradient scheme on both meshes, least squares with the matrices its constructor computes *)
Definition same_gradients (S S' : smesh) (gs gs' : gradscheme) : Prop := match gs, gs' with
  | GZero, GZero | GGreenGauss, GGreenGauss => True
  | GLeastSquares V, GLeastSquares V' => WLS_ctor S = Some V /\ WLS_ctor S' = Some V'
  | _, _ => False end.
(** the unlimited linear, WENO and Van Albada reconstructions *)
Definition smooth_scheme (rs : recscheme) : Prop := match rs with RLinear | RAlbada => True | RWENO lambda => 0 < lambda | RBJ | RVenkat _ _ => False end.

(** the connectivity face [q] is the face [cf_face] of its cell *)
Lemma conn_face_index m hs X ghost S : built m hs X ghost S -> forall q cf, nth_error (conns m) q = Some cf ->
  (q < sm_nc S)%nat /\ (cf_face cf < aat (sm_nf S) (cf_elem cf))%nat /\ at2 (sm_EF S) (cf_elem cf) (cf_face cf) = (sm_nb S + sm_ni S + q)%nat /\
  f_left (aat (sm_F S) (sm_nb S + sm_ni S + q)) = cf_elem cf /\
  (f_a (aat (sm_F S) (sm_nb S + sm_ni S + q)), f_b (aat (sm_F S) (sm_nb S + sm_ni S + q))) = edge (cell (cells m) (cf_elem cf)) (cf_face cf).
Proof.
  intros B q cf Ec. destruct (built_conn _ _ _ _ _ q cf B Ec) as (Hq & EF). pose proof B as (T & _). destruct (gm_conns _ _ (tl_good _ _ T) cf (nth_error_In _ _ Ec)) as (He & Hf).
  destruct (built_ok _ _ _ _ _ B) as (p & e & ni & s & il & _ & OK & E1 & _ & _ & _ & _ & _ & _ & _ & _ & En & _).
  destruct (so_sur _ OK (sm_nb S + sm_ni S + q) (cf_elem cf) ltac:(unfold sm_nf_all; lia) ltac:(lia)) as (f0 & H0 & Q). { rewrite EF. cbn [f_left]. auto. }
  rewrite En in H0 by auto. destruct (edge_cases _ _ _ _ _ B (cf_elem cf) f0 He H0) as (_ & V). rewrite Q in V.
  destruct V as [(V & _)|[(V & _)|[(V & _)|(q1 & c1 & V & _ & E & _ & F0 & _)]]]; try lia. assert (q1 = q) by lia. subst q1. rewrite Ec in E. injection E as <-. subst f0.
  rewrite En by auto. rewrite EF. cbn [f_left f_a f_b]. rewrite <- pair_eta. auto 10.
Qed.

Section Ranks2.
Variables (g : gmesh) (hs : list (nat * nat)) (dist : arr nat) (nr : nat) (lm : nat -> lmesh).
Variables (jc : nat -> nat -> list nat) (jr : nat -> nat -> list Z) (ji : nat -> nat -> nat) (jx : nat -> nat -> v2) (j0 : nat -> nat -> nat -> Z).
Variables (hsl : nat -> list (nat * nat)) (gh : nat -> nat -> v2) (S : nat -> smesh).
Hypothesis SR : split_run g hs dist nr lm jc jr ji jx j0 hsl gh S.
Variables (gh0 : nat -> v2) (W : smesh).
Hypothesis BW : built (g_m g) hs (g_X g) gh0 W.
Variables (fl : flow) (rs : recscheme) (x0 : side) (x : nat -> side) (out0 : resout) (out : nat -> resout).
Hypothesis TC : tags_covered g fl.
Hypothesis RS : smooth_scheme rs.
Hypothesis Z0 : sized W x0.
Hypothesis Z : forall a, (a < nr)%nat -> sized (S a) (x a).
Hypothesis SG : forall a, (a < nr)%nat -> same_gradients W (S a) (si_gs x0) (si_gs (x a)).
Hypothesis R0 : run_side W fl rs x0 = Some out0.
Hypothesis RR : forall a, (a < nr)%nat -> run_side (S a) fl rs (x a) = Some (out a).
Hypothesis U : forall a l, (a < nr)%nat -> (l < nelem (l_m (lm a)))%nat -> aat (si_u (x a)) l = aat (si_u x0) (aat (l_eglob (lm a)) l).
Hypothesis XU : forall a k a' k' cf', copies nr lm (a, k) (a', k') -> nth_error (conns (l_m (lm a'))) k' = Some cf' ->
  gh a k = aat (sm_rc (S a')) (cf_elem cf') /\ aat (si_u (x a)) (sm_ne (S a) + k)%nat = aat (si_u (x a')) (cf_elem cf').

Notation el a l := (aat (l_eglob (lm a)) l).

Lemma covers : exists bc bc', bcs_cover W fl bc /\ (forall q bf t r, nth_error (bfaces (g_m g)) q = Some bf -> btg bf = t :: r -> mfind (fl_bcs fl) t = Some (bc q)) /\
  (forall bf, In bf (bfaces (g_m g)) -> btg bf <> []) /\
  forall a, (a < nr)%nat -> bcs_cover (S a) fl (bc' a) /\ (forall q bf t r, nth_error (bfaces (l_m (lm a))) q = Some bf -> btg bf = t :: r -> mfind (fl_bcs fl) t = Some (bc' a q)).
Proof.
  pose proof SR as [G Hd Hr RM SE BU D]. destruct (cover_by_tag _ _ _ _ _ fl BW TC) as (bc & C & BC).
  assert (H : forall a, exists b, (a < nr)%nat -> bcs_cover (S a) fl b /\ (forall q bf t r, nth_error (bfaces (l_m (lm a))) q = Some bf -> btg bf = t :: r -> mfind (fl_bcs fl) t = Some (b q))).
  { intros a. destruct (lt_dec a nr) as [Ha|]; [|exists bc; tauto]. destruct (restr_facts g hs dist a (lm a) G Hd _ _ _ _ _ (RM a Ha)) as (_ & _ & _ & _ & _ & F6 & _).
    destruct (cover_by_tag _ _ _ _ _ fl (BU a Ha)) as (b & Cb & BCb).
    - intros bf Hbf. apply In_nth_error in Hbf. destruct Hbf as (q & Eq). assert (T' : tiled (l_m (lm a)) (hsl a)) by apply (BU a Ha). destruct (gm_hosts _ _ (tl_good _ _ T')) as (LH & _).
      destruct (nth_error_some _ (hsl a) q) as ((l & f) & Eh). { assert (q < length (bfaces (l_m (lm a))))%nat by (apply nth_error_Some; congruence). unfold nbface in LH. lia. }
      destruct (F6 (hsl a) q bf l f T' Eq Eh) as (k & gb & P1 & _ & P3). rewrite P3. apply TC. eapply nth_error_In; eauto.
    - exists b. auto. }
  destruct (finite_choice _ bc H nr) as (b & Hb). exists bc, b. split; auto. split; auto. split; [|intros a Ha; apply Hb; auto].
  intros bf Hbf. destruct (TC bf Hbf) as (t & r & b' & Eb & _). congruence.
Qed.

(** every connectivity face has its copy, on the rank and cell it names *)
Lemma partner a q cf : (a < nr)%nat -> nth_error (conns (l_m (lm a))) q = Some cf -> exists a' q' cf', copies nr lm (a, q) (a', q') /\ (a' < nr)%nat /\ nth_error (conns (l_m (lm a'))) q' = Some cf' /\
  (cf_elem cf < nelem (l_m (lm a)))%nat /\ (cf_elem cf' < nelem (l_m (lm a')))%nat /\ el a' (cf_elem cf') = Z.to_nat (cf_gelem cf).
Proof.
  pose proof SR as [G Hd Hr RM SE BU D]. intros Ha Ec. destruct (copies_exist g hs dist nr lm G Hd Hr jc jr ji jx j0 RM SE a q cf Ha Ec) as ((a' & q') & Cy). assert (Cy' := Cy).
  destruct Cy' as (c & cf' & C1 & C2 & C3 & C4 & _). cbn [fst snd] in *. rewrite Ec in C3. injection C3 as <-.
  destruct (copies_geom g hs dist nr lm G Hd jc jr ji jx j0 RM a q a' q' cf cf' Cy Ec C4) as (_ & _ & I1 & I2 & I3 & _). exists a', q', cf'. auto 10.
Qed.

Lemma ghost_centres a : (a < nr)%nat -> forall k cf, nth_error (conns (l_m (lm a))) k = Some cf -> gh a k = aat (sm_rc W) (Z.to_nat (cf_gelem cf)).
Proof.
  pose proof SR as [G Hd Hr RM SE BU D]. intros Ha k cf Ec. destruct (partner a k cf Ha Ec) as (a' & q' & cf' & Cy & Ha' & Ec' & _ & I2 & I3).
  destruct (XU a k a' q' cf' Cy Ec') as (-> & _).
  rewrite (local_centre g hs (lm a') (restr_sub g hs dist a' (lm a') G Hd _ _ _ _ _ (RM a' Ha')) gh0 W (S a') (hsl a') (gh a') BW (BU a' Ha') (cf_elem cf') I2), I3. reflexivity.
Qed.
Lemma states_agree a : (a < nr)%nat -> agree (lm a) (aat (si_u x0)) (aat (si_u (x a))).
Proof.
  pose proof SR as [G Hd Hr RM SE BU D]. intros Ha. split; [intros l Hl; apply U; auto|]. intros q cf Ec. destruct (partner a q cf Ha Ec) as (a' & q' & cf' & Cy & Ha' & Ec' & _ & I2 & I3).
  destruct (built_ok _ _ _ _ _ (BU a Ha)) as (p & e & ni & s & il & _ & _ & E1 & _). rewrite <- E1. destruct (XU a q a' q' cf' Cy Ec') as (_ & ->). rewrite U, I3 by auto. reflexivity.
Qed.

(** *** Gradients *)
Theorem C66_gradients : forall a l, (a < nr)%nat -> (l < nelem (l_m (lm a)))%nat -> aat (ro_grad (out a)) l = aat (ro_grad out0) (el a l).
Proof.
  intros a l Ha Hl. pose proof SR as [G Hd Hr RM SE BU D]. destruct covers as (bc & bc' & C & BC & BT & CC). destruct (CC a Ha) as (C' & BC'). destruct Z0, (Z a Ha).
  refine (proj1 (run_grads g hs (lm a) (restr_sub g hs dist a (lm a) G Hd _ _ _ _ _ (RM a Ha)) gh0 W (S a) (hsl a) (gh a) BW (BU a Ha) (ghost_centres a Ha) D fl bc (bc' a) BC BT BC'
    _ _ rs _ _ _ _ _ _ _ _ _ _ _ _ _ _ _ _ _ _ _ _ C C' _ _ _ _ _ _ _ _ _ _ RS (SG a Ha) R0 (RR a Ha) (states_agree a Ha)) l Hl); auto.
Qed.

(** What arrives are the gradients of the cells ghost cells stand for. *)
Hypothesis XG : forall a k a' k' cf', copies nr lm (a, k) (a', k') -> nth_error (conns (l_m (lm a'))) k' = Some cf' -> si_gg (x a) k = aat (ro_grad (out a')) (cf_elem cf').

Lemma sent_grads a : (a < nr)%nat -> forall q cf, nth_error (conns (l_m (lm a))) q = Some cf -> si_gg (x a) q = aat (ro_grad out0) (Z.to_nat (cf_gelem cf)).
Proof.
  intros Ha q cf Ec. destruct (partner a q cf Ha Ec) as (a' & q' & cf' & Cy & Ha' & Ec' & _ & I2 & I3). rewrite (XG a q a' q' cf' Cy Ec'), C66_gradients, I3 by auto. reflexivity.
Qed.

(** *** Face states on the side of a cell, and time steps *)
Theorem C66_face_states : forall a l f, (a < nr)%nat -> (l < nelem (l_m (lm a)))%nat -> (f < aat (sm_nf (S a)) l)%nat ->
  own_side (S a) (aat (ro_left (out a))) (aat (ro_right (out a))) l (at2 (sm_EF (S a)) l f) = own_side W (aat (ro_left out0)) (aat (ro_right out0)) (el a l) (at2 (sm_EF W) (el a l) f).
Proof.
  intros a l f Ha Hl Hf. pose proof SR as [G Hd Hr RM SE BU D]. destruct covers as (bc & bc' & C & BC & BT & CC). destruct (CC a Ha) as (C' & BC'). destruct Z0, (Z a Ha).
  refine (own_same g hs (lm a) (restr_sub g hs dist a (lm a) G Hd _ _ _ _ _ (RM a Ha)) gh0 W (S a) (hsl a) (gh a) BW (BU a Ha) (ghost_centres a Ha) D fl bc (bc' a) BC BT BC'
    _ _ rs _ _ _ _ _ _ _ _ _ _ _ _ _ _ _ _ _ _ _ _ C C' _ _ _ _ _ _ _ _ _ _ RS (SG a Ha) R0 (RR a Ha) (states_agree a Ha) (sent_grads a Ha) l f Hl Hf); auto.
Qed.
Theorem C66_time_steps : forall a l d0 da, (a < nr)%nat -> (l < nelem (l_m (lm a)))%nat -> si_dt x0 = Some d0 -> si_dt (x a) = Some da ->
  exists d d', ro_dt out0 = Some d /\ ro_dt (out a) = Some d' /\ aat d' l = aat d (el a l).
Proof.
  intros a l d0 da Ha Hl Q Q'. pose proof SR as [G Hd Hr RM SE BU D]. destruct covers as (bc & bc' & C & BC & BT & CC). destruct (CC a Ha) as (C' & BC'). destruct Z0, (Z a Ha).
  refine (dt_same g hs (lm a) (restr_sub g hs dist a (lm a) G Hd _ _ _ _ _ (RM a Ha)) gh0 W (S a) (hsl a) (gh a) BW (BU a Ha) (ghost_centres a Ha) D fl bc (bc' a) BC BT BC'
    _ _ rs _ _ _ _ _ _ _ _ _ _ _ _ _ _ _ _ _ _ _ _ C C' _ _ _ _ _ _ _ _ _ _ RS (SG a Ha) R0 (RR a Ha) (states_agree a Ha) (sent_grads a Ha) l d0 da Hl Q _ Q' _); auto.
Qed.

(** the state on the other side of a shared face, computed by the other rank *)
Lemma across_faces a q a' q' cf cf' : copies nr lm (a, q) (a', q') -> nth_error (conns (l_m (lm a))) q = Some cf -> nth_error (conns (l_m (lm a'))) q' = Some cf' ->
  aat (ro_left (out a')) (sm_nb (S a') + sm_ni (S a') + q')%nat = far_side W (aat (ro_left out0)) (aat (ro_right out0)) (el a (cf_elem cf)) (at2 (sm_EF W) (el a (cf_elem cf)) (cf_face cf)).
Proof.
  intros Cy Ec Ec'. pose proof SR as [G Hd Hr RM SE BU D]. assert (Cy' := Cy). destruct Cy' as (c1 & c2 & Ha & Ha' & Q1 & Q2 & K1 & K2 & K3). cbn [fst snd] in *. rewrite Ec in Q1. rewrite Ec' in Q2. injection Q1 as <-. injection Q2 as <-.
  destruct (copies_geom g hs dist nr lm G Hd jc jr ji jx j0 RM a q a' q' cf cf' Cy Ec Ec') as (X1 & X2 & I1 & I2 & I3 & _).
  assert (Cr : copies nr lm (a', q') (a, q)) by (exists cf', cf; cbn [fst snd]; auto 10).
  destruct (copies_geom g hs dist nr lm G Hd jc jr ji jx j0 RM a' q' a q cf' cf Cr Ec' Ec) as (_ & _ & _ & _ & I4 & _).
  destruct covers as (bc & bc' & C & BC & BT & CC). destruct (CC a Ha) as (Ca & BCa). destruct (CC a' Ha') as (Ca' & BCa').
  pose proof (built_sm _ _ _ _ _ BW) as OW. pose proof (built_sm _ _ _ _ _ (BU a Ha)) as OA. pose proof (built_sm _ _ _ _ _ (BU a' Ha')) as OA'.
  destruct (built_ok _ _ _ _ _ (BU a Ha)) as (pa & ea & nia & sa & ila & TOa & _ & A1 & A2 & A3 & A4 & A5 & A6 & _ & _ & _ & An & _).
  destruct (built_ok _ _ _ _ _ (BU a' Ha')) as (pb & eb & nib & sb & ilb & TOb & _ & B1 & B2 & B3 & B4 & B5 & B6 & _ & _ & _ & Bn & _).
  destruct (conn_face_index _ _ _ _ _ (BU a Ha) q cf Ec) as (F0 & F1 & F2 & F3 & F4). destruct (conn_face_index _ _ _ _ _ (BU a' Ha') q' cf' Ec') as (F0' & F1' & F2' & F3' & F4').
  destruct (same_view g hs (lm a) (restr_sub g hs dist a (lm a) G Hd _ _ _ _ _ (RM a Ha)) gh0 W (S a) (hsl a) (gh a) BW (BU a Ha) D fl bc (bc' a) BC BT BCa _ _ I1 F1) as ((Bd & BdW) & (V1 & _) & V). cbv zeta in *.
  destruct (same_view g hs (lm a') (restr_sub g hs dist a' (lm a') G Hd _ _ _ _ _ (RM a' Ha')) gh0 W (S a') (hsl a') (gh a') BW (BU a' Ha') D fl bc (bc' a') BC BT BCa' _ _ I2 F1') as ((Bd' & BdW') & (V1' & _) & V'). cbv zeta in *.
  pose proof (C66_face_states a' _ _ Ha' I2 F1') as OS. unfold own_side at 1 in OS. rewrite F2' in OS. rewrite F3', Nat.eqb_refl in OS. rewrite OS.
  rewrite F2 in V, V1. rewrite F2' in V', V1'.
  destruct V as [(V & _)|[(V & _)|(q1 & cf1 & V & E1 & Hq & _ & _ & _ & _ & KW & OV)]]; [lia|lia|]. destruct V' as [(V' & _)|[(V' & _)|(q2 & cf2 & V' & E2 & Hq' & _ & _ & _ & _ & KW' & OV')]]; [lia|lia|].
  assert (q1 = q) by lia. assert (q2 = q') by lia. subst q1 q2. rewrite Ec in E1. rewrite Ec' in E2. injection E1 as <-. injection E2 as <-. rewrite <- I3 in OV. rewrite <- I4 in OV'.
  assert (MM : aat (sm_gr W) (at2 (sm_EF W) (el a (cf_elem cf)) (cf_face cf)) = aat (sm_gr W) (at2 (sm_EF W) (el a' (cf_elem cf')) (cf_face cf'))).
  { rewrite <- V1, <- V1'. rewrite (so_mid _ OA), (so_mid _ OA') by (unfold sm_nf_all; lia). rewrite A6, B6.
    pose proof (f_equal fst F4) as Y1. pose proof (f_equal snd F4) as Y2. pose proof (f_equal fst F4') as Y3. pose proof (f_equal snd F4') as Y4. cbn [fst snd] in Y1, Y2, Y3, Y4. rewrite Y1, Y2, Y3, Y4, X1, X2. apply mid_sym. }
  set (kW := at2 (sm_EF W) (el a (cf_elem cf)) (cf_face cf)) in *. set (kW' := at2 (sm_EF W) (el a' (cf_elem cf')) (cf_face cf')) in *.
  destruct (far_of_interior W (aat (ro_left out0)) (aat (ro_right out0)) _ _ OW BdW KW) as (J1 & J2 & J3 & J4). rewrite J3.
  destruct Z0 as [z1 z2 z3 z4 z5 z6]. destruct (Z a' Ha') as [y1 y2 y3 y4 y5 y6].
  destruct (run_grads g hs (lm a') (restr_sub g hs dist a' (lm a') G Hd _ _ _ _ _ (RM a' Ha')) gh0 W (S a') (hsl a') (gh a') BW (BU a' Ha') (ghost_centres a' Ha') D fl bc (bc' a') BC BT BCa'
    _ _ rs _ _ _ _ _ _ _ _ _ _ _ _ _ _ _ _ _ _ _ _ C Ca' z1 z2 z3 z4 z5 y1 y2 y3 y4 y5 RS (SG a' Ha') R0 (RR a' Ha') (states_agree a' Ha')) as (_ & up & ug & _ & _ & _ & _ & OWF & _).
  rewrite OV in *. rewrite OWF by auto. rewrite OWF by auto. rewrite !J4. rewrite !(beyond_other W _ _ _ kW' OW) by (auto; try apply BdW'; lia). rewrite OV', MM. reflexivity.
Qed.

Hypothesis XF : forall a k a' k' cf', copies nr lm (a, k) (a', k') -> nth_error (conns (l_m (lm a'))) k' = Some cf' -> si_rf (x a) k = aat (ro_left (out a')) (sm_nb (S a') + sm_ni (S a') + k')%nat.

(** *** The residual *)
Theorem C66_second_order : 1 < gam (fl_gas fl) -> (fl_flux fl = HLLC -> 5/4 <= gam (fl_gas fl)) ->
  (forall k, (k < sm_nf_all W)%nat -> physical (gam (fl_gas fl)) (aat (ro_left out0) k) /\ physical (gam (fl_gas fl)) (aat (ro_right out0) k)) ->
  (forall a l, (a < nr)%nat -> (l < nelem (l_m (lm a)))%nat -> aat (si_res (x a)) l = aat (si_res x0) (el a l)) ->
  forall a l, (a < nr)%nat -> (l < nelem (l_m (lm a)))%nat -> aat (ro_res (out a)) l = aat (ro_res out0) (el a l).
Proof.
  intros Hg Hh PH HR a l Ha Hl. pose proof SR as [G Hd Hr RM SE BU D]. destruct covers as (bc & bc' & C & BC & BT & CC). destruct (CC a Ha) as (C' & BC').
  pose proof (built_sm _ _ _ _ _ BW) as OW. pose proof (built_sm _ _ _ _ _ (BU a Ha)) as OA. destruct Z0 as [z1 z2 z3 z4 z5 z6]. destruct (Z a Ha) as [y1 y2 y3 y4 y5 y6].
  destruct (counts g hs (lm a) (restr_sub g hs dist a (lm a) G Hd _ _ _ _ _ (RM a Ha)) gh0 W (S a) (hsl a) (gh a) BW (BU a Ha)) as (N1 & _ & N3 & _ & _ & N6). destruct (N6 l Hl) as (Hi & _).
  destruct (residual2_inv _ _ bc _ _ _ _ _ _ _ _ _ _ _ _ OW C z1 z2 z3 z4 R0) as (_ & P). destruct (residual2_inv _ _ (bc' a) _ _ _ _ _ _ _ _ _ _ _ _ OA C' y1 y2 y3 y4 (RR a Ha)) as (_ & P').
  apply st_ext. intros v. rewrite P, P' by lia. rewrite HR by auto. f_equal.
  refine (outflow_same2 g hs (lm a) (restr_sub g hs dist a (lm a) G Hd _ _ _ _ _ (RM a Ha)) gh0 W (S a) (hsl a) (gh a) BW (BU a Ha) (ghost_centres a Ha) D fl bc (bc' a) BC BT BC'
    _ _ rs _ _ _ _ _ _ _ _ _ _ _ _ _ _ _ _ _ _ _ _ C C' z1 z2 z3 z4 z5 y1 y2 y3 y4 y5 RS (SG a Ha) R0 (RR a Ha) (states_agree a Ha) (sent_grads a Ha) _ l v Hl Hg Hh PH).
  intros q cf Ec. destruct (partner a q cf Ha Ec) as (a' & q' & cf' & Cy & Ha' & Ec' & _). rewrite (XF a q a' q' cf' Cy Ec'). apply (across_faces a q a' q' cf cf'); auto.
Qed.
End Ranks2.
Print Assumptions C66_gradients.
Print Assumptions C66_face_states.
Print Assumptions C66_time_steps.
Print Assumptions C66_second_order.

(** ** The exchanges assumed above can take place *)
Lemma run_with_dt S fl gs rs gg rf u ul0 ur0 res G0 jp dt d out : compute_residual2 S fl gs rs gg rf u ul0 ur0 res G0 jp None = Some out ->
  maybe_dt S fl (ro_left out) (ro_right out) dt = Some d ->
  compute_residual2 S fl gs rs gg rf u ul0 ur0 res G0 jp dt = Some (mkro (ro_res out) (ro_left out) (ro_right out) (ro_grad out) d).
Proof.
  intros E M. unfold compute_residual2 in *.
  do 6 (step_bind E; cbn [bind]). destruct x4 as (ul3 & ur3). do 7 (step_bind E; cbn [bind]). injection E as <-. cbn [ro_left ro_right ro_res ro_grad] in *. rewrite M. reflexivity.
Qed.

(** what is sent when the run on one process leaves [out0] *)
Definition sent_grad (lm : nat -> lmesh) (out0 : resout) (a q : nat) : grad :=
  match nth_error (conns (l_m (lm a))) q with Some cf => aat (ro_grad out0) (Z.to_nat (cf_gelem cf)) | None => grad0 end.
Definition sent_face (lm : nat -> lmesh) (W : smesh) (out0 : resout) (a q : nat) : st :=
  match nth_error (conns (l_m (lm a))) q with Some cf => far_side W (aat (ro_left out0)) (aat (ro_right out0)) (aat (l_eglob (lm a)) (cf_elem cf)) (at2 (sm_EF W) (aat (l_eglob (lm a)) (cf_elem cf)) (cf_face cf)) | None => szero end.
Lemma exchange_core : forall g hs dist nr lm jc jr ji jx j0 hsl gh S, split_run g hs dist nr lm jc jr ji jx j0 hsl gh S ->
  forall gh0 W, built (g_m g) hs (g_X g) gh0 W ->
  forall fl rs x0 out0 (y : nat -> side), tags_covered g fl -> smooth_scheme rs -> sized W x0 -> (forall a, (a < nr)%nat -> sized (S a) (y a)) ->
  (forall a, (a < nr)%nat -> same_gradients W (S a) (si_gs x0) (si_gs (y a))) -> run_side W fl rs x0 = Some out0 ->
  (forall a l, (a < nr)%nat -> (l < nelem (l_m (lm a)))%nat -> aat (si_u (y a)) l = aat (si_u x0) (aat (l_eglob (lm a)) l)) ->
  (forall a k a' k' cf', copies nr lm (a, k) (a', k') -> nth_error (conns (l_m (lm a'))) k' = Some cf' ->
     gh a k = aat (sm_rc (S a')) (cf_elem cf') /\ aat (si_u (y a)) (sm_ne (S a) + k)%nat = aat (si_u (y a')) (cf_elem cf')) ->
  (forall a, (a < nr)%nat -> si_dt (y a) = None \/ si_dt x0 <> None) ->
  let gg := sent_grad lm out0 in let rf := sent_face lm W out0 in exists out, let x a := mkside (si_gs (y a)) (gg a) (rf a) (si_u (y a)) (si_ul (y a)) (si_ur (y a)) (si_res (y a)) (si_G (y a)) (si_jp (y a)) (si_dt (y a)) in
  (forall a, (a < nr)%nat -> run_side (S a) fl rs (x a) = Some (out a)) /\
  (forall a k a' k' cf', copies nr lm (a, k) (a', k') -> nth_error (conns (l_m (lm a'))) k' = Some cf' ->
     gg a k = aat (ro_grad (out a')) (cf_elem cf') /\ rf a k = aat (ro_left (out a')) (sm_nb (S a') + sm_ni (S a') + k')%nat).
Proof.
  intros g hs dist nr lm jc jr ji jx j0 hsl gh S SR gh0 W BW fl rs x0 out0 y TC RS Z0 Z SG R0 U XU DT. pose proof SR as [G Hd Hr RM SE BU D].
  intros gg rf.
  set (x := fun a => mkside (si_gs (y a)) (gg a) (rf a) (si_u (y a)) (si_ul (y a)) (si_ur (y a)) (si_res (y a)) (si_G (y a)) (si_jp (y a)) (si_dt (y a))).
  destruct (covers g hs dist nr lm jc jr ji jx j0 hsl gh S SR gh0 W BW fl TC) as (bc & bc' & C & BC & BT & CC).
  pose proof (built_sm _ _ _ _ _ BW) as OW. assert (Z0c := Z0). destruct Z0c as [z1 z2 z3 z4 z5 z6].
  assert (RR : forall a, exists o, (a < nr)%nat -> run_side (S a) fl rs (x a) = Some o).
  { intros a. destruct (lt_dec a nr) as [Ha|]; [|exists out0; lia]. destruct (CC a Ha) as (C' & BC'). pose proof (built_sm _ _ _ _ _ (BU a Ha)) as OA. destruct (Z a Ha) as [y1 y2 y3 y4 y5 y6].
    assert (SC : scheme_runs (S a) (si_gs (y a)) rs).
    { split; [|destruct rs; auto]. specialize (SG a Ha). destruct (si_gs x0), (si_gs (y a)); cbn [same_gradients] in SG; try tauto.
      destruct (wls_ctor_ok (S a) OA) as (V2 & Q & L2 & _). destruct SG as (_ & Q'). rewrite Q in Q'. injection Q' as <-. exact L2. }
    destruct (C63_second_order_runs _ _ _ _ _ (BU a Ha) fl (bc' a) (si_gs (y a)) rs (gg a) (rf a) (si_u (y a)) (si_ul (y a)) (si_ur (y a)) (si_res (y a)) (si_G (y a)) (si_jp (y a)) C' SC y1 y2 y3 y4 y5) as (o & E).
    destruct (si_dt (y a)) as [da|] eqn:Ed.
    2:{ exists o. intros _. unfold run_side, x. cbn [si_gs si_gg si_rf si_u si_ul si_ur si_res si_G si_jp si_dt]. rewrite Ed. exact E. }
    destruct (si_dt x0) as [d0|] eqn:E0; [|destruct (DT a Ha); [congruence|tauto]].
    destruct (counts g hs (lm a) (restr_sub g hs dist a (lm a) G Hd _ _ _ _ _ (RM a Ha)) gh0 W (S a) (hsl a) (gh a) BW (BU a Ha)) as (N1 & _ & N3 & _ & _ & N6).
    assert (V0 : match si_gs x0 with GLeastSquares V => alen V = sm_ne W | _ => True end).
    { specialize (SG a Ha). destruct (si_gs x0), (si_gs (y a)); cbn [same_gradients] in SG; try tauto. destruct (wls_ctor_ok W OW) as (V2 & Q & L2 & _). destruct SG as (Q' & _). rewrite Q in Q'. injection Q' as <-. exact L2. }
    assert (R1 := R0). unfold run_side in R1. 
    destruct (run_facts _ _ _ _ _ BW fl bc _ rs _ _ _ _ _ _ _ _ _ _ C z1 z2 z3 z4 z5 RS V0 R1) as (_ & _ & _ & _ & _ & _ & _ & _ & _ & A7 & A8 & _).
    destruct (run_facts _ _ _ _ _ (BU a Ha) fl (bc' a) _ rs _ _ _ _ _ _ _ _ _ _ C' y1 y2 y3 y4 y5 RS (proj1 SC) E) as (_ & _ & _ & _ & _ & _ & _ & _ & _ & B7 & B8 & _).
    pose proof (run_dt _ _ _ _ _ _ _ _ _ _ _ _ _ _ R1) as M. rewrite E0 in M. cbn [maybe_dt] in M. step_bind M. destruct (timestep_inv W fl _ _ _ _ OW A7 A8 (z6 _ eq_refl) Q) as (_ & P).
    destruct (timestep_ok (S a) fl (ro_left o) (ro_right o) OA B7 B8 da (y6 _ eq_refl)) as (d & ED & _).
    { intros l Hl. rewrite N3 in Hl. destruct (N6 l Hl) as (Hi & _).
      rewrite (rate_same g hs (lm a) (restr_sub g hs dist a (lm a) G Hd _ _ _ _ _ (RM a Ha)) gh0 W (S a) (hsl a) (gh a) BW (BU a Ha) (ghost_centres g hs dist nr lm jc jr ji jx j0 hsl gh S SR gh0 W BW y XU a Ha) D fl bc (bc' a) BC BT BC'
        _ _ rs _ _ _ _ _ _ _ _ _ _ _ _ _ _ _ _ _ _ _ _ C C' z1 z2 z3 z4 z5 y1 y2 y3 y4 y5 RS (SG a Ha) R1 E (states_agree g hs dist nr lm jc jr ji jx j0 hsl gh S SR x0 y U XU a Ha)); auto.
      - apply P; lia.
      - intros q cf Ec. unfold gg, sent_grad. rewrite Ec. reflexivity. }
    eexists. intros _. unfold run_side, x. cbn [si_gs si_gg si_rf si_u si_ul si_ur si_res si_G si_jp si_dt]. rewrite Ed. eapply run_with_dt; [exact E|]. cbn [maybe_dt]. rewrite ED. reflexivity. }
  destruct (finite_choice _ out0 RR nr) as (out & RO).
  assert (Zx : forall a, (a < nr)%nat -> sized (S a) (x a)) by (intros a Ha; destruct (Z a Ha); split; auto).
  assert (RX : forall a, (a < nr)%nat -> run_side (S a) fl rs (x a) = Some (out a)) by (intros a Ha; apply RO; auto).
  assert (XG : forall a k a' k' cf', copies nr lm (a, k) (a', k') -> nth_error (conns (l_m (lm a'))) k' = Some cf' -> si_gg (x a) k = aat (ro_grad (out a')) (cf_elem cf')).
  { intros a k a' k' cf' Cy Ec'. assert (Cy' := Cy). destruct Cy' as (cf & c2 & C1 & C2 & C3 & _). cbn [fst snd] in *.
    destruct (copies_geom g hs dist nr lm G Hd jc jr ji jx j0 RM a k a' k' cf cf' Cy C3 Ec') as (_ & _ & _ & I2 & I3 & _).
    rewrite (C66_gradients g hs dist nr lm jc jr ji jx j0 hsl gh S SR gh0 W BW fl rs x0 x out0 out TC RS Z0 Zx SG R0 RX U XU a' (cf_elem cf') C2 I2).
    cbn [x si_gg]. unfold gg, sent_grad. rewrite C3, I3. reflexivity. }
  exists out. cbv zeta. split; [exact RX|]. intros a k a' k' cf' Cy Ec'. split; [exact (XG a k a' k' cf' Cy Ec')|].
  assert (Cy' := Cy). destruct Cy' as (cf & c2 & C1 & C2 & C3 & _). cbn [fst snd] in *.
  rewrite (across_faces g hs dist nr lm jc jr ji jx j0 hsl gh S SR gh0 W BW fl rs x0 x out0 out TC RS Z0 Zx SG R0 RX U XU XG a k a' k' cf cf' Cy C3 Ec'). unfold rf, sent_face. rewrite C3. reflexivity.
Qed.
(** Whenever the run on one process completes, so do those of the ranks, with gradients and face
    states exchanged between the owners of shared faces. *)
Theorem C66_exchange_exists : forall g hs dist nr lm jc jr ji jx j0 hsl gh S, split_run g hs dist nr lm jc jr ji jx j0 hsl gh S ->
  forall gh0 W, built (g_m g) hs (g_X g) gh0 W ->
  forall fl rs x0 out0 (y : nat -> side), tags_covered g fl -> smooth_scheme rs -> sized W x0 -> (forall a, (a < nr)%nat -> sized (S a) (y a)) ->
  (forall a, (a < nr)%nat -> same_gradients W (S a) (si_gs x0) (si_gs (y a))) -> run_side W fl rs x0 = Some out0 ->
  (forall a l, (a < nr)%nat -> (l < nelem (l_m (lm a)))%nat -> aat (si_u (y a)) l = aat (si_u x0) (aat (l_eglob (lm a)) l)) ->
  (forall a k a' k' cf', copies nr lm (a, k) (a', k') -> nth_error (conns (l_m (lm a'))) k' = Some cf' ->
     gh a k = aat (sm_rc (S a')) (cf_elem cf') /\ aat (si_u (y a)) (sm_ne (S a) + k)%nat = aat (si_u (y a')) (cf_elem cf')) ->
  (forall a, (a < nr)%nat -> si_dt (y a) = None \/ si_dt x0 <> None) ->
  exists gg rf out, let x a := mkside (si_gs (y a)) (gg a) (rf a) (si_u (y a)) (si_ul (y a)) (si_ur (y a)) (si_res (y a)) (si_G (y a)) (si_jp (y a)) (si_dt (y a)) in
  (forall a, (a < nr)%nat -> run_side (S a) fl rs (x a) = Some (out a)) /\
  (forall a k a' k' cf', copies nr lm (a, k) (a', k') -> nth_error (conns (l_m (lm a'))) k' = Some cf' ->
     gg a k = aat (ro_grad (out a')) (cf_elem cf') /\ rf a k = aat (ro_left (out a')) (sm_nb (S a') + sm_ni (S a') + k')%nat).
Proof.
  intros g hs dist nr lm jc jr ji jx j0 hsl gh S SR gh0 W BW fl rs x0 out0 y TC RS Z0 Z SG R0 U XU DT.
  destruct (exchange_core g hs dist nr lm jc jr ji jx j0 hsl gh S SR gh0 W BW fl rs x0 out0 y TC RS Z0 Z SG R0 U XU DT) as (out & Q). exists (sent_grad lm out0), (sent_face lm W out0), out. exact Q.
Qed.
Print Assumptions C66_exchange_exists.

(** Example: the ring of P_Par.v on two ranks, with states that differ between them; zero gradients, so
    that all face states are seen to be physical; the time step is asked for. *)
Definition ringU (i : nat) : st := if (i =? 0)%nat then uA else uB.
Definition ring_side (S : smesh) (u : arr st) : side :=
  mkside GZero (fun _ => grad0) (fun _ => uA) u (aconst (sm_nf_all S) uA) (aconst (sm_nf_all S) uA) (aconst (sm_ne S) (mks 0 0 0 0)) (aconst (sm_ne S + sm_nc S) grad0) (fun _ => uA) (Some (aconst (sm_ne S) 0)).
Lemma ring_sized S u : alen u = (sm_ne S + sm_nc S)%nat -> sized S (ring_side S u).
Proof. intros H. split; auto; try reflexivity. intros d E. injection E as <-. reflexivity. Qed.

Lemma ring_whole_physical gh0 W rs dt (u ul ur res : arr st) G jp gg rf out bc : rs = RLinear -> built ring ring_h ringX gh0 W -> bcs_cover W ringfl bc ->
  (forall k, (k < sm_nb W)%nat -> bc k = BFar uA \/ bc k = BExtrap \/ bc k = BSlip) ->
  alen u = (sm_ne W + sm_nc W)%nat -> alen ul = sm_nf_all W -> alen ur = sm_nf_all W -> alen res = sm_ne W -> alen G = (sm_ne W + sm_nc W)%nat ->
  (forall i, (i < 7)%nat -> physical (gam air) (aat u i)) ->
  compute_residual2 W ringfl GZero rs gg rf u ul ur res G jp dt = Some out ->
  forall k, (k < sm_nf_all W)%nat -> physical (gam air) (aat (ro_left out) k) /\ physical (gam air) (aat (ro_right out) k).
Proof.
  intros -> B C BK Lu L0 R0 LR LG PH E. pose proof (built_sm _ _ _ _ _ B) as OK.
  destruct (run_facts _ _ _ _ _ B ringfl bc GZero RLinear gg rf u ul ur res G jp dt out C Lu L0 R0 LR LG Logic.I Logic.I E) as (up & ug & G1 & A1 & A2 & A3 & A4 & A5 & A6 & A7 & A8 & A9 & A10 & A11 & A12 & A13).
  destruct (built_ok _ _ _ _ _ B) as (p & e & ni & s & il & _ & _ & E1 & _ & _ & E4 & _).
  assert (N : sm_ne W = 7%nat) by (rewrite E1; reflexivity). assert (NC : sm_nc W = 0%nat) by (rewrite E4; reflexivity).
  destruct (zero_ok W G ltac:(lia)) as (Z & QZ & _ & PZ & _). cbn [compute_gradients] in A5. unfold ZeroGradients in A5. rewrite QZ in A5. injection A5 as <-.
  assert (OS : forall i k, (i < 7)%nat -> bounds W i k -> own_side W (aat (ro_left out)) (aat (ro_right out)) i k = aat u i).
  { intros i k Hi Bd. rewrite A11 by (auto; lia). cbn [rec_value]. rewrite A9, PZ, A3 by lia. destruct (PH i Hi) as (Hr & _).
    assert (LE : forall w a b, linearExtrapolate w gzero sone a b = w). { intros w a b. apply st_ext. intros v. destruct w, v; unfold linearExtrapolate, gzero, sone; cbn; ring. }
    rewrite LE. change (getConservedFromPrimitive_inplace (fl_gas ringfl)) with (getConservedFromPrimitive_inplace air). change (fl_gas ringfl) with air.
    transitivity (getConservedFromPrimitive air (getPrimitiveFromConserved air (aat u i))); [|apply cons_prim; cbn; lra].
    destruct (aat u i) as [a0 a1 a2 a3]. cbn in Hr. unfold getConservedFromPrimitive_inplace, getConservedFromPrimitive, getPrimitiveFromConserved. cbn. reflexivity. }
  intros k Hk. pose proof (so_left _ OK k Hk) as SL.
  assert (PL : aat (ro_left out) k = aat u (f_left (aat (sm_F W) k))).
  { rewrite <- (OS (f_left (aat (sm_F W) k)) k) by (try lia; split; auto). unfold own_side. rewrite Nat.eqb_refl. reflexivity. }
  split; [rewrite PL; apply PH; lia|]. destruct (lt_dec k (sm_nb W)) as [K|K].
  - rewrite A12, PL by auto. assert (PP := PH (f_left (aat (sm_F W) k)) ltac:(lia)). destruct (face_unit _ _ _ _ _ B ringX_distinct k Hk) as (UN & _).
    destruct (BK k K) as [->|[->| ->]]; cbn [ghost_state]; [|exact PP|apply slip_physical; auto]. unfold farfield_gs. apply ex_physical.
  - assert (Hk' := Hk). unfold sm_nf_all in Hk'. pose proof (so_int _ OK k ltac:(lia)) as SI. pose proof (lr_ne W k OK Hk) as NE.
    assert (PR : aat (ro_right out) k = aat u (f_right (aat (sm_F W) k))).
    { rewrite <- (OS (f_right (aat (sm_F W) k)) k) by (try lia; split; auto). unfold own_side. destruct (Nat.eqb_spec (f_left (aat (sm_F W) k)) (f_right (aat (sm_F W) k))); [congruence|reflexivity]. }
    rewrite PR. apply PH. lia.
Qed.

Example C66_second_order_ex : exists g lm jc jr ji jx j0 hsl gh S W out0 (u : nat -> arr st) gg rf out,
  let x0 := ring_side W (mkarr 7 ringU) in
  let x a := mkside GZero (gg a) (rf a) (u a) (si_ul (ring_side (S a) (u a))) (si_ur (ring_side (S a) (u a))) (si_res (ring_side (S a) (u a))) (si_G (ring_side (S a) (u a))) (fun _ => uA) (si_dt (ring_side (S a) (u a))) in
  split_run g ring_h ring_d 2 lm jc jr ji jx j0 hsl gh S /\ built (g_m g) ring_h (g_X g) (fun _ => vzero) W /\ g_m g = ring /\ tags_covered g ringfl /\
  sized W x0 /\ (forall a, (a < 2)%nat -> sized (S a) (x a)) /\ run_side W ringfl RLinear x0 = Some out0 /\ (forall a, (a < 2)%nat -> run_side (S a) ringfl RLinear (x a) = Some (out a)) /\
  (forall a l, (a < 2)%nat -> (l < nelem (l_m (lm a)))%nat -> aat (u a) l = ringU (aat (l_eglob (lm a)) l)) /\
  (forall a k a' k' cf', copies 2 lm (a, k) (a', k') -> nth_error (conns (l_m (lm a'))) k' = Some cf' ->
     (gh a k = aat (sm_rc (S a')) (cf_elem cf') /\ aat (u a) (sm_ne (S a) + k)%nat = aat (u a') (cf_elem cf')) /\
     gg a k = aat (ro_grad (out a')) (cf_elem cf') /\ rf a k = aat (ro_left (out a')) (sm_nb (S a') + sm_ni (S a') + k')%nat) /\
  (forall k, (k < sm_nf_all W)%nat -> physical (gam air) (aat (ro_left out0) k) /\ physical (gam air) (aat (ro_right out0) k)) /\
  (exists a l, (a < 2)%nat /\ (l < nelem (l_m (lm a)))%nat /\ aat (u a) l = uA) /\ (exists a l, (a < 2)%nat /\ (l < nelem (l_m (lm a)))%nat /\ aat (u a) l = uB) /\ uA <> uB.
Proof.
  destruct (global_of ring ring_h ring_tiled eq_refl ringX (mkarr 7 (fun _ => [])) eq_refl eq_refl) as (t & G). set (g := mkgm ring t ringX (mkarr 7 (fun _ => []))) in *.
  assert (H34 : forall c, In c (cells ring) -> (length c = 3 \/ length c = 4)%nat).
  { intros c Hc. left. unfold ring in Hc. cbn [cells In] in Hc. repeat (destruct Hc as [<-|Hc]; [reflexivity|]). contradiction. }
  assert (HR : forall i, (i < 7)%nat -> (aat ring_d i < 2)%nat) by (intros i _; unfold ring_d; cbn; destruct (i =? 0)%nat; lia).
  destruct (C64_runs_exist g ring_h ring_d 2 G eq_refl HR H34 ringX_distinct (ring_seen t _) ringU) as (lm & jc & jr & ji & jx & j0 & hsl & gh & S & u & SR & SU & EX).
  destruct (C86_setup_total ring ring_h ringX (fun _ => vzero) (fun _ _ => 0%Z) (fun _ => mkface 0 0 0 0) (fun _ _ => 0%nat) (fun _ => []) (fun _ => mkfm vzero 0) (fun _ => 0) (fun _ => vzero) (fun _ => vzero) ring_tiled H34 eq_refl) as (W & _ & BW).
  pose proof (built_sm _ _ _ _ _ BW) as OW. destruct (built_ok _ _ _ _ _ BW) as (p & e & ni & s & il & _ & _ & E1 & E2 & _ & E4 & _ & _ & EA & _).
  assert (N : sm_ne W = 7%nat) by (rewrite E1; reflexivity). assert (NC : sm_nc W = 0%nat) by (rewrite E4; reflexivity). assert (NB : sm_nb W = 3%nat) by (rewrite E2; reflexivity).
  assert (TC : tags_covered g ringfl). { intros bf Hb. cbn in Hb. destruct Hb as [<-|[<-|[<-|[]]]]; do 3 eexists; split; reflexivity. }
  destruct (cover_by_tag _ _ _ _ _ ringfl BW TC) as (bc & C & BC).
  assert (BK : forall k, (k < sm_nb W)%nat -> bc k = BFar uA \/ bc k = BExtrap \/ bc k = BSlip).
  { intros k Hk. rewrite NB in Hk. destruct k as [|[|[|k]]]; [pose proof (BC 0%nat _ _ _ eq_refl eq_refl) as Q|pose proof (BC 1%nat _ _ _ eq_refl eq_refl) as Q|pose proof (BC 2%nat _ _ _ eq_refl eq_refl) as Q|lia]; cbn in Q; assert (Q2 := f_equal (fun o => match o with Some b => b | None => BSlip end) Q); cbn in Q2; rewrite <- Q2; auto. }
  assert (PU : forall i, physical (gam air) (ringU i)) by (intros i; unfold ringU; destruct (i =? 0)%nat; apply ex_physical).
  set (x0 := ring_side W (mkarr 7 ringU)). assert (Z0 : sized W x0) by (apply ring_sized; cbn; lia). assert (Z0c := Z0). destruct Z0c as [z1 z2 z3 z4 z5 z6].
  destruct (C63_second_order_runs _ _ _ _ _ BW ringfl bc GZero RLinear (si_gg x0) (si_rf x0) (si_u x0) (si_ul x0) (si_ur x0) (si_res x0) (si_G x0) (si_jp x0) C (conj Logic.I Logic.I) z1 z2 z3 z4 z5) as (o & E).
  pose proof (ring_whole_physical _ W _ _ _ _ _ _ _ _ _ _ o bc eq_refl BW C BK z1 z2 z3 z4 z5 ltac:(intros i _; apply PU) E) as PF.
  destruct (run_facts _ _ _ _ _ BW ringfl bc GZero RLinear _ _ _ _ _ _ _ _ _ o C z1 z2 z3 z4 z5 Logic.I Logic.I E) as (_ & _ & _ & _ & _ & _ & _ & _ & _ & A7 & A8 & _).
  destruct (C68_time_step _ _ _ _ _ BW ringX_distinct) with (fl := ringfl) (ul := ro_left o) (ur := ro_right o) (dt := aconst (sm_ne W) 0) as (d & ED & _); auto.
  { intros i Hi. rewrite EA by (cbn in *; lia). rewrite N in Hi. do 7 (destruct i as [|i]; [unfold S_Geom.polygon_area, S_Geom.cross; cbn; lra|]). lia. }
  { cbn. lra. } { intros _. cbn. split; [lra|]. split; [lra|]. intros _; repeat split; lra. }
  { intros k Hk. apply PF; auto. } { intros k Hk. apply PF; unfold sm_nf_all; lia. }
  assert (R0 : run_side W ringfl RLinear x0 = Some (mkro (ro_res o) (ro_left o) (ro_right o) (ro_grad o) (Some d))).
  { unfold run_side. eapply run_with_dt; [exact E|]. cbn [si_dt x0 ring_side maybe_dt]. rewrite ED. reflexivity. }
  set (out0 := mkro _ _ _ _ _) in R0.
  assert (UL : forall a, (a < 2)%nat -> alen (u a) = (sm_ne (S a) + sm_nc (S a))%nat) by (intros a Ha; apply SU; auto).
  assert (UE : forall a l, (a < 2)%nat -> (l < nelem (l_m (lm a)))%nat -> aat (u a) l = ringU (aat (l_eglob (lm a)) l)). { intros a l Ha Hl. destruct (SU a Ha) as (_ & Q & N'). apply Q. lia. }
  destruct (C66_exchange_exists g ring_h ring_d 2 lm jc jr ji jx j0 hsl gh S SR _ W BW ringfl RLinear x0 out0 (fun a => ring_side (S a) (u a)) TC Logic.I Z0) as (gg & rf & out & RX & XX).
  { intros a Ha. apply ring_sized. auto. } { intros a Ha. exact Logic.I. } { exact R0. } { exact UE. } { exact EX. } { intros a Ha. right. discriminate. }
  exists g, lm, jc, jr, ji, jx, j0, hsl, gh, S, W, out0, u, gg, rf, out. cbv zeta. pose proof SR as [_ Hd _ RM SE BU _].
  destruct (restr_facts _ ring_h ring_d 1 (lm 1%nat) G Hd _ _ _ _ _ (RM 1%nat ltac:(lia))) as (_ & _ & F3 & _). destruct (restr_facts _ ring_h ring_d 0 (lm 0%nat) G Hd _ _ _ _ _ (RM 0%nat ltac:(lia))) as (_ & _ & F3' & _).
  split; [exact SR|]. split; [exact BW|]. split; [reflexivity|]. split; [exact TC|]. split; [exact Z0|]. split. { intros a Ha. specialize (UL a Ha). apply (ring_sized (S a) (u a)) in UL. destruct UL. split; auto. }
  split; [exact R0|]. split; [exact RX|]. split; [exact UE|]. split. { intros a k a' k' cf' Cy Ec. split; [exact (EX a k a' k' cf' Cy Ec)|exact (XX a k a' k' cf' Cy Ec)]. }
  split; [exact PF|]. split; [|split].
  - destruct (F3 0%nat ltac:(cbn; lia) eq_refl) as (l & Hl & El). exists 1%nat, l. split; [lia|]. split; auto. rewrite UE, El by (auto; lia). reflexivity.
  - destruct (F3' 1%nat ltac:(cbn; lia) eq_refl) as (l & Hl & El). exists 0%nat, l. split; [lia|]. split; auto. rewrite UE, El by (auto; lia). reflexivity.
  - unfold uA, uB. intros Q. inversion Q; lra.
Qed.
