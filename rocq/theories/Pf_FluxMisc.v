(** Textbook forms of LLF and HLL, HLLC star states, upwinding in either direction. *)
From Coq Require Import Reals Lra Psatz.
From Verif Require Import BaseR M_Gas M_Flux M_BC S_Gas Pf_Flux Pf_FluxCons Pf_HLLC Pf_FluxRot Pf_FluxUp.
Open Scope R_scope.

Definition llf_speed := rusanov_speed.

Lemma llf_formula G ul ur n : 1 < gam G -> physical (gam G) ul -> physical (gam G) ur ->
  llf_flux G ul ur n =
  sscal (1/2) (ssub (sadd (euler_flux (gam G) ul n) (euler_flux (gam G) ur n))
                    (sscal (llf_speed (gam G) ul ur n) (ssub ur ul))).
Proof.
  intros Hg Hl Hr. unfold llf_flux. rewrite !dflux_euler by auto.
  replace (llf_eig G ul ur n) with (llf_speed (gam G) ul ur n).
  { apply st_eq; cbn [mkst cget sscal ssub sadd s0 s1 s2 s3]; ring. }
  unfold llf_eig, llf_speed, rusanov_speed. rewrite !vars_spec by auto. cbv zeta. vproj. rewrite !sound_spec.
  destruct (Rltb_spec (Rabs (normal_velocity ur n) + sound (gam G) ur) (Rabs (normal_velocity ul n) + sound (gam G) ul)).
  - rewrite Rmax_left; lra. - rewrite Rmax_right; lra.
Qed.

Lemma hll_formula G ul ur n : 1 < gam G -> physical (gam G) ul -> physical (gam G) ur ->
  let sl := fst (hll_speeds G ul ur n) in let sr := snd (hll_speeds G ul ur n) in
  let a := Rmin sl 0 in let b := Rmax sr 0 in
  a < b /\
  hll_flux G ul ur n =
  sscal (/ (b - a)) (sadd (ssub (sscal b (euler_flux (gam G) ul n)) (sscal a (euler_flux (gam G) ur n)))
                          (sscal (a * b) (ssub ur ul))).
Proof.
  intros Hg Hl Hr. cbv zeta. pose proof (hll_speeds_ordered G ul ur n Hg Hl Hr) as Ho.
  rewrite hll_flux_alt by auto. cbv zeta.
  destruct (hll_speeds G ul ur n) as [sl sr]. cbn [fst snd] in *.
  assert (Hab : Rmin sl 0 < Rmax sr 0).
  { unfold Rmin, Rmax. destruct (Rle_dec sl 0), (Rle_dec sr 0); lra. }
  split; [exact Hab|].
  unfold hll_coeffs. cbn [h_t1 h_t2 h_t3].
  set (Fl := euler_flux (gam G) ul n). set (Fr := euler_flux (gam G) ur n).
  destruct (Rltb_spec 0 sl) as [A|A]; destruct (Rltb_spec 0 sr) as [B|B]; try lra.
  - rewrite Rmin_right, Rmax_left, !Rabs_pos_eq in * by lra.
    apply st_eq; cbn [mkst cget sscal ssub sadd s0 s1 s2 s3]; field; lra.
  - rewrite Rmin_left, Rmax_left, (Rabs_left1 sl), (Rabs_pos_eq sr) in * by lra.
    apply st_eq; cbn [mkst cget sscal ssub sadd s0 s1 s2 s3]; field; lra.
  - rewrite Rmin_left, Rmax_right, (Rabs_left1 sl), (Rabs_left1 sr) in * by lra.
    apply st_eq; cbn [mkst cget sscal ssub sadd s0 s1 s2 s3]; field; lra.
Qed.

Lemma hll_bounds G ul ur n : 1 < gam G -> physical (gam G) ul -> physical (gam G) ur ->
  let sl := fst (hll_speeds G ul ur n) in let sr := snd (hll_speeds G ul ur n) in
  sl < sr /\
  sl <= normal_velocity ul n - sound (gam G) ul /\ normal_velocity ur n + sound (gam G) ur <= sr /\
  sl <= roe_normal ul ur n - roe_sound (gam G) ul ur /\ roe_normal ul ur n + roe_sound (gam G) ul ur <= sr.
Proof.
  intros Hg Hl Hr. cbv zeta. split; [apply hll_speeds_ordered; auto|].
  rewrite hll_speeds_spec by auto. cbn [fst snd].
  repeat split; first [apply Rmin_l|apply Rmin_r|apply Rmax_l|apply Rmax_r].
Qed.

(** ** HLLC star states *)
Lemma hllc_star_states G ul ur n : 5/4 <= gam G -> physical (gam G) ul -> physical (gam G) ur -> unit_vec n ->
  let sl := fst (hll_speeds G ul ur n) in let sr := snd (hll_speeds G ul ur n) in
  let wl := normal_velocity ul n in let wr := normal_velocity ur n in
  let pl := pressure (gam G) ul in let pr := pressure (gam G) ur in
  let sm := hllc_sm ul ur wl wr pl pr sl sr in
  let ul' := getStarState ul n wl pl sl sm in let ur' := getStarState ur n wr pr sr sm in
  0 < s0 ur * (sr - wr) - s0 ul * (sl - wl) /\
  sl < sm < sr /\ 0 < s0 ul' /\ 0 < s0 ur' /\
  normal_velocity ul' n = sm /\ normal_velocity ur' n = sm /\
  pl + s0 ul * (wl - sl) * (wl - sm) = pr + s0 ur * (wr - sr) * (wr - sm).
Proof.
  intros Hg5 Hl Hr Hn. assert (Hg : 1 < gam G) by lra.
  pose proof (hllc_order G ul ur n Hg5 Hl Hr Hn) as Ho.
  rewrite !vars_spec in Ho by auto. cbv zeta in *. cbn [v_vn v_p] in Ho.
  pose proof (hll_bounds G ul ur n Hg Hl Hr) as Hb. cbv zeta in Hb.
  pose proof (sound_pos _ _ Hg Hl). pose proof (sound_pos _ _ Hg Hr).
  set (sl := fst (hll_speeds G ul ur n)) in *. set (sr := snd (hll_speeds G ul ur n)) in *.
  destruct Ho as (HD & Hlm & Hmr).
  set (wl := normal_velocity ul n) in *. set (wr := normal_velocity ur n) in *.
  set (pl := pressure (gam G) ul) in *. set (pr := pressure (gam G) ur) in *.
  set (sm := hllc_sm ul ur wl wr pl pr sl sr) in *.
  assert (Hrl : 0 < s0 ul) by apply Hl. assert (Hrr : 0 < s0 ur) by apply Hr.
  split; [exact HD|]. split; [lra|].
  assert (P1 : 0 < s0 ul * (sl - wl) / (sl - sm)).
  { replace (s0 ul * (sl - wl) / (sl - sm)) with (s0 ul * (wl - sl) / (sm - sl)) by (field; lra).
    apply Rdiv_lt_0_compat; [apply Rmult_lt_0_compat; lra|lra]. }
  assert (P2 : 0 < s0 ur * (sr - wr) / (sr - sm)).
  { apply Rdiv_lt_0_compat; [apply Rmult_lt_0_compat; lra|lra]. }
  split; [exact P1|]. split; [exact P2|].
  assert (NV : forall u w p ss, 0 < s0 u -> w = normal_velocity u n -> ss - sm <> 0 -> ss - w <> 0 ->
     normal_velocity (getStarState u n w p ss sm) n = sm).
  { intros u w p ss Hu Hw D1 D2. unfold normal_velocity at 1, getStarState. cbv zeta. cbn [s0 s1 s2].
    assert (E : s1 u * vx n + s2 u * vy n = s0 u * w) by (rewrite Hw; unfold normal_velocity; field; lra).
    transitivity (((ss - w) * (s1 u * vx n + s2 u * vy n) + s0 u * (w - ss) * (w - sm) * (vx n ^2 + vy n ^2)) / (s0 u * (ss - w))).
    field; repeat split; lra || auto. rewrite Hn, E. field. split; auto; lra. }
  split; [apply NV; auto; lra|]. split; [apply NV; auto; lra|].
  assert (Es : sm * (s0 ur * (sr - wr) - s0 ul * (sl - wl)) = s0 ur * wr * (sr - wr) - s0 ul * wl * (sl - wl) + pl - pr).
  { unfold sm, hllc_sm. field. lra. }
  lra.
Qed.

(** ** Upwinding either way *)
Lemma roe_normal_swap ul ur n : 0 < s0 ul -> 0 < s0 ur -> roe_normal ur ul (vneg n) = - roe_normal ul ur n.
Proof.
  intros Hl Hr. pose proof (sqrt_lt_R0 _ Hl). pose proof (sqrt_lt_R0 _ Hr).
  unfold roe_normal, roe_velocity, roe_mean, vneg; cbn [vx vy]. field. repeat split; lra.
Qed.
Lemma roe_sound_swap ga ul ur : roe_sound ga ur ul = roe_sound ga ul ur.
Proof.
  unfold roe_sound, roe_enthalpy, roe_velocity, roe_mean; cbn [vx vy].
  rewrite !(Rplus_comm (sqrt (s0 ur) * _)), (Rplus_comm (sqrt (s0 ur))). reflexivity.
Qed.
Lemma normal_velocity_neg u n : normal_velocity u (vneg n) = - normal_velocity u n.
Proof. unfold normal_velocity, vneg, Rdiv; cbn [vx vy]; ring. Qed.
