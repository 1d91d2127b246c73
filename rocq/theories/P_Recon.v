(** Properties C57-C62: reconstruction of face values. Vocabulary: S_Space.v, S_Recon.v,
    S_Visc.v [linear_field]. [built]: Pf_Space.v. [sized N s]: both face arrays have N rows. *)
From Coq Require Import Reals Lra List Arith Lia ZArith Bool.
From Verif Require Import Base BaseR BaseSum M_Gas M_Mesh M_Geom S_Mesh S_Geom S_Visc Pf_Topo Pf_Incid Pf_Full Pf_Geom P_Geom ChkMesh
  M_Space S_Space Pf_Space Pf_Grad P_Grad S_Recon M_Recon Pf_Recon.
Import ListNotations.
Open Scope R_scope.

Lemma lin_at c ga gb p q v : cget (linear_field c ga gb p) v - cget (linear_field c ga gb q) v = along (mkgrad ga gb) v (vsub p q).
Proof. unfold linear_field, along. destruct v; cbn; ring. Qed.
Lemma sone_v v : cget sone v = 1.
Proof. destruct v; reflexivity. Qed.

(** ** C57 *)
(** Both sides of each face get the value extrapolated with their own cell's gradient. *)
Theorem C57_formula : forall m hs X ghost S, built m hs X ghost S ->
  forall (u : arr st) (G : arr grad) (s : faces2),
  alen u = (sm_ne S + sm_nc S)%nat -> (sm_ne S <= alen G)%nat -> sized (sm_nf_all S) s ->
  exists s', LinearUnlimited S u G s = Some s' /\ sized (sm_nf_all S) s' /\
  let value i k v := cget (aat u i) v + along (aat G i) v (vsub (aat (sm_gr S) k) (aat (sm_rc S) i)) in
  forall k, (k < sm_nf_all S)%nat ->
    (forall v, cget (aat (fst s') k) v = value (f_left (aat (sm_F S) k)) k v) /\
    ((sm_nb S <= k < sm_nb S + sm_ni S)%nat -> forall v, cget (aat (snd s') k) v = value (f_right (aat (sm_F S) k)) k v) /\
    (~ (sm_nb S <= k < sm_nb S + sm_ni S)%nat -> aat (snd s') k = aat (snd s) k).
Proof.
  intros m hs X ghost S B u G s Lu LG Hs. pose proof (built_sm _ _ _ _ _ B) as OK.
  set (W := fun (i k : nat) => linearExtrapolate (aat u i) (aat G i) sone (aat (sm_gr S) k) (aat (sm_rc S) i)).
  assert (WE : forall i k v, cget (W i k) v = cget (aat u i) v + along (aat G i) v (vsub (aat (sm_gr S) k) (aat (sm_rc S) i))).
  { intros i k v. unfold W. rewrite lim_val, sone_v. ring. }
  set (fl := fun k => f_left (aat (sm_F S) k)). set (fr := fun k => f_right (aat (sm_F S) k)).
  assert (OUT : forall k t, (k < sm_nf_all S)%nat -> sized (sm_nf_all S) t ->
     lin_outer S u G k t = Some (mkarr (alen (fst t)) (upd (aat (fst t)) k (W (fl k) k)), snd t)).
  { intros k t Hk (T1 & T2). pose proof (so_left _ OK k Hk). unfold lin_outer. rewrite (aget_ok _ (sm_F S)) by (rewrite (so_F _ OK); auto). cbn [bind].
    rewrite (aget_ok _ u) by lia. cbn [bind]. rewrite (aget_ok _ G) by lia. cbn [bind]. rewrite (aget_ok _ (sm_gr S)) by (rewrite (so_gr _ OK); auto). cbn [bind].
    rewrite (aget_ok _ (sm_rc S)) by (rewrite (so_rc _ OK); lia). cbn [bind]. rewrite aset_ok by lia. reflexivity. }
  assert (INN : forall k t, (sm_nb S <= k < sm_nb S + sm_ni S)%nat -> sized (sm_nf_all S) t ->
     lin_inner S u G k t = Some (mkarr (alen (fst t)) (upd (aat (fst t)) k (W (fl k) k)), mkarr (alen (snd t)) (upd (aat (snd t)) k (W (fr k) k)))).
  { intros k t Hk (T1 & T2). assert (Hk' : (k < sm_nf_all S)%nat) by (unfold sm_nf_all; lia). pose proof (so_int _ OK k Hk). unfold lin_inner. rewrite (aget_ok _ (sm_F S)) by (rewrite (so_F _ OK); auto). cbn [bind].
    rewrite (aget_ok _ u) by lia. cbn [bind]. rewrite (aget_ok _ G) by lia. cbn [bind]. rewrite (aget_ok _ u) by lia. cbn [bind]. rewrite (aget_ok _ G) by lia. cbn [bind].
    rewrite (aget_ok _ (sm_gr S)) by (rewrite (so_gr _ OK); auto). cbn [bind]. rewrite (aget_ok _ (sm_rc S)) by (rewrite (so_rc _ OK); lia). cbn [bind]. rewrite (aget_ok _ (sm_rc S)) by (rewrite (so_rc _ OK); lia). cbn [bind].
    rewrite aset_ok by lia. cbn [bind]. rewrite aset_ok by lia. reflexivity. }
  unfold LinearUnlimited. assert (NN : (sm_nb S + sm_ni S + sm_nc S = sm_nf_all S)%nat) by reflexivity.
  destruct (face_loop (sm_nf_all S) (sm_nb S + sm_ni S) (sm_nf_all S) (lin_outer S u G) (fun k => W (fl k) k) (fun _ => None) s) as (s1 & E1 & Z1 & A1 & B1); auto. lia. intros; apply OUT; auto; lia.
  rewrite E1. cbn [bind].
  destruct (face_loop (sm_nf_all S) (sm_nb S) (sm_nb S + sm_ni S) (lin_inner S u G) (fun k => W (fl k) k) (fun k => Some (W (fr k) k)) s1) as (s2 & E2 & Z2 & A2 & B2); auto. lia.
  rewrite E2. cbn [bind].
  destruct (face_loop (sm_nf_all S) 0 (sm_nb S) (lin_outer S u G) (fun k => W (fl k) k) (fun _ => None) s2) as (s3 & E3 & Z3 & A3 & B3); auto. lia. intros; apply OUT; auto; lia.
  exists s3. split; auto. split; auto. cbv zeta. intros k Hk. pose proof (so_left _ OK k Hk) as HLf.
  destruct (Nat.lt_ge_cases k (sm_nb S)) as [D1|D1]; [|destruct (Nat.lt_ge_cases k (sm_nb S + sm_ni S)) as [D2|D2]].
  - destruct (A3 k ltac:(lia)) as (P & Q). destruct (B2 k ltac:(lia)) as (_ & Q2). destruct (B1 k ltac:(lia)) as (_ & Q1). rewrite P. split; [intros; apply WE|]. split; [lia|]. intros _. rewrite Q. congruence.
  - destruct (B3 k ltac:(lia)) as (P3 & Q3). destruct (A2 k ltac:(lia)) as (P & Q). rewrite P3, Q3, P, Q. split; [intros; apply WE|]. split; [intros; apply WE|]. lia.
  - destruct (B3 k ltac:(lia)) as (P3 & Q3). destruct (B2 k ltac:(lia)) as (P2 & Q2). destruct (A1 k ltac:(lia)) as (P & Q). rewrite P3, P2, P. split; [intros; apply WE|]. split; [lia|]. intros _. congruence.
Qed.
Print Assumptions C57_formula.

Theorem C57_linear_exact : forall m hs X ghost S, built m hs X ghost S ->
  forall (u : arr st) (G : arr grad) (s : faces2) c ga gb,
  alen u = (sm_ne S + sm_nc S)%nat -> (sm_ne S <= alen G)%nat -> sized (sm_nf_all S) s ->
  (forall i, (i < sm_ne S)%nat -> aat u i = linear_field c ga gb (aat (sm_rc S) i) /\ aat G i = mkgrad ga gb) ->
  exists s', LinearUnlimited S u G s = Some s' /\ sized (sm_nf_all S) s' /\
  forall k, (k < sm_nf_all S)%nat ->
    aat (fst s') k = linear_field c ga gb (aat (sm_gr S) k) /\
    ((sm_nb S <= k < sm_nb S + sm_ni S)%nat -> aat (snd s') k = linear_field c ga gb (aat (sm_gr S) k)) /\
    (~ (sm_nb S <= k < sm_nb S + sm_ni S)%nat -> aat (snd s') k = aat (snd s) k).
Proof.
  intros m hs X ghost S B u G s c ga gb Lu LG Hs HL. pose proof (built_sm _ _ _ _ _ B) as OK.
  destruct (C57_formula m hs X ghost S B u G s Lu LG Hs) as (s' & E & Z & I). exists s'. split; auto. split; auto. intros k Hk. destruct (I k Hk) as (I1 & I2 & I3).
  assert (V : forall i v, (i < sm_ne S)%nat -> cget (aat u i) v + along (aat G i) v (vsub (aat (sm_gr S) k) (aat (sm_rc S) i)) = cget (linear_field c ga gb (aat (sm_gr S) k)) v).
  { intros i v Hi. destruct (HL i Hi) as (-> & ->). rewrite <- (lin_at c). ring. }
  split; [|split; auto].
  - apply st_ext. intros v. rewrite I1. apply V. apply (so_left _ OK); auto.
  - intros Hi. apply st_ext. intros v. rewrite I2 by auto. apply V. apply (so_int _ OK); auto.
Qed.
Print Assumptions C57_linear_exact.
Example C57_ex : exists S, built exo exh exX exg S /\ (0 < sm_ne S)%nat /\ (0 < sm_nf_all S)%nat.
Proof. destruct ex_built as (S & B). exists S. split; auto. destruct (ex_faces S B) as (E1 & E2 & _). unfold sm_nf_all. lia. Qed.

(** Least-squares gradients followed by linear reconstruction: exact at every face centre. *)
Theorem C57_with_least_squares : forall m hs X ghost S, built m hs X ghost S ->
  (forall i, (i < sm_ne S)%nat ->
      let nbr := beyond S (aat (sm_rc S)) (aat (sm_rcbp S)) i in
      (forall k, bounds S i k -> nbr k <> aat (sm_rc S) i) /\
      (exists k l, bounds S i k /\ bounds S i l /\ cross (vsub (nbr k) (aat (sm_rc S) i)) (vsub (nbr l) (aat (sm_rc S) i)) <> 0)) ->
  forall (u ug : arr st) (G : arr grad) (s : faces2) c ga gb,
    alen u = (sm_ne S + sm_nc S)%nat -> alen ug = sm_nb S -> (sm_ne S <= alen G)%nat -> sized (sm_nf_all S) s ->
    (forall j, (j < sm_ne S + sm_nc S)%nat -> aat u j = linear_field c ga gb (aat (sm_rc S) j)) ->
    (forall k, (k < sm_nb S)%nat -> aat ug k = linear_field c ga gb (aat (sm_rcbp S) k)) ->
  exists V G' s', M_Grad.WLS_ctor S = Some V /\ M_Grad.WLS_gradients S V u ug G = Some G' /\ LinearUnlimited S u G' s = Some s' /\
  forall k, (k < sm_nf_all S)%nat -> aat (fst s') k = linear_field c ga gb (aat (sm_gr S) k) /\
    ((sm_nb S <= k < sm_nb S + sm_ni S)%nat -> aat (snd s') k = linear_field c ga gb (aat (sm_gr S) k)).
Proof.
  intros m hs X ghost S B Hsp u ug G s c ga gb Lu Lg LG Hs Hu Hg. pose proof (built_sm _ _ _ _ _ B) as OK.
  destruct (C53_wls_exact m hs X ghost S B) as (V & EV & HV). destruct (HV u ug G c ga gb Lu Lg LG Hu Hg) as (G' & EG & IG).
  destruct (wls_ctor_ok S OK) as (V0 & EV0 & LV0 & _). rewrite EV in EV0. injection EV0 as <-.
  destruct (wls_grad_ok S OK u ug Lu Lg V G LV0 LG) as (G0 & EG0 & LG0 & _). rewrite EG in EG0. injection EG0 as <-.
  destruct (C57_linear_exact m hs X ghost S B u G' s c ga gb Lu ltac:(lia) Hs) as (s' & Es & _ & I).
  { intros i Hi. split; [apply Hu; lia|]. destruct (Hsp i Hi). apply IG; auto. }
  exists V, G', s'. split; auto. split; auto. split; auto. intros k Hk. destruct (I k Hk) as (A & A2 & _). auto.
Qed.
Print Assumptions C57_with_least_squares.

(** ** C58. The solution array must have a row for each boundary ghost cell (see C62). *)
Theorem C58_no_new_extrema : forall m hs X ghost S, built m hs X ghost S ->
  forall (u : arr st) (G : arr grad) (s : faces2),
  (sm_ne S + sm_nc S + sm_nb S <= alen u)%nat -> (sm_ne S <= alen G)%nat -> sized (sm_nf_all S) s ->
  exists s', BarthJespersen S u G s = Some s' /\
  forall k v, (k < sm_nf_all S)%nat ->
    within S u (f_left (aat (sm_F S) k)) v (cget (aat (fst s') k) v) /\
    ((f_right (aat (sm_F S) k) < sm_ne S)%nat -> within S u (f_right (aat (sm_F S) k)) v (cget (aat (snd s') k) v)).
Proof.
  intros m hs X ghost S B u G s Lu LG Hs. pose proof (built_sm _ _ _ _ _ B) as OK.
  destruct (cell_loop S OK (bj_cell S u G) (fun i val => forall k v, bounds S i k -> within S u i v (cget (val (aat (sm_gr S) k) (aat (sm_rc S) i)) v)) s Hs) as (s' & E & _ & I & _).
  { intros i Hi. destruct (du_range_ok S OK u G Lu LG i Hi) as (dmin & dmax & ED & ID).
    destruct (min_factor_ok S OK u G Lu LG i Hi (fun v diff => bj_phi (cget dmin v) (cget dmax v) diff) (fun v diff => bj_val (cget dmin v) (cget dmax v) diff)) as (lim & EL & IL).
    { intros; apply bj_phi_ok. }
    exists (linearExtrapolate (aat u i) (aat G i) lim). split.
    - intros k v Bk. rewrite lim_val. rewrite <- (uinc_along S u G i v k). destruct (ID v) as (D1 & D2 & (j1 & N1 & D3) & (j2 & N2 & D4)). destruct (IL v) as (L1 & L2 & L3).
      destruct (bj_val_bounds _ _ (uinc S u G i v k) D1) as (P & Q).
      assert (L0 : 0 <= cget lim v). { destruct L3 as [-> | (q & Bq & ->)]; [lra|]. apply (bj_val_bounds _ _ (uinc S u G i v q) D1). }
      specialize (Q (cget lim v) (conj L0 (L2 k Bk))). split; [exists j1|exists j2]; (split; [auto|lra]).
    - intros t. unfold bj_cell. rewrite ED. cbn [bind]. rewrite EL. cbn [bind]. rewrite (aget_ok _ u) by lia. cbn [bind]. rewrite (aget_ok _ G) by lia. reflexivity. }
  exists s'. split; auto. intros k v Hk. pose proof (so_left _ OK k Hk) as HL. split.
  - destruct (I _ HL) as (val & P & V). rewrite (proj1 (V k Hk) eq_refl). apply P. split; auto.
  - intros HR. destruct (I _ HR) as (val & P & V). rewrite (proj2 (V k Hk) eq_refl). apply P. split; auto.
Qed.
Print Assumptions C58_no_new_extrema.

(** The limiter is inactive in a variable of a cell whose unlimited face values stay within the
    neighbour range. *)
Theorem C58_inactive : forall m hs X ghost S, built m hs X ghost S ->
  forall (u : arr st) (G : arr grad) (s : faces2),
  (sm_ne S + sm_nc S + sm_nb S <= alen u)%nat -> (sm_ne S <= alen G)%nat -> sized (sm_nf_all S) s ->
  exists s', BarthJespersen S u G s = Some s' /\
  forall i v, (i < sm_ne S)%nat ->
    let unlimited k := cget (aat u i) v + along (aat G i) v (vsub (aat (sm_gr S) k) (aat (sm_rc S) i)) in
    (forall k, bounds S i k -> within S u i v (unlimited k)) ->
    forall k, (k < sm_nf_all S)%nat ->
      (f_left (aat (sm_F S) k) = i -> cget (aat (fst s') k) v = unlimited k) /\ (f_right (aat (sm_F S) k) = i -> cget (aat (snd s') k) v = unlimited k).
Proof.
  intros m hs X ghost S B u G s Lu LG Hs. pose proof (built_sm _ _ _ _ _ B) as OK.
  set (un := fun i v k => cget (aat u i) v + along (aat G i) v (vsub (aat (sm_gr S) k) (aat (sm_rc S) i))).
  destruct (cell_loop S OK (bj_cell S u G) (fun i val => forall v, (forall k, bounds S i k -> within S u i v (un i v k)) -> forall k, bounds S i k -> cget (val (aat (sm_gr S) k) (aat (sm_rc S) i)) v = un i v k) s Hs) as (s' & E & _ & I & _).
  { intros i Hi. destruct (du_range_ok S OK u G Lu LG i Hi) as (dmin & dmax & ED & ID).
    destruct (min_factor_ok S OK u G Lu LG i Hi (fun v diff => bj_phi (cget dmin v) (cget dmax v) diff) (fun v diff => bj_val (cget dmin v) (cget dmax v) diff)) as (lim & EL & IL).
    { intros; apply bj_phi_ok. }
    exists (linearExtrapolate (aat u i) (aat G i) lim). split.
    - intros v HW k Bk. rewrite lim_val. unfold un. destruct (ID v) as (D1 & D2 & _). destruct (IL v) as (L1 & L2 & L3).
      assert (L : cget lim v = 1).
      { destruct L3 as [L3|(q & Bq & L3)]; auto. apply Rle_antisym; auto. rewrite L3. apply bj_val_one. rewrite (uinc_along S u G i v q).
        destruct (HW q Bq) as ((j1 & N1 & W1) & (j2 & N2 & W2)). unfold un in W1, W2.
        assert (ND : forall j, near S i j -> cget dmin v <= cget (aat u j) v - cget (aat u i) v <= cget dmax v).
        { intros j [->|(z & Bz & ->)]; [lra|]. apply D2; auto. }
        pose proof (ND _ N1). pose proof (ND _ N2). lra. }
      rewrite L. ring.
    - intros t. unfold bj_cell. rewrite ED. cbn [bind]. rewrite EL. cbn [bind]. rewrite (aget_ok _ u) by lia. cbn [bind]. rewrite (aget_ok _ G) by lia. reflexivity. }
  exists s'. split; auto. intros i v Hi unl HW k Hk. destruct (I i Hi) as (val & P & V). destruct (V k Hk) as (V1 & V2).
  split; intros W; [rewrite V1 by auto|rewrite V2 by auto]; apply P; auto; split; auto.
Qed.
Print Assumptions C58_inactive.
Example C58_ex : exists S, built exo exh exX exg S /\ exists u : arr st, (sm_ne S + sm_nc S + sm_nb S <= alen u)%nat /\ cget (aat u 0%nat) I0 <> cget (aat u 1%nat) I0.
Proof. destruct ex_built as (S & B). exists S. split; auto. exists (mkarr (sm_ne S + sm_nc S + sm_nb S) (fun i => mks (INR i) 0 0 1)). split; [cbn; lia|]. cbn. lra. Qed.

(** ** C59 *)
(** [cl] is what the constructor computes; the cell has two distinct consecutive nodes. *)
Theorem C59_limiter_range : forall m hs X ghost S, built m hs X ghost S -> distinct_ends m X ->
  exists cl, venkat_ctor m X = Some cl /\
  forall K (u : arr st) (G : arr grad) (s : faces2), 0 < K ->
  (sm_ne S + sm_nc S + sm_nb S <= alen u)%nat -> (sm_ne S <= alen G)%nat -> sized (sm_nf_all S) s ->
  exists s', Venkatakrishnan S K cl u G s = Some s' /\
  forall i v, (i < sm_ne S)%nat -> exists phi, 0 < phi <= 1 /\
    let limited k := cget (aat u i) v + phi * along (aat G i) v (vsub (aat (sm_gr S) k) (aat (sm_rc S) i)) in
    forall k, (k < sm_nf_all S)%nat ->
      (f_left (aat (sm_F S) k) = i -> cget (aat (fst s') k) v = limited k) /\ (f_right (aat (sm_F S) k) = i -> cget (aat (snd s') k) v = limited k).
Proof.
  intros m hs X ghost S B DE. pose proof (built_sm _ _ _ _ _ B) as OK. pose proof B as (T & H34 & LX & _).
  destruct (built_ok _ _ _ _ _ B) as (p & e & ni & s0 & il & TO & _ & EN & _).
  pose proof (gm_valid _ _ (tl_good _ _ T)) as Hv.
  destruct (venkat_ctor_ok m X) as (cl & EC & LC & IC). { intros c q Hc Hq. rewrite LX. apply (Hv c Hc); auto. }
  exists cl. split; auto. intros K u G s HK Lu LG Hs.
  assert (CP : forall i, (i < sm_ne S)%nat -> 0 < aat cl i).
  { intros i Hi. rewrite EN in Hi. destruct (IC i Hi) as (C0 & C1 & _). cbv zeta in *.
    assert (LN : (0 < length (nth i (cells m) []))%nat). { assert (In (nth i (cells m) []) (cells m)) by (apply nth_In; exact Hi). destruct (H34 _ H); lia. }
    specialize (C1 0%nat LN). pose proof (DE i 0%nat Hi LN) as D. unfold edge, cell in D. cbn [fst snd] in D. cbv zeta in C1.
    set (a := aat X (nth 0 (nth i (cells m) []) 0%nat)) in *. set (b := aat X (nth ((0 + 1) mod length (nth i (cells m) [])) (nth i (cells m) []) 0%nat)) in *.
    assert (P : 0 < (vx a - vx b) ^ 2 + (vy a - vy b) ^ 2).
    { pose proof (pow2_ge_0 (vx a - vx b)). pose proof (pow2_ge_0 (vy a - vy b)).
      destruct (Req_dec (vx a) (vx b)) as [Ex|Ex]; [destruct (Req_dec (vy a) (vy b)) as [Ey|Ey]|].
      - exfalso. apply D. apply v2_eq; auto.
      - assert (0 < (vy a - vy b) ^ 2) by (assert (vy a - vy b <> 0) by lra; pose proof (pow_nonzero _ 2 H1); lra). lra.
      - assert (0 < (vx a - vx b) ^ 2) by (assert (vx a - vx b <> 0) by lra; pose proof (pow_nonzero _ 2 H1); lra). lra. }
    destruct (Req_dec (aat cl i) 0) as [Z|Z]; [rewrite Z in C1; cbn in C1; lra|lra]. }
  destruct (cell_loop S OK (venkat_cell S K cl u G) (fun i val => forall v, exists phi, 0 < phi <= 1 /\ forall k, bounds S i k -> cget (val (aat (sm_gr S) k) (aat (sm_rc S) i)) v = cget (aat u i) v + phi * along (aat G i) v (vsub (aat (sm_gr S) k) (aat (sm_rc S) i))) s Hs) as (s' & E & _ & I & _).
  { intros i Hi. destruct (du_range_ok S OK u G Lu LG i Hi) as (dmin & dmax & ED & ID). specialize (CP i Hi).
    assert (EP : 0 < (K * aat cl i) ^ 3) by (apply pow_lt; apply Rmult_lt_0_compat; auto).
    destruct (min_factor_ok S OK u G Lu LG i Hi (fun v dm => venkat_phi ((K * aat cl i) ^ 3) (cget dmin v) (cget dmax v) dm) (fun v dm => vk_val ((K * aat cl i) ^ 3) (cget dmin v) (cget dmax v) dm)) as (lim & EL & IL).
    { intros v x. apply vk_ok; auto. apply (ID v). }
    exists (linearExtrapolate (aat u i) (aat G i) lim). split.
    - intros v. exists (cget lim v). destruct (IL v) as (L1 & L2 & L3). split.
      + split; auto. destruct L3 as [->|(q & Bq & ->)]; [lra|]. apply vk_ok; auto. apply (ID v).
      + intros k _. apply lim_val.
    - intros t. unfold venkat_cell. rewrite (aget_ok _ cl) by (rewrite LC, <- EN; auto). cbn [bind]. cbv zeta. rewrite ED. cbn [bind]. rewrite EL. cbn [bind]. rewrite (aget_ok _ u) by lia. cbn [bind]. rewrite (aget_ok _ G) by lia. reflexivity. }
  exists s'. split; auto. intros i v Hi. destruct (I i Hi) as (val & P & V). destruct (P v) as (phi & Hp & Pk). exists phi. split; auto. cbv zeta. intros k Hk. destruct (V k Hk) as (V1 & V2).
  split; intros W; [rewrite V1 by auto|rewrite V2 by auto]; apply Pk; split; auto.
Qed.
Print Assumptions C59_limiter_range.
Example C59_ex : exists S, built exo exh exX exg S /\ distinct_ends exo exX.
Proof. destruct ex_built as (S & B). exists S. split; auto. exact exX_distinct. Qed.

(** With K = 0 the limiter divides zero by zero on every uniform field. *)
Theorem C59_zero_K_refuted : forall m hs X ghost S cl, built m hs X ghost S -> (0 < sm_ne S)%nat -> alen cl = sm_ne S ->
  forall (u : arr st) (G : arr grad) (s : faces2) c, (sm_ne S + sm_nc S + sm_nb S <= alen u)%nat -> (sm_ne S <= alen G)%nat ->
  (forall j, aat u j = c) -> (forall j, aat G j = mkgrad szero szero) ->
  Venkatakrishnan S 0 cl u G s = None.
Proof.
  intros m hs X ghost S cl B Hne LC u G s c Lu LG Hu HG. pose proof (built_sm _ _ _ _ _ B) as OK.
  unfold Venkatakrishnan. apply floop_none with 0%nat; auto. intros t. unfold venkat_cell. rewrite (aget_ok _ cl) by lia. cbn [bind]. cbv zeta.
  destruct (du_range_ok S OK u G Lu LG 0%nat Hne) as (dmin & dmax & ED & ID). rewrite ED. cbn [bind].
  assert (Z : forall v, cget dmin v = 0 /\ cget dmax v = 0).
  { intros v. destruct (ID v) as (_ & _ & (j & _ & ->) & (j' & _ & ->)). rewrite !Hu. lra. }
  replace (min_factor S u G 0 _) with (@None st); [reflexivity|]. symmetry. unfold min_factor. rewrite (aget_ok _ (sm_nf S)) by (rewrite (so_nf _ OK); auto). cbn [bind].
  destruct (built_ok _ _ _ _ _ B) as (p & e & ni & sx & il & TO & _ & EN & _ & _ & _ & _ & _ & _ & _ & _ & NF & _).
  assert (N0 : (0 < aat (sm_nf S) 0)%nat).
  { rewrite NF by lia. pose proof B as (T & H34 & _). assert (In (cell (cells m) 0) (cells m)) by (apply nth_In; unfold nelem in *; lia). destruct (H34 _ H); lia. }
  apply floop_none with 0%nat; auto. intros lim. destruct (so_tab _ OK) as (R1 & R2 & R3). specialize (R3 0%nat Hne).
  rewrite (get2_ok _ (sm_EF S)) by lia. cbn [bind]. rewrite (aget_ok _ u) by lia. cbn [bind]. rewrite (aget_ok _ G) by lia. cbn [bind].
  rewrite (aget_ok _ (sm_gr S)) by (rewrite (so_gr _ OK); apply (so_ef _ OK 0%nat 0%nat); auto). cbn [bind]. rewrite (aget_ok _ (sm_rc S)) by (rewrite (so_rc _ OK); lia). cbn [bind].
  unfold ovec at 1. destruct (Z I0) as (Z1 & Z2). unfold venkat_phi at 1. rewrite Z1, Z2, HG. cbn [linearExtrapolate mkst cget s0 gx gy szero sone].
  unfold rdiv. destruct (Req_EM_T _ 0) as [_|N]; [reflexivity|]. exfalso. apply N. destruct (Rltb _ 0); ring.
Qed.
Print Assumptions C59_zero_K_refuted.

(** ** C60 *)
Theorem C60_convex : forall m hs X ghost S, built m hs X ghost S ->
  forall lambda (u : arr st) (G : arr grad) (s : faces2), 0 < lambda ->
  (sm_ne S <= alen u)%nat -> (sm_ne S + sm_nc S <= alen G)%nat -> sized (sm_nf_all S) s ->
  exists s', WENO S lambda u G s = Some s' /\ sized (sm_nf_all S) s' /\
  forall i v, (i < sm_ne S)%nat -> exists ws : list (nat * R),
    (forall p, In p ws -> near S i (fst p) /\ (fst p < sm_ne S + sm_nc S)%nat /\ 0 < snd p) /\ rsum snd ws = 1 /\
    let value k := cget (aat u i) v + rsum (fun p => snd p * along (aat G (fst p)) v (vsub (aat (sm_gr S) k) (aat (sm_rc S) i))) ws in
    forall k, (k < sm_nf_all S)%nat ->
      (f_left (aat (sm_F S) k) = i -> cget (aat (fst s') k) v = value k) /\ (f_right (aat (sm_F S) k) = i -> cget (aat (snd s') k) v = value k).
Proof.
  intros m hs X ghost S B lambda u G s Hl Lu LG Hs. pose proof (built_sm _ _ _ _ _ B) as OK.
  unfold WENO. match goal with |- context [floop _ ?bb s] => set (body := bb) end.
  destruct (cell_loop S OK body (fun i val => forall v, exists ws : list (nat * R),
    (forall p, In p ws -> near S i (fst p) /\ (fst p < sm_ne S + sm_nc S)%nat /\ 0 < snd p) /\ rsum snd ws = 1 /\
    forall k, cget (val (aat (sm_gr S) k) (aat (sm_rc S) i)) v = cget (aat u i) v + rsum (fun p => snd p * along (aat G (fst p)) v (vsub (aat (sm_gr S) k) (aat (sm_rc S) i))) ws) s Hs) as (s' & E & SZ & I & _).
  { intros i Hi. destruct (weno_grad_ok S OK lambda G Hl LG i Hi) as (lg & EL & IL). exists (weno_val (aat u i) lg). split.
    - intros v. destruct (IL v) as (ws & W1 & W2 & W3). exists ws. split; auto. split; auto. intros k. rewrite <- W3. unfold weno_val, along. rewrite cget_mkst. cbn. ring.
    - intros t. unfold body. rewrite EL. cbn [bind]. rewrite (aget_ok _ u) by lia. reflexivity. }
  exists s'. split; auto. split; auto. intros i v Hi. destruct (I i Hi) as (val & P & V). destruct (P v) as (ws & W1 & W2 & W3). exists ws. split; auto. split; auto. cbv zeta. intros k Hk. destruct (V k Hk) as (V1 & V2).
  split; intros W; [rewrite V1 by auto|rewrite V2 by auto]; apply W3.
Qed.
Print Assumptions C60_convex.

Theorem C60_linear_exact : forall m hs X ghost S, built m hs X ghost S ->
  forall lambda (u : arr st) (G : arr grad) (s : faces2) c ga gb, 0 < lambda ->
  (sm_ne S <= alen u)%nat -> (sm_ne S + sm_nc S <= alen G)%nat -> sized (sm_nf_all S) s ->
  (forall i, (i < sm_ne S)%nat -> aat u i = linear_field c ga gb (aat (sm_rc S) i)) ->
  (forall j, (j < sm_ne S + sm_nc S)%nat -> aat G j = mkgrad ga gb) ->
  exists s', WENO S lambda u G s = Some s' /\ sized (sm_nf_all S) s' /\
  forall k, (k < sm_nf_all S)%nat -> aat (fst s') k = linear_field c ga gb (aat (sm_gr S) k) /\
    ((f_right (aat (sm_F S) k) < sm_ne S)%nat -> aat (snd s') k = linear_field c ga gb (aat (sm_gr S) k)).
Proof.
  intros m hs X ghost S B lambda u G s c ga gb Hl Lu LG Hs Hu HG. pose proof (built_sm _ _ _ _ _ B) as OK.
  destruct (C60_convex m hs X ghost S B lambda u G s Hl Lu LG Hs) as (s' & E & SZ & I). exists s'. split; auto. split; auto. intros k Hk.
  assert (Q : forall i v ws, (i < sm_ne S)%nat -> (forall p, In p ws -> near S i (fst p) /\ (fst p < sm_ne S + sm_nc S)%nat /\ 0 < snd p) -> rsum snd ws = 1 ->
    cget (aat u i) v + rsum (fun p => snd p * along (aat G (fst p)) v (vsub (aat (sm_gr S) k) (aat (sm_rc S) i))) ws = cget (linear_field c ga gb (aat (sm_gr S) k)) v).
  { intros i v ws Hi W1 W2. rewrite (rsum_ext _ (fun p => along (mkgrad ga gb) v (vsub (aat (sm_gr S) k) (aat (sm_rc S) i)) * snd p)).
    - rewrite rsum_scal, W2, <- (lin_at c), Hu by auto. ring.
    - intros p Hp. rewrite HG by (apply W1; auto). ring. }
  pose proof (so_left _ OK k Hk) as HL. split.
  - apply st_ext. intros v. destruct (I _ v HL) as (ws & W1 & W2 & W3). rewrite (proj1 (W3 k Hk) eq_refl). apply Q; auto.
  - intros HR. apply st_ext. intros v. destruct (I _ v HR) as (ws & W1 & W2 & W3). rewrite (proj2 (W3 k Hk) eq_refl). apply Q; auto.
Qed.
Print Assumptions C60_linear_exact.
Example C60_ex : exists S, built exo exh exX exg S /\ near S 2%nat (other S 2 1) /\ other S 2 1 = 5%nat.
Proof.
  destruct ex_built as (S & B). exists S. split; auto. destruct (ex_faces S B) as (_ & E2 & E3 & F1 & _). split.
  - right. exists 1%nat. split; auto. split; [unfold sm_nf_all; lia|]. left. rewrite F1. reflexivity.
  - unfold other. rewrite F1. reflexivity.
Qed.

(** ** C61 *)
Lemma phi_spec b e : mu_phiv b e = albada_phi b e.
Proof.
  unfold mu_phiv, albada_phi, mu_eps. cbv zeta. replace (/ 10 ^ 8) with (/ 100000000) by (f_equal; ring). replace (b ^ 2 + e ^ 2) with (b * b + e * e) by ring.
  set (q := (2 * b * e + / 100000000) / (b * b + e * e + / 100000000)). destruct (Rltb_spec q 0); [rewrite Rmax_left by lra|rewrite Rmax_right by lra]; reflexivity.
Qed.
Lemma left_spec ri rj ui uj g v : cget (mu_lv ri rj ui uj g) v = albada (cget ui v) (cget uj v) (along g v (vsub rj ri)).
Proof.
  unfold mu_lv. rewrite cget_mkst. cbv zeta. rewrite phi_spec. unfold albada, mu_left, mu_k. cbv zeta.
  assert (B : biased ri rj (cget ui v) (cget uj v) (cget (gx g) v) (cget (gy g) v) = 2 * along g v (vsub rj ri) - (cget uj v - cget ui v)) by (unfold biased, along; cbn; ring).
  rewrite B. set (phi := albada_phi _ _). field.
Qed.

(** Both sides of every face get the Van Albada value seen from their own cell; in particular
    exchanging the two cells of a face exchanges the two values. *)
Theorem C61_formula : forall m hs X ghost S, built m hs X ghost S ->
  forall (u ug : arr st) (G : arr grad) (s : faces2),
  alen u = (sm_ne S + sm_nc S)%nat -> alen ug = sm_nb S -> (sm_ne S + sm_nc S <= alen G)%nat -> sized (sm_nf_all S) s ->
  exists s', MUSCLVanAlbada S u ug G s = Some s' /\ sized (sm_nf_all S) s' /\
  forall k v, (k < sm_nf_all S)%nat ->
    let ul := cget (left_value S (aat u) k) v in let ur := cget (right_value S (aat u) (aat ug) k) v in
    let cl := left_value S (aat (sm_rc S)) k in let cr := right_value S (aat (sm_rc S)) (aat (sm_rcbp S)) k in
    cget (aat (fst s') k) v = albada ul ur (along (left_value S (aat G) k) v (vsub cr cl)) /\
    ((sm_nb S <= k)%nat -> cget (aat (snd s') k) v = albada ur ul (along (aat G (f_right (aat (sm_F S) k))) v (vsub cl cr))) /\
    ((k < sm_nb S)%nat -> aat (snd s') k = aat (snd s) k).
Proof.
  intros m hs X ghost S B u ug G s Lu Lg LG Hs. pose proof (built_sm _ _ _ _ _ B) as OK.
  set (CL := fun k => left_value S (aat (sm_rc S)) k). set (CR := fun k => right_value S (aat (sm_rc S)) (aat (sm_rcbp S)) k).
  set (UL := fun k => left_value S (aat u) k). set (UR := fun k => right_value S (aat u) (aat ug) k).
  set (Lv := fun k => mu_lv (CL k) (CR k) (UL k) (UR k) (left_value S (aat G) k)).
  set (Rv := fun k => mu_rv (CL k) (CR k) (UL k) (UR k) (aat G (f_right (aat (sm_F S) k)))).
  unfold MUSCLVanAlbada.
  destruct (face_loop (sm_nf_all S) 0 (sm_nb S) (mu_outer S u ug G) Lv (fun _ => None) s) as (s1 & E1 & Z1 & A1 & B1); auto. unfold sm_nf_all; lia.
  { intros k t Hk (T1 & T2). assert (Hk' : (k < sm_nf_all S)%nat) by (unfold sm_nf_all; lia). pose proof (so_left _ OK k Hk'). unfold mu_outer.
    rewrite (aget_ok _ (sm_F S)) by (rewrite (so_F _ OK); auto). cbn [bind]. rewrite (aget_ok _ (sm_rc S)) by (rewrite (so_rc _ OK); lia). cbn [bind]. rewrite (aget_ok _ (sm_rcbp S)) by (rewrite (so_rcbp _ OK); lia). cbn [bind].
    rewrite (aget_ok _ u) by lia. cbn [bind]. rewrite (aget_ok _ ug) by lia. cbn [bind]. rewrite (aget_ok _ G) by lia. cbn [bind]. rewrite mu_left_ok. cbn [bind]. rewrite aset_ok by lia. cbn [bind].
    unfold Lv, CL, CR, UL, UR, left_value, right_value. destruct (Nat.ltb_spec k (sm_nb S)); [reflexivity|lia]. }
  rewrite E1. cbn [bind].
  destruct (face_loop (sm_nf_all S) (sm_nb S) (sm_nf_all S) (mu_inner S u G) Lv (fun k => Some (Rv k)) s1) as (s2 & E2 & Z2 & A2 & B2); auto. unfold sm_nf_all; lia.
  { intros k t Hk (T1 & T2). pose proof (so_left _ OK k ltac:(lia)). pose proof (right_lt S k OK Hk). unfold mu_inner.
    rewrite (aget_ok _ (sm_F S)) by (rewrite (so_F _ OK); lia). cbn [bind]. rewrite (aget_ok _ (sm_rc S)) by (rewrite (so_rc _ OK); lia). cbn [bind]. rewrite (aget_ok _ (sm_rc S)) by (rewrite (so_rc _ OK); lia). cbn [bind].
    rewrite (aget_ok _ u) by lia. cbn [bind]. rewrite (aget_ok _ u) by lia. cbn [bind]. rewrite (aget_ok _ G) by lia. cbn [bind]. rewrite (aget_ok _ G) by lia. cbn [bind]. rewrite mu_left_ok. cbn [bind]. rewrite mu_right_ok. cbn [bind]. rewrite aset_ok by lia. cbn [bind]. rewrite aset_ok by lia. cbn [bind].
    unfold Lv, Rv, CL, CR, UL, UR, left_value, right_value. destruct (Nat.ltb_spec k (sm_nb S)); [lia|reflexivity]. }
  exists s2. split; auto. split; auto. cbv zeta. intros k v Hk. destruct (Nat.lt_ge_cases k (sm_nb S)) as [D|D].
  - destruct (B2 k ltac:(lia)) as (P2 & Q2). destruct (A1 k ltac:(lia)) as (P1 & Q1). rewrite P2, P1. split; [apply left_spec|]. split; [lia|]. intros _. congruence.
  - destruct (A2 k ltac:(lia)) as (P2 & Q2). rewrite P2, Q2. split; [apply left_spec|]. split; [|lia]. intros _. unfold Rv. rewrite mu_mirror. apply left_spec.
Qed.
Print Assumptions C61_formula.

(** the limiter lies in [0,1]; it is 1 for equal differences and 0 at extrema *)
Theorem C61_limiter : forall b e, 0 <= albada_phi b e <= 1 /\ albada_phi b e = albada_phi (- b) (- e) /\
  albada_phi b b = 1 /\ (2 * b * e <= - / 10 ^ 8 -> albada_phi b e = 0).
Proof.
  intros b e. rewrite <- !phi_spec. split; [apply mu_phi_range|]. split; [symmetry; apply mu_phi_neg|]. split; [apply mu_phi_same|].
  intros H. rewrite phi_spec. unfold albada_phi. apply Rmax_left. pose proof (pow2_ge_0 b). pose proof (pow2_ge_0 e).
  assert (0 < / 10 ^ 8) by (apply Rinv_0_lt_compat; apply pow_lt; lra).
  assert (0 <= (- (2 * b * e + / 10 ^ 8)) / (b ^ 2 + e ^ 2 + / 10 ^ 8)). { apply Rmult_le_pos; [lra|]. left. apply Rinv_0_lt_compat. lra. }
  replace ((2 * b * e + / 10 ^ 8) / (b ^ 2 + e ^ 2 + / 10 ^ 8)) with (- ((- (2 * b * e + / 10 ^ 8)) / (b ^ 2 + e ^ 2 + / 10 ^ 8))) by (field; lra). lra.
Qed.
Print Assumptions C61_limiter.

(** The value departs from the cell's value by at most 5/6 of the jump to the neighbour plus 1/80000. *)
Theorem C61_bounded : forall u w s, Rabs (albada u w s - u) <= 5 / 6 * Rabs (w - u) + / 80000.
Proof.
  intros u w s. unfold albada. cbv zeta. set (e := w - u). set (b := 2 * s - e). set (phi := albada_phi b e).
  destruct (C61_limiter b e) as (P & _). fold phi in P.
  replace (u + phi / 4 * ((1 - phi / 3) * b + (1 + phi / 3) * e) - u) with ((1 - phi / 3) / 4 * (phi * b) + (phi * (1 + phi / 3) / 4) * e) by field.
  set (D := b ^ 2 + e ^ 2 + / 10 ^ 8). assert (E8 : / 10 ^ 8 = / 10000 * / 10000) by (rewrite <- Rinv_mult; f_equal; ring).
  assert (DP : 0 < D). { unfold D. pose proof (pow2_ge_0 b). pose proof (pow2_ge_0 e). rewrite E8. nra. }
  assert (PB : phi * Rabs b <= 2 * Rabs e + / 20000).
  { assert (PQ : phi * D <= 2 * (Rabs b * Rabs e) + / 10 ^ 8).
    { unfold phi, albada_phi. fold D. unfold Rmax. destruct (Rle_dec 0 ((2 * b * e + / 10 ^ 8) / D)).
      - replace ((2 * b * e + / 10 ^ 8) / D * D) with (2 * (b * e) + / 10 ^ 8) by (field; lra). rewrite <- Rabs_mult. pose proof (Rle_abs (b * e)). lra.
      - rewrite Rmult_0_l. pose proof (Rabs_pos b). pose proof (Rabs_pos e). rewrite E8. nra. }
    apply Rmult_le_reg_r with D; auto.
    assert (B2 : Rabs b * Rabs b = b ^ 2) by (rewrite <- Rabs_mult, Rabs_pos_eq; [ring|pose proof (pow2_ge_0 b); lra]).
    pose proof (Rabs_pos b) as B0. pose proof (Rabs_pos e) as E0.
    assert (phi * D * Rabs b <= (2 * (Rabs b * Rabs e) + / 10 ^ 8) * Rabs b) by (apply Rmult_le_compat_r; auto).
    assert (Q1 : 2 * (Rabs b * Rabs e) * Rabs b <= 2 * Rabs e * D).
    { replace (2 * (Rabs b * Rabs e) * Rabs b) with (2 * Rabs e * (Rabs b * Rabs b)) by ring. apply Rmult_le_compat_l; [lra|]. rewrite B2. unfold D. pose proof (pow2_ge_0 e). rewrite E8. nra. }
    assert (Q2 : / 10 ^ 8 * Rabs b <= / 20000 * D).
    { unfold D. rewrite E8. assert (0 <= (Rabs b - / 10000) ^ 2) by apply pow2_ge_0. pose proof (pow2_ge_0 e). rewrite <- B2. nra. }
    lra. }
  eapply Rle_trans; [apply Rabs_triang|]. rewrite !Rabs_mult.
  rewrite (Rabs_pos_eq ((1 - phi / 3) / 4)) by lra. rewrite (Rabs_pos_eq phi) by lra. rewrite (Rabs_pos_eq (phi * (1 + phi / 3) / 4)) by nra.
  assert (A1 : (1 - phi / 3) / 4 * (phi * Rabs b) <= 1 / 4 * (2 * Rabs e + / 20000)).
  { apply Rmult_le_compat; try lra. apply Rmult_le_pos; [lra|apply Rabs_pos]. }
  assert (A2 : phi * (1 + phi / 3) / 4 * Rabs e <= 1 / 3 * Rabs e). { apply Rmult_le_compat_r; [apply Rabs_pos|]. nra. }
  lra.
Qed.
Print Assumptions C61_bounded.

(** ... but the regularisation lets the value leave the range of the two cells: FINDING (small). *)
Theorem C61_no_new_extrema_refuted : exists u w s, u = w /\ albada u w s <> u.
Proof.
  exists 0, 0, (/ 20000). split; auto. unfold albada, albada_phi. cbv zeta.
  replace ((2 * (2 * / 20000 - (0 - 0)) * (0 - 0) + / 10 ^ 8) / ((2 * / 20000 - (0 - 0)) ^ 2 + (0 - 0) ^ 2 + / 10 ^ 8)) with (1 / 2) by field.
  rewrite Rmax_right by lra. lra.
Qed.
Print Assumptions C61_no_new_extrema_refuted.

(** With exact gradients of a linear field, both values are those of the field at the midpoint of the
    two centres; on boundary faces that is the face centre. *)
Theorem C61_linear_exact : forall m hs X ghost S, built m hs X ghost S ->
  forall (u ug : arr st) (G : arr grad) (s : faces2) c ga gb,
  alen u = (sm_ne S + sm_nc S)%nat -> alen ug = sm_nb S -> (sm_ne S + sm_nc S <= alen G)%nat -> sized (sm_nf_all S) s ->
  (forall j, (j < sm_ne S + sm_nc S)%nat -> aat u j = linear_field c ga gb (aat (sm_rc S) j) /\ aat G j = mkgrad ga gb) ->
  (forall k, (k < sm_nb S)%nat -> aat ug k = linear_field c ga gb (aat (sm_rcbp S) k)) ->
  exists s', MUSCLVanAlbada S u ug G s = Some s' /\
  forall k, (k < sm_nf_all S)%nat ->
    let mid := vscal (1 / 2) (vadd (left_value S (aat (sm_rc S)) k) (right_value S (aat (sm_rc S)) (aat (sm_rcbp S)) k)) in
    aat (fst s') k = linear_field c ga gb mid /\ ((sm_nb S <= k)%nat -> aat (snd s') k = linear_field c ga gb mid) /\
    ((k < sm_nb S)%nat -> mid = aat (sm_gr S) k).
Proof.
  intros m hs X ghost S B u ug G s c ga gb Lu Lg LG Hs Hu Hg. pose proof (built_sm _ _ _ _ _ B) as OK.
  destruct (C61_formula m hs X ghost S B u ug G s Lu Lg LG Hs) as (s' & E & _ & I). exists s'. split; auto. intros k Hk mid.
  set (cl := left_value S (aat (sm_rc S)) k) in *. set (cr := right_value S (aat (sm_rc S)) (aat (sm_rcbp S)) k) in *.
  pose proof (so_left _ OK k Hk) as HL.
  assert (UL : left_value S (aat u) k = linear_field c ga gb cl) by (apply Hu; lia).
  assert (GL : left_value S (aat G) k = mkgrad ga gb) by (apply Hu; lia).
  assert (UR : right_value S (aat u) (aat ug) k = linear_field c ga gb cr).
  { unfold cr, right_value. destruct (Nat.ltb_spec k (sm_nb S)); [apply Hg; auto|apply Hu; apply right_lt; auto]. }
  assert (AE : forall p q v, albada (cget (linear_field c ga gb p) v) (cget (linear_field c ga gb q) v) (along (mkgrad ga gb) v (vsub q p)) = cget (linear_field c ga gb (vscal (1 / 2) (vadd p q))) v).
  { intros p q v. unfold albada. cbv zeta. rewrite <- (lin_at c). set (a := cget (linear_field c ga gb p) v). set (b := cget (linear_field c ga gb q) v).
    replace (2 * (b - a) - (b - a)) with (b - a) by ring. destruct (C61_limiter (b - a) 0) as (_ & _ & -> & _).
    transitivity ((a + b) / 2); [field|]. unfold a, b, linear_field. destruct v; cbn; field. }
  split; [|split].
  - apply st_ext. intros v. destruct (I k v Hk) as (A & _). rewrite A, UL, UR, GL. apply AE.
  - intros D. apply st_ext. intros v. destruct (I k v Hk) as (_ & A & _). rewrite (A D), UL, UR. rewrite (proj2 (Hu _ (right_lt S k OK ltac:(lia)))). fold cl cr. rewrite AE. unfold mid. f_equal. f_equal. f_equal. apply v2_eq; cbn; ring.
  - intros D. unfold mid, cr, right_value. destruct (Nat.ltb_spec k (sm_nb S)); [|lia]. rewrite (so_bp _ OK k D). unfold cl, left_value. apply v2_eq; cbn; field.
Qed.
Print Assumptions C61_linear_exact.
Example C61_ex : exists S, built exo exh exX exg S /\ (0 < sm_nb S)%nat /\ (sm_nb S < sm_nf_all S)%nat.
Proof. destruct ex_built as (S & B). exists S. split; auto. destruct (ex_faces S B) as (_ & E2 & E3 & _). unfold sm_nf_all. lia. Qed.

(** ** C62 *)
Theorem C62_out_of_bounds : forall m hs X ghost S, built m hs X ghost S -> (0 < sm_nb S)%nat ->
  forall (u : arr st) (G : arr grad) (s : faces2) K cl, (alen u <= sm_ne S + sm_nc S)%nat -> alen cl = sm_ne S ->
  BarthJespersen S u G s = None /\ Venkatakrishnan S K cl u G s = None.
Proof.
  intros m hs X ghost S B Hb u G s K cl Lu LC. pose proof (built_sm _ _ _ _ _ B) as OK.
  assert (H0 : (0 < sm_nf_all S)%nat) by (unfold sm_nf_all; lia). pose proof (so_left _ OK 0%nat H0) as HL. set (i := f_left (aat (sm_F S) 0)) in *.
  assert (DN : du_range S u i = None).
  { apply (du_range_none S OK u i 0%nat HL). split; auto. unfold other. fold i. rewrite Nat.eqb_refl. rewrite (so_phy _ OK 0%nat Hb). lia. }
  split; apply floop_none with i; auto; intros t.
  - unfold bj_cell. rewrite DN. reflexivity.
  - unfold venkat_cell. rewrite (aget_ok _ cl) by lia. cbn [bind]. cbv zeta. rewrite DN. reflexivity.
Qed.
Print Assumptions C62_out_of_bounds.
Example C62_ex : exists S, built exo exh exX exg S /\ (0 < sm_nb S)%nat.
Proof. destruct ex_built as (S & B). exists S. split; auto. destruct (ex_faces S B) as (_ & E2 & _). lia. Qed.
