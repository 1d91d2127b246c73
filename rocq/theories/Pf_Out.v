(** Proofs about the output routines. *)
From Coq Require Import Reals Lra List Arith Lia ZArith Bool Permutation.
From Verif Require Import Base BaseR BaseSum M_Gas M_Mesh M_Geom M_Space M_Grad M_Recon S_Gas Pf_Gas S_Mesh S_Geom S_Space Pf_Resid M_Out S_Out.
Import ListNotations.
Open Scope R_scope.

(** ** points *)
Section Points.
Variables (m : umesh) (A : arr R) (u : arr st).
Hypothesis HC : forall c, In c (cells m) -> NoDup c /\ forall p, In p c -> (p < npoin m)%nat.
Hypothesis LA : alen A = nelem m.
Hypothesis Lu : (nelem m <= alen u)%nat.

Definition occ (l : list nat) (p : nat) : R := if existsb (Nat.eqb p) l then 1 else 0.
Lemma occ_in l p : In p l -> occ l p = 1.
Proof. intros H. unfold occ. replace (existsb (Nat.eqb p) l) with true; auto. symmetry. apply existsb_exists. exists p. split; auto. apply Nat.eqb_refl. Qed.
Lemma occ_out l p : ~ In p l -> occ l p = 0.
Proof. intros H. unfold occ. destruct (existsb (Nat.eqb p) l) eqn:E; auto. apply existsb_exists in E. destruct E as (x & Hx & E). apply Nat.eqb_eq in E. congruence. Qed.
Lemma occ_snoc pre x p : ~ In x pre -> occ (pre ++ [x]) p = occ pre p + (if (p =? x)%nat then 1 else 0).
Proof.
  intros H. destruct (Nat.eqb_spec p x) as [->|N].
  - rewrite (occ_in (pre ++ [x])), (occ_out pre) by (auto; apply in_or_app; right; left; auto). lra.
  - unfold occ. rewrite existsb_app. cbn. rewrite (proj2 (Nat.eqb_neq p x) N). rewrite !orb_false_r. lra.
Qed.

Definition usum (n : nat) (p : nat) (v : ix) : R := rsum (fun i => occ (cell (cells m) i) p * (cget (aat u i) v * aat A i)) (seq 0 n).
Definition asum (n : nat) (p : nat) : R := rsum (fun i => occ (cell (cells m) i) p * aat A i) (seq 0 n).

Lemma at_sum (f : nat -> R) p : rsum (fun i => occ (cell (cells m) i) p * f i) (seq 0 (nelem m)) = rsum f (cells_at m p).
Proof. unfold cells_at. rewrite rsum_filter. apply rsum_ext. intros i _. unfold occ. destruct (existsb _ _); lra. Qed.

Lemma cget_set x v w a : cget (st_set x v a) w = if ix_eqb v w then a else cget x w.
Proof. destruct v, w; reflexivity. Qed.

Lemma seq_snoc n : seq 0 (n + 1) = seq 0 n ++ [n].
Proof. rewrite seq_app. reflexivity. Qed.

Lemma point_sums_ok : exists up ar, point_sums m A u = Some (up, ar) /\ alen up = npoin m /\ alen ar = npoin m /\
  forall p, (p < npoin m)%nat -> (forall v, cget (aat up p) v = usum (nelem m) p v) /\ aat ar p = 4 * asum (nelem m) p.
Proof.
  unfold point_sums.
  match goal with |- context [floop _ ?bb ?ss] =>
    destruct (floop_inv _ (fun n (s : arr st * arr R) => alen (fst s) = npoin m /\ alen (snd s) = npoin m /\
      forall p, (p < npoin m)%nat -> (forall v, cget (aat (fst s) p) v = usum n p v) /\ aat (snd s) p = 4 * asum n p) (nelem m) bb ss) as ((up & ar) & E & L1 & L2 & P) end.
  - cbn. split; auto. split; auto. intros p Hp. unfold usum, asum; cbn. split; [intros [| | |]; reflexivity|ring].
  - intros i s Hi (L1 & L2 & P). 
    assert (Hc : In (cell (cells m) i) (cells m)) by (apply nth_In; exact Hi). destruct (HC _ Hc) as (ND & HP). fold (cell (cells m) i).
    match goal with |- context [ofold ?bb (cell _ _) ?ss] =>
      destruct (ofold_inv _ _ (fun pre (s : arr st * arr R) => alen (fst s) = npoin m /\ alen (snd s) = npoin m /\
        forall p, (p < npoin m)%nat -> (forall v, cget (aat (fst s) p) v = usum i p v + occ pre p * (cget (aat u i) v * aat A i)) /\
          aat (snd s) p = 4 * asum i p + 4 * (occ pre p * aat A i)) bb (cell (cells m) i) ss) as (s' & E & L1' & L2' & P') end.
    + split; auto. split; auto. intros p Hp. destruct (P p Hp) as (Q1 & Q2). split; [intros v; rewrite Q1|rewrite Q2]; unfold occ; cbn; ring.
    + intros pre x post (a & b) Ex (K1 & K2 & K). cbn [fst snd] in *. assert (Hx : (x < npoin m)%nat) by (apply HP; rewrite Ex; apply in_or_app; right; left; auto).
      assert (Nx : ~ In x pre) by (rewrite Ex in ND; apply NoDup_remove_2 in ND; intros Z; apply ND; apply in_or_app; auto).
      cbn [ofold].
      repeat (first [rewrite aget_ok by (cbn [alen aat]; lia) | rewrite aset_ok by (cbn [alen aat]; lia)]; cbn [bind fst snd ofold]; cbv beta iota).
      eexists; split; [reflexivity|]. cbn [fst snd alen]. split; auto. split; auto. intros p Hp. destruct (K p Hp) as (K3 & K4).
      cbn [aat]. unfold upd. rewrite occ_snoc by auto. destruct (Nat.eqb_spec p x) as [->|N].
      * rewrite !Nat.eqb_refl. split; [intros v; specialize (K3 v); destruct v; cbn in K3 |- *; rewrite K3; ring|rewrite K4; ring].
      * split; [intros v; rewrite K3; ring|rewrite K4; ring].
    + exists s'. split; auto. split; auto. split; auto. intros p Hp. destruct (P' p Hp) as (Q1 & Q2). unfold usum, asum. rewrite seq_snoc.
      split; [intros v; rewrite Q1|rewrite Q2]; rewrite rsum_app; cbn; unfold usum, asum; ring.
  - exists up, ar. split; auto.
Qed.

Lemma point_divide_ok (up : arr st) (ar : arr R) : alen up = npoin m -> alen ar = npoin m -> (forall p, (p < npoin m)%nat -> aat ar p <> 0) ->
  exists w, point_divide m up ar = Some w /\ alen w = npoin m /\ forall p, (p < npoin m)%nat -> forall v, cget (aat w p) v = cget (aat up p) v / aat ar p.
Proof.
  intros L1 L2 NZ. unfold point_divide.
  match goal with |- context [floop _ ?bb ?ss] =>
    destruct (floop_inv _ (fun n (w : arr st) => alen w = npoin m /\ (forall p, (p < n)%nat -> forall v, cget (aat w p) v = cget (aat up p) v / aat ar p) /\
      forall p, (n <= p)%nat -> aat w p = aat up p) (npoin m) bb ss) as (w & E & L & P & _) end.
  - split; auto. split; auto. intros; lia.
  - intros p w Hp (L & P & Q). cbn [ofold]. assert (D : forall x, rdiv x (aat ar p) = Some (x / aat ar p)) by (intros x; unfold rdiv; destruct (Req_EM_T (aat ar p) 0); auto; exfalso; apply (NZ p); auto).
    repeat (first [rewrite aget_ok by (cbn [alen aat]; lia) | rewrite aset_ok by (cbn [alen aat]; lia) | rewrite D]; cbn [bind fst snd ofold]; cbv beta iota).
    eexists; split; [reflexivity|]. cbn [alen aat]. split; auto. split.
    + intros q Hq v. unfold upd. destruct (Nat.eqb_spec q p) as [->|N].
      * rewrite !Nat.eqb_refl. rewrite (Q p) by lia. destruct v; reflexivity.
      * apply P. lia.
    + intros q Hq. unfold upd. destruct (Nat.eqb_spec q p); [lia|]. apply Q. lia.
  - exists w. auto.
Qed.
End Points.

(** physical states are closed under positive combinations *)
Lemma physical_add ga a b : 1 < ga -> physical ga a -> physical ga b -> physical ga (sadd a b).
Proof.
  intros Hg (Ra & Pa) (Rb & Pb). split. { cbn. lra. }
  unfold pressure in *. cbn [sadd s0 s1 s2 s3].
  set (ra := s0 a) in *. set (rb := s0 b) in *.
  assert (K : ((s1 a + s1 b) ^ 2 + (s2 a + s2 b) ^ 2) / (2 * (ra + rb)) <= ((s1 a)^2 + (s2 a)^2) / (2 * ra) + ((s1 b)^2 + (s2 b)^2) / (2 * rb)).
  { apply Rminus_le. assert (E : ((s1 a + s1 b) ^ 2 + (s2 a + s2 b) ^ 2) / (2 * (ra + rb)) - (((s1 a)^2 + (s2 a)^2) / (2 * ra) + ((s1 b)^2 + (s2 b)^2) / (2 * rb)) =
      - (((s1 a * rb - s1 b * ra) ^ 2 + (s2 a * rb - s2 b * ra) ^ 2) / (2 * ra * rb * (ra + rb)))) by (field; lra).
    rewrite E. apply Ropp_le_cancel. rewrite Ropp_0, Ropp_involutive. unfold Rdiv. apply Rmult_le_pos. apply Rplus_le_le_0_compat; apply pow2_ge_0.
    apply Rlt_le, Rinv_0_lt_compat. apply Rmult_lt_0_compat; [|lra]. apply Rmult_lt_0_compat; lra. }
  assert (Ka : 0 < s3 a - ((s1 a)^2 + (s2 a)^2) / (2 * ra)) by (apply (Rmult_lt_reg_l (ga - 1)); lra).
  assert (Kb : 0 < s3 b - ((s1 b)^2 + (s2 b)^2) / (2 * rb)) by (apply (Rmult_lt_reg_l (ga - 1)); lra).
  apply Rmult_lt_0_compat; lra.
Qed.

(** ** surfaces *)
Definition tag_at (S : smesh) (k : nat) : Z := match face_tag S k with Some t => t | None => 0%Z end.
Definition tags_known (S : smesh) : Prop := forall k, (k < sm_nb S)%nat -> exists t, face_tag S k = Some t.
(** the physical boundary faces with a marker, in order *)
Definition marked_upto (S : smesh) (tag : Z) (n : nat) : list nat := filter (fun k => (tag_at S k =? tag)%Z) (seq 0 n).
Definition marked (S : smesh) (tag : Z) : list nat := marked_upto S tag (sm_nb S).
Lemma marked_snoc S tag n : marked_upto S tag (n + 1) = marked_upto S tag n ++ (if (tag_at S n =? tag)%Z then [n] else []).
Proof. unfold marked_upto. rewrite seq_snoc, filter_app. cbn. destruct (_ =? _)%Z; reflexivity. Qed.
Lemma marked_mono S tag n n' : (n <= n')%nat -> (length (marked_upto S tag n) <= length (marked_upto S tag n'))%nat.
Proof. intros H. unfold marked_upto. replace n' with (n + (n' - n))%nat by lia. rewrite seq_app, filter_app, app_length. lia. Qed.

Lemma tag_some S k : tags_known S -> (k < sm_nb S)%nat -> face_tag S k = Some (tag_at S k).
Proof. intros T Hk. unfold tag_at. destruct (T k Hk) as (t & ->). reflexivity. Qed.

Lemma count_ok S tag : tags_known S -> count_faces S tag = Some (length (marked S tag)).
Proof.
  intros T. unfold count_faces.
  match goal with |- context [floop _ ?bb ?ss] =>
    destruct (floop_inv _ (fun k (c : nat) => c = length (marked_upto S tag k)) (sm_nb S) bb ss) as (c & E & P) end.
  - reflexivity.
  - intros k c Hk ->. rewrite tag_some by auto. cbn [bind]. eexists; split; [reflexivity|]. rewrite marked_snoc, app_length. destruct (_ =? _)%Z; cbn; lia.
  - rewrite E, P. reflexivity.
Qed.

Section Surf.
Variables (G : gas) (S : smesh) (aoa : R) (u : arr st) (gr : arr grad) (tag : Z).
Hypothesis OKF : forall k, (k < sm_nb S)%nat -> (k < alen (sm_F S))%nat /\ (k < alen (sm_M S))%nat /\ (f_left (aat (sm_F S) k) < alen u)%nat /\ (f_left (aat (sm_F S) k) < alen gr)%nat /\
  (f_a (aat (sm_F S) k) < alen (sm_X S))%nat /\ (f_b (aat (sm_F S) k) < alen (sm_X S))%nat.
Hypothesis T : tags_known S.

Definition wf_at (k : nat) : wface := mkwf (fm_n (aat (sm_M S) k)) (fm_len (aat (sm_M S) k)) (left_value S (aat u) k) (left_value S (aat gr) k).
Definition walls : list wface := map wf_at (marked S tag).
Definition mid_at (k : nat) : v2 := face_mid (aat (sm_X S) (f_a (aat (sm_F S) k))) (aat (sm_X S) (f_b (aat (sm_F S) k))).
Definition cf_of (f : wface) : R := 2 * (getViscosityCoeffFromConserved G (wf_u f) * dot2 (strain_n (wf_u f) (wf_g f) (wf_n f)) (mkv (vy (wf_n f)) (- vx (wf_n f)))).
Definition row_at (k : nat) : srow := let f := wf_at k in mksrow (vx (mid_at k)) (vy (mid_at k)) (cp_of (gam G) (getFreestreamPressure G) (wf_u f)) (cf_of f).
Definition dl_of (f : wface) : R := dot2 (vscal (cp_of (gam G) (getFreestreamPressure G) (wf_u f) * wf_len f) (wf_n f)) (lift_dir aoa).
Definition dp_of (f : wface) : R := dot2 (vscal (cp_of (gam G) (getFreestreamPressure G) (wf_u f) * wf_len f) (wf_n f)) (wind_dir aoa).
Definition df_of (f : wface) : R := cf_of f * dot2 (mkv (vy (wf_n f)) (- vx (wf_n f))) (wind_dir aoa) * wf_len f.

Lemma surface_face_ok k : (k < sm_nb S)%nat -> s0 (left_value S (aat u) k) <> 0 ->
  surface_face G S (getNormalizedFreeStreamVector aoa 0) u gr k = Some (row_at k, (dl_of (wf_at k), dp_of (wf_at k), df_of (wf_at k), wf_len (wf_at k))).
Proof.
  intros Hk NZ. destruct (OKF k Hk) as (H1 & H2 & H3 & H4 & H5 & H6). unfold surface_face. unfold left_value in NZ.
  unfold get_mid. repeat (rewrite aget_ok by auto; cbn [bind]).
  unfold row_at, dl_of, dp_of, df_of, cf_of. cbv zeta. unfold wf_at, left_value. cbn [wf_u wf_len wf_n wf_g].
  set (x := aat u (f_left (aat (sm_F S) k))) in *. set (g := aat gr (f_left (aat (sm_F S) k))). set (n := fm_n (aat (sm_M S) k)). set (len := fm_len (aat (sm_M S) k)).
  assert (EP : (getPressureFromConserved G x - getFreestreamPressure G) * 2 = cp_of (gam G) (getFreestreamPressure G) x) by (rewrite pressure_code by auto; unfold cp_of; field).
  rewrite EP. set (cp := cp_of (gam G) (getFreestreamPressure G) x). set (mu := getViscosityCoeffFromConserved G x).
  assert (EW : getNormalizedFreeStreamVector aoa 0 = wind_dir aoa). { unfold getNormalizedFreeStreamVector, wind_dir. rewrite cos_0. f_equal; ring. }
  rewrite EW.
  assert (ES : mkv (0 + (txx (vel_grad x g) + txx (vel_grad x g)) * vx n + (txy (vel_grad x g) + tyx (vel_grad x g)) * vy n) (0 + (tyx (vel_grad x g) + txy (vel_grad x g)) * vx n + (tyy (vel_grad x g) + tyy (vel_grad x g)) * vy n) = strain_n x g n).
  { unfold vel_grad, strain_n, dvel. cbn [txx txy tyx tyy]. apply v2_eq; cbn [vx vy]; field; auto. }
  rewrite ES. set (sn := strain_n x g n). unfold mid_at.
  apply f_equal. apply f_equal2; [reflexivity|]. apply f_equal2; [|reflexivity]. apply f_equal2; [apply f_equal2|]; unfold dot2, vscal, lift_dir, wind_dir; cbn [vx vy]; ring.
Qed.

Lemma surface_local_ok (out : arr srow) : (length (marked S tag) <= alen out)%nat -> (forall k, In k (marked S tag) -> s0 (left_value S (aat u) k) <> 0) ->
  exists s, surface_local G S aoa u gr tag out = Some s /\ su_n s = length (marked S tag) /\ alen (su_out s) = alen out /\
  (forall j, (j < length (marked S tag))%nat -> aat (su_out s) j = row_at (nth j (marked S tag) 0%nat)) /\
  (forall j, (length (marked S tag) <= j)%nat -> aat (su_out s) j = aat out j) /\
  su_cl s = rsum dl_of walls /\ su_dp s = rsum dp_of walls /\ su_df s = rsum df_of walls /\ su_ar s = rsum wf_len walls.
Proof.
  intros LO NZ. unfold surface_local, walls.
  match goal with |- context [floop _ ?bb ?ss] =>
    destruct (floop_inv _ (fun n (s : surf) => let l := marked_upto S tag n in su_n s = length l /\ alen (su_out s) = alen out /\
      (forall j, (j < length l)%nat -> aat (su_out s) j = row_at (nth j l 0%nat)) /\ (forall j, (length l <= j)%nat -> aat (su_out s) j = aat out j) /\
      su_cl s = rsum dl_of (map wf_at l) /\ su_dp s = rsum dp_of (map wf_at l) /\ su_df s = rsum df_of (map wf_at l) /\ su_ar s = rsum wf_len (map wf_at l)) (sm_nb S) bb ss) as (s & E & P) end.
  - cbn. split; auto. split; auto. split; [intros; lia|]. split; auto.
  - intros k s Hk P. cbv zeta in P. destruct P as (P1 & P2 & P3 & P4 & P5 & P6 & P7 & P8). rewrite tag_some by auto. cbn [bind]. cbv zeta. rewrite marked_snoc.
    destruct (tag_at S k =? tag)%Z eqn:Et.
    + assert (Hin : In k (marked S tag)). { unfold marked, marked_upto. apply filter_In. split; [apply in_seq; lia|auto]. }
      rewrite surface_face_ok by auto. cbn [bind].
      assert (Hn : (length (marked_upto S tag k) + 1 <= length (marked S tag))%nat).
      { unfold marked. pose proof (marked_mono S tag (k + 1) (sm_nb S) ltac:(lia)) as M. rewrite marked_snoc, Et, app_length in M. cbn in M. lia. }
      rewrite aset_ok by lia. eexists; split; [reflexivity|]. cbn [su_n su_out su_cl su_dp su_df su_ar alen]. rewrite app_length. cbn [length].
      split; [lia|]. split; auto. split; [|split].
      * intros j Hj. cbn [aat]. unfold upd. destruct (Nat.eqb_spec j (su_n s)) as [->|N].
        { rewrite app_nth2 by lia. rewrite P1, Nat.sub_diag. reflexivity. }
        rewrite app_nth1 by lia. apply P3. lia.
      * intros j Hj. cbn [aat]. rewrite upd_ne by lia. apply P4. lia.
      * rewrite map_app, !rsum_app. cbn [map rsum]. rewrite P5, P6, P7, P8. repeat split; ring.
    + eexists; split; [reflexivity|]. rewrite app_nil_r. repeat (split; auto).
  - exists s. split; auto.
Qed.
End Surf.
