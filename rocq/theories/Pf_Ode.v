(** Proofs about the ODE solvers. *)
From Coq Require Import Reals Lra Lia List Arith ZArith Bool.
From Verif Require Import Base BaseR BaseSum M_Gas M_Resid M_Ode S_Ode.
Import ListNotations.
Open Scope R_scope.

(** ** CFL ramps *)
Lemma linear_ramp_bounds cs ce a b i : Rmin cs ce <= linearRamp cs ce a b i <= Rmax cs ce.
Proof.
  pose proof (Rmin_l cs ce). pose proof (Rmin_r cs ce). pose proof (Rmax_l cs ce). pose proof (Rmax_r cs ce).
  unfold linearRamp. destruct (Z.ltb_spec i a); [lra|]. destruct (Z.ltb_spec i b); [|lra].
  destruct (Z.leb_spec (b - a) 0); [lra|].
  assert (P : 0 < IZR (b - a)) by (apply IZR_lt; lia). assert (Q : 0 <= IZR (i - a)) by (apply IZR_le; lia).
  assert (L : IZR (i - a) <= IZR (b - a)) by (apply IZR_le; lia).
  set (p := IZR (b - a)) in *. set (q := IZR (i - a)) in *.
  assert (E : cs + (ce - cs) / p * q = cs * (1 - q / p) + ce * (q / p)) by (field; lra). rewrite E.
  assert (T : 0 <= q / p <= 1). { split; [apply Rmult_le_pos; auto; left; apply Rinv_0_lt_compat; auto|]. apply Rmult_le_reg_r with p; auto. unfold Rdiv. rewrite Rmult_assoc, Rinv_l by lra. lra. }
  set (t := q / p) in *. clearbody t. split.
  - apply Rle_trans with (Rmin cs ce * (1 - t) + Rmin cs ce * t); [lra|]. apply Rplus_le_compat; apply Rmult_le_compat_r; lra.
  - apply Rle_trans with (Rmax cs ce * (1 - t) + Rmax cs ce * t); [|lra]. apply Rplus_le_compat; apply Rmult_le_compat_r; lra.
Qed.

Lemma linear_ramp_mono cs ce a b i j : cs <= ce -> (i <= j)%Z -> linearRamp cs ce a b i <= linearRamp cs ce a b j.
Proof.
  intros H L. pose proof (linear_ramp_bounds cs ce a b j) as B. rewrite Rmin_left, Rmax_right in B by auto.
  pose proof (linear_ramp_bounds cs ce a b i) as B'. rewrite Rmin_left, Rmax_right in B' by auto.
  unfold linearRamp in *. destruct (Z.ltb_spec i a); [lra|]. destruct (Z.ltb_spec j a); [lia|].
  destruct (Z.ltb_spec j b); [|lra]. destruct (Z.ltb_spec i b); [|lia]. destruct (Z.leb_spec (b - a) 0); [lia|].
  apply Rplus_le_compat_l. apply Rmult_le_compat_l. apply Rmult_le_pos; [lra|]. left. apply Rinv_0_lt_compat. apply IZR_lt. lia. apply IZR_le. lia.
Qed.

Lemma powr_pos x y : 0 <= powr x y.
Proof. unfold powr. destruct (Rle_dec x 0); [lra|]. unfold Rpower. left. apply exp_pos. Qed.
Lemma powr_mono x y e : 0 <= e -> x <= y -> powr x e <= powr y e.
Proof.
  intros He H. unfold powr at 1. destruct (Rle_dec x 0); [apply powr_pos|]. unfold powr. destruct (Rle_dec y 0); [lra|].
  apply Rle_Rpower_l; lra.
Qed.
Lemma powr_1 e : powr 1 e = 1.
Proof. unfold powr. destruct (Rle_dec 1 0); [lra|]. unfold Rpower. rewrite ln_1, Rmult_0_r. apply exp_0. Qed.

Lemma residual_ramp_bounds lo hi p r a b : lo <= hi -> lo <= expResidualRamp lo hi p r a b <= hi.
Proof. intros H. unfold expResidualRamp. cbv zeta. destruct (Rlt_dec _ lo); [lra|]. destruct (Rlt_dec hi _); lra. Qed.

(** the value before clamping *)
Definition raw p r a b := if Rlt_dec 1 r then p * powr r a else p * powr r b.
Lemma ramp_raw lo hi p r a b : lo <= hi -> expResidualRamp lo hi p r a b = Rmax lo (Rmin hi (raw p r a b)).
Proof.
  intros H. unfold expResidualRamp. cbv zeta. fold (raw p r a b). destruct (Rlt_dec (raw p r a b) lo).
  - rewrite Rmin_right by lra. rewrite Rmax_left by lra. reflexivity.
  - destruct (Rlt_dec hi (raw p r a b)). rewrite Rmin_left by lra. rewrite Rmax_right by lra. reflexivity.
    rewrite Rmin_right by lra. rewrite Rmax_right by lra. reflexivity.
Qed.
Lemma raw_mono p r r' a b : 0 <= p -> 0 <= a -> 0 <= b -> r <= r' -> raw p r a b <= raw p r' a b.
Proof.
  intros Hp Ha Hb H. unfold raw. destruct (Rlt_dec 1 r), (Rlt_dec 1 r'); try lra; apply Rmult_le_compat_l; auto.
  - apply powr_mono; auto.
  - apply Rle_trans with 1. rewrite <- (powr_1 b). apply powr_mono; lra. rewrite <- (powr_1 a). apply powr_mono; lra.
  - apply powr_mono; auto.
Qed.
Lemma residual_ramp_mono lo hi p r r' a b : lo <= hi -> 0 <= p -> 0 <= a -> 0 <= b -> r <= r' ->
  expResidualRamp lo hi p r a b <= expResidualRamp lo hi p r' a b.
Proof.
  intros L Hp Ha Hb H. rewrite !ramp_raw by auto. apply Rle_max_compat_l. apply Rle_min_compat_l. apply raw_mono; auto.
Qed.
Lemma residual_ramp_one lo hi p a b : lo <= p <= hi -> expResidualRamp lo hi p 1 a b = p.
Proof. intros H. rewrite ramp_raw by lra. unfold raw. destruct (Rlt_dec 1 1); [lra|]. rewrite powr_1, Rmult_1_r. rewrite Rmin_right by lra. apply Rmax_right. lra. Qed.

(** ** The steady loops *)
Section Loop.
Context (n : nat) (A : arr R) (c : sconf) (Rf : arr st -> option (exc rout)) (eup edown : R)
        (update : nat -> R -> arr st -> rout -> option (exc (arr st * nat))) (cfl0 : R).
Notation body := (steady_body n A c Rf eup edown update).
Notation loop := (steady_loop c body).
Notation stepsN := (steps n A c Rf eup edown update cfl0).
Notation nb := (norm_before n A).

Lemma norm_same rs k : res_norm n A (rt_r (rs k)) = norm_at n A rs k.
Proof. unfold res_norm, norm_at. f_equal. apply rsum_ext. intros. ring. Qed.

Definition lin_upto (its : nat -> nat) (k : nat) : nat := fold_right Nat.add 0%nat (map its (seq 0 k)).
Definition log_at rs cf (k : nat) : logline := mklog (k + 1) (nb rs (k + 1)%nat) (nb rs 1) (cf k).
Definition mon_at (run : nat -> arr st) (rs : nat -> rout) (cf : nat -> R) (its : nat -> nat) (j : nat) : mon :=
  mkmon (run j) j (nb rs j) (nb rs (Nat.pred j)) (match j with O => 1 | Datatypes.S _ => nb rs 1 end) (cfl_before cfl0 cf j)
        (lin_upto its j) (map (log_at rs cf) (seq 0 j)).

Lemma lin_succ its k : lin_upto its (k + 1) = (lin_upto its k + its k)%nat.
Proof. unfold lin_upto. rewrite Nat.add_1_r, seq_S, map_app, fold_right_app. cbn. generalize (map its (seq 0 k)). intros l. induction l; cbn; lia. Qed.

Lemma body_at N run rs cf its k : stepsN N run rs cf its -> (k < N)%nat -> 
  body (mon_at run rs cf its k) = Some (if rt_fin (rs k) then SNext (mon_at run rs cf its (k + 1)) else SErr Numerical_error).
Proof.
  intros T Hk. unfold steady_body, mon_at. cbn [m_u m_step m_resi m_old m_init m_cfl m_lin m_log].
  rewrite (sp_eval T k Hk). cbv zeta. rewrite <- (sp_cfl T k Hk).
  rewrite (sp_upd T k Hk). destruct (rt_fin (rs k)); auto. rewrite norm_same. do 2 f_equal.
  rewrite !Nat.add_1_r. cbn [Nat.pred norm_before cfl_before]. rewrite seq_S, map_app. rewrite <- Nat.add_1_r, lin_succ.
  assert (EI : (if (k =? 0)%nat then norm_at n A rs k else match k with O => 1 | Datatypes.S _ => norm_at n A rs 0 end) = norm_at n A rs 0) by (destruct k; reflexivity).
  rewrite EI. f_equal. f_equal. cbn [map]. f_equal. unfold log_at. rewrite Nat.add_0_l, !Nat.add_1_r. reflexivity.
Qed.

Lemma body_fails N run rs cf its : stepsN N run rs cf its ->
  (Rf (run N) = None -> body (mon_at run rs cf its N) = None) /\
  (Rf (run N) = Some Exn -> body (mon_at run rs cf its N) = Some (SErr Other_error)).
Proof. intros _. unfold steady_body, mon_at. cbn [m_u]. split; intros ->; reflexivity. Qed.

Lemma loop_at N run rs cf its : stepsN N run rs cf its -> finite_upto N rs ->
  forall f, (forall i, (i < N)%nat -> steady_cont c (mon_at run rs cf its i) = true) ->
  loop (N + f) (mon_at run rs cf its 0) = loop f (mon_at run rs cf its N).
Proof.
  intros T F f C. assert (G : forall d j, (j + d = N)%nat -> loop (d + f) (mon_at run rs cf its j) = loop f (mon_at run rs cf its N)).
  { induction d as [|d IH]; intros j E. { replace j with N by lia. reflexivity. }
    cbn [Nat.add steady_loop]. rewrite (C j) by lia. rewrite (body_at N run rs cf its j T) by lia. rewrite F by lia. apply IH. lia. }
  apply (G N 0%nat). lia.
Qed.

(** the sequences extended by one step *)
Lemma steps_extend N run rs cf its ro u' it : stepsN N run rs cf its -> Rf (run N) = Some (Val ro) ->
  let cfl := expResidualRamp (cflinit c) (cflfin c) (cfl_before cfl0 cf N) (nb rs (Nat.pred N) / nb rs N) eup edown in
  update N cfl (run N) ro = Some (Val (u', it)) ->
  stepsN (N + 1) (upd run (N + 1) u') (upd rs N ro) (upd cf N cfl) (upd its N it) /\
  (forall j, (j <= N)%nat -> mon_at (upd run (N + 1) u') (upd rs N ro) (upd cf N cfl) (upd its N it) j = mon_at run rs cf its j).
Proof.
  intros T E cfl U.
  assert (NR : forall k, (k <= N)%nat -> nb (upd rs N ro) k = nb rs k).
  { intros [|k] Hk; [reflexivity|]. cbn [norm_before]. unfold norm_at. rewrite upd_ne by lia. reflexivity. }
  assert (CB : forall k, (k <= N)%nat -> cfl_before cfl0 (upd cf N cfl) k = cfl_before cfl0 cf k).
  { intros [|k] Hk; [reflexivity|]. cbn [cfl_before]. rewrite upd_ne by lia. reflexivity. }
  assert (RU : forall k, (k <= N)%nat -> upd run (N + 1) u' k = run k) by (intros; apply upd_ne; lia).
  split.
  - constructor; intros k Hk.
    + rewrite RU by lia. destruct (Nat.eq_dec k N) as [->|]. rewrite upd_eq; auto. rewrite upd_ne by auto. apply (sp_eval T). lia.
    + rewrite CB, !NR by lia. destruct (Nat.eq_dec k N) as [->|]. rewrite upd_eq. reflexivity. rewrite upd_ne by auto. apply (sp_cfl T). lia.
    + rewrite RU by lia. destruct (Nat.eq_dec k N) as [->|]. rewrite !upd_eq. exact U. rewrite !(upd_ne _ _ N) by auto. rewrite upd_ne by lia. apply (sp_upd T). lia.
  - intros j Hj. unfold mon_at. rewrite RU, CB, !NR by lia. f_equal.
    + destruct j; [reflexivity|]. rewrite NR by lia. reflexivity.
    + unfold lin_upto. f_equal. apply map_ext_in. intros k Hk. apply in_seq in Hk. apply upd_ne. lia.
    + apply map_ext_in. intros k Hk. apply in_seq in Hk. unfold log_at. rewrite !NR by lia. rewrite upd_ne by lia. reflexivity.
Qed.

(** whatever the loop does, it does along such sequences *)
Lemma loop_sound : forall fuel N run rs cf its r, stepsN N run rs cf its -> finite_upto N rs -> 
  (forall i, (i < N)%nat -> steady_cont c (mon_at run rs cf its i) = true) ->
  loop fuel (mon_at run rs cf its N) = Some r ->
  exists N' run' rs' cf' its', (N <= N' <= N + fuel)%nat /\ run' 0%nat = run 0%nat /\ 
    (forall i, (i < N')%nat -> steady_cont c (mon_at run' rs' cf' its' i) = true) /\
  match r with
  | SNext s => stepsN N' run' rs' cf' its' /\ finite_upto N' rs' /\ s = mon_at run' rs' cf' its' N' /\ (steady_cont c s = false \/ N' = (N + fuel)%nat)
  | SErr Numerical_error => stepsN (N' + 1) run' rs' cf' its' /\ finite_upto N' rs' /\ rt_fin (rs' N') = false /\ steady_cont c (mon_at run' rs' cf' its' N') = true
  | SErr Other_error => stepsN N' run' rs' cf' its' /\ finite_upto N' rs' /\ steady_cont c (mon_at run' rs' cf' its' N') = true /\
      (Rf (run' N') = Some Exn \/ exists ro cfl, Rf (run' N') = Some (Val ro) /\ update N' cfl (run' N') ro = Some Exn)
  | SErr Tolerance_error => False
  end.
Proof.
  induction fuel as [|fuel IH]; intros N run rs cf its r T F C E.
  - cbn in E. injection E as <-. exists N, run, rs, cf, its. split; [lia|]. split; [auto|]. split; [auto|]. split; [auto|]. split; [auto|]. split; [auto|]. right; lia.
  - cbn [steady_loop] in E. destruct (steady_cont c (mon_at run rs cf its N)) eqn:EC.
    2: { injection E as <-. exists N, run, rs, cf, its. split; [lia|]. repeat (split; [solve [auto]|]). eauto. }
    pose proof E as E0. unfold steady_body in E. cbn [mon_at m_u m_step m_resi m_old m_init m_cfl m_lin m_log] in E.
    destruct (Rf (run N)) as [[ro|]|] eqn:ER; [| |discriminate].
    2: { injection E as <-. exists N, run, rs, cf, its. split; [lia|]. repeat (split; [solve [auto]|]). eauto. }
    cbv zeta in E. set (cfl := expResidualRamp _ _ (cfl_before cfl0 cf N) _ eup edown) in E.
    destruct (update N cfl (run N) ro) as [[(u', it)|]|] eqn:EU; [| |discriminate].
    2: { injection E as <-. exists N, run, rs, cf, its. split; [lia|]. repeat (split; [solve [auto]|]). eauto. }
    destruct (steps_extend N run rs cf its ro u' it T ER EU) as (T' & M'). fold cfl in T', M'.
    set (run1 := upd run (N + 1) u') in *. set (rs1 := upd rs N ro) in *. set (cf1 := upd cf N cfl) in *. set (its1 := upd its N it) in *.
    assert (R0 : run1 0%nat = run 0%nat) by (apply upd_ne; lia).
    assert (C1 : forall i, (i < N + 1)%nat -> steady_cont c (mon_at run1 rs1 cf1 its1 i) = true).
    { intros i Hi. rewrite M' by lia. destruct (Nat.eq_dec i N) as [->|]; auto. apply C. lia. }
    pose proof (body_at (N + 1) run1 rs1 cf1 its1 N T' ltac:(lia)) as B. rewrite M' in B by lia.
    assert (RN : rs1 N = ro) by apply upd_eq. rewrite RN in B. rewrite B in E0. clear E.
    destruct (rt_fin ro) eqn:EF.
    + destruct (IH (N + 1)%nat run1 rs1 cf1 its1 r T') as (N' & a & b & d & e & HN & HR0 & HC & P); auto.
      { intros k Hk. destruct (Nat.eq_dec k N) as [->|]. rewrite RN; auto. unfold rs1. rewrite upd_ne by auto. apply F. lia. }
      exists N', a, b, d, e. split; [lia|]. split; [congruence|]. split; auto. destruct r as [s|[]]; auto. destruct P as (P1 & P2 & P3 & P4). split; auto. split; auto. split; auto. destruct P4; auto. right. lia.
    + injection E0 as <-. exists N, run1, rs1, cf1, its1. split; [lia|]. split; auto. split; [intros; apply C1; lia|]. split; auto. split.
      { intros k Hk. unfold rs1. rewrite upd_ne by lia. apply F. lia. } split; [congruence|]. apply C1. lia.
Qed.

Lemma start_at u run rs cf its : run 0%nat = u -> mon_at run rs cf its 0 = mkmon u 0 1 1 1 cfl0 0 [].
Proof. intros <-. reflexivity. Qed.

Lemma steps_0 run rs cf its : stepsN 0 run rs cf its.
Proof. constructor; intros; lia. Qed.

(** continuing before step [k+1], in terms of the relative residual *)
Lemma cont_at run rs cf its k : norm_at n A rs 0 <> 0 ->
  steady_cont c (mon_at run rs cf its (k + 1)) = true <-> tol c < rel_at n A rs k /\ (Z.of_nat (k + 1) < maxiter c)%Z.
Proof.
  intros H. unfold steady_cont, mon_at, rel_gt. cbn [m_resi m_init m_step]. rewrite Nat.add_1_r. cbn [norm_before Nat.pred].
  destruct (Req_EM_T (norm_at n A rs 0) 0); [contradiction|]. fold (rel_at n A rs k). rewrite andb_true_iff, Z.ltb_lt.
  destruct (Rlt_dec (tol c) (rel_at n A rs k)); split; intros (H1 & H2); auto; try discriminate; contradiction.
Qed.
Lemma cont_0 run rs cf its : steady_cont c (mon_at run rs cf its 0) = true <-> tol c < 1 /\ (0 < maxiter c)%Z.
Proof.
  unfold steady_cont, mon_at, rel_gt. cbn [m_resi m_init m_step norm_before]. destruct (Req_EM_T 1 0); [lra|].
  replace (1 / 1) with 1 by field. rewrite andb_true_iff, Z.ltb_lt. destruct (Rlt_dec (tol c) 1); split; intros (H1 & H2); auto; try discriminate; contradiction.
Qed.
Lemma cont_zero run rs cf its k : norm_at n A rs 0 = 0 -> norm_at n A rs k = 0 -> steady_cont c (mon_at run rs cf its (k + 1)) = false.
Proof.
  intros H H'. unfold steady_cont, mon_at, rel_gt. cbn [m_resi m_init m_step]. rewrite Nat.add_1_r. cbn [norm_before Nat.pred]. rewrite H, H'.
  destruct (Req_EM_T 0 0); [reflexivity|contradiction].
Qed.
Lemma rel_le_at run rs cf its k : norm_at n A rs 0 <> 0 ->
  rel_le (m_resi (mon_at run rs cf its (k + 1))) (m_init (mon_at run rs cf its (k + 1))) (tol c) = true <-> rel_at n A rs k <= tol c.
Proof.
  intros H. unfold rel_le, mon_at. cbn [m_resi m_init]. rewrite Nat.add_1_r. cbn [norm_before Nat.pred]. destruct (Req_EM_T (norm_at n A rs 0) 0); [contradiction|].
  fold (rel_at n A rs k). destruct (Rle_dec (rel_at n A rs k) (tol c)); split; intros; auto; try discriminate; contradiction.
Qed.

(** why the loop ends after [N] steps with the tolerance test *)
Definition stopped (rs : nat -> rout) (N : nat) : Prop :=
  match N with
  | O => 1 <= tol c
  | Datatypes.S k => norm_at n A rs 0 = 0 /\ k = 0%nat \/ norm_at n A rs 0 <> 0 /\ rel_at n A rs k <= tol c
  end.

Lemma loop_result u r : (0 < maxiter c)%Z ->
  loop (Z.to_nat (maxiter c)) (mkmon u 0 1 1 1 cfl0 0 []) = Some r ->
  exists N run rs cf its, run 0%nat = u /\ (Z.of_nat N <= maxiter c)%Z /\ finite_upto N rs /\
  (forall k, (k + 1 < N)%nat -> norm_at n A rs 0 <> 0 /\ tol c < rel_at n A rs k) /\ ((0 < N)%nat -> tol c < 1) /\
  match r with
  | SNext s => stepsN N run rs cf its /\ s = mon_at run rs cf its N /\ (Z.of_nat N = maxiter c \/ (Z.of_nat N < maxiter c)%Z /\ stopped rs N)
  | SErr Numerical_error => stepsN (N + 1) run rs cf its /\ rt_fin (rs N) = false /\ (Z.of_nat N < maxiter c)%Z
  | SErr Other_error => stepsN N run rs cf its /\ (Z.of_nat N < maxiter c)%Z /\
      (Rf (run N) = Some Exn \/ exists ro cfl, Rf (run N) = Some (Val ro) /\ update N cfl (run N) ro = Some Exn)
  | SErr Tolerance_error => False
  end.
Proof.
  intros HM E. set (z := mkrout (mkarr 0 (fun _ => szero)) (mkarr 0 (fun _ => 0)) true).
  rewrite <- (start_at u (fun _ => u) (fun _ => z) (fun _ => 0) (fun _ => 0%nat) eq_refl) in E.
  destruct (loop_sound _ _ _ _ _ _ _ (steps_0 _ _ _ _) ltac:(intros k Hk; lia) ltac:(intros k Hk; lia) E) as (N & run & rs & cf & its & HN & R0 & C & P).
  exists N, run, rs, cf, its. split; [exact R0|].
  assert (CM : forall i, steady_cont c (mon_at run rs cf its i) = true -> (Z.of_nat i < maxiter c)%Z).
  { intros i Hi. unfold steady_cont in Hi. apply andb_true_iff in Hi. destruct Hi as (_ & Hi). apply Z.ltb_lt in Hi. exact Hi. }
  assert (HM' : (Z.of_nat N <= maxiter c)%Z) by lia.
  assert (Z0 : (1 < N)%nat -> norm_at n A rs 0 <> 0).
  { intros H1 Z0. specialize (C 1%nat H1). pose proof (cont_zero run rs cf its 0 Z0 Z0) as C'. cbn [Nat.add] in C'. congruence. }
  split; [exact HM'|].
  assert (CC : (forall k, (k + 1 < N)%nat -> norm_at n A rs 0 <> 0 /\ tol c < rel_at n A rs k) /\ ((0 < N)%nat -> tol c < 1)).
  { split. intros k Hk. split; [apply Z0; lia|]. apply (proj1 (cont_at run rs cf its k (Z0 ltac:(lia)))). apply C. lia.
    intros H. apply (proj1 (cont_0 run rs cf its)). apply C. lia. }
  destruct CC as (C1 & C2).
  destruct r as [s|[]].
  - destruct P as (P1 & P2 & P3 & P4). split; auto. split; auto. split; auto. split; auto. split; auto.
    destruct (Z.eq_dec (Z.of_nat N) (maxiter c)) as [|HN']; auto. right. split; [lia|]. destruct P4 as [P4|P4]; [|lia]. rewrite P3 in P4. destruct N as [|k].
    + cbn. destruct (Rle_dec 1 (tol c)); auto. assert (steady_cont c (mon_at run rs cf its 0) = true) by (apply cont_0; split; [lra|lia]). congruence.
    + cbn. destruct (Req_EM_T (norm_at n A rs 0) 0) as [Z|Z].
      * left. split; auto. destruct k; auto. exfalso. apply (Z0 ltac:(lia)). auto.
      * right. split; auto. destruct (Rle_dec (rel_at n A rs k) (tol c)); auto. rewrite <- Nat.add_1_r in P4.
        assert (steady_cont c (mon_at run rs cf its (k + 1)) = true) by (apply cont_at; auto; split; [lra|lia]). congruence.
  - destruct P as (P1 & P2 & P3 & P4). repeat (split; [solve [auto]|]). apply CM. auto.
  - contradiction.
  - destruct P as (P1 & P2 & P3 & P4). repeat (split; [solve [auto]|]). auto.
Qed.

(** conversely, along given sequences *)
Lemma loop_follows N run rs cf its f : stepsN N run rs cf its -> finite_upto N rs -> (Z.of_nat N <= maxiter c)%Z ->
  ((0 < N)%nat -> tol c < 1) -> (forall k, (k + 1 < N)%nat -> norm_at n A rs 0 <> 0 /\ tol c < rel_at n A rs k) ->
  loop (N + f) (mkmon (run 0%nat) 0 1 1 1 cfl0 0 []) = loop f (mon_at run rs cf its N).
Proof.
  intros T F M T1 H. rewrite <- (start_at (run 0%nat) run rs cf its eq_refl). apply loop_at; auto. intros [|k] Hk.
  - apply cont_0. split; [apply T1; lia|lia].
  - destruct (H k ltac:(lia)) as (Z & L). rewrite <- Nat.add_1_r. apply cont_at; auto. split; auto. lia.
Qed.
Lemma loop_stops N run rs cf its f : stopped rs N -> loop f (mon_at run rs cf its N) = Some (SNext (mon_at run rs cf its N)).
Proof.
  intros H. destruct f; [reflexivity|]. cbn [steady_loop]. enough (E : steady_cont c (mon_at run rs cf its N) = false) by (rewrite E; reflexivity).
  apply not_true_is_false. intros E. destruct N as [|k]; cbn in H.
  - apply cont_0 in E. lra.
  - rewrite <- Nat.add_1_r in E. destruct H as [(Z & ->)|(Z & L)]. rewrite (cont_zero _ _ _ _ 0 Z Z) in E. discriminate. apply cont_at in E; auto. lra.
Qed.
Lemma loop_fails N run rs cf its f : stepsN (N + 1) run rs cf its -> steady_cont c (mon_at run rs cf its N) = true -> rt_fin (rs N) = false ->
  loop (Datatypes.S f) (mon_at run rs cf its N) = Some (SErr Numerical_error).
Proof. intros T C F. cbn [steady_loop]. rewrite C. rewrite (body_at (N + 1) run rs cf its N T) by lia. rewrite F. reflexivity. Qed.
End Loop.
