(** Proofs about the updates of the ODE solvers, relaxation and the TVDRK solver. *)
From Coq Require Import Reals Lra Lia List Arith ZArith Bool.
From Verif Require Import Base BaseR BaseSum M_Gas S_Gas M_Resid M_Ode S_Ode Pf_Ode.
Import ListNotations.
Open Scope R_scope.

(** a loop which sets every entry once, from the old entry *)
Lemma map_loop {T} (n : nat) (g : nat -> T) (body : nat -> arr T -> option (arr T)) (a : arr T) : (n <= alen a)%nat ->
  (forall i b, (i < n)%nat -> alen b = alen a -> aat b i = aat a i -> body i b = aset b i (g i)) ->
  exists a', floop n body a = Some a' /\ alen a' = alen a /\ (forall i, (i < n)%nat -> aat a' i = g i) /\ forall i, (n <= i)%nat -> aat a' i = aat a i.
Proof.
  intros L H.
  destruct (floop_inv _ (fun k b => alen b = alen a /\ (forall i, (i < k)%nat -> aat b i = g i) /\ forall i, (k <= i)%nat -> aat b i = aat a i) n body a) as (b & E & P); eauto.
  - split; auto. split; auto. intros; lia.
  - intros i b Hi (L1 & P1 & P2). rewrite H; auto. rewrite aset_ok by lia. eexists. split; [reflexivity|]. cbn [alen aat]. split; auto. split; intros j Hj.
    + destruct (Nat.eq_dec j i) as [->|]. apply upd_eq. rewrite upd_ne by auto. apply P1. lia.
    + rewrite upd_ne by lia. apply P2. lia.
Qed.

Section Updates.
Context (n : nat) (A : arr R) (c : sconf).

Lemma fe_update_ok u ro : (n <= alen u)%nat -> (n <= alen A)%nat -> (n <= alen (rt_dt ro))%nat -> (n <= alen (rt_r ro))%nat ->
  exists u', fe_update n A c u ro = Some u' /\ alen u' = alen u /\
  (forall i, (i < n)%nat -> aat u' i = sadd (aat u i) (sscal (cflinit c * aat (rt_dt ro) i / aat A i) (aat (rt_r ro) i))) /\
  forall i, (n <= i)%nat -> aat u' i = aat u i.
Proof.
  intros L1 L2 L3 L4. unfold fe_update. apply (map_loop n); auto. intros i b Hi L E.
  rewrite !aget_ok by lia. cbn [bind]. rewrite E. do 3 f_equal. unfold Rdiv. rewrite Rmult_1_r. reflexivity.
Qed.

Lemma be_update_ok relax u du : (n <= alen u)%nat -> (n <= alen du)%nat ->
  exists u', be_update n relax u du = Some u' /\ alen u' = alen u /\
  (forall i, (i < n)%nat -> aat u' i = sadd (aat u i) (sscal (relax (aat du i) (aat u i)) (aat du i))) /\ forall i, (n <= i)%nat -> aat u' i = aat u i.
Proof. intros L1 L2. unfold be_update. apply (map_loop n); auto. intros i b Hi L E. rewrite !aget_ok by lia. cbn [bind]. rewrite E. reflexivity. Qed.

Context (glob : nat -> nat) (Hg : forall i j, (i < n)%nat -> (j < n)%nat -> glob i = glob j -> i = j).

Lemma pseudo_ok cfl dtm M : (n <= alen dtm)%nat -> (n <= alen A)%nat ->
  exists dtm' M', add_pseudo_time n A glob cfl dtm M = Some (dtm', M') /\ alen dtm' = alen dtm /\
  (forall i, (i < n)%nat -> aat dtm' i = aat A i / (cfl * aat dtm i)) /\ (forall i, (n <= i)%nat -> aat dtm' i = aat dtm i) /\
  (forall i, (i < n)%nat -> M' (glob i) (glob i) = mplus (M (glob i) (glob i)) (mdiag (aat A i / (cfl * aat dtm i)))) /\
  (forall p q, p <> q \/ (forall i, (i < n)%nat -> p <> glob i) -> M' p q = M p q).
Proof.
  intros L1 L2. unfold add_pseudo_time.
  destruct (floop_inv _ (fun k (s : arr R * bmat) => alen (fst s) = alen dtm /\
    (forall i, (i < k)%nat -> aat (fst s) i = aat A i / (cfl * aat dtm i)) /\ (forall i, (k <= i)%nat -> aat (fst s) i = aat dtm i) /\
    (forall i, (i < k)%nat -> snd s (glob i) (glob i) = mplus (M (glob i) (glob i)) (mdiag (aat A i / (cfl * aat dtm i)))) /\
    (forall p q, p <> q \/ (forall i, (i < k)%nat -> p <> glob i) -> snd s p q = M p q)) n
    (fun i s => d <- aget (fst s) i ;; a <- aget A i ;; dtm' <- aset (fst s) i (a / (cfl * d)) ;; d' <- aget dtm' i ;; Some (dtm', mat_add (snd s) (glob i) (glob i) (mdiag d'))) (dtm, M)) as ((d & N) & E & P).
  - cbn [fst snd]. split; auto. split; [intros; lia|]. split; auto. split; [intros; lia|]. auto.
  - intros k (d & N) Hk (Q1 & Q2 & Q3 & Q4 & Q5). cbn [fst snd] in *. rewrite !aget_ok by lia. cbn [bind]. rewrite aset_ok by lia. cbn [bind].
    rewrite aget_ok by (cbn [alen]; lia). cbn [bind aat]. rewrite upd_eq. rewrite Q3 by lia. eexists. split; [reflexivity|]. cbn [fst snd alen aat].
    split; auto. split; [|split; [|split]].
    + intros i Hi. destruct (Nat.eq_dec i k) as [->|]. apply upd_eq. rewrite upd_ne by auto. apply Q2. lia.
    + intros i Hi. rewrite upd_ne by lia. apply Q3. lia.
    + intros i Hi. unfold mat_add. destruct (Nat.eqb_spec (glob i) (glob k)) as [Eg|Eg]; cbn [andb].
      * apply Hg in Eg; try lia. subst i. rewrite Q5; auto. right. intros i Hi' Eg. apply Hg in Eg; lia.
      * apply Q4. destruct (Nat.eq_dec i k); [subst; congruence|lia].
    + intros p q H. unfold mat_add. destruct (Nat.eqb_spec p (glob k)) as [->|]; cbn [andb].
      * destruct (Nat.eqb_spec q (glob k)) as [->|]. destruct H as [H|H]; [congruence|]. exfalso. apply (H k); auto. lia. apply Q5. auto.
      * apply Q5. destruct H; auto. right. intros. apply H. lia.
  - exists d, N. split; auto.
Qed.

(** the diagonal entries of component [v] *)
Lemma pseudo_slow_ok cfl dtm M : (n <= alen dtm)%nat -> (n <= alen A)%nat ->
  exists dtm' M', add_pseudo_time_slow n A glob cfl dtm M = Some (dtm', M') /\ alen dtm' = alen dtm /\
  (forall i, (i < n)%nat -> aat dtm' i = aat A i / (cfl * aat dtm i)) /\ (forall i, (n <= i)%nat -> aat dtm' i = aat dtm i) /\
  (forall i v, (i < n)%nat -> (v < 4)%nat -> M' (glob i * 4 + v)%nat (glob i * 4 + v)%nat = M (glob i * 4 + v)%nat (glob i * 4 + v)%nat + aat A i / (cfl * aat dtm i)) /\
  (forall p q, p <> q \/ (forall i v, (i < n)%nat -> (v < 4)%nat -> p <> (glob i * 4 + v)%nat) -> M' p q = M p q).
Proof.
  intros L1 L2. unfold add_pseudo_time_slow.
  match goal with |- context [floop n ?b _] => set (body := b) end.
  destruct (floop_inv _ (fun k (s : arr R * smat) => alen (fst s) = alen dtm /\
    (forall i, (i < k)%nat -> aat (fst s) i = aat A i / (cfl * aat dtm i)) /\ (forall i, (k <= i)%nat -> aat (fst s) i = aat dtm i) /\
    (forall i v, (i < k)%nat -> (v < 4)%nat -> snd s (glob i * 4 + v)%nat (glob i * 4 + v)%nat = M (glob i * 4 + v)%nat (glob i * 4 + v)%nat + aat A i / (cfl * aat dtm i)) /\
    (forall p q, p <> q \/ (forall i v, (i < k)%nat -> (v < 4)%nat -> p <> (glob i * 4 + v)%nat) -> snd s p q = M p q)) n body (dtm, M)) as ((d & N) & E & P).
  - cbn [fst snd]. split; auto. split; [intros; lia|]. split; auto. split; [intros; lia|]. auto.
  - intros k (d & N) Hk (Q1 & Q2 & Q3 & Q4 & Q5). cbn [fst snd] in *. unfold body. cbn [fst snd]. rewrite !aget_ok by lia. cbn [bind]. rewrite aset_ok by lia. cbn [bind].
    rewrite aget_ok by (cbn [alen]; lia). cbn [bind aat]. rewrite upd_eq. rewrite Q3 by lia. set (x := aat A k / (cfl * aat dtm k)).
    destruct (floop_inv _ (fun w (B : smat) => (forall v, (v < w)%nat -> B (glob k * 4 + v)%nat (glob k * 4 + v)%nat = M (glob k * 4 + v)%nat (glob k * 4 + v)%nat + x) /\
       (forall p q, p <> q \/ (forall v, (v < w)%nat -> p <> (glob k * 4 + v)%nat) -> B p q = N p q)) 4 (fun v M => Some (smat_add M (glob k * 4 + v) (glob k * 4 + v) x)) N) as (B & EB & B1 & B2).
    { split; auto. intros; lia. }
    { intros w B Hw (B1 & B2). eexists. split; [reflexivity|]. split.
      - intros v Hv. unfold smat_add. destruct (Nat.eqb_spec (glob k * 4 + v) (glob k * 4 + w)) as [Ev|Ev]; cbn [andb].
        + assert (v = w) by lia. subst v. rewrite B2 by (right; intros; lia). rewrite Q5; auto. right. intros i u Hi Hu Eq. assert (glob k = glob i) by lia. apply Hg in H; lia.
        + apply B1. lia.
      - intros p q H. unfold smat_add. destruct (Nat.eqb_spec p (glob k * 4 + w)) as [->|]; cbn [andb].
        + destruct (Nat.eqb_spec q (glob k * 4 + w)) as [->|]. destruct H as [H|H]; [congruence|]. exfalso. apply (H w); auto. lia. apply B2. auto.
        + apply B2. destruct H; auto. right. intros. apply H. lia. }
    rewrite EB. cbn [bind]. eexists. split; [reflexivity|]. cbn [fst snd alen aat]. split; auto. split; [|split; [|split]].
    + intros i Hi. destruct (Nat.eq_dec i k) as [->|]. apply upd_eq. rewrite upd_ne by auto. apply Q2. lia.
    + intros i Hi. rewrite upd_ne by lia. apply Q3. lia.
    + intros i v Hi Hv. destruct (Nat.eq_dec i k) as [->|]. apply B1; auto. rewrite B2. apply Q4; auto; lia.
      right. intros w Hw Eq. assert (glob i = glob k) by lia. apply Hg in H; lia.
    + intros p q H. rewrite B2. apply Q5. destruct H; auto. right. intros. apply H; lia. destruct H; auto. right. intros. apply H; lia.
  - exists d, N. split; auto.
Qed.
End Updates.

(** ** Relaxation *)
Section Relax.
Context (G : gas) (mf : R) (H0 : 0 < mf) (H1 : mf <= 1).
Notation fac := (FlowSimpleUpdate_factor G mf).
Lemma factor_range u du : 0 < s0 u -> 0 < getPressureFromConserved G u -> mf <= fac du u <= 1.
Proof.
  intros Hr Hp. unfold FlowSimpleUpdate_factor. cbv zeta. destruct (Rlt_dec _ (1 - mf)) as [L|L]; [|lra].
  split; [lra|]. pose proof (Rmax_r (Rabs (getDeltaPressureFromConserved G u du) / getPressureFromConserved G u) (Rabs (s0 du) / s0 u)) as M.
  assert (0 <= Rabs (s0 du) / s0 u). { apply Rmult_le_pos. apply Rabs_pos. left. apply Rinv_0_lt_compat. auto. } lra.
Qed.
Lemma factor_density u du : 0 < s0 u -> 0 < getPressureFromConserved G u -> mf * Rabs (s0 du) < s0 u -> 0 < s0 (sadd u (sscal (fac du u) du)).
Proof.
  intros Hr Hp Hd. cbn [sadd sscal s0]. enough (fac du u * Rabs (s0 du) < s0 u).
  { pose proof (factor_range u du Hr Hp). destruct (Rcase_abs (s0 du)) as [N|N].
    - rewrite Rabs_left in H by auto. lra.
    - assert (0 <= fac du u * s0 du) by (apply Rmult_le_pos; lra). lra. }
  unfold FlowSimpleUpdate_factor. cbv zeta. set (dp := Rabs _ / getPressureFromConserved G u). destruct (Rlt_dec _ (1 - mf)) as [L|L]; auto.
  pose proof (Rmax_r dp (Rabs (s0 du) / s0 u)) as M. set (e := Rmax dp (Rabs (s0 du) / s0 u)) in *. set (a := Rabs (s0 du)) in *.
  assert (Ha : 0 <= a) by apply Rabs_pos. set (d := a / s0 u) in *. assert (Ea : a = d * s0 u) by (unfold d; field; lra).
  assert (Hd0 : 0 <= d) by (apply Rmult_le_pos; auto; left; apply Rinv_0_lt_compat; auto).
  rewrite Ea. apply Rle_lt_trans with ((1 - d) * d * s0 u). { rewrite <- Rmult_assoc. apply Rmult_le_compat_r; [lra|]. apply Rmult_le_compat_r; lra. }
  assert ((1 - d) * d <= 1/4). { enough (0 <= (d - 1/2) * (d - 1/2)) by lra. apply Rle_0_sqr. }
  apply Rle_lt_trans with (1/4 * s0 u); [apply Rmult_le_compat_r; lra|lra].
Qed.
End Relax.

(** ** TVDRK *)
Section TV.
Context (n : nat) (A : arr R) (cfl : R) (cf : nat -> nat -> R) (order : nat) (Rf : arr st -> arr st -> option (exc rout)).

Lemma min_dt_ok dt : (0 < n)%nat -> (n <= alen dt)%nat ->
  exists m, min_dt n dt = Some m /\ (exists j, (j < n)%nat /\ m = aat dt j) /\ forall i, (i < n)%nat -> m <= aat dt i.
Proof.
  intros Hn L. unfold min_dt. destruct n as [|k]; [lia|]. rewrite aget_ok by lia. cbn [bind].
  destruct (frange_inv _ (fun i m => (exists j, (j < i)%nat /\ m = aat dt j) /\ forall j, (j < i)%nat -> m <= aat dt j) 1 (Datatypes.S k)
    (fun i m => d <- aget dt i ;; Some (if Rlt_dec d m then d else m)) (aat dt 0)) as (m & E & P); eauto; try lia.
  - split. exists 0%nat. auto. intros j Hj. replace j with 0%nat by lia. lra.
  - intros i m Hi ((j & Hj & E) & P). rewrite aget_ok by lia. cbn [bind]. eexists. split; [reflexivity|]. destruct (Rlt_dec (aat dt i) m) as [L'|L'].
    + split. exists i. split; [lia|auto]. intros q Hq. destruct (Nat.eq_dec q i) as [->|]; [lra|]. specialize (P q ltac:(lia)). lra.
    + split. exists j. split; [lia|auto]. intros q Hq. destruct (Nat.eq_dec q i) as [->|]; [lra|]. apply P. lia.
Qed.

Lemma clear_own_ok r : (n <= alen r)%nat -> exists r', clear_own n r = Some r' /\ alen r' = alen r /\ (forall i, (i < n)%nat -> aat r' i = szero) /\ forall i, (n <= i)%nat -> aat r' i = aat r i.
Proof. intros L. unfold clear_own. apply (map_loop n); auto. Qed.
Lemma copy_own_ok us u : (n <= alen us)%nat -> (n <= alen u)%nat -> exists u', copy_own n us u = Some u' /\ alen u' = alen u /\ (forall i, (i < n)%nat -> aat u' i = aat us i) /\ forall i, (n <= i)%nat -> aat u' i = aat u i.
Proof. intros L1 L2. unfold copy_own. apply (map_loop n); auto. intros i b Hi L E. rewrite aget_ok by lia. reflexivity. Qed.
Lemma stage_update_ok k dm u us r : (n <= alen u)%nat -> (n <= alen us)%nat -> (n <= alen r)%nat -> (n <= alen A)%nat ->
  exists us', stage_update n A cfl cf k dm u us r = Some us' /\ alen us' = alen us /\
  (forall i, (i < n)%nat -> aat us' i = ssub (sadd (sscal (cf k 0%nat) (aat u i)) (sscal (cf k 1%nat) (aat us i))) (sscal (cf k 2%nat * dm * cfl / aat A i) (aat r i))) /\
  forall i, (n <= i)%nat -> aat us' i = aat us i.
Proof. intros L1 L2 L3 L4. unfold stage_update. apply (map_loop n); auto. intros i b Hi L E. rewrite !aget_ok by lia. cbn [bind]. rewrite E. reflexivity. Qed.

(** evaluation at [u]: own residuals [rho] and time steps [dt], whatever the ghost entries of rvec *)
Definition evaluates (L : nat) (u : arr st) (rho : nat -> st) (dt : arr R) : Prop :=
  forall r0, alen r0 = L -> (forall i, (i < n)%nat -> aat r0 i = szero) ->
  exists ro, Rf u r0 = Some (Val ro) /\ rt_fin ro = true /\ alen (rt_r ro) = L /\ (forall i, (i < n)%nat -> aat (rt_r ro) i = rho i) /\ rt_dt ro = dt.

(** what [k] stages leave, relative to the full step: ustage = u - theta * dm * cfl / A * rho *)
Fixpoint theta (k : nat) : R := match k with O => 0 | Datatypes.S j => cf j 1%nat * theta j + cf j 2%nat end.
Lemma stages_ok L u rho dt us r : evaluates L u rho dt -> alen r = L -> (n <= L)%nat -> (n <= alen u)%nat -> (n <= alen us)%nat -> (n <= alen A)%nat -> (n <= alen dt)%nat -> (0 < n)%nat ->
  (forall i, (i < n)%nat -> aat us i = aat u i) -> (forall k, (k < order)%nat -> cf k 0%nat + cf k 1%nat = 1) -> (0 < order)%nat ->
  exists m g, (exists j, (j < n)%nat /\ m = aat dt j) /\ (forall i, (i < n)%nat -> m <= aat dt i) /\
  eloop order (tvdrk_stage n A cfl cf Rf u) (mkstg us r 0) = Some (Val g) /\ g_dt g = m /\ alen (g_u g) = alen us /\ alen (g_r g) = L /\
  forall i, (i < n)%nat -> aat (g_u g) i = ssub (aat u i) (sscal (theta order * m * cfl / aat A i) (rho i)).
Proof.
  intros EV LR HL LU LS LA LD Hn EQ HC HO. destruct (min_dt_ok dt Hn LD) as (m & Em & Mj & Mi). exists m.
  destruct (eloop_inv _ (fun k g => (k <> 0%nat -> g_dt g = m) /\ alen (g_u g) = alen us /\ alen (g_r g) = L /\
     forall i, (i < n)%nat -> aat (g_u g) i = ssub (aat u i) (sscal (theta k * m * cfl / aat A i) (rho i))) order (tvdrk_stage n A cfl cf Rf u) (mkstg us r 0)) as (g & E & P1 & P2 & P3 & P4).
  - cbn [g_dt g_u g_r theta]. split; [congruence|]. split; auto. split; auto. intros i Hi. rewrite EQ by auto. apply st_eq; cbn; unfold Rdiv; ring.
  - intros k g Hk (Q1 & Q2 & Q3 & Q4). unfold tvdrk_stage. destruct (clear_own_ok (g_r g) ltac:(lia)) as (r0 & E0 & L0 & Z0 & _). rewrite E0.
    destruct (EV r0 ltac:(congruence) Z0) as (ro & E1 & F1 & L1 & R1 & D1). rewrite E1.
    assert (ED : (if (k =? 0)%nat then min_dt n (rt_dt ro) else Some (g_dt g)) = Some m).
    { rewrite D1. destruct (Nat.eqb_spec k 0); auto. rewrite Q1; auto. }
    rewrite ED. cbn [bind]. rewrite F1. destruct (stage_update_ok k m u (g_u g) (rt_r ro)) as (us' & E2 & L2 & U2 & _); try lia. rewrite E2. cbn [bind].
    eexists. split; [reflexivity|]. cbn [g_dt g_u g_r]. split; auto. split; [congruence|]. split; auto. intros i Hi. rewrite U2 by auto. rewrite Q4, R1 by auto.
    rewrite Nat.add_1_r. cbn [theta]. specialize (HC k Hk). assert (C0 : cf k 0%nat = 1 - cf k 1%nat) by lra. rewrite C0.
    apply st_eq; cbn [ssub sadd sscal s0 s1 s2 s3]; unfold Rdiv; ring.
  - exists g. split; auto. split; auto. split; auto. split; auto. apply P1. lia.
Qed.

Lemma step_ok L s rho dt : evaluates L (t_u s) rho dt -> alen (t_r s) = L -> (n <= L)%nat -> (n <= alen (t_u s))%nat -> (n <= alen (t_s s))%nat -> (n <= alen A)%nat -> (n <= alen dt)%nat -> (0 < n)%nat ->
  (forall i, (i < n)%nat -> aat (t_s s) i = aat (t_u s) i) -> (forall k, (k < order)%nat -> cf k 0%nat + cf k 1%nat = 1) -> (0 < order)%nat ->
  exists m s', (exists j, (j < n)%nat /\ m = aat dt j) /\ (forall i, (i < n)%nat -> m <= aat dt i) /\
  tvdrk_step n A cfl cf order Rf s = Some (Val s') /\ t_time s' = t_time s + m * cfl /\ alen (t_u s') = alen (t_u s) /\ alen (t_s s') = alen (t_s s) /\ alen (t_r s') = L /\
  (forall i, (i < n)%nat -> aat (t_u s') i = ssub (aat (t_u s) i) (sscal (theta order * m * cfl / aat A i) (rho i)) /\ aat (t_s s') i = aat (t_u s') i) /\
  forall i, (n <= i)%nat -> aat (t_u s') i = aat (t_u s) i.
Proof.
  intros EV LR HL LU LS LA LD Hn EQ HC HO. destruct (stages_ok L (t_u s) rho dt (t_s s) (t_r s)) as (m & g & Mj & Mi & E & D & L1 & L2 & P); auto.
  destruct (copy_own_ok (g_u g) (t_u s)) as (u' & E' & L3 & P3 & P4); [lia|auto|].
  exists m. eexists. split; auto. split; auto. unfold tvdrk_step. rewrite E, E'. cbn [bind]. split; [reflexivity|]. cbn [t_time t_u t_s t_r]. split; [congruence|]. split; auto. split; auto. split; auto. split; auto.
  intros i Hi. rewrite P3 by auto. split; auto.
Qed.

(** no assumption on the residual: ghost entries of uvec are never written *)
Lemma step_ghosts s s' : (n <= alen (t_u s))%nat -> tvdrk_step n A cfl cf order Rf s = Some (Val s') ->
  alen (t_u s') = alen (t_u s) /\ forall i, (n <= i)%nat -> aat (t_u s') i = aat (t_u s) i.
Proof.
  intros L. unfold tvdrk_step. destruct (eloop _ _ _) as [[g|]|]; try discriminate. intros E. apply bind_some in E. destruct E as (u' & E & E').
  injection E' as <-. cbn [t_u]. destruct (Nat.eq_dec n 0) as [Z|Z].
  - unfold copy_own in E. rewrite Z in E. cbn in E. injection E as <-. auto.
  - unfold copy_own in E. assert (G : forall k b, (k <= n)%nat -> floop k (fun i u => x <- aget (g_u g) i ;; aset u i x) (t_u s) = Some b -> alen b = alen (t_u s) /\ forall i, (k <= i)%nat -> aat b i = aat (t_u s) i).
    { induction k as [|k IH]; intros b Hk Eb. cbn in Eb. injection Eb as <-. auto.
      cbn [floop] in Eb. apply bind_some in Eb. destruct Eb as (b' & E1 & E2). destruct (IH b' ltac:(lia) E1) as (L1 & P1).
      apply bind_some in E2. destruct E2 as (x & _ & E3). apply aset_inv in E3. destruct E3 as (_ & ->). cbn [alen aat]. split; auto. intros i Hi. rewrite upd_ne by lia. apply P1. lia. }
    apply (G n u'); auto.
Qed.
Lemma run_ghosts ft fuel : forall s s', (n <= alen (t_u s))%nat -> tvdrk_run n A cfl cf order Rf ft fuel s = Some (Val s') -> forall i, (n <= i)%nat -> aat (t_u s') i = aat (t_u s) i.
Proof.
  induction fuel as [|k IH]; intros s s' L E i Hi. cbn in E. injection E as <-. reflexivity.
  cbn [tvdrk_run] in E. destruct (Rle_dec _ _). 2: injection E as <-; reflexivity.
  destruct (tvdrk_step n A cfl cf order Rf s) as [[s1|]|] eqn:E1; try discriminate. cbn [ebind] in E. destruct (step_ghosts s s1 L E1) as (L1 & P1). rewrite (IH s1 s') by (auto; lia). apply P1. auto.
Qed.
End TV.
