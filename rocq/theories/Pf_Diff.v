(** The effect of the functions of M_Diff.v. *)
From Coq Require Import Reals Lra List Arith Lia ZArith Bool.
From Verif Require Import Base BaseR BaseSum M_Gas M_Visc M_Mesh M_Geom Pf_Geom M_Space S_Space Pf_Space
  M_Grad Pf_Grad M_Recon Pf_Recon M_Resid S_Resid Pf_Resid Pf_Resid2 P_Resid S_Visc Pf_Visc Pf_Deriv Pf_Jac M_Diff S_Diff.
Import ListNotations.
Open Scope R_scope.

(** ** faces *)
Lemma corrected_code rl rr ul ur gl gr v :
  gvec (getFaceGradient_modifiedAverage rl rr ul ur gl gr) v =
  corrected rl rr (cget ul v) (cget ur v) (vscal (1/2) (vadd (gvec gl v) (gvec gr v))).
Proof.
  unfold gvec, getFaceGradient_modifiedAverage, corrected, towards, centre_dir. cbv zeta. cbn [gx gy]. rewrite !cget_mkst, centre_dist_spec.
  set (D := dist2 rl rr). unfold dot2, vadd, vscal, vsub, Rdiv. cbn [vx vy]. apply v2_eq; cbn [vx vy]; ring.
Qed.

Lemma flux_code S d u ub g (k : nat) rl rr ul ur gl gr : rl = left_value S (aat (sm_rc S)) k -> rr = right_value S (aat (sm_rc S)) (aat (sm_rcbp S)) k ->
  ul = left_value S u k -> ur = right_value S u ub k -> gl = g (f_left (aat (sm_F S) k)) ->
  gr = (if (k <? sm_nb S)%nat then gl else g (f_right (aat (sm_F S) k))) ->
  diff_flux d (aat (sm_M S) k) (getFaceGradient_modifiedAverage rl rr ul ur gl gr) = fick S (df_nu d) u g ub k.
Proof.
  intros -> -> -> -> -> ->. unfold diff_flux, fick. cbv zeta. apply st_ext; intros v. rewrite !cget_mkst, <- corrected_code. unfold gvec at 1, dot2. cbn [vx vy]. ring.
Qed.

Section Res.
Variables (S : smesh) (d : diffn) (u : arr st).
Hypothesis OK : sm_ok S.
Hypothesis Lu : alen u = (sm_ne S + sm_nc S)%nat.

Lemma left_ok (ul0 : arr st) : alen ul0 = sm_nb S -> exists ul, boundary_left S u ul0 = Some ul /\ alen ul = sm_nb S /\ forall k, (k < sm_nb S)%nat -> aat ul k = left_value S (aat u) k.
Proof.
  intros L0. unfold boundary_left.
  match goal with |- context [floop _ ?bb ?ss] =>
    destruct (floop_inv _ (fun j (a : arr st) => alen a = sm_nb S /\ (forall k, (k < j)%nat -> aat a k = left_value S (aat u) k)) (sm_nb S) bb ss) as (a & E & L & P) end.
  - split; auto. intros; lia.
  - intros k a Hk (L & P). assert (K : (k < sm_nf_all S)%nat) by (unfold sm_nf_all; lia). pose proof (so_left _ OK k K).
    rewrite aget_ok by (rewrite (so_F _ OK); auto). cbn [bind]. rewrite aget_ok by lia. cbn [bind]. rewrite aset_ok by lia. eexists; split; [reflexivity|].
    cbn. split; auto. intros q Hq; unfold upd; destruct (Nat.eqb_spec q k); subst; auto. apply P; lia.
  - eauto.
Qed.

Lemma ghosts_ok (ul ug0 : arr st) : alen ul = sm_nb S -> (forall k, (k < sm_nb S)%nat -> aat ul k = left_value S (aat u) k) -> alen ug0 = sm_nb S ->
  exists ug, diff_boundary_states S d ul ug0 = Some ug /\ alen ug = sm_nb S /\ forall k, (k < sm_nb S)%nat -> aat ug k = dirichlet S (df_bval d) (aat u) k.
Proof.
  intros Ll Hl L0. unfold diff_boundary_states.
  match goal with |- context [floop _ ?bb ?ss] =>
    destruct (floop_inv _ (fun j (a : arr st) => alen a = sm_nb S /\ (forall k, (k < j)%nat -> aat a k = dirichlet S (df_bval d) (aat u) k)) (sm_nb S) bb ss) as (a & E & L & P) end.
  - split; auto. intros; lia.
  - intros k a Hk (L & P). rewrite aget_ok by lia. cbn [bind]. rewrite aset_ok by lia. eexists; split; [reflexivity|].
    cbn. split; auto. intros q Hq; unfold upd; destruct (Nat.eqb_spec q k); subst; auto. unfold diff_boundary_state, dirichlet. rewrite Hl by auto. reflexivity. apply P; lia.
  - eauto.
Qed.

(** the field of gradients used by the fluxes *)
Definition with_ghosts (gg : nat -> grad) (G : arr grad) (i : nat) : grad := if (i <? sm_ne S)%nat then aat G i else gg (i - sm_ne S)%nat.

Variables (ug : arr st) (G : arr grad) (gg : nat -> grad).
Hypothesis Lg : alen ug = sm_nb S.
Hypothesis LG : alen G = (sm_ne S + sm_nc S)%nat.
Let F k := fick S (df_nu d) (aat u) (with_ghosts gg G) (aat ug) k.

Lemma b_incs k : (k < sm_nb S)%nat -> diff_boundary_incs S d u ug G k = Some (two S (fun k => sneg (F k)) F k).
Proof.
  intros Hk. assert (K : (k < sm_nf_all S)%nat) by (unfold sm_nf_all; lia). pose proof (so_left _ OK k K). unfold diff_boundary_incs.
  rewrite aget_ok by (rewrite (so_F _ OK); auto). cbn [bind]. rewrite aget_ok by (rewrite (so_M _ OK); auto). cbn [bind].
  rewrite aget_ok by lia. cbn [bind]. rewrite aget_ok by (rewrite (so_rc _ OK); lia). cbn [bind]. rewrite aget_ok by (rewrite (so_rcbp _ OK); lia). cbn [bind].
  rewrite !aget_ok by lia. cbn [bind]. rewrite two_outer by auto.
  match goal with |- Some [(_, sneg ?a)] = _ => enough (E : a = F k) by (rewrite E; reflexivity) end. unfold F.
  apply flux_code; auto; unfold right_value, with_ghosts; destruct (Nat.ltb_spec k (sm_nb S)); try lia; auto; destruct (Nat.ltb_spec (f_left (aat (sm_F S) k)) (sm_ne S)); auto; lia.
Qed.

Lemma i_incs k : (sm_nb S <= k < sm_nf_all S)%nat -> diff_interior_incs S d u (ghost_gradients S gg G) k = Some (two S (fun k => sneg (F k)) F k).
Proof.
  intros Hk. assert (K : (k < sm_nf_all S)%nat) by lia. pose proof (so_left _ OK k K). pose proof (right_lt S k OK Hk). unfold diff_interior_incs.
  rewrite aget_ok by (rewrite (so_F _ OK); auto). cbn [bind]. rewrite aget_ok by (rewrite (so_M _ OK); auto). cbn [bind].
  rewrite !(aget_ok _ (ghost_gradients S gg G)) by (cbn; lia). cbn [bind]. rewrite !(aget_ok _ (sm_rc S)) by (rewrite (so_rc _ OK); lia). cbn [bind].
  rewrite !aget_ok by lia. cbn [bind]. cbv zeta. unfold two.
  assert (E : diff_flux d (aat (sm_M S) k) (getFaceGradient_modifiedAverage (aat (sm_rc S) (f_left (aat (sm_F S) k))) (aat (sm_rc S) (f_right (aat (sm_F S) k)))
      (aat u (f_left (aat (sm_F S) k))) (aat u (f_right (aat (sm_F S) k))) (aat (ghost_gradients S gg G) (f_left (aat (sm_F S) k))) (aat (ghost_gradients S gg G) (f_right (aat (sm_F S) k)))) = F k).
  { unfold F. apply flux_code; auto; unfold right_value; destruct (Nat.ltb_spec k (sm_nb S)); try lia; auto. }
  rewrite E. reflexivity.
Qed.

Lemma loops_ok (res : arr st) : alen res = sm_ne S -> exists r1 r2,
  acc_loop sadd 0 (sm_nb S) (diff_boundary_incs S d u ug G) res = Some r1 /\
  acc_loop sadd (sm_nb S) (sm_nf_all S) (diff_interior_incs S d u (ghost_gradients S gg G)) r1 = Some r2 /\ alen r2 = sm_ne S /\
  forall i v, (i < sm_ne S)%nat -> cget (aat r2 i) v = cget (aat res i) v - outflow S F i v.
Proof.
  intros LR.
  destruct (acc_loop_ok sadd 0 (sm_nb S) (diff_boundary_incs S d u ug G) res (two S (fun k => sneg (F k)) F)) as (r1 & E1 & L1 & P1 & _).
  { lia. } { intros k Hk. split; [apply b_incs; lia|]. intros p Hp. rewrite LR. eapply two_in; eauto. unfold sm_nf_all. lia. }
  destruct (acc_loop_ok sadd (sm_nb S) (sm_nf_all S) (diff_interior_incs S d u (ghost_gradients S gg G)) r1 (two S (fun k => sneg (F k)) F)) as (r2 & E2 & L2 & P2 & _).
  { unfold sm_nf_all; lia. } { intros k Hk. split; [apply i_incs; lia|]. intros p Hp. rewrite L1, LR. eapply two_in; eauto. lia. }
  exists r1, r2. split; auto. split; auto. split; [lia|]. intros i v Hi.
  rewrite (P2 (fun x => cget x v) (cget_additive v) i), (P1 (fun x => cget x v) (cget_additive v) i).
  unfold outflow, all_faces. rewrite Nat.sub_0_r.
  replace (sm_nf_all S) with (sm_nb S + (sm_nf_all S - sm_nb S))%nat at 2 by (unfold sm_nf_all; lia). rewrite seq_app, rsum_app, Nat.add_0_l.
  assert (Q : forall l, rsum (fun k => added (fun x => cget x v) (two S (fun k => sneg (F k)) F k) i) l =
     - rsum (fun k => (if (f_left (aat (sm_F S) k) =? i)%nat then cget (F k) v else 0) - (if (f_right (aat (sm_F S) k) =? i)%nat then cget (F k) v else 0)) l).
  { intros l. rewrite <- rsum_opp. apply rsum_ext. intros k _. rewrite added_two by auto. rewrite cget_neg. destruct (_ =? i)%nat, (_ =? i)%nat; lra. }
  rewrite !Q. lra.
Qed.

Lemma source_ok b (h : arr R) (dt : arr R) (res : arr st) : alen h = sm_ne S -> alen dt = sm_ne S -> alen res = sm_ne S -> (b = true -> df_nu d <> 0) ->
  exists dt' res', diff_source S d b h u (dt, res) = Some (dt', res') /\ alen dt' = sm_ne S /\ alen res' = sm_ne S /\
  (forall i, (i < sm_ne S)%nat -> aat dt' i = (if b then aat h i * aat h i / df_nu d else aat dt i) /\
     forall v, cget (aat res' i) v = cget (aat res i) v + cget (df_src d (aat (sm_rc S) i) (aat u i)) v * aat (sm_A S) i).
Proof.
  intros Lh Ld LR Hnu. unfold diff_source.
  match goal with |- context [floop _ ?bb ?ss] =>
    destruct (floop_inv _ (fun j (s : arr R * arr st) => alen (fst s) = sm_ne S /\ alen (snd s) = sm_ne S /\
      (forall i, (i < j)%nat -> aat (fst s) i = (if b then aat h i * aat h i / df_nu d else aat dt i) /\
       forall v, cget (aat (snd s) i) v = cget (aat res i) v + cget (df_src d (aat (sm_rc S) i) (aat u i)) v * aat (sm_A S) i) /\
      (forall i, (j <= i)%nat -> aat (fst s) i = aat dt i /\ aat (snd s) i = aat res i)) (sm_ne S) bb ss) as ([dt' res'] & E & L1 & L2 & P & _) end.
  - cbn. split; auto. split; auto. split; auto. intros; lia.
  - intros i [a r] Hi (L1 & L2 & P & Q). cbn [fst snd] in *.
    assert (E : exists a', (if b then hi <- aget h i ;; q <- rdiv (hi * hi) (df_nu d) ;; aset a i q else Some a) = Some a' /\ alen a' = sm_ne S /\
       forall q, aat a' q = if (q =? i)%nat then (if b then aat h i * aat h i / df_nu d else aat dt i) else aat a q).
    { destruct b.
      - rewrite aget_ok by lia. cbn [bind]. unfold rdiv. destruct (Req_EM_T (df_nu d) 0) as [Z|_]; [exfalso; apply (Hnu eq_refl Z)|]. cbn [bind]. rewrite aset_ok by lia. eexists; split; [reflexivity|]. cbn. split; auto.
      - exists a. split; auto. split; auto. intros q. destruct (Nat.eqb_spec q i); auto. subst. apply Q. lia. }
    destruct E as (a' & -> & La & Pa). cbn [bind].
    rewrite aget_ok by (rewrite (so_rc _ OK); lia). cbn [bind]. rewrite aget_ok by lia. cbn [bind]. rewrite aget_ok by (rewrite (so_A _ OK); lia). cbn [bind].
    rewrite aget_ok by lia. cbn [bind]. rewrite aset_ok by lia. cbn [bind]. eexists; split; [reflexivity|]. cbn [fst snd alen aat].
    split; auto. split; auto. split.
    + intros q Hq. rewrite Pa. unfold upd. destruct (Nat.eqb_spec q i) as [->|N].
      * split; auto. intros v. rewrite cget_add, cget_mkst. rewrite (proj2 (Q i (le_n _))). reflexivity.
      * apply P. lia.
    + intros q Hq. rewrite Pa. unfold upd. destruct (Nat.eqb_spec q i); [lia|]. apply Q. lia.
  - exists dt', res'. split; auto.
Qed.
End Res.

(** ** the whole residual *)
Theorem diff_residual_ok S d h ju jg G0 gg (u res : arr st) b dt : sm_ok S -> alen u = (sm_ne S + sm_nc S)%nat ->
  match df_gs d with GLeastSquares V => alen V = sm_ne S | _ => True end -> alen G0 = (sm_ne S + sm_nc S)%nat ->
  alen h = sm_ne S -> alen dt = sm_ne S -> alen res = sm_ne S -> (b = true -> df_nu d <> 0) ->
  exists ug G dt' res', alen ug = sm_nb S /\ (forall k, (k < sm_nb S)%nat -> aat ug k = dirichlet S (df_bval d) (aat u) k) /\
    compute_gradients S (df_gs d) u ug G0 = Some G /\ alen G = (sm_ne S + sm_nc S)%nat /\
    diff_residual S d h ju jg G0 gg u res b (Some dt) = Some (Val (dt', res')) /\ alen dt' = sm_ne S /\ alen res' = sm_ne S /\
    diff_residual S d h ju jg G0 gg u res b None = Some Exn /\
    forall i, (i < sm_ne S)%nat -> aat dt' i = (if b then aat h i * aat h i / df_nu d else aat dt i) /\
      forall v, cget (aat res' i) v = cget (aat res i) v - outflow S (fick S (df_nu d) (aat u) (with_ghosts S gg G) (aat ug)) i v
                + cget (df_src d (aat (sm_rc S) i) (aat u i)) v * aat (sm_A S) i.
Proof.
  intros OK Lu HS LG0 Lh Ld LR Hnu. unfold diff_residual.
  destruct (left_ok S u OK Lu (mkarr (sm_nb S) ju) eq_refl) as (ul & E1 & L1 & P1). rewrite E1. cbn [bind].
  destruct (ghosts_ok S d u Lu ul (mkarr (sm_nb S) jg) L1 P1 eq_refl) as (ug & E2 & L2 & P2). rewrite E2. cbn [bind].
  destruct (gradients_run S (df_gs d) u ug G0 OK HS Lu L2 LG0) as (G & E3 & L3). rewrite E3. cbn [bind].
  destruct (loops_ok S d u OK Lu ug G gg L2 L3 res LR) as (r1 & r2 & E4 & E5 & L5 & P5). rewrite E4. cbn [bind]. rewrite E5. cbn [bind].
  destruct (source_ok S d u OK Lu ug G L2 L3 b h dt r2 Lh Ld L5 Hnu) as (dt' & res' & E6 & L6 & L7 & P6). rewrite E6. cbn [bind].
  exists ug, G, dt', res'. split; auto. split; auto. split; auto. split; auto. split; auto. split; auto. split; auto. split; auto.
  intros i Hi. destruct (P6 i Hi) as (A & B). split; auto. intros v. rewrite B, P5 by auto. reflexivity.
Qed.

(** ** cell sizes *)
Lemma cell_size_ok S i : sm_ok S -> (i < sm_ne S)%nat -> (0 < aat (sm_nf S) i)%nat -> (forall k, bounds S i k -> 0 < fm_len (aat (sm_M S) k)) ->
  exists h, cell_size S i = Some h /\ largest_face S i h.
Proof.
  intros OK Hi HN HP. unfold cell_size. rewrite aget_ok by (rewrite (so_nf _ OK); auto). cbn [bind].
  destruct (so_tab _ OK) as (T1 & _ & T3). specialize (T3 i Hi).
  match goal with |- context [floop ?n ?bb ?ss] =>
    destruct (floop_inv _ (fun j (h : R) => (j = 0%nat /\ h = 0 \/ exists f, (f < j)%nat /\ h = fm_len (aat (sm_M S) (at2 (sm_EF S) i f))) /\
      forall f, (f < j)%nat -> fm_len (aat (sm_M S) (at2 (sm_EF S) i f)) <= h) n bb ss) as (h & E & P & Q) end.
  - split; auto. intros; lia.
  - intros f h Hf (P & Q). rewrite get2_ok by lia. cbn [bind]. destruct (so_ef _ OK i f Hi Hf) as (K & W). rewrite aget_ok by (rewrite (so_M _ OK); auto). cbn [bind].
    eexists; split; [reflexivity|].
    assert (Bk : bounds S i (at2 (sm_EF S) i f)) by (split; auto; cbv zeta in W; tauto). specialize (HP _ Bk).
    destruct (Rltb_spec h (fm_len (aat (sm_M S) (at2 (sm_EF S) i f)))) as [L|L].
    + split. { right. exists f. split; auto. lia. } intros g Hg. destruct (Nat.eq_dec g f) as [->|]; [lra|]. specialize (Q g ltac:(lia)). lra.
    + split. { right. destruct P as [(-> & ->)|(g & Hg & Eh)]; [exfalso; lra|]. exists g. split; auto; lia. }
      intros g Hg. destruct (Nat.eq_dec g f) as [->|]; [lra|]. apply Q; lia.
  - exists h. split; auto. destruct P as [(Z & _)|(f & Hf & Eh)]; [lia|]. destruct (so_ef _ OK i f Hi Hf) as (K & W). split.
    + exists (at2 (sm_EF S) i f). split; auto. split; auto. cbv zeta in W. tauto.
    + intros k (Hk & Bk). destruct (so_sur _ OK k i Hk Hi Bk) as (g & Hg & <-). apply Q; auto.
Qed.

Lemma sizes_ok S : sm_ok S -> (forall i, (i < sm_ne S)%nat -> (0 < aat (sm_nf S) i)%nat) -> (forall k, (k < sm_nf_all S)%nat -> 0 < fm_len (aat (sm_M S) k)) ->
  exists h, diff_sizes S = Some h /\ alen h = sm_ne S /\ forall i, (i < sm_ne S)%nat -> largest_face S i (aat h i).
Proof.
  intros OK HN HP. unfold diff_sizes.
  match goal with |- context [floop _ ?bb ?ss] =>
    destruct (floop_inv _ (fun j (a : arr R) => alen a = sm_ne S /\ (forall k, (k < j)%nat -> largest_face S k (aat a k))) (sm_ne S) bb ss) as (a & E & L & P) end.
  - split; auto. intros; lia.
  - intros k a Hk (L & P). destruct (cell_size_ok S k OK Hk (HN k Hk)) as (h & -> & Ph). { intros q (Hq & _). auto. } cbn [bind]. rewrite aset_ok by lia. eexists; split; [reflexivity|].
    cbn. split; auto. intros q Hq; unfold upd; destruct (Nat.eqb_spec q k); subst; auto. apply P; lia.
  - eauto.
Qed.

(** ** the matrix *)
Lemma block_row S d k rl rr x y z v : rl = left_value S (aat (sm_rc S)) k -> rr = right_value S (aat (sm_rc S)) (aat (sm_rcbp S)) k ->
  sdot (mrow (diff_block d (aat (sm_M S) k) (snd (fst (getFaceGradientAndJacobian_thinLayer rl rr x y mone mone)))) v) z = - conductance S (df_nu d) k * cget z v.
Proof.
  intros -> ->. unfold conductance. set (rl := left_value _ _ _). set (rr := right_value _ _ _ _). cbn [fst snd getFaceGradientAndJacobian_thinLayer].
  unfold towards, dot2, vscal, vsub, centre_dir. cbv zeta. rewrite <- (centre_dist_spec rl rr). set (D := centre_dist rl rr).
  unfold diff_block, sdot. destruct v; cbn; unfold Rdiv; ring.
Qed.

Section Mat.
Variables (S : smesh) (d : diffn) (u : arr st) (row : nat -> nat) (col : option (nat -> nat)) (N : nat).
Hypothesis OK : sm_ok S.
Hypothesis Lu : alen u = (sm_ne S + sm_nc S)%nat.
Hypothesis Hrow : forall i, (i < sm_ne S)%nat -> (row i < N)%nat.
Hypothesis Hinj : forall i j, (i < sm_ne S)%nat -> (j < sm_ne S)%nat -> row i = row j -> i = j.
Hypothesis Hcol : forall k, (k < sm_nc S)%nat -> exists c, col = Some c /\ (c k < N)%nat.

Let blk k := diff_block d (aat (sm_M S) k) (snd (fst (getFaceGradientAndJacobian_thinLayer (left_value S (aat (sm_rc S)) k) (right_value S (aat (sm_rc S)) (aat (sm_rcbp S)) k) szero szero mone mone))).

Lemma jb_ok k x : (k < sm_nb S)%nat -> diff_jacobian_boundary S d k x = Some (blk k).
Proof.
  intros Hk. assert (K : (k < sm_nf_all S)%nat) by (unfold sm_nf_all; lia). pose proof (so_left _ OK k K). unfold diff_jacobian_boundary.
  rewrite aget_ok by (rewrite (so_F _ OK); auto). cbn [bind]. rewrite aget_ok by (rewrite (so_M _ OK); auto). cbn [bind].
  rewrite aget_ok by (rewrite (so_rc _ OK); lia). cbn [bind]. rewrite aget_ok by (rewrite (so_rcbp _ OK); lia). cbn [bind].
  unfold blk, right_value. destruct (Nat.ltb_spec k (sm_nb S)); [|lia]. reflexivity.
Qed.
Lemma ji_ok k x y : (sm_nb S <= k < sm_nf_all S)%nat -> diff_jacobian_interior S d k x y = Some (blk k, blk k).
Proof.
  intros Hk. assert (K : (k < sm_nf_all S)%nat) by lia. pose proof (so_left _ OK k K). pose proof (right_lt S k OK Hk). unfold diff_jacobian_interior.
  rewrite aget_ok by (rewrite (so_F _ OK); auto). cbn [bind]. rewrite aget_ok by (rewrite (so_M _ OK); auto). cbn [bind].
  rewrite !aget_ok by (rewrite (so_rc _ OK); lia). cbn [bind].
  unfold blk, right_value. destruct (Nat.ltb_spec k (sm_nb S)); [lia|]. reflexivity.
Qed.

(** flux of the linear problem the matrix represents *)
Definition thin (x : nat -> st) (k : nat) : st :=
  mkst (fun v => conductance S (df_nu d) k * (cget (left_value S x k) v - cget (right_value S x (fun _ => szero) k) v)).

Theorem matrix_action A0 : exists A, diff_jacobian S d u row col A0 = Some A /\
  (forall dd x, (forall j, (j < sm_ne S)%nat -> x j = dd (row j)) -> (forall k c, (k < sm_nc S)%nat -> col = Some c -> x (sm_ne S + k)%nat = dd (c k)) ->
     forall i v, (i < sm_ne S)%nat -> app N dd A (row i) v = app N dd A0 (row i) v + outflow S (thin x) i v) /\
  (forall p q, (forall i, (i < sm_ne S)%nat -> row i <> p) -> A p q = A0 p q).
Proof.
  unfold diff_jacobian.
  assert (EB : forall k, (k < sm_nb S)%nat -> diff_jacobian_boundary S d k (aat u (f_left (aat (sm_F S) k))) = Some (blk k)) by (intros; apply jb_ok; auto).
  assert (EI : forall k, (sm_nb S <= k < sm_nf_all S)%nat -> diff_jacobian_interior S d k (aat u (f_left (aat (sm_F S) k))) (aat u (f_right (aat (sm_F S) k))) = Some (blk k, blk k)) by (intros; apply ji_ok; auto).
  destruct (assemble_ok S _ _ u row col N (fun _ => szero) OK Lu Hrow Hcol blk blk blk EB EI A0) as (A & EA & _ & QA).
  exists A. split; auto. split; auto. intros dd x Hx Hg i v Hi.
  destruct (assemble_ok S _ _ u row col N dd OK Lu Hrow Hcol blk blk blk EB EI A0) as (A' & EA' & PA & _). rewrite EA in EA'. injection EA' as <-.
  rewrite PA. f_equal. unfold outflow. apply rsum_ext. intros k Hk. unfold all_faces in Hk. apply in_seq in Hk. pose proof (so_left _ OK k ltac:(lia)) as HL.
  unfold contrib. cbv zeta.
  assert (EQ : forall j, (j < sm_ne S)%nat -> (row i =? row j)%nat = (j =? i)%nat).
  { intros j Hj. destruct (Nat.eqb_spec j i) as [->|]. apply Nat.eqb_refl. apply Nat.eqb_neq. intro Q. apply Hinj in Q; auto. }
  assert (BR : forall z, sdot (mrow (blk k) v) z = - conductance S (df_nu d) k * cget z v) by (intros; apply block_row; auto).
  rewrite EQ by auto. rewrite !BR. unfold thin. rewrite cget_mkst. unfold left_value, right_value.
  destruct (Nat.ltb_spec k (sm_nb S)) as [K|K].
  - rewrite (so_phy _ OK k K). destruct (Nat.eqb_spec (sm_ne S + sm_nc S + k) i); [lia|]. rewrite cget_zero, Hx by auto. destruct (_ =? i)%nat; ring.
  - rewrite (Hx (f_left (aat (sm_F S) k))) by auto. destruct (Nat.ltb_spec k (sm_nb S + sm_ni S)) as [K2|K2].
    + pose proof (so_int _ OK k ltac:(lia)) as HR. rewrite EQ by lia. rewrite Hx by lia. destruct (_ =? i)%nat, (_ =? i)%nat; ring.
    + pose proof (so_con _ OK k ltac:(lia)) as HR. rewrite HR. destruct (Nat.eqb_spec (sm_ne S + (k - sm_nb S - sm_ni S)) i); [lia|].
      destruct (Hcol (k - sm_nb S - sm_ni S)%nat) as (c & Ec & _). { unfold sm_nf_all in Hk. lia. }
      rewrite Ec. rewrite (Hg _ c) by (auto; unfold sm_nf_all in Hk; lia). rewrite BR. destruct (_ =? i)%nat; ring.
Qed.
End Mat.
