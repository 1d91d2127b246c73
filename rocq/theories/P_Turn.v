(** C114: the direction of the axes does not matter to an explicit inviscid run on one process, of first order or of second order without limiter. If the mesh is rotated about the origin
    by any angle, the flow at the far field and at inflows and outflows too, then normals and centres rotate, areas and lengths stay, gradients, ghost states and the residual rotate, the local
    time steps and the residual norms are the same, and a run of the forward Euler solver from the rotated state takes the same steps and leaves the rotated states.

    Left out: the limiters and MUSCL, which limit each velocity component by itself (for MUSCL see [C114_muscl_refuted]); viscous flow. *)
From Coq Require Import Reals List String Arith ZArith Bool Lra Lia FunctionalExtensionality.
From Verif Require Import Base BaseR BaseSum M_Gas M_Flux M_Visc M_BC M_BCConf M_Mesh M_Geom M_Space M_Grad M_Recon M_Resid M_Ode M_Ctl M_Case M_Start S_Gas S_Mesh S_Geom Pf_Topo Pf_Faces Pf_Incid Pf_Full Pf_Geom Pf_Space Pf_Resid Pf_FluxRot P_Start P_Shift P_Scale.
Import ListNotations.
Open Scope R_scope.

(** ** Specification *)
(** rotation with cosine [c] and sine [s] *)
Definition turn (c s : R) : ortho := mkortho c (- s) s c.
Definition mturn (q : ortho) (m : fmet) : fmet := mkfm (qv q (fm_n m)) (fm_len m).
Record turned (q : ortho) (S S' : smesh) : Prop := {
  tn_ne : sm_ne S' = sm_ne S; tn_nb : sm_nb S' = sm_nb S; tn_ni : sm_ni S' = sm_ni S; tn_nc : sm_nc S' = sm_nc S;
  tn_F : sm_F S' = sm_F S; tn_EF : sm_EF S' = sm_EF S; tn_ES : sm_ES S' = sm_ES S; tn_nf : sm_nf S' = sm_nf S; tn_bt : sm_bt S' = sm_bt S;
  tn_M : scaled_by (mturn q) (sm_M S) (sm_M S'); tn_A : scaled_by (fun a => a) (sm_A S) (sm_A S');
  tn_X : scaled_by (qv q) (sm_X S) (sm_X S'); tn_rc : scaled_by (qv q) (sm_rc S) (sm_rc S');
  tn_rcbp : scaled_by (qv q) (sm_rcbp S) (sm_rcbp S'); tn_gr : scaled_by (qv q) (sm_gr S) (sm_gr S') }.
(** the gradient of a rotated field: derivatives and velocity components rotate *)
Definition gturn (q : ortho) (g : grad) : grad :=
  mkgrad (sadd (sscal (qxx q) (qs q (gx g))) (sscal (qxy q) (qs q (gy g)))) (sadd (sscal (qyx q) (qs q (gx g))) (sscal (qyy q) (qs q (gy g)))).
Definition mat_turn (q : ortho) (v : mat2) : mat2 :=
  let p11 := qxx q * m11 v + qxy q * m21 v in let p12 := qxx q * m12 v + qxy q * m22 v in
  let p21 := qyx q * m11 v + qyy q * m21 v in let p22 := qyx q * m12 v + qyy q * m22 v in
  mkm2 (p11 * qxx q + p12 * qxy q) (p11 * qyx q + p12 * qyy q) (p21 * qxx q + p22 * qxy q) (p21 * qyx q + p22 * qyy q).
Definition bc_turn (q : ortho) (b : flowbc) : flowbc := match b with BFar u => BFar (qs q u) | BInOut u => BInOut (qs q u) | _ => b end.
Definition bcs_turn (q : ortho) (l : list (Z * flowbc)) : list (Z * flowbc) := map (fun p => (fst p, bc_turn q (snd p))) l.

(** ** Loops *)
Definition part {T} (P : nat -> Prop) (f : T -> T) (a a' : arr T) : Prop := alen a' = alen a /\ forall i, P i -> aat a' i = f (aat a i).
Lemma part_weak {T} (P Q : nat -> Prop) (f : T -> T) a a' : part P f a a' -> (forall i, Q i -> P i) -> part Q f a a'.
Proof. intros (L & V) H. split; auto. Qed.
Lemma aget_part {T} P (f : T -> T) a a' i : part P f a a' -> P i -> aget a' i = option_map f (aget a i).
Proof. intros (L & V) H. unfold aget. rewrite L. destruct (Nat.ltb_spec i (alen a)); cbn; [rewrite V by auto|]; reflexivity. Qed.
Lemma aset_part {T} P (f : T -> T) a a' i x : part P f a a' -> orel (part (fun j => P j \/ j = i) f) (aset a i x) (aset a' i (f x)).
Proof.
  intros (L & V). unfold aset. rewrite L. destruct (i <? alen a)%nat; cbn; [|exact Logic.I]. split; cbn; auto. intros j Hj. unfold upd. destruct (Nat.eqb_spec j i); auto. apply V; tauto.
Qed.
Lemma floop_idx {T T'} (Q : nat -> T -> T' -> Prop) f g n : forall s s', Q 0%nat s s' -> (forall k s s', (k < n)%nat -> Q k s s' -> orel (Q (Datatypes.S k)) (f k s) (g k s')) -> orel (Q n) (floop n f s) (floop n g s').
Proof.
  induction n as [|n IH]; intros s s' H0 H; cbn; [exact H0|]. specialize (IH s s' H0 ltac:(intros; apply H; auto)). destruct (floop n f s), (floop n g s'); cbn in *; try contradiction; auto.
Qed.
Lemma frange_idx {T T'} (Q : nat -> T -> T' -> Prop) f g lo hi : (lo <= hi)%nat -> forall s s', Q lo s s' -> (forall k s s', (lo <= k < hi)%nat -> Q k s s' -> orel (Q (Datatypes.S k)) (f k s) (g k s')) -> orel (Q hi) (frange lo hi f s) (frange lo hi g s').
Proof.
  intros L s s' H0 H. unfold frange. pose proof (floop_idx (fun k => Q (lo + k)%nat) (fun k => f (lo + k)%nat) (fun k => g (lo + k)%nat) (hi - lo)) as K. cbv beta in K. replace (lo + (hi - lo))%nat with hi in K by lia. apply K.
  - rewrite Nat.add_0_r. exact H0.
  - intros k x x' Hk HQ. replace (lo + Datatypes.S k)%nat with (Datatypes.S (lo + k)) by lia. apply H; auto. lia.
Qed.
Lemma acc_part {T} plus (f : T -> T) lo hi b b' A A' : (forall a b, f (plus a b) = plus (f a) (f b)) -> (forall k, (lo <= k < hi)%nat -> b' k = option_map (incs f) (b k)) -> scaled_by f A A' ->
  orel (scaled_by f) (acc_loop plus lo hi b A) (acc_loop plus lo hi b' A').
Proof.
  intros Hf Hb H. unfold acc_loop, frange. apply floop_orel; auto. intros k s s' Hk Hs. rewrite Hb by lia. destruct (b (lo + k)%nat); cbn; [apply all_sc; auto|exact Logic.I].
Qed.

Section Turned.
Variables (c s : R).
Hypothesis cs : c * c + s * s = 1.
Let q := turn c s.
Notation qg := (gturn q).
Lemma ortho_q : orthogonal q. Proof. unfold orthogonal, q, turn. cbn. repeat split; nra. Qed.
Ltac cb := unfold q, turn, qv, qs, gturn, sadd, sscal, sneg; cbn [qxx qxy qyx qyy vx vy s0 s1 s2 s3 gx gy fm_n fm_len mom].

(** ** One face *)
Lemma sub_q a b : vsub (qv q a) (qv q b) = qv q (vsub a b). Proof. apply v2_eq; cb; cbn; ring. Qed.
Lemma mid_q a b : face_mid (qv q a) (qv q b) = qv q (face_mid a b). Proof. apply v2_eq; cb; cbn; field. Qed.
Lemma nrm x y : (c * x - s * y) * (c * x - s * y) + (s * x + c * y) * (s * x + c * y) = x * x + y * y.
Proof. transitivity ((c * c + s * s) * (x * x + y * y)); [ring|rewrite cs; ring]. Qed.
Lemma metric_q a b : face_metric (qv q a) (qv q b) = mturn q (face_metric a b).
Proof.
  unfold face_metric, mturn. cb. cbv zeta.
  replace ((s * vx b + c * vy b - (s * vx a + c * vy a)) ^ 2 + (-1 * (c * vx b + - s * vy b - (c * vx a + - s * vy a))) ^ 2) with ((vy b - vy a) ^ 2 + (-1 * (vx b - vx a)) ^ 2).
  2:{ pose proof (nrm (vx b - vx a) (vy b - vy a)) as H. replace ((vy b - vy a) ^ 2 + (-1 * (vx b - vx a)) ^ 2) with ((vx b - vx a) * (vx b - vx a) + (vy b - vy a) * (vy b - vy a)) by ring. rewrite <- H. ring. }
  f_equal. f_equal; unfold Rdiv; ring.
Qed.
Lemma inv_q a b : inv_dist (qv q a) (qv q b) = inv_dist a b.
Proof.
  unfold inv_dist.
  replace (0 + (vx (qv q a) - vx (qv q b)) * (vx (qv q a) - vx (qv q b)) + (vy (qv q a) - vy (qv q b)) * (vy (qv q a) - vy (qv q b))) with (0 + (vx a - vx b) * (vx a - vx b) + (vy a - vy b) * (vy a - vy b)); [reflexivity|]. cb. rewrite !Rplus_0_l, <- (nrm (vx a - vx b) (vy a - vy b)). ring.
Qed.
Lemma ut_q a b len x y : gg_ut a b len (qs q x) (qs q y) = qs q (gg_ut a b len x y).
Proof. apply st_eq; unfold gg_ut; cb; cbn; unfold Rdiv; ring. Qed.
Lemma term_q u n a : gg_term (qs q u) (qv q n) a = qg (gg_term u n a).
Proof. unfold gg_term. cb. f_equal; apply st_eq; cbn; ring. Qed.
Lemma qg_neg g : qg (gneg g) = gneg (qg g). Proof. unfold gneg. cb. f_equal; apply st_eq; cbn; ring. Qed.
Lemma qg_add a b : qg (gadd a b) = gadd (qg a) (qg b). Proof. unfold gadd. cb. f_equal; apply st_eq; cbn; ring. Qed.
Lemma qg_zero : qg gzero = gzero. Proof. unfold gzero. cb. f_equal; apply st_eq; cbn; ring. Qed.
Lemma w2_q a b : wls_w2 (qv q a) (qv q b) = wls_w2 a b.
Proof.
  unfold wls_w2.
  replace (0 + (vx (qv q a) - vx (qv q b)) * (vx (qv q a) - vx (qv q b)) + (vy (qv q a) - vy (qv q b)) * (vy (qv q a) - vy (qv q b))) with (0 + (vx a - vx b) * (vx a - vx b) + (vy a - vy b) * (vy a - vy b)); [reflexivity|]. cb. rewrite !Rplus_0_l, <- (nrm (vx a - vx b) (vy a - vy b)). ring.
Qed.
Lemma wmat_q a b : wls_mat (qv q a) (qv q b) = mat_turn q (wls_mat a b).
Proof. unfold wls_mat, mat_turn. cbv zeta. rewrite w2_q. unfold wls_dr. cb. cbn [m11 m12 m21 m22]. f_equal; ring. Qed.
Lemma mt_add a b : mat_turn q (m2add a b) = m2add (mat_turn q a) (mat_turn q b).
Proof. unfold m2add, mat_turn. cbn. f_equal; ring. Qed.
Lemma mt_zero : mat_turn q m2zero = m2zero. Proof. unfold m2zero, mat_turn. cbn. f_equal; ring. Qed.
Lemma det_q v : m2det (mat_turn q v) = m2det v.
Proof. unfold m2det, mat_turn. cbn. transitivity ((c * c + s * s) * (c * c + s * s) * (m11 v * m22 v - m21 v * m12 v)); [ring|rewrite cs; ring]. Qed.
Lemma inv2_q v : m2inv (mat_turn q v) = mat_turn q (m2inv v).
Proof. unfold m2inv. cbv zeta. rewrite det_q. set (id := 1 / m2det v). unfold mat_turn. cbn. f_equal; ring. Qed.
Lemma wvec_q a b x y : wls_vec (qv q a) (qv q b) (qs q x) (qs q y) = qg (wls_vec a b x y).
Proof. unfold wls_vec. cbv zeta. rewrite w2_q. unfold wls_dr. cb. f_equal; apply st_eq; cbn; ring. Qed.
Lemma one x y : x = (c * c + s * s) * y -> x = y. Proof. intros ->. rewrite cs. ring. Qed.
Lemma m2g_q v f : m2grad (mat_turn q v) (qg f) = qg (m2grad v f).
Proof. unfold m2grad, mat_turn. cb. f_equal; apply st_eq; cbn; apply one; ring. Qed.
Lemma lin_q u g a b : linearExtrapolate (qs q u) (qg g) sone (qv q a) (qv q b) = qs q (linearExtrapolate u g sone a b).
Proof.
  apply st_eq; unfold linearExtrapolate; cb; cbn.
  - replace (s0 u + 1 * s0 (gx g) * (vx a - vx b) + 1 * s0 (gy g) * (vy a - vy b)) with (s0 u + (c * c + s * s) * (s0 (gx g) * (vx a - vx b) + s0 (gy g) * (vy a - vy b))) by (rewrite cs; ring). ring.
  - replace (c * (s1 u + 1 * s1 (gx g) * (vx a - vx b) + 1 * s1 (gy g) * (vy a - vy b)) + - s * (s2 u + 1 * s2 (gx g) * (vx a - vx b) + 1 * s2 (gy g) * (vy a - vy b)))
      with (c * s1 u - s * s2 u + (c * c + s * s) * (c * (s1 (gx g) * (vx a - vx b) + s1 (gy g) * (vy a - vy b)) - s * (s2 (gx g) * (vx a - vx b) + s2 (gy g) * (vy a - vy b)))) by (rewrite cs; ring). ring.
  - replace (s * (s1 u + 1 * s1 (gx g) * (vx a - vx b) + 1 * s1 (gy g) * (vy a - vy b)) + c * (s2 u + 1 * s2 (gx g) * (vx a - vx b) + 1 * s2 (gy g) * (vy a - vy b)))
      with (s * s1 u + c * s2 u + (c * c + s * s) * (s * (s1 (gx g) * (vx a - vx b) + s1 (gy g) * (vy a - vy b)) + c * (s2 (gx g) * (vx a - vx b) + s2 (gy g) * (vy a - vy b)))) by (rewrite cs; ring). ring.
  - replace (s3 u + 1 * s3 (gx g) * (vx a - vx b) + 1 * s3 (gy g) * (vy a - vy b)) with (s3 u + (c * c + s * s) * (s3 (gx g) * (vx a - vx b) + s3 (gy g) * (vy a - vy b))) by (rewrite cs; ring). ring.
Qed.
Lemma dotm u : dot2 (mom (qs q u)) (mom (qs q u)) = dot2 (mom u) (mom u). Proof. rewrite mom_rot. apply dot_rot, ortho_q. Qed.
Lemma dotn u n : dot2 (mom (qs q u)) (qv q n) = dot2 (mom u) n. Proof. rewrite mom_rot. apply dot_rot, ortho_q. Qed.
Lemma press_q G u : getPressureFromConserved G (qs q u) = getPressureFromConserved G u. Proof. unfold getPressureFromConserved. rewrite dotm. reflexivity. Qed.
Lemma sound_q G u : getSoundSpeedFromConserved G (qs q u) = getSoundSpeedFromConserved G u. Proof. unfold getSoundSpeedFromConserved. rewrite press_q. reflexivity. Qed.
Lemma ghost_q G b u n : ghost_state G (bc_turn q b) (qs q u) (qv q n) = qs q (ghost_state G b u n).
Proof.
  destruct b; cbn [ghost_state bc_turn]; try reflexivity.
  - unfold slip_gs. rewrite dotn. apply st_eq; cb; ring.
  - unfold inout_gs. cbv zeta. rewrite dotn, sound_q, dotm. cbn [qs s0]. destruct (Rleb _ 0); [reflexivity|]. destruct (Rltb _ 1); reflexivity.
  - unfold inflow_gs. cbv zeta. rewrite dotn, sound_q, dotm. cbn [qs s0]. apply st_eq; cb; ring.
  - unfold adia2_gs. apply st_eq; cb; ring.
  - unfold iso_gs. cbv zeta. rewrite press_q.
    assert (E : forall a b, (s0 u * (2 * tv * vy (qv q n) - s1 (qs q u) / s0 u) * (s0 u * (2 * tv * vy (qv q n) - s1 (qs q u) / s0 u)) + s0 u * (- 2 * tv * vx (qv q n) - s2 (qs q u) / s0 u) * (s0 u * (- 2 * tv * vx (qv q n) - s2 (qs q u) / s0 u))) + a - a + b - b =
      s0 u * (2 * tv * vy n - s1 u / s0 u) * (s0 u * (2 * tv * vy n - s1 u / s0 u)) + s0 u * (- 2 * tv * vx n - s2 u / s0 u) * (s0 u * (- 2 * tv * vx n - s2 u / s0 u))).
    { intros a b. cb. unfold Rdiv. apply one. ring. }
    pose proof (E 0 0) as E0. rewrite !Rplus_0_r, !Rminus_0_r in E0. cbn [qs s0]. cbn [qs s1 s2] in E0.
    apply st_eq; cbn [s0 s1 s2 s3 qs]; [reflexivity| | |]. 
    + cb. unfold Rdiv. ring.
    + cb. unfold Rdiv. ring.
    + cbn [qs s0 s1 s2] in *. rewrite E0. reflexivity.
Qed.
Lemma prim_q G u : getPrimitiveFromConserved G (qs q u) = qs q (getPrimitiveFromConserved G u).
Proof. unfold getPrimitiveFromConserved. cbv zeta. rewrite press_q. apply st_eq; cb; unfold Rdiv; ring. Qed.
Lemma primi_q G u : getPrimitiveFromConserved_inplace G (qs q u) = qs q (getPrimitiveFromConserved_inplace G u).
Proof.
  assert (E : forall x, getPrimitiveFromConserved_inplace G x = getPrimitiveFromConserved G x). { intros [a b d e]. reflexivity. }
  rewrite !E. apply prim_q.
Qed.
Lemma consi_q G u : getConservedFromPrimitive_inplace G (qs q u) = qs q (getConservedFromPrimitive_inplace G u).
Proof.
  assert (E : forall x, getConservedFromPrimitive_inplace G x = mks (s0 x) (s0 x * s1 x) (s0 x * s2 x) (getEnergyFromPrimitive G x)). { intros [a b d e]. reflexivity. }
  rewrite !E. assert (K : getEnergyFromPrimitive G (qs q u) = getEnergyFromPrimitive G u). { unfold getEnergyFromPrimitive. rewrite dotm. reflexivity. }
  rewrite K. apply st_eq; cb; ring.
Qed.
Lemma qs_add a b : qs q (sadd a b) = sadd (qs q a) (qs q b). Proof. apply st_eq; cb; cbn; ring. Qed.
Lemma qs_scal a b : qs q (sscal a b) = sscal a (qs q b). Proof. apply st_eq; cb; cbn; ring. Qed.
Lemma qs_neg b : qs q (sneg b) = sneg (qs q b). Proof. apply st_eq; cb; cbn; ring. Qed.
Lemma get_mid_q X X' fc : scaled_by (qv q) X X' -> get_mid X' fc = option_map (qv q) (get_mid X fc).
Proof. intros H. unfold get_mid. rewrite !(aget_sc (qv q) _ _ _ H). destruct (aget X (f_a fc)), (aget X (f_b fc)); cbn [option_map bind]; try reflexivity. rewrite mid_q. reflexivity. Qed.
Lemma mfind_q l z : mfind (bcs_turn q l) z = option_map (bc_turn q) (mfind l z).
Proof. induction l as [|[j b] l IH]; cbn; [reflexivity|]. destruct (Z.eqb j z); cbn; auto. Qed.

(** ** One mesh and the other *)
Section Both.
Variables (ne nb ni nc : nat) (F : arr face) (M M' : arr fmet) (A A' : arr R) (X X' rc rc' rb rb' gr gr' : arr v2) (EF : arr2 nat) (ES : arr2 Z) (nf : arr nat) (bt : arr (list Z)).
Hypotheses (HM : scaled_by (mturn q) M M') (HA : scaled_by (fun a => a) A A') (HX : scaled_by (qv q) X X') (Hc : scaled_by (qv q) rc rc') (Hb : scaled_by (qv q) rb rb') (Hg : scaled_by (qv q) gr gr').
Let S := mksm ne nb ni nc F M A X rc rb gr EF ES nf bt.
Let S' := mksm ne nb ni nc F M' A' X' rc' rb' gr' EF ES nf bt.
Ltac sm := cbn [S S' sm_ne sm_nb sm_ni sm_nc sm_F sm_M sm_A sm_X sm_rc sm_rcbp sm_gr sm_EF sm_ES sm_nf sm_bt].
Ltac rw := rewrite ?(aget_sc _ _ _ _ HM), ?(aget_sc _ _ _ _ HA), ?(get_mid_q _ _ _ HX), ?(aget_sc _ _ _ _ Hc), ?(aget_sc _ _ _ _ Hb), ?(aget_sc _ _ _ _ Hg).
Ltac gobw rr := repeat (rw; rr; match goal with
  | |- bind (option_map _ ?x) _ = option_map _ (bind ?x _) => destruct x; cbn [option_map bind]; [|reflexivity]
  | |- bind ?x _ = option_map _ (bind ?x _) => destruct x; cbn [option_map bind]; [|reflexivity] end).
Ltac oo := match goal with
  | |- orel _ (bind ?x _) (bind (option_map _ ?x) _) => destruct x; cbn [option_map bind]; [|exact Logic.I]
  | |- orel _ (bind ?x _) (bind ?x _) => destruct x; cbn [bind]; [|exact Logic.I] end.

Lemma far_q j fc : far_centre S' j fc = option_map (qv q) (far_centre S j fc).
Proof. unfold far_centre. sm. destruct (j <? nb)%nat; apply aget_sc; auto. Qed.

Section Values.
Variables (u u' ug ug' : arr st).
Hypotheses (Hu : scaled_by (qs q) u u') (Hug : scaled_by (qs q) ug ug').
Ltac gob := gobw ltac:(rewrite ?(aget_sc _ _ _ _ Hu), ?(aget_sc _ _ _ _ Hug)).
Lemma zero_q G G' : alen G' = alen G -> alen G = ne -> orel (scaled_by qg) (zero_grads S G) (zero_grads S' G').
Proof.
  intros L N. unfold zero_grads. sm. pose proof (fill_sc qg ne (fun _ => Some gzero) (fun _ => Some gzero) G G' L) as H.
  cbn [bind option_map] in H. specialize (H ltac:(intros; rewrite qg_zero; reflexivity)).
  destruct (floop ne _ G), (floop ne _ G'); cbn in *; auto. destruct H as (L1 & L2 & V). split; [congruence|]. rewrite L1, N. exact V.
Qed.
Lemma GG_q G G' : alen G' = alen G -> alen G = ne -> orel (scaled_by qg) (GreenGauss S u ug G) (GreenGauss S' u' ug' G').
Proof.
  intros L N. unfold GreenGauss, sm_nf_all. sm. apply (orel_bind (scaled_by qg)); [apply zero_q; auto|]. intros H1 H1' Q1.
  apply (orel_bind (scaled_by qg)); [apply acc_sc; auto; [apply qg_add|]|].
  { intros j. unfold gg_boundary. sm. gob. cbv zeta. unfold incs. cbn [map fst snd fm_n fm_len mturn]. rewrite !inv_q, ut_q, term_q. reflexivity. }
  intros H2 H2' Q2. apply (orel_bind (scaled_by qg)); [apply acc_sc; auto; [apply qg_add|]|].
  { intros j. unfold gg_interior. sm. gob. cbv zeta. unfold incs. cbn [map fst snd fm_n fm_len mturn]. rewrite !inv_q, ut_q, !term_q, qg_neg. reflexivity. }
  intros H3 H3' Q3. apply acc_sc; auto; [apply qg_add|].
  intros j. unfold gg_conn. sm. gob. cbv zeta. unfold incs. cbn [map fst snd fm_n fm_len mturn]. rewrite !inv_q, ut_q, term_q. reflexivity.
Qed.
Lemma fval_q j fc : far_value S' u' ug' j fc = option_map (qs q) (far_value S u ug j fc).
Proof. unfold far_value. sm. destruct (j <? nb)%nat; apply aget_sc; auto. Qed.
Lemma rhs_o_q j : wls_rhs_outer S' u' ug' j = option_map (incs qg) (wls_rhs_outer S u ug j).
Proof. unfold wls_rhs_outer. sm. destruct (aget F j); cbn [bind option_map]; [|reflexivity]. rewrite far_q, fval_q. gob. rewrite wvec_q. reflexivity. Qed.
Lemma rhs_i_q j : wls_rhs_inner S' u' ug' j = option_map (incs qg) (wls_rhs_inner S u ug j).
Proof. unfold wls_rhs_inner. sm. destruct (aget F j); cbn [bind option_map]; [|reflexivity]. rewrite far_q, fval_q. gob. rewrite wvec_q. reflexivity. Qed.
Lemma WLS_q V V' G G' : scaled_by (mat_turn q) V V' -> alen G' = alen G -> alen G = ne -> orel (scaled_by qg) (WLS_gradients S V u ug G) (WLS_gradients S' V' u' ug' G').
Proof.
  intros HV L N. unfold WLS_gradients, sm_nf_all. sm.
  apply (orel_bind (scaled_by qg)); [apply acc_sc; [apply qg_add|apply rhs_o_q|split; auto; intros; cbn; rewrite qg_zero; reflexivity]|]. intros H1 H1' Q1.
  apply (orel_bind (scaled_by qg)); [apply acc_sc; [apply qg_add|apply rhs_i_q|auto]|]. intros H2 H2' Q2.
  apply (orel_bind (scaled_by qg)); [apply acc_sc; [apply qg_add|apply rhs_o_q|auto]|]. intros H3 H3' Q3.
  pose proof (fill_sc qg ne (fun i => v <- aget V i ;; f <- aget H3 i ;; Some (m2grad v f)) (fun i => v <- aget V' i ;; f <- aget H3' i ;; Some (m2grad v f)) G G' L) as H.
  assert (E : forall V (H : arr grad), (fun i (B : arr grad) => x <- (v <- aget V i ;; f <- aget H i ;; Some (m2grad v f)) ;; aset B i x) = (fun i B => v <- aget V i ;; f <- aget H i ;; aset B i (m2grad v f))).
  { intros. apply functional_extensionality; intros i. apply functional_extensionality; intros B. destruct (aget V0 i); cbn [bind]; [|reflexivity]. destruct (aget _ i); reflexivity. }
  cbv beta in H. rewrite !E in H. specialize (H ltac:(intros i Hi; rewrite (aget_sc _ _ _ _ Q3), (aget_sc _ _ _ _ HV); destruct (aget V i); cbn [bind option_map]; [|reflexivity]; destruct (aget H3 i); cbn [bind option_map]; [rewrite m2g_q|]; reflexivity)).
  destruct (floop ne _ G), (floop ne _ G'); cbn in *; auto. destruct H as (L1 & L2 & VV). split; [congruence|]. rewrite L1, N. exact VV.
Qed.

(** face values of the unlimited linear reconstruction: all left values, right values of interior faces; right values outside [P] stay unrelated *)
Definition parts (P Q : nat -> Prop) (x x' : faces2) : Prop := part P (qs q) (fst x) (fst x') /\ part Q (qs q) (snd x) (snd x').
Lemma lin_faces G G' x x' (P : nat -> Prop) : scaled_by qg G G' -> parts (fun _ => False) P x x' ->
  orel (parts (fun i => (i < sm_nf_all S)%nat) (fun i => P i \/ (nb <= i < nb + ni)%nat)) (LinearUnlimited S u G x) (LinearUnlimited S' u' G' x').
Proof.
  intros HG H. unfold LinearUnlimited, sm_nf_all. sm.
  assert (OU : forall (R1 R2 : nat -> Prop) j y y', parts R1 R2 y y' -> orel (parts (fun i => R1 i \/ i = j) R2) (lin_outer S u G j y) (lin_outer S' u' G' j y')).
  { intros R1 R2 j y y' (Y1 & Y2). unfold lin_outer. sm. rw. oo. rw. rewrite (aget_sc _ _ _ _ Hu), (aget_sc _ _ _ _ HG). do 4 oo. rewrite lin_q.
    eapply orel_bind; [apply aset_part, Y1|]. intros z z' Z. cbn. split; auto. }
  apply (orel_bind (parts (fun i => (nb + ni <= i < nb + ni + nc)%nat) P)).
  { pose proof (frange_idx (fun k => parts (fun i => (nb + ni <= i < k)%nat) P) (lin_outer S u G) (lin_outer S' u' G') (nb + ni) (nb + ni + nc) ltac:(lia) x x') as K. apply K.
    - destruct H as (H1 & H2). split; auto. eapply part_weak; [exact H1|]. intros; lia.
    - intros k y y' Hk Y. pose proof (OU _ _ k y y' Y) as Z. destruct (lin_outer S u G k y), (lin_outer S' u' G' k y'); cbn in *; auto. destruct Z as (Z1 & Z2). split; auto. eapply part_weak; [exact Z1|]. intros; cbn; lia. }
  intros x1 x1' K1. apply (orel_bind (parts (fun i => (nb <= i < nb + ni + nc)%nat) (fun i => P i \/ (nb <= i < nb + ni)%nat))).
  { pose proof (frange_idx (fun k => parts (fun i => (nb <= i < k)%nat \/ (nb + ni <= i < nb + ni + nc)%nat) (fun i => P i \/ (nb <= i < k)%nat)) (lin_inner S u G) (lin_inner S' u' G') nb (nb + ni) ltac:(lia) x1 x1') as K.
    assert (K' : orel (parts (fun i => (nb <= i < nb + ni)%nat \/ (nb + ni <= i < nb + ni + nc)%nat) (fun i => P i \/ (nb <= i < nb + ni)%nat)) (frange nb (nb + ni) (lin_inner S u G) x1) (frange nb (nb + ni) (lin_inner S' u' G') x1')).
    { apply K; clear K.
      - destruct K1 as (H1 & H2). split; eapply part_weak; [exact H1| |exact H2|]; cbn; intros i [Hi|Hi]; auto; lia.
      - intros k y y' Hk (Y1 & Y2). unfold lin_inner. sm. rw. oo. rw. rewrite !(aget_sc _ _ _ _ Hu), !(aget_sc _ _ _ _ HG). do 7 oo. rewrite !lin_q.
        eapply orel_bind; [apply aset_part, Y1|]. intros z z' Z. eapply orel_bind; [apply aset_part, Y2|]. intros t t' T. cbn. split; eapply part_weak; [exact Z| |exact T|]; cbn; intros i [Hi|Hi]; auto; try lia. }
    match type of K' with orel _ ?a ?b => destruct a, b; cbn in *; auto end. destruct K' as (Z1 & Z2). split; auto. eapply part_weak; [exact Z1|]. cbn. intros; lia. }
  intros x2 x2' K2.
  pose proof (frange_idx (fun k => parts (fun i => (i < k)%nat \/ (nb <= i < nb + ni + nc)%nat) (fun i => P i \/ (nb <= i < nb + ni)%nat)) (lin_outer S u G) (lin_outer S' u' G') 0 nb ltac:(lia) x2 x2') as K.
  assert (K' : orel (parts (fun i => (i < nb)%nat \/ (nb <= i < nb + ni + nc)%nat) (fun i => P i \/ (nb <= i < nb + ni)%nat)) (frange 0 nb (lin_outer S u G) x2) (frange 0 nb (lin_outer S' u' G') x2')).
  { apply K; clear K.
    - destruct K2 as (H1 & H2). split; auto. eapply part_weak; [exact H1|]. cbn. intros; lia.
    - intros k y y' Hk Y. pose proof (OU _ _ k y y' Y) as Z. destruct (lin_outer S u G k y), (lin_outer S' u' G' k y'); cbn in *; auto. destruct Z as (Z1 & Z2). split; auto. eapply part_weak; [exact Z1|]. intros; cbn; lia. }
  match type of K' with orel _ ?a ?b => destruct a, b; cbn in *; auto end. destruct K' as (Z1 & Z2). split; auto. eapply part_weak; [exact Z1|]. cbn. intros; lia.
Qed.
End Values.
Lemma lhs_o_q j : wls_lhs_outer S' j = option_map (incs (mat_turn q)) (wls_lhs_outer S j). Proof. unfold wls_lhs_outer. sm. destruct (aget F j); cbn [bind option_map]; [|reflexivity]. rewrite far_q. gobw idtac. rewrite wmat_q. reflexivity. Qed.
Lemma lhs_i_q j : wls_lhs_inner S' j = option_map (incs (mat_turn q)) (wls_lhs_inner S j). Proof. unfold wls_lhs_inner. sm. destruct (aget F j); cbn [bind option_map]; [|reflexivity]. rewrite far_q. gobw idtac. rewrite wmat_q. reflexivity. Qed.
Lemma convert_q f lo hi (P : nat -> Prop) a a' : (forall x, f (qs q x) = qs q (f x)) -> (lo <= hi)%nat -> (forall i, (lo <= i < hi)%nat -> P i) -> part P (qs q) a a' -> orel (part P (qs q)) (convert f lo hi a) (convert f lo hi a').
Proof.
  intros Hf L HP H. unfold convert. apply (frange_idx (fun _ => part P (qs q))); auto. intros k y y' Hk Y. rewrite (aget_part _ _ _ _ _ Y) by auto. oo. rewrite Hf.
  pose proof (aset_part P (qs q) y y' k (f s0) Y) as Z. destruct (aset y k _), (aset y' k _); cbn in *; auto. eapply part_weak; [exact Z|]. cbn. auto.
Qed.
Lemma WLSc_q : orel (scaled_by (mat_turn q)) (WLS_ctor S) (WLS_ctor S').
Proof.
  unfold WLS_ctor, sm_nf_all. sm.
  apply (orel_bind (scaled_by (mat_turn q))); [apply acc_sc; [apply mt_add|apply lhs_o_q|split; auto; intros; cbn; rewrite mt_zero; reflexivity]|]. intros H1 H1' Q1.
  apply (orel_bind (scaled_by (mat_turn q))); [apply acc_sc; [apply mt_add|apply lhs_i_q|auto]|]. intros H2 H2' Q2.
  apply (orel_bind (scaled_by (mat_turn q))); [apply acc_sc; [apply mt_add|apply lhs_o_q|auto]|]. intros H3 H3' Q3.
  apply floop_orel; auto. intros i V V' Hi HV. rewrite (aget_sc _ _ _ _ HV). oo. rewrite inv2_q. destruct HV as (L & HV). unfold aset. rewrite L. destruct (i <? alen V)%nat; cbn; [|exact Logic.I].
  split; cbn; auto. intros j Hj. unfold upd. destruct (j =? i)%nat; auto.
Qed.

(** ** Fluxes and time steps of inviscid flow *)
Section Inviscid.
Variables fl fl' : flow.
Hypotheses (inv : fl_visc fl = false) (inv' : fl_visc fl' = false) (EG : fl_gas fl' = fl_gas fl) (EFl : fl_flux fl' = fl_flux fl) (EB : fl_bcs fl' = bcs_turn q (fl_bcs fl)).
Lemma bst_q k x : compute_boundary_state S' fl' k (qs q x) = option_map (qs q) (compute_boundary_state S fl k x).
Proof.
  unfold compute_boundary_state, face_bc. sm. rewrite EB, EG. rw. destruct (aget M k); cbn [bind option_map]; [|reflexivity]. destruct (aget bt k) as [l|]; cbn [bind option_map]; [|reflexivity]. destruct (nth_error l 0); cbn [bind option_map]; [|reflexivity].
  rewrite mfind_q. destruct (mfind _ _); cbn [bind option_map]; [|reflexivity]. cbn [mturn fm_n]. rewrite ghost_q. reflexivity.
Qed.
Lemma ghosts_q (P Q : nat -> Prop) ul ul' ur ur' : (forall i, (i < nb)%nat -> P i) -> part P (qs q) ul ul' -> part Q (qs q) ur ur' ->
  orel (part (fun i => Q i \/ (i < nb)%nat) (qs q)) (compute_boundary_states S fl ul ur) (compute_boundary_states S' fl' ul' ur').
Proof.
  intros HP HL HR. unfold compute_boundary_states. sm. apply (floop_idx (fun k => part (fun i => Q i \/ (i < k)%nat) (qs q))).
  - eapply part_weak; [exact HR|]. cbn. intros i [|]; auto; lia.
  - intros k y y' Hk Y. rewrite (aget_part _ _ _ _ _ HL) by auto. destruct (aget ul k) as [x|]; cbn [bind option_map]; [|exact Logic.I]. rewrite bst_q. destruct (compute_boundary_state S fl k x) as [g|]; cbn [bind option_map]; [|exact Logic.I].
    pose proof (aset_part _ (qs q) y y' k g Y) as Z. destruct (aset y k _), (aset y' k _); cbn in *; auto. eapply part_weak; [exact Z|]. cbn. intros i [|]; auto. destruct (Nat.eq_dec i k); auto. left. right. lia.
Qed.
Notation all := (fun i => (i < sm_nf_all S)%nat).
Lemma fluxes_q so u u' G G' ul ul' ur ur' ug ug' res res' : part all (qs q) ul ul' -> part all (qs q) ur ur' -> scaled_by (qs q) res res' ->
  orel (scaled_by (qs q)) (compute_fluxes S fl so u G ul ur ug res) (compute_fluxes S' fl' so u' G' ul' ur' ug' res').
Proof.
  intros HL HR H. unfold compute_fluxes. change (sm_nf_all S') with (sm_nf_all S). apply acc_part; auto; [apply qs_add|].
  intros j Hj. unfold flux_incs, face_flux. sm. rewrite inv, inv', EG, EFl. rw. destruct (aget M j) as [m|]; cbn [bind option_map]; [|reflexivity]. destruct (aget F j) as [fc|]; cbn [bind option_map]; [|reflexivity].
  rewrite (aget_part _ _ _ _ _ HL), (aget_part _ _ _ _ _ HR) by lia. destruct (aget ul j); cbn [bind option_map]; [|reflexivity]. destruct (aget ur j); cbn [bind option_map]; [|reflexivity]. cbn [mturn fm_n fm_len].
  rewrite flux_rot by exact ortho_q. rewrite <- qs_scal, <- qs_neg. destruct (f_right fc <? ne)%nat; reflexivity.
Qed.
Lemma spec_q a u n len : specrad fl' a (qs q u) (qv q n) len = specrad fl a u n len.
Proof. unfold specrad. rewrite inv, inv', EG, sound_q, dotn. reflexivity. Qed.
Definition dt_same (d d' : arr R) : Prop := alen d' = alen d /\ forall i, (i < ne)%nat -> aat d' i = aat d i.
Lemma step_q ul ul' ur ur' dt dt' : part all (qs q) ul ul' -> part all (qs q) ur ur' -> alen dt' = alen dt -> orel dt_same (compute_max_timestep S fl ul ur dt) (compute_max_timestep S' fl' ul' ur' dt').
Proof.
  intros HL HR L. unfold compute_max_timestep. change (sm_nf_all S') with (sm_nf_all S). sm.
  apply (orel_bind (scaled_by (fun a => a))).
  - apply acc_part; [auto| |split; auto].
    intros j Hj. unfold specrad_incs. sm. rw. destruct (aget M j); cbn [bind option_map]; [|reflexivity]. destruct (aget F j) as [fc|]; cbn [bind option_map]; [|reflexivity].
    rewrite (aget_part _ _ _ _ _ HL), (aget_part _ _ _ _ _ HR) by lia. destruct (aget ul j); cbn [bind option_map]; [|reflexivity]. destruct (aget ur j); cbn [bind option_map]; [|reflexivity]. rw. destruct (aget A (f_left fc)) as [al|]; cbn [bind option_map]; [|reflexivity].
    cbn [mturn fm_n fm_len]. rewrite spec_q. destruct (f_right fc <? ne)%nat; [|reflexivity].
    rw. destruct (aget A (f_right fc)) as [ar|]; cbn [bind option_map]; [|reflexivity]. rewrite spec_q. reflexivity.
  - intros I1 I1' Q.
    pose proof (fill_sc (fun a => a) ne (fun i => a <- aget A i ;; w <- aget I1 i ;; rdiv a w) (fun i => a <- aget A' i ;; w <- aget I1' i ;; rdiv a w) dt dt' L) as H.
    assert (E : forall B I1, (fun i (d : arr R) => x <- (a <- aget B i ;; w <- aget I1 i ;; rdiv a w) ;; aset d i x) = (fun i d => a <- aget B i ;; w <- aget I1 i ;; q <- rdiv a w ;; aset d i q)).
    { intros. apply functional_extensionality; intros i. apply functional_extensionality; intros d. destruct (aget B i); cbn [bind]; [|reflexivity]. destruct (aget _ i); reflexivity. }
    cbv beta in H. rewrite !E in H. specialize (H ltac:(intros i Hi; rw; rewrite (aget_sc _ _ _ _ Q); destruct (aget A i); cbn [bind option_map]; [|reflexivity]; destruct (aget I1 i); cbn [bind option_map]; [destruct (rdiv _ _)|]; reflexivity)).
    destruct (floop ne _ dt), (floop ne _ dt'); cbn in *; auto. destruct H as (L1 & L2 & V). split; [congruence|exact V].
Qed.
(** outcomes: residual rotated, time steps the same *)
Definition out_turn (o o' : resout) : Prop :=
  scaled_by (qs q) (ro_res o) (ro_res o') /\ match ro_dt o, ro_dt o' with Some d, Some d' => dt_same d d' | None, None => True | _, _ => False end.
Lemma maybe_q ul ul' ur ur' dt dt' : part all (qs q) ul ul' -> part all (qs q) ur ur' -> alen dt' = alen dt ->
  orel (fun d d' => match d, d' with Some d, Some d' => dt_same d d' | None, None => True | _, _ => False end) (maybe_dt S fl ul ur (Some dt)) (maybe_dt S' fl' ul' ur' (Some dt')).
Proof. intros HL HR L. unfold maybe_dt. eapply orel_bind; [apply step_q; eauto|]. intros d d' Q. exact Q. Qed.
Lemma bleft_q u u' ul ul' : scaled_by (qs q) u u' -> alen ul' = alen ul -> orel (part (fun i => (i < nb)%nat) (qs q)) (boundary_left S u ul) (boundary_left S' u' ul').
Proof.
  intros Hu L. unfold boundary_left. sm. apply (floop_idx (fun k => part (fun i => (i < k)%nat) (qs q))); [split; auto; intros; lia|].
  intros k y y' Hk Y. oo. rewrite (aget_sc _ _ _ _ Hu). destruct (aget u _) as [x|]; cbn [bind option_map]; [|exact Logic.I].
  pose proof (aset_part _ (qs q) y y' k x Y) as Z. destruct (aset y k _), (aset y' k _); cbn in *; auto. eapply part_weak; [exact Z|]. cbn. intros; lia.
Qed.
Lemma res1_q u u' ul ul' ur ur' res res' G G' dt dt' : scaled_by (qs q) u u' -> alen ul' = alen ul -> alen ur' = alen ur -> scaled_by (qs q) res res' -> alen dt' = alen dt ->
  orel out_turn (compute_residual1 S fl u ul ur res G (Some dt)) (compute_residual1 S' fl' u' ul' ur' res' G' (Some dt')).
Proof.
  intros Hu LL LR H L. unfold compute_residual1. eapply orel_bind; [apply bleft_q; eauto|]. intros l1 l1' H1.
  apply (orel_bind (parts all (fun i => (nb <= i < sm_nf_all S)%nat))).
  { unfold first_order_faces. change (sm_nf_all S') with (sm_nf_all S). sm.
    pose proof (frange_idx (fun k => parts (fun i => (i < k)%nat) (fun i => (nb <= i < k)%nat)) (fun k s => fc <- aget F k ;; ui <- aget u (f_left fc) ;; uj <- aget u (f_right fc) ;; l <- aset (fst s) k ui ;; r <- aset (snd s) k uj ;; Some (l, r))
      (fun k s => fc <- aget F k ;; ui <- aget u' (f_left fc) ;; uj <- aget u' (f_right fc) ;; l <- aset (fst s) k ui ;; r <- aset (snd s) k uj ;; Some (l, r)) nb (sm_nf_all S) ltac:(unfold sm_nf_all; sm; lia) (l1, ur) (l1', ur')) as K.
    apply K; clear K.
    - split; cbn; [exact H1|]. split; auto. intros; lia.
    - intros k y y' Hk (Y1 & Y2). oo. rewrite !(aget_sc _ _ _ _ Hu). do 2 oo. eapply orel_bind; [apply aset_part, Y1|]. intros z z' Z. eapply orel_bind; [apply aset_part, Y2|]. intros w w' W.
      cbn. split; eapply part_weak; [exact Z| |exact W|]; cbn; intros; lia. }
  intros [l r] [l' r'] (HL & HR). cbn [fst snd] in HL, HR. eapply orel_bind; [apply (ghosts_q all); eauto; unfold sm_nf_all; sm; intros; lia|]. intros r2 r2' H2.
  assert (HR2 : part all (qs q) r2 r2'). { eapply part_weak; [exact H2|]. cbn. intros; lia. }
  eapply orel_bind; [apply fluxes_q; eauto|]. intros o o' Q. eapply orel_bind; [apply maybe_q; eauto|]. intros d d' Q'. cbn. split; auto.
Qed.
Lemma res2_q gs gs' gg gg' u u' ul ul' ur ur' res res' G G' jp jp' dt dt' : scaled_by (qs q) u u' -> alen ul' = alen ul -> alen ur' = alen ur -> scaled_by (qs q) res res' -> alen dt' = alen dt -> alen G = ne -> alen G' = ne ->
  (forall up up' ug ug', scaled_by (qs q) up up' -> scaled_by (qs q) ug ug' -> orel (scaled_by qg) (compute_gradients S gs up ug G) (compute_gradients S' gs' up' ug' G')) ->
  orel out_turn (compute_residual2 S fl gs M_Resid.RLinear gg (fun _ => szero) u ul ur res G jp (Some dt)) (compute_residual2 S' fl' gs' M_Resid.RLinear gg' (fun _ => szero) u' ul' ur' res' G' jp' (Some dt')).
Proof.
  intros Hu LL LR H L LG LG' HGS. unfold compute_residual2. cbv zeta. change (sm_nb S') with nb. change (sm_ni S') with ni. change (sm_ne S') with ne. change (sm_nc S') with nc. change (sm_nb S) with nb. change (sm_ni S) with ni. change (sm_ne S) with ne. change (sm_nc S) with nc.
  change (sm_nf_all S') with (sm_nf_all S). cbn [is_weno]. rewrite EG. assert (NF : sm_nf_all S = (nb + ni + nc)%nat) by reflexivity.
  eapply orel_bind; [apply bleft_q; eauto|]. intros l1 l1' H1.
  eapply orel_bind; [apply (ghosts_q (fun i => (i < nb)%nat) (fun _ => False)); eauto; split; auto; intros; contradiction|]. intros r1 r1' R1.
  eapply orel_bind; [apply (convert_q _ 0 nb (fun i => False \/ (i < nb)%nat)); [apply primi_q|lia|intros; lia|exact R1]|]. intros r2 r2' R2.
  apply (orel_bind (scaled_by (qs q))).
  { pose proof (fill_sc (qs q) (ne + nc) (fun i => x <- aget u i ;; Some (getPrimitiveFromConserved (fl_gas fl) x)) (fun i => x <- aget u' i ;; Some (getPrimitiveFromConserved (fl_gas fl) x)) (mkarr (ne + nc) jp) (mkarr (ne + nc) jp') eq_refl) as K.
    assert (E : forall u, (fun i (B : arr st) => x <- (x <- aget u i ;; Some (getPrimitiveFromConserved (fl_gas fl) x)) ;; aset B i x) = (fun i B => x <- aget u i ;; aset B i (getPrimitiveFromConserved (fl_gas fl) x))).
    { intros v. apply functional_extensionality; intros i. apply functional_extensionality; intros B. destruct (aget v i); reflexivity. }
    cbv beta in K. rewrite !E in K. specialize (K ltac:(intros i Hi; rewrite (aget_sc _ _ _ _ Hu); destruct (aget u i); cbn [bind option_map]; [rewrite prim_q|]; reflexivity)).
    match type of K with orel _ ?a ?b => destruct a, b; cbn in K |- *; auto end. destruct K as (L1 & L2 & VV). split; [congruence|]. rewrite L1. exact VV. }
  intros up up' HU.
  eapply orel_bind; [apply HGS; [exact HU|]; split; [reflexivity|]; intros i Hi; apply (proj2 R2); right; exact Hi|]. intros G1 G1' HG. cbn [compute_face_values].
  eapply orel_bind; [apply (lin_faces up up' HU G1 G1' (l1, r2) (l1', r2') (fun i => (i < nb)%nat) HG); split; cbn; eapply part_weak; [exact H1| |exact R2|]; cbn; intros; lia|].
  intros [l3 r3] [l3' r3'] (HL & HR). cbn [fst snd] in HL, HR.
  eapply orel_bind; [apply (convert_q _ (nb + ni) (sm_nf_all S) all); [apply consi_q|lia|intros; lia|exact HL]|]. intros l4 l4' L4.
  eapply orel_bind; [apply (convert_q _ nb (nb + ni) all); [apply consi_q|lia|intros; lia|exact L4]|]. intros l5 l5' L5.
  eapply orel_bind; [apply (convert_q _ nb (nb + ni) (fun i => (i < nb)%nat \/ (nb <= i < nb + ni)%nat)); [apply consi_q|lia|intros; lia|exact HR]|]. intros r5 r5' R5.
  eapply orel_bind; [apply (convert_q _ 0 nb all); [apply consi_q|lia|intros; lia|exact L5]|]. intros l6 l6' L6.
  eapply orel_bind; [apply (ghosts_q all); [intros; lia|exact L6|exact R5]|]. intros r6 r6' R6.
  assert (R7 : part all (qs q) (recv_faces S (fun _ => szero) r6) (recv_faces S' (fun _ => szero) r6')).
  { destruct R6 as (LR6 & V6). split; [exact LR6|]. intros i Hi. unfold recv_faces. sm. cbn [aat]. destruct (Nat.leb_spec (nb + ni) i); [symmetry; apply qs_szero|]. apply V6. lia. }
  eapply orel_bind; [apply fluxes_q; eauto|]. intros o o' Q. eapply orel_bind; [apply maybe_q; eauto|]. intros d d' Q'. cbn. split; auto.
Qed.
End Inviscid.
End Both.
End Turned.

Ltac trn H := match type of H with turned _ ?S ?S' =>
  destruct H as [T1 T2 T3 T4 T5 T8 T9 T10 T11 TM TA TX TC TB TG]; destruct S as [n1 n2 n3 n4 F1 M1 A1 X1 c1 b1 g1 E1 Z1 f1 t1]; destruct S' as [n1' n2' n3' n4' F1' M1' A1' X1' c1' b1' g1' E1' Z1' f1' t1'];
  cbn [sm_ne sm_nb sm_ni sm_nc sm_F sm_M sm_A sm_X sm_rc sm_rcbp sm_gr sm_EF sm_ES sm_nf sm_bt] in *; subst n1' n2' n3' n4' F1' E1' Z1' f1' t1' end.

(** ** Theorems *)
(** *** The mesh. The memory of the topology tables is the same in both cases; that of all other arrays is arbitrary. *)
Theorem C114_mesh : forall c s m hs X X' gh gh' j0 jf je jt jm ja jc jb jm' ja' jc' jb' S, c * c + s * s = 1 -> let q := turn c s in
  tiled m hs -> (forall c, In c (cells m) -> (List.length c = 3 \/ List.length c = 4)%nat) -> alen X = npoin m ->
  scaled_by (qv q) X X' -> (forall j, (j < nconnface m)%nat -> gh' j = qv q (gh j)) ->
  setup m X gh j0 jf je jt jm ja jc jb = Some (Val S) ->
  exists S', setup m X' gh' j0 jf je jt jm' ja' jc' jb' = Some (Val S') /\ turned q S S' /\ sm_X S = X /\ sm_X S' = X'.
Proof.
  intros cq sq m hs X X' gh gh' j0 jf je jt jm ja jc jb jm' ja' jc' jb' S cs q T H34 LX HX Hgh E. pose proof HX as (LX' & VX).
  destruct (setup_ok m hs X' gh' j0 jf je jt jm' ja' jc' jb' T H34 ltac:(congruence)) as (_ & _ & _ & _ & _ & S' & _ & _ & E' & _). exists S'. split; [exact E'|].
  assert (B : built m hs X gh S). { split; auto. split; auto. split; auto. exists j0, jf, je, jt, jm, ja, jc, jb. exact E. }
  assert (B' : built m hs X' gh' S'). { split; auto. split; auto. split; [congruence|]. exists j0, jf, je, jt, jm', ja', jc', jb'. exact E'. }
  destruct (built_ok _ _ _ _ _ B) as (p & e & ni & s & il & TO & OK & N1 & N2 & N3 & N4 & NF & NX & NA & NC & NG & _).
  destruct (built_ok _ _ _ _ _ B') as (p' & e' & ni' & s' & il' & TO' & OK' & N1' & N2' & N3' & N4' & NF' & NX' & NA' & NC' & NG' & _).
  clear TO TO' p e p' e' il il' NF NF' N3 N3' ni ni' s s' B B'.
  unfold setup in E, E'. destruct (compute_topological m j0 jf je jt) as [[[[tp te] [tn ts]]|]|]; try discriminate.
  destruct (compute_face_data X (intfac ts) jm) as [Mt|]; cbn [bind] in E; [|discriminate]. destruct (compute_areas m X ja) as [At|]; cbn [bind] in E; [|discriminate].
  destruct (compute_face_data X' (intfac ts) jm') as [Mt'|]; cbn [bind] in E'; [|discriminate]. destruct (compute_areas m X' ja') as [At'|]; cbn [bind] in E'; [|discriminate].
  destruct (spatial_ctor m X tn ts Mt At gh jc jb) as [S0|] eqn:Q; cbn [bind] in E; [|discriminate]. injection E as ->.
  destruct (spatial_ctor m X' tn ts Mt' At' gh' jc' jb') as [S0|] eqn:Q'; cbn [bind] in E'; [|discriminate]. injection E' as ->.
  unfold spatial_ctor in Q, Q'.
  destruct (compute_cell_centres m X jc) as [C|]; cbn [bind] in Q; [|discriminate]. cbv zeta in Q. destruct (face_centres X (intfac ts)) as [gr|]; cbn [bind] in Q; [|discriminate]. destruct (ghost_about_midpoint X _ _ _ jb) as [rb|]; cbn [bind] in Q; [|discriminate].
  destruct (compute_cell_centres m X' jc') as [C'|]; cbn [bind] in Q'; [|discriminate]. cbv zeta in Q'. destruct (face_centres X' (intfac ts)) as [gr'|]; cbn [bind] in Q'; [|discriminate]. destruct (ghost_about_midpoint X' _ _ _ jb') as [rb'|]; cbn [bind] in Q'; [|discriminate].
  apply (f_equal (fun o => match o with Some x => x | None => S end)) in Q. apply (f_equal (fun o => match o with Some x => x | None => S' end)) in Q'.
  assert (EQ : sm_ne S' = sm_ne S /\ sm_nb S' = sm_nb S /\ sm_ni S' = sm_ni S /\ sm_nc S' = sm_nc S /\ sm_F S' = sm_F S /\ sm_EF S' = sm_EF S /\ sm_ES S' = sm_ES S /\ sm_nf S' = sm_nf S /\ sm_bt S' = sm_bt S).
  { rewrite <- Q, <- Q'. cbn. auto 12. }
  clear Q Q'. destruct EQ as (K1 & K2 & K3 & K4 & K5 & K8 & K9 & K10 & K11).
  assert (KA : sm_nf_all S' = sm_nf_all S) by (unfold sm_nf_all; congruence).
  assert (PT : forall c, In c (cells m) -> forall v, In v c -> (v < alen X)%nat). { intros c Hc v Hv. rewrite LX. exact (proj2 (proj2 (gm_valid _ _ (tl_good _ _ T) c Hc)) v Hv). }
  assert (HR : scaled_by (qv q) (sm_rc S) (sm_rc S')).
  { split; [rewrite (so_rc _ OK), (so_rc _ OK'); congruence|]. rewrite (so_rc _ OK). intros i Hi. destruct (Nat.lt_ge_cases i (nelem m)) as [L|L].
    - rewrite NC, NC' by auto. cbv zeta. set (c := cell (cells m) i).
      assert (Hc : In c (cells m)) by (apply nth_In; unfold nelem in L; exact L).
      assert (Hl : INR (List.length c) <> 0) by (apply not_0_INR; destruct (H34 c Hc); lia).
      assert (SX : forall l, (forall v, In v l -> (v < alen X)%nat) -> rsum (fun x => vx (aat X' x)) l = cq * rsum (fun x => vx (aat X x)) l - sq * rsum (fun x => vy (aat X x)) l /\ rsum (fun x => vy (aat X' x)) l = sq * rsum (fun x => vx (aat X x)) l + cq * rsum (fun x => vy (aat X x)) l).
      { induction l as [|v l IH]; intros Hv; cbn [rsum]; [lra|]. destruct IH as (I1 & I2). { intros; apply Hv; right; auto. } rewrite I1, I2, VX by (apply Hv; left; auto). cbn. split; ring. }
      destruct (SX c (PT c Hc)) as (S1 & S2). apply v2_eq; cbn [vx vy qv vsum q turn qxx qxy qyx qyy]; [rewrite S1|rewrite S2]; field; exact Hl.
    - replace i with (nelem m + (i - nelem m))%nat by lia. rewrite NG, NG', Hgh by lia. reflexivity. }
  assert (HG : scaled_by (qv q) (sm_gr S) (sm_gr S')).
  { split; [rewrite (so_gr _ OK), (so_gr _ OK'); exact KA|]. rewrite (so_gr _ OK). intros j Hj. rewrite (so_mid _ OK), (so_mid _ OK') by congruence. rewrite K5, NX, NX'. pose proof (so_pts _ OK j Hj) as P. rewrite NX in P. rewrite !VX by tauto. apply mid_q. }
  split; [|auto]. split; auto.
  - split; [rewrite (so_M _ OK), (so_M _ OK'); exact KA|]. rewrite (so_M _ OK). intros j Hj. rewrite (so_met _ OK), (so_met _ OK') by congruence. rewrite K5, NX, NX'. pose proof (so_pts _ OK j Hj) as P. rewrite NX in P. rewrite !VX by tauto. apply metric_q, cs.
  - split; [rewrite (so_A _ OK), (so_A _ OK'); exact K1|]. rewrite (so_A _ OK), N1. intros i Hi. rewrite NA, NA' by auto. set (c := cell (cells m) i).
    assert (Hc : In c (cells m)) by (apply nth_In; unfold nelem in Hi; exact Hi).
    replace (map (aat X') c) with (map (qv q) (map (aat X) c)). 2:{ rewrite map_map. apply map_ext_in. intros v Hv. rewrite VX by (apply (PT c Hc), Hv). reflexivity. }
    unfold polygon_area. assert (CH : forall l a, chain (map (qv q) l) (qv q a) = map (fun x => (qv q (fst x), qv q (snd x))) (chain l a)).
    { induction l as [|x l IH]; intros a; cbn; auto. destruct l as [|y l]; cbn; auto. cbn in IH. rewrite IH. reflexivity. }
    assert (SD : sides (map (qv q) (map (aat X) c)) = map (fun x => (qv q (fst x), qv q (snd x))) (sides (map (aat X) c))).
    { unfold sides. destruct (map (aat X) c) as [|a l]; [reflexivity|]. cbn [map]. apply (CH (a :: l) a). }
    rewrite SD, rsum_map. f_equal. apply rsum_ext. intros x _. unfold cross. cbn [fst snd vx vy qv q turn qxx qxy qyx qyy]. apply (one cq sq cs). ring.
  - rewrite NX, NX'. exact HX.
  - split; [rewrite (so_rcbp _ OK), (so_rcbp _ OK'); exact K2|]. rewrite (so_rcbp _ OK). intros j Hj. rewrite (so_bp _ OK), (so_bp _ OK') by congruence. rewrite K5.
    assert (Hj' : (j < sm_nf_all S)%nat) by (unfold sm_nf_all; lia). destruct HG as (_ & VG). destruct HR as (_ & VR). rewrite VG by (rewrite (so_gr _ OK); exact Hj'). rewrite VR by (rewrite (so_rc _ OK); pose proof (so_left _ OK j Hj'); lia).
    apply v2_eq; cbn; ring.
Qed.

(** *** What is made from the control file, with the angle of attack turned too: the free stream, the initial state, the boundary conditions, the gradient scheme *)
Definition grad_turn (q : ortho) (g g' : gradscheme) : Prop := match g, g' with
  | M_Resid.GZero, M_Resid.GZero => True | M_Resid.GGreenGauss, M_Resid.GGreenGauss => True | M_Resid.GLeastSquares V, M_Resid.GLeastSquares V' => scaled_by (mat_turn q) V V' | _, _ => False end.
(** the rotated discretization of inviscid flow, of first order or with the unlimited linear reconstruction *)
Definition turned_spatial (q : ortho) (sp sp' : spatial) : Prop :=
  sp_gas sp' = sp_gas sp /\ sp_flux sp' = sp_flux sp /\ sp_visc sp = false /\ sp_visc sp' = false /\ sp_bcs sp' = bcs_turn q (sp_bcs sp) /\ sp_order2 sp' = sp_order2 sp /\
  (sp_order2 sp = true -> grad_turn q (sp_grad sp) (sp_grad sp') /\ sp_rec sp = Some M_Resid.RLinear /\ sp_rec sp' = Some M_Resid.RLinear).
(** the angle of attack increased by [th] *)
Definition pitched (th : R) (p : physconf) : physconf := mkphys (pc_gam p) (pc_Minf p) (pc_Tinf p) (pc_Re p) (pc_Pr p) (pc_aoa p + th) (pc_visc p) (pc_cvisc p) (pc_bc p).
Notation rot th := (turn (cos th) (sin th)).
Lemma cos_sin th : cos th * cos th + sin th * sin th = 1. Proof. pose proof (sin2_cos2 th) as H. unfold Rsqr in H. lra. Qed.
Lemma free_q G al th : compute_freestream_state G (al + th) = qs (rot th) (compute_freestream_state G al).
Proof. unfold compute_freestream_state, getNormalizedFreeStreamVector. cbn. rewrite cos_0, cos_plus, sin_plus. unfold qs. cbn. f_equal; ring. Qed.
Lemma mset_q q m k b : mset (bcs_turn q m) k (bc_turn q b) = bcs_turn q (mset m k b).
Proof. induction m as [|[j e] m IH]; cbn; [reflexivity|]. destruct (Z.eqb j k); cbn; [reflexivity|]. unfold bcs_turn in IH. rewrite IH. reflexivity. Qed.
Lemma create_q q u conf : forall m, create_loop (qs q u) conf (bcs_turn q m) = match create_loop u conf m with COk l => COk (bcs_turn q l) | e => e end.
Proof.
  induction conf as [|b conf IH]; intros m; cbn [create_loop]; [reflexivity|].
  assert (E : create_flowBC (qs q u) (mkbcconf (fb_tag b) (fb_type b) (fb_vals b)) = match create_flowBC u (mkbcconf (fb_tag b) (fb_type b) (fb_vals b)) with BcOk x => BcOk (bc_turn q x) | e => e end).
  { unfold create_flowBC. cbn [bc_type bc_vals]. destruct (fb_type b); try reflexivity; destruct (fb_vals b) as [|? [|? ?]]; reflexivity. }
  rewrite E. destruct (create_flowBC u _); auto. rewrite mset_q. apply IH.
Qed.
Theorem C114_discretization : forall th jr m X X' S S' p n, turned (rot th) S S' -> pc_visc p = false -> nc_rec n = "NONE"%string ->
  orel (exc_rel (turned_spatial (rot th))) (make_spatial jr m X S p n) (make_spatial jr m X' S' (pitched th p) n).
Proof.
  intros th jr m X X' S S' p n H V N. unfold make_spatial. cbv zeta. unfold create_flowSpatialDiscretization. cbn [sc_grad sc_rec sc_flux sc_jac sc_order2 sc_cvisc pitched pc_cvisc pc_aoa pc_bc pc_visc]. rewrite N. cbn [create_reconstruction String.eqb Ascii.eqb Bool.eqb rec_of].
  change (gas_of jr (pitched th p)) with (gas_of jr p).
  apply (orel_bind (grad_turn (rot th))).
  { destruct (create_gradientscheme (nc_grad n)); cbn [grad_of]; try exact Logic.I. apply (orel_bind (scaled_by (mat_turn (rot th)))); [|intros W W' HW; exact HW].
    trn H. apply WLSc_q; auto. apply cos_sin. }
  intros g g' Hg. cbn [bind]. unfold create_const_flowBCs. rewrite free_q. change (@nil (Z * flowbc)) with (bcs_turn (rot th) []) at 2. rewrite create_q.
  destruct (create_loop _ (pc_bc p) []); cbn; auto. unfold turned_spatial. cbn. rewrite V. repeat split; auto.
Qed.
Lemma init_all S G al junk : exists u, initializeSystemVector S G al junk = Some u /\ alen u = ((sm_ne S + sm_nc S) * 4)%nat /\ forall i, (i < sm_ne S + sm_nc S)%nat -> aat (states u) i = compute_freestream_state G al.
Proof.
  unfold initializeSystemVector. cbv zeta. set (x := compute_freestream_state _ _). set (N := (sm_ne S + sm_nc S)%nat).
  destruct (floop_inv _ (fun k (v : arr R) => alen v = (N * 4)%nat /\ forall i j y, (i < k)%nat -> comp x j = Some y -> aat v (i * 4 + j)%nat = y)
    N (fun i u => floop 4 (fun j u => y <- comp x j ;; aset u (i * 4 + j) y) u) (mkarr (N * 4) junk)) as (u & E & L & P).
  - split; auto. intros; lia.
  - intros i v Hi (Lv & P). destruct (init_row x i N v Lv Hi) as (u' & E & L & Q & K). exists u'. split; auto. split; auto.
    intros a j y Ha Ey. destruct (Nat.eq_dec a i) as [->|Na]; [apply Q; auto|]. rewrite K; [apply P; auto; lia|].
    destruct j as [|[|[|[|j]]]]; try lia. discriminate Ey.
  - exists u. split; auto. split; auto. intros i Hi. cbn [states aat]. replace (i * 4)%nat with (i * 4 + 0)%nat at 1 by lia. rewrite (P i 0%nat (s0 x)), (P i 1%nat (s1 x)), (P i 2%nat (s2 x)), (P i 3%nat (s3 x)) by auto. destruct x; reflexivity.
Qed.
Theorem C114_initial : forall th S S' G al junk junk' u, turned (rot th) S S' -> initializeSystemVector S G al junk = Some u ->
  exists u', initializeSystemVector S' G (al + th) junk' = Some u' /\ scaled_by (qs (rot th)) (states u) (states u').
Proof.
  intros th S S' G al junk junk' u H E. destruct (init_all S G al junk) as (v & Ev & L & V). assert (v = u) by congruence. subst v.
  destruct (init_all S' G (al + th) junk') as (u' & E' & L' & V'). exists u'. split; [exact E'|]. rewrite (tn_ne _ _ _ H), (tn_nc _ _ _ H) in *. split; [cbn; rewrite L, L'; reflexivity|].
  cbn [states alen]. rewrite L, Nat.div_mul by lia. intros i Hi. change (aat (states u') i = qs (rot th) (aat (states u) i)). rewrite V, V', free_q by auto. reflexivity.
Qed.

(** *** Residual and time steps. The memory of the work arrays is arbitrary. *)
Definition rout_turn (q : ortho) (n : nat) (r r' : rout) : Prop := scaled_by (qs q) (rt_r r) (rt_r r') /\ dt_same n (rt_dt r) (rt_dt r') /\ rt_fin r' = rt_fin r.
Definition like_work (ne : nat) (w w' : work) : Prop :=
  alen (wk_l w') = alen (wk_l w) /\ alen (wk_r w') = alen (wk_r w) /\ alen (wk_g w) = ne /\ alen (wk_g w') = ne /\ alen (wk_dt w') = alen (wk_dt w).
Theorem C114_residual : forall c s S S', c * c + s * s = 1 -> let q := turn c s in turned q S S' ->
  (forall g g' u u' ug ug' G G', grad_turn q g g' -> scaled_by (qs q) u u' -> scaled_by (qs q) ug ug' -> alen G = sm_ne S -> alen G' = sm_ne S ->
     orel (scaled_by (gturn q)) (compute_gradients S g u ug G) (compute_gradients S' g' u' ug' G')) /\
  (forall sp sp' w w' u u', turned_spatial q sp sp' -> like_work (sm_ne S) w w' -> scaled_by (qs q) u u' ->
     orel (exc_rel (rout_turn q (sm_ne S))) (spatial_eval S sp w u) (spatial_eval S' sp' w' u')).
Proof.
  intros c s S S' cs q H.
  assert (GR : forall g g' u u' ug ug' G G', grad_turn q g g' -> scaled_by (qs q) u u' -> scaled_by (qs q) ug ug' -> alen G = sm_ne S -> alen G' = sm_ne S -> orel (scaled_by (gturn q)) (compute_gradients S g u ug G) (compute_gradients S' g' u' ug' G')).
  { intros g g' u u' ug ug' G G' HG Hu Hug L L'. trn H. destruct g, g'; cbn in HG; try contradiction; cbn [compute_gradients]; [apply zero_q|apply GG_q|apply WLS_q]; congruence || auto. }
  split; [exact GR|]. intros sp sp' w w' u u' (P1 & P2 & P3 & P4 & P5 & P6 & P7) (W1 & W2 & W3 & W4 & W5) Hu. unfold spatial_eval. rewrite P2. destruct (sp_flux sp) as [f|]; cbn [bind]; [|exact Logic.I]. cbv zeta.
  assert (Z : scaled_by (qs q) (mkarr (sm_ne S) (fun _ => szero)) (mkarr (sm_ne S') (fun _ => szero))). { split; [cbn; apply (tn_ne _ _ _ H)|]. intros; cbn [aat]. symmetry. apply qs_szero. }
  rewrite P6. eapply orel_bind with (P := out_turn c s (sm_ne S)).
  - destruct (sp_order2 sp) eqn:O2.
    + destruct (P7 eq_refl) as (Q1 & Q2 & Q3). rewrite Q2, Q3. cbn [bind]. specialize (fun up up' ug ug' Hup Hug => GR _ _ up up' ug ug' (wk_g w) (wk_g w') Q1 Hup Hug W3 W4) as GR'. clear GR. trn H. apply res2_q; auto.
    + clear GR. trn H. apply res1_q; auto.
  - intros out out' (Q1 & Q4). destruct (ro_dt out) as [d|], (ro_dt out') as [d'|]; cbn in *; try contradiction; auto. split; [exact Q1|]. split; [exact Q4|reflexivity].
Qed.

(** ** Runs *)
(** variables of the solve loop: the rotated state; the same step, residual norms and history *)
Definition mon_turn (q : ortho) (s s' : mon) : Prop :=
  scaled_by (qs q) (m_u s) (m_u s') /\ m_step s' = m_step s /\ m_resi s' = m_resi s /\ m_init s' = m_init s /\ m_lin s' = m_lin s /\ m_log s' = m_log s /\ m_old s' = m_old s /\ m_cfl s' = m_cfl s.
Definition stp_turn (q : ortho) (s s' : stp) : Prop := match s, s' with SNext x, SNext x' => mon_turn q x x' | SErr e, SErr e' => e' = e | _, _ => False end.
Definition sres_turn (q : ortho) (s s' : sres) : Prop := match s, s' with SReturn x b, SReturn x' b' => mon_turn q x x' /\ b' = b | SThrow e, SThrow e' => e' = e | _, _ => False end.
Section Run.
Variables (c s : R).
Hypothesis cs : c * c + s * s = 1.
Let q := turn c s.
Variables (n : nat) (A A' : arr R) (cf : sconf) (Rf Rf' : arr st -> option (exc rout)).
Hypothesis HA : scaled_by (fun a => a) A A'.
Hypothesis EV : forall u u', scaled_by (qs q) u u' -> orel (exc_rel (rout_turn q n)) (Rf u) (Rf' u').
Lemma cont_q x x' : mon_turn q x x' -> steady_cont cf x' = steady_cont cf x.
Proof. intros (_ & E1 & E2 & E3 & _). unfold steady_cont. rewrite E1, E2, E3. reflexivity. Qed.
Lemma fe_q u u' ro ro' : scaled_by (qs q) u u' -> rout_turn q n ro ro' -> orel (scaled_by (qs q)) (fe_update n A cf u ro) (fe_update n A' cf u' ro').
Proof.
  intros Hu (HR & (LD & VD) & _). unfold fe_update. apply floop_orel; auto. intros i y y' Hi Y. rewrite (aget_sc _ _ _ _ Y). destruct (aget y i) as [x|]; cbn [bind option_map]; [|exact Logic.I].
  assert (ED : aget (rt_dt ro') i = aget (rt_dt ro) i). { unfold aget. rewrite LD. destruct (i <? alen (rt_dt ro))%nat; [rewrite VD by auto|]; reflexivity. }
  rewrite ED. destruct (aget (rt_dt ro) i) as [d|]; cbn [bind]; [|exact Logic.I].
  rewrite (aget_sc _ _ _ _ HA). destruct (aget A i) as [a|]; cbn [bind option_map]; [|exact Logic.I]. rewrite (aget_sc _ _ _ _ HR). destruct (aget (rt_r ro) i) as [r|]; cbn [bind option_map]; [|exact Logic.I].
  rewrite <- (qs_scal c s), <- (qs_add c s). destruct Y as (LY & VY). unfold aset. rewrite LY. destruct (i <? alen y)%nat; cbn; [|exact Logic.I]. split; cbn; auto. intros j Hj. unfold upd. destruct (j =? i)%nat; auto.
Qed.
Lemma norm_q u ro ro' v : rout_turn q n ro ro' -> fe_update n A cf u ro = Some v -> res_norm n A' (rt_r ro') = res_norm n A (rt_r ro).
Proof.
  intros ((LR & VR) & _) E. destruct HA as (LA & VA). unfold res_norm. f_equal. apply rsum_ext. intros i Hi. apply in_seq in Hi. destruct (floop_all n _ _ _ E i ltac:(lia)) as (t & Q). destruct (aget t i); cbn [bind] in Q; [|congruence]. destruct (aget (rt_dt ro) i); cbn [bind] in Q; [|congruence].
  unfold aget in Q. destruct (Nat.ltb_spec i (alen A)) as [H1|]; cbn [bind] in Q; [|congruence]. destruct (Nat.ltb_spec i (alen (rt_r ro))) as [H2|]; cbn [bind] in Q; [|congruence].
  rewrite VR, VA by auto. reflexivity.
Qed.
Lemma body_q up down x x' : mon_turn q x x' -> orel (stp_turn q) (steady_body n A cf Rf up down (fe_upd n A cf) x) (steady_body n A' cf Rf' up down (fe_upd n A' cf) x').
Proof.
  intros (Q1 & Q2 & Q3 & Q4 & Q5 & Q6 & Q7 & Q8). unfold steady_body. pose proof (EV (m_u x) (m_u x') Q1) as H. destruct (Rf (m_u x)) as [[ro|]|], (Rf' (m_u x')) as [[ro'|]|]; cbn in H; try contradiction; [|reflexivity|exact Logic.I].
  cbv zeta. unfold fe_upd. pose proof (fe_q _ _ _ _ Q1 H) as K. destruct (fe_update n A cf (m_u x) ro) as [v|] eqn:E, (fe_update n A' cf (m_u x') ro') as [v'|]; cbn in K |- *; try contradiction; [|exact Logic.I].
  pose proof (norm_q _ _ _ _ H E) as NE. destruct H as (_ & _ & ->). destruct (rt_fin ro); [|reflexivity]. cbn [orel stp_turn]. rewrite Q2, Q3, Q4, Q5, Q6, Q7, Q8, NE.
  unfold mon_turn. cbn [m_u m_step m_lin m_log m_resi m_init m_old m_cfl]. repeat split; auto; apply K.
Qed.
Lemma loop_q up down fuel : forall x x', mon_turn q x x' -> orel (stp_turn q) (steady_loop cf (steady_body n A cf Rf up down (fe_upd n A cf)) fuel x) (steady_loop cf (steady_body n A' cf Rf' up down (fe_upd n A' cf)) fuel x').
Proof.
  induction fuel as [|f IH]; intros x x' H; cbn [steady_loop]; [exact H|]. rewrite (cont_q _ _ H). destruct (steady_cont cf x); [|exact H].
  pose proof (body_q up down x x' H) as Q. destruct (steady_body _ _ _ Rf _ _ _ x) as [[y|e]|], (steady_body _ _ _ Rf' _ _ _ x') as [[y'|e']|]; cbn in Q |- *; try contradiction; auto.
Qed.
Lemma fe_solve_q u u' b : scaled_by (qs q) u u' -> orel (sres_turn q) (fe_solve n A cf Rf u b) (fe_solve n A' cf Rf' u' b).
Proof.
  intros Hu. assert (ST : forall cfl, mon_turn q (mkmon u 0 1 1 1 cfl 0 []) (mkmon u' 0 1 1 1 cfl 0 [])). { intros cfl. unfold mon_turn. cbn. repeat split; auto; apply Hu. }
  unfold fe_solve. cbv zeta. destruct (maxiter cf <=? 0)%Z; [cbn; split; auto|].
  pose proof (loop_q 0.3 0.25 (Z.to_nat (maxiter cf)) _ _ (ST (cflinit cf))) as H.
  match type of H with orel _ ?x ?y => destruct x as [[y1|e]|], y as [[y1'|e']|]; cbn in H |- *; try contradiction; auto end.
  pose proof H as (_ & Q2 & _). rewrite Q2. destruct (Z.of_nat (m_step y1) =? maxiter cf)%Z; [reflexivity|]. split; [exact H|reflexivity].
Qed.
End Run.

(** *** The forward Euler solver: the same steps and residual norms, the same outcome, rotated states *)
Theorem C114_solve : forall c s S S' sp sp' w w' cf u u' b, c * c + s * s = 1 -> let q := turn c s in turned q S S' -> turned_spatial q sp sp' -> like_work (sm_ne S) w w' -> scaled_by (qs q) u u' ->
  orel (sres_turn q) (fe_solve (sm_ne S) (sm_A S) cf (spatial_eval S sp w) u b) (fe_solve (sm_ne S') (sm_A S') cf (spatial_eval S' sp' w') u' b).
Proof.
  intros c s S S' sp sp' w w' cf u u' b cs q H HS HW Hu. rewrite (tn_ne _ _ _ H). apply fe_solve_q; auto; [apply (tn_A _ _ _ H)|]. intros v v' Hv. apply (C114_residual c s S S'); auto.
Qed.
(** *** From mesh and control file to the end of the solve *)
Theorem C114_run : forall th m hs X X' gh gh' j0 jf je jt jm ja jc jb jm' ja' jc' jb' S jr p n sp w w' cf junk junk' u b,
  tiled m hs -> (forall c, In c (cells m) -> (List.length c = 3 \/ List.length c = 4)%nat) -> alen X = npoin m -> pc_visc p = false -> nc_rec n = "NONE"%string ->
  scaled_by (qv (rot th)) X X' -> (forall j, (j < nconnface m)%nat -> gh' j = qv (rot th) (gh j)) ->
  setup m X gh j0 jf je jt jm ja jc jb = Some (Val S) -> make_spatial jr m X S p n = Some (Val sp) -> initializeSystemVector S (gas_of jr p) (pc_aoa p) junk = Some u -> like_work (sm_ne S) w w' ->
  exists S' sp' u', setup m X' gh' j0 jf je jt jm' ja' jc' jb' = Some (Val S') /\ make_spatial jr m X' S' (pitched th p) n = Some (Val sp') /\
    initializeSystemVector S' (gas_of jr (pitched th p)) (pc_aoa (pitched th p)) junk' = Some u' /\
    orel (sres_turn (rot th)) (fe_solve (sm_ne S) (sm_A S) cf (spatial_eval S sp w) (states u) b) (fe_solve (sm_ne S') (sm_A S') cf (spatial_eval S' sp' w') (states u') b).
Proof.
  intros th m hs X X' gh gh' j0 jf je jt jm ja jc jb jm' ja' jc' jb' S jr p n sp w w' cf junk junk' u b T H34 LX V N HX HG E M Iu HW.
  destruct (C114_mesh (cos th) (sin th) m hs X X' gh gh' j0 jf je jt jm ja jc jb jm' ja' jc' jb' S (cos_sin th) T H34 LX HX HG E) as (S' & E' & TR & _).
  pose proof (C114_discretization th jr m X X' S S' p n TR V N) as D. rewrite M in D. destruct (make_spatial jr m X' S' (pitched th p) n) as [[sp'|]|] eqn:M'; cbn in D; try contradiction.
  destruct (C114_initial th S S' (gas_of jr p) (pc_aoa p) junk junk' u TR Iu) as (u' & Iu' & HU).
  exists S', sp', u'. split; [exact E'|]. split; [exact M'|]. split; [exact Iu'|]. apply C114_solve; auto. apply cos_sin.
Qed.

(** *** Not so for MUSCL: the limiter treats each velocity component by itself. A face across which the velocity jumps along the normal while the gradient has a part along the face: in the first frame
    the jump and the gradient of the first component agree and nothing is limited; in a frame turned by the angle with cosine 3/5 they have opposite signs and the slope is set to zero. *)
Lemma mu_phi_ok d du : mu_phi d du = Some (let x := (2 * d * du + mu_eps) / (d * d + du * du + mu_eps) in if Rltb x 0 then 0 else x).
Proof. unfold mu_phi, rdiv. destruct (Req_EM_T _ 0) as [E|]; [|reflexivity]. exfalso. unfold mu_eps in E. nra. Qed.
Theorem C114_muscl_refuted : exists c s a b x y g r r', c * c + s * s = 1 /\ mu_face_left a b x y g = Some r /\
  mu_face_left (qv (turn c s) a) (qv (turn c s) b) (qs (turn c s) x) (qs (turn c s) y) (gturn (turn c s) g) = Some r' /\ s1 r' < s1 (qs (turn c s) r).
Proof.
  exists (3/5), (4/5), vzero, (mkv 1 0), (mks 1 0 0 1), (mks 1 1 0 1), (mkgrad (mks 0 1 (1/2) 0) szero). eexists. eexists. split; [lra|].
  unfold mu_face_left, ovec. rewrite !mu_phi_ok. cbn [bind]. split; [reflexivity|]. split; [reflexivity|].
  cbv zeta. cbn [s1 s2 qs turn qxx qxy qyx qyy]. cbn [cget mkst s0 s1 s2 s3 gx gy gturn qs turn qxx qxy qyx qyy sadd sscal szero vzero qv vx vy]. unfold biased. cbn [vx vy vzero qv turn qxx qxy qyx qyy].
  match goal with |- mu_left _ _ _ (if Rltb ?z 0 then _ else _) < _ => assert (Z : z < 0) end.
  { apply Rmult_lt_reg_r with (r := 1); [lra|]. rewrite Rmult_0_l, Rmult_1_r. unfold Rdiv. rewrite <- (Rmult_0_l (/ 1)). idtac.
    match goal with |- ?n * / ?d < _ => assert (N : n < 0) by (unfold mu_eps; lra); assert (D : 0 < / d) by (apply Rinv_0_lt_compat; unfold mu_eps; lra) end. nra. }
  unfold Rltb. match goal with |- mu_left _ _ _ (if (if Rlt_dec ?z 0 then _ else _) then _ else _) < _ => destruct (Rlt_dec z 0); [|contradiction] end.
  match goal with |- _ < _ * mu_left _ _ ?d (if (if Rlt_dec ?z 0 then _ else _) then _ else _) + _ => replace d with 1 by lra end.
  match goal with |- _ < _ * mu_left _ _ _ (if (if Rlt_dec ?z 0 then _ else _) then _ else _) + _ => replace z with 1 by (field; unfold mu_eps; lra) end.
  match goal with |- _ < _ + _ * mu_left _ _ ?d (if (if Rlt_dec ?z 0 then _ else _) then _ else _) => replace d with 1 by lra end.
  match goal with |- _ < _ + _ * mu_left _ _ _ (if (if Rlt_dec ?z 0 then _ else _) then _ else _) => replace z with (mu_eps / (1 + mu_eps)) by (field; unfold mu_eps; lra) end.
  assert (P : 0 < mu_eps / (1 + mu_eps) < / 10000000).
  { assert (D : 0 < 1 + mu_eps) by (unfold mu_eps; lra). split; [apply Rdiv_lt_0_compat; unfold mu_eps; lra|]. apply Rmult_lt_reg_r with (1 + mu_eps); auto. unfold Rdiv. rewrite Rmult_assoc, Rinv_l by lra. unfold mu_eps. lra. }
  clear Z r. set (w := mu_eps / (1 + mu_eps)) in *. clearbody w. destruct (Rlt_dec 1 0); [lra|]. destruct (Rlt_dec w 0); [lra|]. unfold mu_left, mu_k.
  match goal with |- ?l < _ => replace l with 0 by field end. match goal with |- 0 < ?e => replace e with (3 / 10 - w / 5 * (1 - w / 3)) by field end. nra.
Qed.

(** ** A case: the two-cell channel of C98, with least squares gradients and the linear reconstruction, turned by any angle. The centre of the second cell moves along, its area stays; the residual of
    the free stream is defined; explicit runs from any state go the same way, whatever the work arrays hold. *)
Definition ch_optsN : fpopts := mkopts "" "" "" "EULER" "HLLC" "HLLC" "LEASTSQUARES" "NONE" "EXPLICIT" "" "" "NO" "STEADY" "" "FULL"
  1 10 (1/3) 1 10 (1/3) (1/2) 0 XInf 0 XInf 1.4 0 0 0 0 0 5 0 0 5 0 0 0
  [mkfbc 1 SLIP_WALL_BC [] []; mkfbc 2 INFLOW_OUTFLOW_BC [] []; mkfbc 3 FARFIELD_BC [] []] 1 true false false false true [1%Z] [].
Definition chXrot (th : R) : arr v2 := mkarr 6 (fun i => qv (rot th) (aat chX i)).
Definition ch_phys := extract_spatial_physics_config ch_optsN.
Definition ch_num := extract_spatial_numerics_config ch_optsN.
Example C114_example : forall th, exists S S' sp sp', built ch chh chX chg S /\ built ch chh (chXrot th) chg S' /\ turned (rot th) S S' /\ sm_ne S' = 2%nat /\
  aat (sm_rc S) 1%nat = mkv 2 (1 / 2) /\ aat (sm_rc S') 1%nat = mkv (2 * cos th - sin th / 2) (2 * sin th + cos th / 2) /\ aat (sm_A S) 1%nat = 2 /\ aat (sm_A S') 1%nat = 2 /\
  make_spatial (fun _ => 0) ch chX S ch_phys ch_num = Some (Val sp) /\ make_spatial (fun _ => 0) ch (chXrot th) S' (pitched th ch_phys) ch_num = Some (Val sp') /\ sp_order2 sp = true /\
  (exists u ro, spatial_eval S sp (ch_work S true) u = Some (Val ro)) /\
  forall cf u u' x, scaled_by (qs (rot th)) u u' -> orel (sres_turn (rot th)) (fe_solve 2 (sm_A S) cf (spatial_eval S sp (ch_wk gzero)) u false) (fe_solve 2 (sm_A S') cf (spatial_eval S' sp' (ch_wk x)) u' false).
Proof.
  intros th. destruct ch_built as (S & B0). pose proof B0 as (T & H34 & LX & j0 & jf & je & jt & jm & ja & jc & jb & E).
  assert (HX : scaled_by (qv (rot th)) chX (chXrot th)) by (split; auto).
  destruct (C114_mesh (cos th) (sin th) ch chh chX (chXrot th) chg chg j0 jf je jt jm ja jc jb jm ja jc jb S (cos_sin th) T H34 LX HX) as (S' & E' & TR & _); [|exact E|].
  { intros j Hj. cbn in Hj. lia. }
  assert (B : built ch chh chX chg S). { split; auto. split; auto. split; auto. exists j0, jf, je, jt, jm, ja, jc, jb. exact E. }
  assert (B' : built ch chh (chXrot th) chg S'). { split; auto. split; auto. split; [reflexivity|]. exists j0, jf, je, jt, jm, ja, jc, jb. exact E'. }
  assert (FN : fits ch chh chX chg S ch_optsN /\ fits2 S ch_optsN).
  { destruct (ch_fits S "EXPLICIT" 1 B) as ([] & F2 & F3 & F4). split; [constructor; assumption|]. split; [left; reflexivity|]. split; [exact F3|exact F4]. }
  destruct FN as (F & F2). destruct (C98_residual _ _ _ _ _ _ (fun _ => 0) F (fun _ => F2)) as (sp & sps & Em & _ & EVv).
  pose proof (C114_discretization th (fun _ => 0) ch chX (chXrot th) S S' ch_phys ch_num TR eq_refl eq_refl) as D.
  change (make_spatial (fun _ => 0) ch chX S ch_phys ch_num = Some (Val sp)) in Em. rewrite Em in D. destruct (make_spatial (fun _ => 0) ch (chXrot th) S' (pitched th ch_phys) ch_num) as [[sp'|]|] eqn:Em'; cbn in D; try contradiction.
  exists S, S', sp, sp'. split; [exact B|]. split; [exact B'|]. split; [exact TR|].
  destruct (built_ok _ _ _ _ _ B) as (_ & _ & _ & _ & _ & _ & _ & M1 & _ & _ & _ & _ & _ & MA & MC & _).
  destruct (built_ok _ _ _ _ _ B') as (_ & _ & _ & _ & _ & _ & _ & N1 & N2 & _ & _ & _ & _ & NA & NC & _).
  split; [rewrite N1; reflexivity|].
  split; [rewrite MC by (cbn; lia); apply v2_eq; cbn; lra|]. split; [rewrite NC by (cbn; lia); apply v2_eq; cbn; lra|].
  assert (A1 : aat (sm_A S) 1%nat = 2). { rewrite MA by (cbn; lia). cbn. unfold polygon_area, sides, chain, cross. cbn. unfold cross. cbn. field_simplify. lra. }
  split; [exact A1|]. split. { rewrite <- A1. apply (proj2 (tn_A _ _ _ TR)). rewrite (so_A _ (built_sm _ _ _ _ _ B)), M1. cbn. lia. }
  split; [exact Em|]. split; [exact Em'|]. split.
  { unfold make_spatial in Em. cbv zeta in Em. destruct (grad_of S _); [|discriminate]. cbn [bind] in Em. cbn in Em. injection Em as <-. reflexivity. }
  split.
  - destruct (C98_initial_state (fun _ => 0) S ch_optsN (fun _ => 0) ltac:(cbn; lra) ltac:(cbn; lra)) as (u & _ & _ & FS).
    destruct (EVv sp (or_introl eq_refl) (ch_work S true) (states u) ltac:(repeat split) FS) as (ro & Q & _). exists (states u), ro. exact Q.
  - intros cf u u' x Hu. pose proof (C114_solve (cos th) (sin th) S S' sp sp' (ch_wk gzero) (ch_wk x) cf u u' false (cos_sin th) TR D) as H. rewrite N1, M1 in H. apply H; auto. unfold like_work. cbn. repeat split; auto.
Qed.

Print Assumptions C114_mesh.
Print Assumptions C114_discretization.
Print Assumptions C114_initial.
Print Assumptions C114_residual.
Print Assumptions C114_solve.
Print Assumptions C114_run.
Print Assumptions C114_muscl_refuted.
