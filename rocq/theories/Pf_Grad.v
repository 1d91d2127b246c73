(** Proofs about the gradient schemes. *)
From Coq Require Import Reals Lra List Arith Lia Permutation ZArith Bool.
From Verif Require Import Base BaseR BaseSum M_Gas M_Mesh M_Geom S_Mesh S_Geom Pf_Geom M_Space S_Space Pf_Space M_Grad S_Visc.
Import ListNotations.
Open Scope R_scope.

Lemma grad_ext a b : (forall d v, gsel d v a = gsel d v b) -> a = b.
Proof. intros H. destruct a as [ax ay], b as [bx by']. f_equal; apply st_ext; intros k; [apply (H DX k)|apply (H DY k)]. Qed.
Lemma gsel_add d v : additive gadd (gsel d v).
Proof. intros a b. destruct d, v; reflexivity. Qed.
Lemma gsel_neg d v a : gsel d v (gneg a) = - gsel d v a.
Proof. destruct d, v; reflexivity. Qed.

Lemma zero_ok (S : smesh) (G : arr grad) : (sm_ne S <= alen G)%nat -> exists G', zero_grads S G = Some G' /\ alen G' = alen G /\
  (forall i, (i < sm_ne S)%nat -> aat G' i = gzero) /\ (forall i, (sm_ne S <= i)%nat -> aat G' i = aat G i).
Proof.
  intros H. unfold zero_grads.
  match goal with |- context [floop _ ?bb ?ss] =>
    destruct (floop_inv _ (fun j (B : arr grad) => alen B = alen G /\ (forall i, (i < j)%nat -> aat B i = gzero) /\ (forall i, (j <= i)%nat -> aat B i = aat G i)) (sm_ne S) bb ss) as (A' & E & L & P & Q) end.
  - split; auto. split; auto. intros; lia.
  - intros j B Hj (L & P & Q). rewrite aset_ok by lia. eexists; split; [reflexivity|]. cbn. split; auto. split.
    + intros i Hi. unfold upd. destruct (Nat.eqb_spec i j); auto. apply P. lia.
    + intros i Hi. rewrite upd_ne by lia. apply Q. lia.
  - eauto.
Qed.

(** three consecutive face loops *)
Section Three.
Context {T : Type} (plus : T -> T -> T).
Lemma three_loops (nb ni nc : nat) b1 b2 b3 (A : arr T) (L : nat -> list (inc T)) :
  (forall k, (k < nb)%nat -> b1 k = Some (L k)) ->
  (forall k, (nb <= k < nb + ni)%nat -> b2 k = Some (L k)) ->
  (forall k, (nb + ni <= k < nb + ni + nc)%nat -> b3 k = Some (L k)) ->
  (forall k p, (k < nb + ni + nc)%nat -> In p (L k) -> (fst p < alen A)%nat) ->
  exists A', (A1 <- acc_loop plus 0 nb b1 A ;; A2 <- acc_loop plus nb (nb + ni) b2 A1 ;; acc_loop plus (nb + ni) (nb + ni + nc) b3 A2) = Some A' /\
    alen A' = alen A /\
    (forall phi, additive plus phi -> forall i, phi (aat A' i) = phi (aat A i) + rsum (fun k => added phi (L k) i) (seq 0 (nb + ni + nc))) /\
    (forall i, (forall k p, (k < nb + ni + nc)%nat -> In p (L k) -> fst p <> i) -> aat A' i = aat A i).
Proof.
  intros H1 H2 H3 HL.
  destruct (acc_loop_ok plus 0 nb b1 A L) as (A1 & E1 & L1 & P1 & Q1). lia. { intros k Hk. split. apply H1; lia. intros p. apply HL. lia. }
  destruct (acc_loop_ok plus nb (nb + ni) b2 A1 L) as (A2 & E2 & L2 & P2 & Q2). lia. { intros k Hk. split. apply H2; lia. intros p. rewrite L1. apply HL. lia. }
  destruct (acc_loop_ok plus (nb + ni) (nb + ni + nc) b3 A2 L) as (A3 & E3 & L3 & P3 & Q3). lia. { intros k Hk. split. apply H3; lia. intros p. rewrite L2, L1. apply HL. lia. }
  exists A3. rewrite E1. cbn [bind]. rewrite E2. cbn [bind]. split; auto. split; [lia|]. split.
  - intros phi Hphi i. rewrite P3, P2, P1, rsum_split3 by auto. rewrite Nat.sub_0_r.
    replace (nb + ni - nb)%nat with ni by lia. replace (nb + ni + nc - (nb + ni))%nat with nc by lia. lra.
  - intros i Hi. rewrite Q3, Q2, Q1; auto; intros k p Hk; apply Hi; lia.
Qed.
End Three.

(** increments of a face: the left cell gets [a], the right cell, if real, gets [b] *)
Definition two {T} (S : smesh) (a b : nat -> T) (k : nat) : list (inc T) :=
  let fc := aat (sm_F S) k in (f_left fc, a k) :: if (f_right fc <? sm_ne S)%nat then [(f_right fc, b k)] else [].

Lemma added_two {T} (S : smesh) (a b : nat -> T) phi i k : (i < sm_ne S)%nat ->
  added phi (two S a b k) i = (if (f_left (aat (sm_F S) k) =? i)%nat then phi (a k) else 0) + (if (f_right (aat (sm_F S) k) =? i)%nat then phi (b k) else 0).
Proof.
  intros Hi. unfold added, two. destruct (Nat.ltb_spec (f_right (aat (sm_F S) k)) (sm_ne S)); cbn [rsum fst snd].
  - lra.
  - destruct (Nat.eqb_spec (f_right (aat (sm_F S) k)) i); [lia|]. lra.
Qed.
Lemma two_in {T} (S : smesh) (a b : nat -> T) k p : sm_ok S -> (k < sm_nf_all S)%nat -> In p (two S a b k) -> (fst p < sm_ne S)%nat.
Proof.
  intros OK Hk H. unfold two in H. destruct H as [<-|H]. cbn. apply (so_left _ OK); auto.
  destruct (Nat.ltb_spec (f_right (aat (sm_F S) k)) (sm_ne S)); [|destruct H]. destruct H as [<-|[]]; auto.
Qed.
Lemma two_outer {T} (S : smesh) (a b : nat -> T) k : sm_ok S -> (k < sm_nb S \/ sm_nb S + sm_ni S <= k < sm_nf_all S)%nat ->
  two S a b k = [(f_left (aat (sm_F S) k), a k)].
Proof.
  intros OK H. unfold two. destruct (Nat.ltb_spec (f_right (aat (sm_F S) k)) (sm_ne S)); auto. exfalso. destruct H as [H|H].
  - pose proof (so_phy _ OK k H). lia.
  - pose proof (so_con _ OK k H). lia.
Qed.
Lemma two_inner {T} (S : smesh) (a b : nat -> T) k : sm_ok S -> (sm_nb S <= k < sm_nb S + sm_ni S)%nat ->
  two S a b k = [(f_left (aat (sm_F S) k), a k); (f_right (aat (sm_F S) k), b k)].
Proof.
  intros OK H. unfold two. pose proof (so_int _ OK k H). destruct (Nat.ltb_spec (f_right (aat (sm_F S) k)) (sm_ne S)); auto. lia.
Qed.

(** left and right cell of a face differ *)
Lemma lr_ne S k : sm_ok S -> (k < sm_nf_all S)%nat -> f_left (aat (sm_F S) k) <> f_right (aat (sm_F S) k).
Proof.
  intros OK Hk E. pose proof (so_left _ OK k Hk). unfold sm_nf_all in Hk.
  destruct (Nat.lt_ge_cases k (sm_nb S)); [pose proof (so_phy _ OK k ltac:(auto)); lia|].
  destruct (Nat.lt_ge_cases k (sm_nb S + sm_ni S)); [pose proof (so_int _ OK k ltac:(auto)); lia|].
  pose proof (so_con _ OK k ltac:(unfold sm_nf_all; lia)). lia.
Qed.

Lemma inv_dist_pos a b : a <> b -> 0 < inv_dist a b.
Proof.
  intros H. unfold inv_dist. apply Rdiv_lt_0_compat. lra. apply sqrt_lt_R0.
  pose proof (Rle_0_sqr (vx a - vx b)) as P. pose proof (Rle_0_sqr (vy a - vy b)) as Q. unfold Rsqr in *.
  destruct (Req_dec (vx a) (vx b)) as [E|E]; [destruct (Req_dec (vy a) (vy b)) as [E'|E']|].
  - exfalso. apply H. apply v2_eq; auto.
  - assert (0 < (vy a - vy b) * (vy a - vy b)) by (apply Rsqr_pos_lt; lra). lra.
  - assert (0 < (vx a - vx b) * (vx a - vx b)) by (apply Rsqr_pos_lt; lra). lra.
Qed.

Lemma right_lt S k : sm_ok S -> (sm_nb S <= k < sm_nf_all S)%nat -> (f_right (aat (sm_F S) k) < sm_ne S + sm_nc S)%nat.
Proof.
  intros OK H. destruct (Nat.lt_ge_cases k (sm_nb S + sm_ni S)).
  - pose proof (so_int _ OK k ltac:(lia)). lia.
  - pose proof (so_con _ OK k ltac:(lia)). unfold sm_nf_all in H. lia.
Qed.

(** ** Green-Gauss *)
Section GG.
Variables (S : smesh) (u ug : arr st).
Hypothesis OK : sm_ok S.
Hypothesis Lu : alen u = (sm_ne S + sm_nc S)%nat.
Hypothesis Lg : alen ug = sm_nb S.

Definition mid_at (k : nat) : v2 := aat (sm_gr S) k.
Definition uR_at (k : nat) : st := right_value S (aat u) (aat ug) k.
Definition cR_at (k : nat) : v2 := right_value S (aat (sm_rc S)) (aat (sm_rcbp S)) k.
Definition ut_at (k : nat) : st :=
  gg_ut (inv_dist (mid_at k) (aat (sm_rc S) (f_left (aat (sm_F S) k)))) (inv_dist (mid_at k) (cR_at k)) (fm_len (aat (sm_M S) k))
        (aat u (f_left (aat (sm_F S) k))) (uR_at k).
Definition gL (k : nat) : grad := gg_term (ut_at k) (fm_n (aat (sm_M S) k)) (1 / aat (sm_A S) (f_left (aat (sm_F S) k))).
Definition gR (k : nat) : grad := gneg (gg_term (ut_at k) (fm_n (aat (sm_M S) k)) (1 / aat (sm_A S) (f_right (aat (sm_F S) k)))).


Lemma gg_b_ok k : (k < sm_nb S)%nat -> gg_boundary S u ug k = Some (two S gL gR k).
Proof.
  intros Hk. assert (K : (k < sm_nf_all S)%nat) by (unfold sm_nf_all; lia). rewrite two_outer by auto. unfold gg_boundary.
  pose proof (so_left _ OK k K) as HL. destruct (so_pts _ OK k K) as (Ha & Hb).
  rewrite (aget_ok _ (sm_F S)) by (rewrite (so_F _ OK); auto). cbn [bind]. rewrite get_mid_ok by auto. cbn [bind].
  rewrite (aget_ok _ (sm_rc S)) by (rewrite (so_rc _ OK); lia). cbn [bind]. rewrite (aget_ok _ (sm_rcbp S)) by (rewrite (so_rcbp _ OK); lia). cbn [bind].
  rewrite (aget_ok _ (sm_A S)) by (rewrite (so_A _ OK); lia). cbn [bind]. rewrite (aget_ok _ u) by lia. cbn [bind]. rewrite (aget_ok _ ug) by lia. cbn [bind].
  rewrite (aget_ok _ (sm_M S)) by (rewrite (so_M _ OK); lia). cbn [bind]. unfold gL, ut_at, mid_at, uR_at, cR_at, right_value. rewrite (so_mid _ OK k K).
  destruct (Nat.ltb_spec k (sm_nb S)); [reflexivity|lia].
Qed.
Lemma gg_i_ok k : (sm_nb S <= k < sm_nb S + sm_ni S)%nat -> gg_interior S u k = Some (two S gL gR k).
Proof.
  intros Hk. assert (K : (k < sm_nf_all S)%nat) by (unfold sm_nf_all; lia). rewrite two_inner by auto. unfold gg_interior.
  pose proof (so_int _ OK k Hk) as HL. destruct (so_pts _ OK k K) as (Ha & Hb).
  rewrite (aget_ok _ (sm_F S)) by (rewrite (so_F _ OK); auto). cbn [bind]. rewrite get_mid_ok by auto. cbn [bind].
  rewrite !(aget_ok _ (sm_rc S)) by (rewrite (so_rc _ OK); lia). cbn [bind].
  rewrite !(aget_ok _ (sm_A S)) by (rewrite (so_A _ OK); lia). cbn [bind]. rewrite !(aget_ok _ u) by lia. cbn [bind].
  rewrite (aget_ok _ (sm_M S)) by (rewrite (so_M _ OK); lia). cbn [bind]. unfold gL, gR, ut_at, mid_at, uR_at, cR_at, right_value. rewrite (so_mid _ OK k K).
  destruct (Nat.ltb_spec k (sm_nb S)); [lia|reflexivity].
Qed.
Lemma gg_c_ok k : (sm_nb S + sm_ni S <= k < sm_nf_all S)%nat -> gg_conn S u k = Some (two S gL gR k).
Proof.
  intros Hk. assert (K : (k < sm_nf_all S)%nat) by (unfold sm_nf_all in *; lia). rewrite two_outer by auto. unfold gg_conn.
  pose proof (so_left _ OK k K) as HL. pose proof (right_lt S k OK ltac:(lia)) as HR. destruct (so_pts _ OK k K) as (Ha & Hb).
  rewrite (aget_ok _ (sm_F S)) by (rewrite (so_F _ OK); auto). cbn [bind]. rewrite get_mid_ok by auto. cbn [bind].
  rewrite !(aget_ok _ (sm_rc S)) by (rewrite (so_rc _ OK); lia). cbn [bind].
  rewrite !(aget_ok _ (sm_A S)) by (rewrite (so_A _ OK); lia). cbn [bind]. rewrite !(aget_ok _ u) by lia. cbn [bind].
  rewrite (aget_ok _ (sm_M S)) by (rewrite (so_M _ OK); lia). cbn [bind]. unfold gL, gR, ut_at, mid_at, uR_at, cR_at, right_value. rewrite (so_mid _ OK k K).
  destruct (Nat.ltb_spec k (sm_nb S)); [lia|reflexivity].
Qed.

Lemma gg_ok (G : arr grad) : (sm_ne S <= alen G)%nat -> exists G', GreenGauss S u ug G = Some G' /\ alen G' = alen G /\
  (forall i, (i < sm_ne S)%nat -> forall d v, gsel d v (aat G' i) = rsum (fun k => added (gsel d v) (two S gL gR k) i) (seq 0 (sm_nf_all S))) /\
  (forall i, (sm_ne S <= i)%nat -> aat G' i = aat G i).
Proof.
  intros HG. unfold GreenGauss. destruct (zero_ok S G HG) as (G0 & E0 & L0 & Z0 & Z1). rewrite E0. cbn [bind].
  destruct (three_loops gadd (sm_nb S) (sm_ni S) (sm_nc S) (gg_boundary S u ug) (gg_interior S u) (gg_conn S u) G0 (two S gL gR)) as (G' & E & L & P & Q).
  - exact gg_b_ok.
  - exact gg_i_ok.
  - exact gg_c_ok.
  - intros k p Hk Hp. pose proof (two_in S gL gR k p OK Hk Hp). lia.
  - exists G'. split; [exact E|]. split; [lia|]. split.
    + intros i Hi d v. rewrite P by apply gsel_add. rewrite Z0 by auto. destruct d, v; cbn; unfold sm_nf_all; lra.
    + intros i Hi. rewrite Q. apply Z1; auto. intros k p Hk Hp E'. pose proof (two_in S gL gR k p OK Hk Hp). lia.
Qed.

Lemma gsel_term d v ut n ai : gsel d v (gg_term ut n ai) = cget ut v * dget n d * ai.
Proof. destruct d, v; reflexivity. Qed.

Lemma gg_formula (G : arr grad) : (sm_ne S <= alen G)%nat -> exists G', GreenGauss S u ug G = Some G' /\ alen G' = alen G /\
  (forall i, (i < sm_ne S)%nat -> forall d v, gsel d v (aat G' i) =
     1 / aat (sm_A S) i * rsum (fun k =>
       let wl := inv_dist (mid_at k) (aat (sm_rc S) (f_left (aat (sm_F S) k))) in let wr := inv_dist (mid_at k) (cR_at k) in
       (cget (aat u (f_left (aat (sm_F S) k))) v * wl + cget (uR_at k) v * wr) / (wl + wr) * dget (area_vector S i k) d) (seq 0 (sm_nf_all S))).
Proof.
  intros HG. destruct (gg_ok G HG) as (G' & E & L & P & _). exists G'. split; auto. split; auto. intros i Hi d v. rewrite P by auto. rewrite <- rsum_scal.
  apply rsum_ext. intros k Hk. apply in_seq in Hk. rewrite added_two by auto. cbv zeta. pose proof (lr_ne S k OK ltac:(lia)) as NE.
  unfold area_vector. unfold gL, gR. rewrite gsel_neg, !gsel_term. unfold ut_at, gg_ut. rewrite cget_mkst.
  destruct (Nat.eqb_spec (f_left (aat (sm_F S) k)) i) as [E1|E1]; destruct (Nat.eqb_spec (f_right (aat (sm_F S) k)) i) as [E2|E2]; try congruence.
  - rewrite E1. destruct d; cbn; unfold Rdiv; ring.
  - rewrite E2. destruct d; cbn; unfold Rdiv; ring.
  - destruct d; cbn; unfold Rdiv; ring.
Qed.
End GG.

(** ** least squares *)
Section WLS.
Variables (S : smesh).
Hypothesis OK : sm_ok S.

Definition cL (k : nat) : v2 := aat (sm_rc S) (f_left (aat (sm_F S) k)).
Definition cR (k : nat) : v2 := right_value S (aat (sm_rc S)) (aat (sm_rcbp S)) k.

Lemma far_centre_ok k : (k < sm_nf_all S)%nat -> far_centre S k (aat (sm_F S) k) = Some (cR k).
Proof.
  intros Hk. unfold far_centre, cR, right_value. destruct (Nat.ltb_spec k (sm_nb S)).
  - apply aget_ok. rewrite (so_rcbp _ OK). auto.
  - apply aget_ok. rewrite (so_rc _ OK). apply right_lt; auto.
Qed.

Definition Vk (k : nat) : mat2 := wls_mat (cL k) (cR k).
Lemma lhs_outer_ok k : (k < sm_nb S \/ sm_nb S + sm_ni S <= k < sm_nf_all S)%nat -> wls_lhs_outer S k = Some (two S Vk Vk k).
Proof.
  intros Hk. assert (K : (k < sm_nf_all S)%nat) by (unfold sm_nf_all in *; lia). rewrite two_outer by auto. unfold wls_lhs_outer.
  rewrite (aget_ok _ (sm_F S)) by (rewrite (so_F _ OK); auto). cbn [bind].
  rewrite (aget_ok _ (sm_rc S)) by (rewrite (so_rc _ OK); pose proof (so_left _ OK k K); lia). cbn [bind]. rewrite far_centre_ok by auto. reflexivity.
Qed.
Lemma lhs_inner_ok k : (sm_nb S <= k < sm_nb S + sm_ni S)%nat -> wls_lhs_inner S k = Some (two S Vk Vk k).
Proof.
  intros Hk. assert (K : (k < sm_nf_all S)%nat) by (unfold sm_nf_all in *; lia). rewrite two_inner by auto. unfold wls_lhs_inner.
  rewrite (aget_ok _ (sm_F S)) by (rewrite (so_F _ OK); auto). cbn [bind].
  rewrite (aget_ok _ (sm_rc S)) by (rewrite (so_rc _ OK); pose proof (so_left _ OK k K); lia). cbn [bind]. rewrite far_centre_ok by auto. reflexivity.
Qed.

(** sum over the faces of cell i *)
Definition cellsum (i : nat) (g : nat -> R) : R :=
  rsum (fun k => if ((f_left (aat (sm_F S) k) =? i)%nat || (f_right (aat (sm_F S) k) =? i)%nat)%bool then g k else 0) (seq 0 (sm_nf_all S)).

Lemma cellsum_two {T} phi (a : nat -> T) i : (i < sm_ne S)%nat ->
  rsum (fun k => added phi (two S a a k) i) (seq 0 (sm_nf_all S)) = cellsum i (fun k => phi (a k)).
Proof.
  intros Hi. apply rsum_ext. intros k Hk. apply in_seq in Hk. rewrite added_two by auto. pose proof (lr_ne S k OK ltac:(lia)).
  destruct (Nat.eqb_spec (f_left (aat (sm_F S) k)) i); destruct (Nat.eqb_spec (f_right (aat (sm_F S) k)) i); cbn; try lra. congruence.
Qed.

Definition Vsum (i : nat) : mat2 := mkm2 (cellsum i (fun k => m11 (Vk k))) (cellsum i (fun k => m12 (Vk k))) (cellsum i (fun k => m21 (Vk k))) (cellsum i (fun k => m22 (Vk k))).

Lemma wls_ctor_ok : exists V, WLS_ctor S = Some V /\ alen V = sm_ne S /\ forall i, (i < sm_ne S)%nat -> aat V i = m2inv (Vsum i).
Proof.
  destruct (three_loops m2add (sm_nb S) (sm_ni S) (sm_nc S) (wls_lhs_outer S) (wls_lhs_inner S) (wls_lhs_outer S) (aconst (sm_ne S) m2zero) (two S Vk Vk)) as (V3 & E & L & P & _).
  - intros k Hk. apply lhs_outer_ok. auto.
  - exact lhs_inner_ok.
  - intros k Hk. apply lhs_outer_ok. right. unfold sm_nf_all. lia.
  - intros k p Hk Hp. exact (two_in S Vk Vk k p OK Hk Hp).
  - unfold WLS_ctor. unfold sm_nf_all. rewrite <- bind_assoc.
    assert (VI : forall i, (i < sm_ne S)%nat -> aat V3 i = Vsum i).
    { intros i Hi. assert (A : forall phi, additive m2add phi -> phi m2zero = 0 -> phi (aat V3 i) = cellsum i (fun k => phi (Vk k))).
      { intros phi Hphi Hz. rewrite P by auto. cbn [aat aconst]. rewrite Hz. fold (sm_nf_all S). rewrite cellsum_two by auto. lra. }
      unfold Vsum. rewrite <- !A by (try (intros ? ?); reflexivity). destruct (aat V3 i); reflexivity. }
    cbn [alen aconst] in L.
    assert (E' : bind (acc_loop m2add 0 (sm_nb S) (wls_lhs_outer S) (aconst (sm_ne S) m2zero)) (fun V1 => bind (acc_loop m2add (sm_nb S) (sm_nb S + sm_ni S) (wls_lhs_inner S) V1)
       (fun V2 => acc_loop m2add (sm_nb S + sm_ni S) (sm_nb S + sm_ni S + sm_nc S) (wls_lhs_outer S) V2)) = Some V3) by exact E.
    rewrite bind_assoc. apply bind_some in E'. destruct E' as (V1 & Q1 & E'). apply bind_some in E'. destruct E' as (V2 & Q2 & Q3).
    rewrite Q1. cbn [bind]. rewrite Q2. cbn [bind]. rewrite Q3. cbn [bind].
    match goal with |- context [floop _ ?bb ?ss] =>
      destruct (floop_inv _ (fun j (B : arr mat2) => alen B = sm_ne S /\ (forall i, (i < j)%nat -> aat B i = m2inv (Vsum i)) /\ (forall i, (j <= i < sm_ne S)%nat -> aat B i = Vsum i)) (sm_ne S) bb ss) as (A' & EA & LA & PA & _) end.
    + split; auto. split; auto. intros; lia. intros; apply VI; lia.
    + intros j B Hj (LB & PB & QB). rewrite aget_ok by lia. cbn [bind]. rewrite aset_ok by lia. eexists; split; [reflexivity|]. cbn. split; auto. split.
      * intros i Hi. unfold upd. destruct (Nat.eqb_spec i j); [subst; rewrite QB by lia; auto|]. apply PB. lia.
      * intros i Hi. rewrite upd_ne by lia. apply QB. lia.
    + eauto.
Qed.

Variables (u ug : arr st).
Hypothesis Lu : alen u = (sm_ne S + sm_nc S)%nat.
Hypothesis Lg : alen ug = sm_nb S.
Definition uL (k : nat) : st := aat u (f_left (aat (sm_F S) k)).
Definition uRr (k : nat) : st := right_value S (aat u) (aat ug) k.
Lemma far_value_ok k : (k < sm_nf_all S)%nat -> far_value S u ug k (aat (sm_F S) k) = Some (uRr k).
Proof.
  intros Hk. unfold far_value, uRr, right_value. destruct (Nat.ltb_spec k (sm_nb S)).
  - apply aget_ok. lia.
  - apply aget_ok. rewrite Lu. apply right_lt; auto.
Qed.
Definition fk (k : nat) : grad := wls_vec (cL k) (cR k) (uL k) (uRr k).
Lemma rhs_outer_ok k : (k < sm_nb S \/ sm_nb S + sm_ni S <= k < sm_nf_all S)%nat -> wls_rhs_outer S u ug k = Some (two S fk fk k).
Proof.
  intros Hk. assert (K : (k < sm_nf_all S)%nat) by (unfold sm_nf_all in *; lia). rewrite two_outer by auto. unfold wls_rhs_outer. pose proof (so_left _ OK k K).
  rewrite (aget_ok _ (sm_F S)) by (rewrite (so_F _ OK); auto). cbn [bind].
  rewrite (aget_ok _ (sm_rc S)) by (rewrite (so_rc _ OK); lia). cbn [bind]. rewrite far_centre_ok by auto. cbn [bind].
  rewrite (aget_ok _ u) by lia. cbn [bind]. rewrite far_value_ok by auto. reflexivity.
Qed.
Lemma rhs_inner_ok k : (sm_nb S <= k < sm_nb S + sm_ni S)%nat -> wls_rhs_inner S u ug k = Some (two S fk fk k).
Proof.
  intros Hk. assert (K : (k < sm_nf_all S)%nat) by (unfold sm_nf_all in *; lia). rewrite two_inner by auto. unfold wls_rhs_inner. pose proof (so_left _ OK k K).
  rewrite (aget_ok _ (sm_F S)) by (rewrite (so_F _ OK); auto). cbn [bind].
  rewrite (aget_ok _ (sm_rc S)) by (rewrite (so_rc _ OK); lia). cbn [bind]. rewrite far_centre_ok by auto. cbn [bind].
  rewrite (aget_ok _ u) by lia. cbn [bind]. rewrite far_value_ok by auto. reflexivity.
Qed.
Definition fsum (i : nat) : grad := mkgrad (mkst (fun v => cellsum i (fun k => gsel DX v (fk k)))) (mkst (fun v => cellsum i (fun k => gsel DY v (fk k)))).

Lemma wls_grad_ok V (G : arr grad) : alen V = sm_ne S -> (sm_ne S <= alen G)%nat ->
  exists G', WLS_gradients S V u ug G = Some G' /\ alen G' = alen G /\
   (forall i, (i < sm_ne S)%nat -> aat G' i = m2grad (aat V i) (fsum i)) /\ (forall i, (sm_ne S <= i)%nat -> aat G' i = aat G i).
Proof.
  intros LV LG.
  destruct (three_loops gadd (sm_nb S) (sm_ni S) (sm_nc S) (wls_rhs_outer S u ug) (wls_rhs_inner S u ug) (wls_rhs_outer S u ug) (aconst (sm_ne S) gzero) (two S fk fk)) as (f3 & E & L & P & _).
  - intros k Hk. apply rhs_outer_ok. auto.
  - exact rhs_inner_ok.
  - intros k Hk. apply rhs_outer_ok. right. unfold sm_nf_all. lia.
  - intros k p Hk Hp. exact (two_in S fk fk k p OK Hk Hp).
  - unfold WLS_gradients. unfold sm_nf_all. cbn [alen aconst] in L.
    assert (FI : forall i, (i < sm_ne S)%nat -> aat f3 i = fsum i).
    { intros i Hi. apply grad_ext. intros d v. rewrite (P _ (gsel_add d v)). fold (sm_nf_all S). rewrite cellsum_two by auto.
      replace (gsel d v (aat (aconst (sm_ne S) gzero) i)) with 0 by (destruct d, v; reflexivity). rewrite Rplus_0_l. unfold fsum. destruct d; unfold gsel; cbn [gx gy]; rewrite cget_mkst; reflexivity. }
    apply bind_some in E. destruct E as (f1 & Q1 & E). apply bind_some in E. destruct E as (f2 & Q2 & Q3).
    rewrite Q1. cbn [bind]. rewrite Q2. cbn [bind]. rewrite Q3. cbn [bind].
    match goal with |- context [floop _ ?bb ?ss] =>
      destruct (floop_inv _ (fun j (B : arr grad) => alen B = alen G /\ (forall i, (i < j)%nat -> aat B i = m2grad (aat V i) (fsum i)) /\ (forall i, (j <= i)%nat -> aat B i = aat G i)) (sm_ne S) bb ss) as (A' & EA & LA & PA & QA) end.
    + split; auto. split; auto. intros; lia.
    + intros j B Hj (LB & PB & QB). rewrite aget_ok by lia. cbn [bind]. rewrite aget_ok by lia. cbn [bind]. rewrite aset_ok by lia. eexists; split; [reflexivity|]. cbn. split; auto. split.
      * intros i Hi. unfold upd. destruct (Nat.eqb_spec i j); [subst; rewrite FI by lia; auto|]. apply PB. lia.
      * intros i Hi. rewrite upd_ne by lia. apply QB. lia.
    + exists A'. split; auto.
Qed.

(** ** the normal matrix *)
Lemma cellsum_ext i g h : (forall k, bounds S i k -> g k = h k) -> cellsum i g = cellsum i h.
Proof.
  intros H. apply rsum_ext. intros k Hk. apply in_seq in Hk.
  destruct (Nat.eqb_spec (f_left (aat (sm_F S) k)) i); destruct (Nat.eqb_spec (f_right (aat (sm_F S) k)) i); cbn; auto; apply H; split; auto; lia.
Qed.
Lemma cellsum_plus i g h : cellsum i (fun k => g k + h k) = cellsum i g + cellsum i h.
Proof. unfold cellsum. rewrite <- rsum_plus. apply rsum_ext. intros k _. destruct (_ || _); lra. Qed.
Lemma cellsum_scal i c g : cellsum i (fun k => c * g k) = c * cellsum i g.
Proof. unfold cellsum. rewrite <- rsum_scal. apply rsum_ext. intros k _. destruct (_ || _); lra. Qed.
Lemma cellsum_nonneg0 i g : (forall k, bounds S i k -> 0 <= g k) -> cellsum i g = 0 -> forall k, bounds S i k -> g k = 0.
Proof.
  intros H Z k (Hk & Hb). unfold cellsum in Z.
  set (h := fun k => if ((f_left (aat (sm_F S) k) =? i)%nat || (f_right (aat (sm_F S) k) =? i)%nat)%bool then g k else 0) in Z.
  assert (N : forall j, (j < sm_nf_all S)%nat -> 0 <= h j).
  { intros j Hj. unfold h. destruct (Nat.eqb_spec (f_left (aat (sm_F S) j)) i); destruct (Nat.eqb_spec (f_right (aat (sm_F S) j)) i); cbn; try lra; apply H; split; auto. }
  assert (hk : h k = g k). { unfold h. destruct (Nat.eqb_spec (f_left (aat (sm_F S) k)) i); destruct (Nat.eqb_spec (f_right (aat (sm_F S) k)) i); cbn; auto; lia. }
  rewrite <- hk. replace (sm_nf_all S) with (k + (1 + (sm_nf_all S - k - 1)))%nat in Z by lia. rewrite !seq_app, !rsum_app in Z. cbn [seq rsum] in Z.
  assert (P1 : 0 <= rsum h (seq 0 k)). { apply rsum_nonneg. intros x Hx. apply in_seq in Hx. apply N. lia. }
  assert (P2 : 0 <= rsum h (seq (0 + k + 1) (sm_nf_all S - k - 1))). { apply rsum_nonneg. intros x Hx. apply in_seq in Hx. apply N. lia. }
  pose proof (N k Hk). rewrite Nat.add_0_l in *. lra.
Qed.

Definition dk (k : nat) : v2 := wls_dr (cL k) (cR k).
Definition wk (k : nat) : R := wls_w2 (cL k) (cR k).
Lemma wk_pos k : cL k <> cR k -> 0 < wk k.
Proof.
  intros H. unfold wk, wls_w2. apply Rdiv_lt_0_compat. lra.
  set (a := cL k) in *. set (b := cR k) in *. pose proof (Rle_0_sqr (vx a - vx b)) as P. pose proof (Rle_0_sqr (vy a - vy b)) as Q. unfold Rsqr in *.
  destruct (Req_dec (vx a) (vx b)) as [E|E]; [destruct (Req_dec (vy a) (vy b)) as [E'|E']|].
  - exfalso. apply H. apply v2_eq; auto.
  - assert (0 < (vy a - vy b) * (vy a - vy b)) by (apply Rsqr_pos_lt; lra). lra.
  - assert (0 < (vx a - vx b) * (vx a - vx b)) by (apply Rsqr_pos_lt; lra). lra.
Qed.
Lemma quad_form i x y : x * x * m11 (Vsum i) + 2 * (x * y) * m12 (Vsum i) + y * y * m22 (Vsum i) = cellsum i (fun k => wk k * ((x * vx (dk k) + y * vy (dk k)) * (x * vx (dk k) + y * vy (dk k)))).
Proof.
  cbn [Vsum m11 m12 m22]. rewrite <- !cellsum_scal, <- !cellsum_plus. apply cellsum_ext. intros k _. unfold Vk, wls_mat; cbn [m11 m12 m22]. fold (wk k) (dk k). ring.
Qed.
Lemma Vsum_sym i : m21 (Vsum i) = m12 (Vsum i).
Proof. cbn. apply cellsum_ext. intros k _. unfold Vk, wls_mat; cbn. ring. Qed.

Lemma det_pos i : (forall k, bounds S i k -> cL k <> cR k) -> (exists k l, bounds S i k /\ bounds S i l /\ cross (dk k) (dk l) <> 0) -> m2det (Vsum i) <> 0.
Proof.
  intros HD (k & l & Bk & Bl & X) D. unfold m2det in D. rewrite Vsum_sym in D.
  set (a := m11 (Vsum i)) in *. set (b := m12 (Vsum i)) in *. set (c := m22 (Vsum i)) in *.
  assert (Z : forall x y, x * x * a + 2 * (x * y) * b + y * y * c = 0 -> forall k, bounds S i k -> x * vx (dk k) + y * vy (dk k) = 0).
  { intros x y E j Bj. unfold a, b, c in E. rewrite quad_form in E.
    pose proof (cellsum_nonneg0 i _ (fun j Bj => Rmult_le_pos _ _ (Rlt_le _ _ (wk_pos j (HD j Bj))) (Rle_0_sqr (x * vx (dk j) + y * vy (dk j)))) E j Bj) as Q. cbv beta in Q.
    pose proof (wk_pos j (HD j Bj)). apply Rmult_integral in Q. destruct Q as [Q|Q]; [lra|]. apply Rsqr_0_uniq. exact Q. }
  unfold cross in X. destruct (Req_dec a 0) as [Ea|Ea].
  - pose proof (Z 1 0) as Q. assert (E0 : 1 * 1 * a + 2 * (1 * 0) * b + 0 * 0 * c = 0) by (rewrite Ea; ring).
    pose proof (Q E0 k Bk). pose proof (Q E0 l Bl). apply X. replace (vx (dk k)) with 0 by lra. replace (vx (dk l)) with 0 by lra. ring.
  - pose proof (Z (- b) a) as Q. assert (E0 : - b * - b * a + 2 * (- b * a) * b + a * a * c = 0) by (transitivity (a * (a * c - b * b)); [ring|rewrite D; ring]).
    pose proof (Q E0 k Bk) as Q1. pose proof (Q E0 l Bl) as Q2. apply X.
    apply Rmult_eq_reg_l with a; [|auto]. transitivity (vx (dk k) * (a * vy (dk l)) - vx (dk l) * (a * vy (dk k))); [ring|].
    replace (a * vy (dk l)) with (b * vx (dk l)) by lra. replace (a * vy (dk k)) with (b * vx (dk k)) by lra. ring.
Qed.

Lemma wls_linear i c ga gb : (forall j, (j < sm_ne S + sm_nc S)%nat -> aat u j = linear_field c ga gb (aat (sm_rc S) j)) ->
  (forall k, (k < sm_nb S)%nat -> aat ug k = linear_field c ga gb (aat (sm_rcbp S) k)) ->
  m2det (Vsum i) <> 0 -> m2grad (m2inv (Vsum i)) (fsum i) = mkgrad ga gb.
Proof.
  intros Hu Hg Hd.
  assert (DU : forall k v, (k < sm_nf_all S)%nat -> cget (uL k) v - cget (uRr k) v = vx (dk k) * cget ga v + vy (dk k) * cget gb v).
  { intros k v Hk. unfold uL, uRr, right_value. rewrite Hu by (pose proof (so_left _ OK k Hk); lia).
    assert (E : (if (k <? sm_nb S)%nat then aat ug k else aat u (f_right (aat (sm_F S) k))) = linear_field c ga gb (cR k)).
    { unfold cR, right_value. destruct (Nat.ltb_spec k (sm_nb S)). apply Hg; auto. apply Hu. apply right_lt; auto. }
    rewrite E. unfold dk, wls_dr. fold (cL k). destruct v; cbn; ring. }
  assert (FX : forall v, cget (gx (fsum i)) v = m11 (Vsum i) * cget ga v + m12 (Vsum i) * cget gb v).
  { intros v. cbn [fsum gx]. rewrite cget_mkst. cbn [Vsum m11 m12]. rewrite !(Rmult_comm _ (cget _ v)), <- !cellsum_scal, <- cellsum_plus.
    apply cellsum_ext. intros k (Hk & _). unfold fk, wls_vec, gsel. cbn [gx]. rewrite cget_mkst, DU by auto. unfold Vk, wls_mat; cbn [m11 m12]. fold (dk k) (wk k). ring. }
  assert (FY : forall v, cget (gy (fsum i)) v = m12 (Vsum i) * cget ga v + m22 (Vsum i) * cget gb v).
  { intros v. cbn [fsum gy]. rewrite cget_mkst. cbn [Vsum m12 m22]. rewrite !(Rmult_comm _ (cget _ v)), <- !cellsum_scal, <- cellsum_plus.
    apply cellsum_ext. intros k (Hk & _). unfold fk, wls_vec, gsel. cbn [gy]. rewrite cget_mkst, DU by auto. unfold Vk, wls_mat; cbn [m12 m22]. fold (dk k) (wk k). ring. }
  apply grad_ext. intros d v. unfold m2grad, m2inv. cbn [m11 m12 m21 m22].
  destruct d; unfold gsel; cbn [gx gy]; rewrite cget_mkst, FX, FY, ?Vsum_sym; unfold m2det in *; rewrite ?Vsum_sym in *; field; exact Hd.
Qed.
End WLS.
