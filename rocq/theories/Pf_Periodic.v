(** compute_periodic_map. *)
From Coq Require Import Reals Lra List Arith Lia ZArith Bool.
From Verif Require Import Base BaseR M_Mesh M_MeshUtil.
Import ListNotations.
Open Scope nat_scope.

Lemma ofind_from_spec : forall fuel lo p (q : nat -> bool),
  (forall i, lo <= i < lo + fuel -> p i = Some (q i)) ->
  (exists i, lo <= i < lo + fuel /\ q i = true /\ (forall j, lo <= j < i -> q j = false) /\ ofind_from fuel lo p = Some (Some i)) \/
  ((forall i, lo <= i < lo + fuel -> q i = false) /\ ofind_from fuel lo p = Some None).
Proof.
  induction fuel as [|k IH]; intros lo p q Hp; cbn.
  - right. split; auto. intros; lia.
  - rewrite Hp by lia. cbn. destruct (q lo) eqn:Q.
    + left. exists lo. repeat split; auto; try lia.
    + destruct (IH (lo + 1) p q) as [(i & A & B & C & D)|(A & B)].
      * intros; apply Hp; lia.
      * left. exists i. split; [lia|]. split; auto. split; auto. intros j Hj. destruct (Nat.eq_dec j lo); subst; auto. apply C; lia.
      * right. split; auto. intros i Hi. destruct (Nat.eq_dec i lo); subst; auto. apply A; lia.
Qed.

(** the coordinate the faces are compared in *)
Definition along (axis : Z) (p : v2) : R := if (axis =? 1)%Z then vx p else vy p.
Definition centre (F : arr face) (X : arr v2) (axis : Z) (i : nat) : R :=
  ((along axis (aat X (f_a (aat F i))) + along axis (aat X (f_b (aat F i)))) / 2)%R.
Definition close (F : arr face) (X : arr v2) (axis : Z) (i j : nat) : Prop :=
  (Rabs (centre F X axis i - centre F X axis j) <= / 10 ^ 8)%R.
Definition tagged (T : arr (list Z)) (bcm : Z) (i : nat) : Prop := exists r, aat T i = bcm :: r.

Lemma close_sym F X axis i j : close F X axis i j -> close F X axis j i.
Proof. unfold close. rewrite Rabs_minus_sym. auto. Qed.

Section Per.
Variables (nb : nat) (F : arr face) (T : arr (list Z)) (X : arr v2) (bcm axis : Z).
Hypothesis Hnb : nb <= alen F.
Hypothesis HT : alen T = nb /\ forall i, i < nb -> aat T i <> [].
Hypothesis HX : forall i, i < nb -> f_a (aat F i) < alen X /\ f_b (aat F i) < alen X.
Hypothesis Hb : (0 <= bcm)%Z.
Hypothesis Ha : axis = 0%Z \/ axis = 1%Z.
Notation tg := (tagged T bcm).
Notation cl := (close F X axis).
Hypothesis Htr : forall i j k, i < nb -> j < nb -> k < nb -> tg i -> tg j -> tg k -> cl i j -> cl j k -> cl i k.

Definition same (G : arr face) : Prop := alen G = alen F /\
  forall k, f_left (aat G k) = f_left (aat F k) /\ f_a (aat G k) = f_a (aat F k) /\ f_b (aat G k) = f_b (aat F k).

Record pinv (i : nat) (s : arr face * arr Z) : Prop := {
  p_same : same (fst s);
  p_len : alen (snd s) = nb;
  p_free : forall k, k < nb -> aat (snd s) k = (-1)%Z -> aat (fst s) k = aat F k;
  p_out : forall k, nb <= k -> aat (fst s) k = aat F k;
  p_pair : forall k, k < nb -> aat (snd s) k <> (-1)%Z -> exists j, j < nb /\ j <> k /\ tg k /\ tg j /\ cl k j /\
     aat (snd s) k = Z.of_nat j /\ aat (snd s) j = Z.of_nat k /\
     f_right (aat (fst s) k) = f_left (aat F j) /\ (k < i \/ j < i);
  p_first : forall k j x, k < nb -> aat (snd s) k = Z.of_nat j -> k < x < j -> tg x -> ~ cl k x;
  p_left : forall k j, k < i -> k < nb -> tg k -> aat (snd s) k = (-1)%Z -> k < j < nb -> tg j -> ~ cl k j }.

Lemma tg_ok i : i < nb -> (t <- aget T i ;; t0 <- nth_error t 0 ;; Some (t0 =? bcm)%Z) = Some (match aat T i with [] => false | t0 :: _ => (t0 =? bcm)%Z end).
Proof.
  intros Hi. destruct HT as (L & N). rewrite aget_ok by lia. cbn [bind]. specialize (N i Hi). destruct (aat T i); [congruence|]. reflexivity.
Qed.
Lemma tg_true i : i < nb -> (match aat T i with [] => false | t0 :: _ => (t0 =? bcm)%Z end) = true <-> tg i.
Proof.
  intros Hi. unfold tagged. destruct HT as (L & N). specialize (N i Hi). destruct (aat T i) as [|t r]; [congruence|]. split.
  - intros K. apply Z.eqb_eq in K. subst. eauto.
  - intros (r' & K). inversion K. apply Z.eqb_refl.
Qed.
Lemma centre_ok G i : same G -> i < nb -> face_centre G X (1 - axis) i = Some (centre F X axis i).
Proof.
  intros (L & S) Hi. unfold face_centre. rewrite aget_ok by lia. cbn [bind]. destruct (S i) as (S1 & S2 & S3). rewrite S2, S3. destruct (HX i Hi).
  rewrite !aget_ok by auto. cbn [bind]. unfold centre, along, pcoord. destruct Ha; subst; cbn; reflexivity.
Qed.

Lemma periodic_ok : exists G pm, compute_periodic_map nb F T X bcm axis = Some (G, pm) /\ pinv nb (G, pm).
Proof.
  unfold compute_periodic_map. destruct (Z.ltb_spec bcm 0); [lia|]. destruct (Z.ltb_spec axis 0); [destruct Ha; lia|]. cbv zeta.
  match goal with |- context [floop nb ?bb ?ss] => destruct (floop_inv _ pinv nb bb ss) as ([G pm] & E & I) end.
  - split; cbn [fst snd aconst alen aat]; auto; try (intros; congruence).
    + split; auto.
    + intros k j x Hk K. lia.
    + intros; lia.
  - intros i [G pm] Hi I. cbn [fst snd]. rewrite tg_ok by auto. cbn [bind].
    destruct (match aat T i with [] => false | t0 :: _ => (t0 =? bcm)%Z end) eqn:Et.
    2:{ eexists; split; [reflexivity|]. destruct I; split; auto.
        - intros k Hk K. destruct (p_pair0 k Hk K) as (j & A & B & C & D & E' & E1 & E2 & E3 & E4). exists j. repeat (split; auto). lia.
        - intros k j Hk Hkb Tk. destruct (Nat.eq_dec k i); [subst k; apply (tg_true i Hi) in Tk; congruence|]. apply p_left0; auto. lia. }
    apply (tg_true i Hi) in Et. pose proof (p_len i _ I) as L. cbn [snd] in L. rewrite aget_ok by lia. cbn [bind].
    destruct (Z.ltb_spec (-1) (aat pm i)).
    { eexists; split; [reflexivity|]. destruct I; split; auto.
        - intros k Hk K. destruct (p_pair0 k Hk K) as (j & A & B & C & D & E' & E1 & E2 & E3 & E4). exists j. repeat (split; auto). lia.
        - intros k j Hk Hkb Tk. destruct (Nat.eq_dec k i); [subst k; cbn; lia|]. apply p_left0; auto. lia. }
    assert (Epi : aat pm i = (-1)%Z). { destruct (Z.eq_dec (aat pm i) (-1)); auto. destruct (p_pair i _ I i Hi n) as (j & _ & _ & _ & _ & _ & K & _). cbn in K. lia. }
    pose proof (p_same i _ I) as Sm. cbn [fst] in Sm. rewrite centre_ok by auto. cbn [bind].
    match goal with |- context [ofind_from ?a ?b ?p] =>
      destruct (ofind_from_spec a b p (fun j => (match aat T j with [] => false | t0 :: _ => (t0 =? bcm)%Z end) && Rleb (Rabs (centre F X axis i - centre F X axis j)) (/ 10 ^ 8))) as [(j & Hj & Qj & Bj & Ej)|(Q & Ej)] end.
    { intros j Hj. rewrite tg_ok by lia. cbn [bind]. destruct (match aat T j with [] => false | t0 :: _ => (t0 =? bcm)%Z end); [|reflexivity].
      rewrite centre_ok by (auto; lia). reflexivity. }
    + (* a partner *)
      rewrite Ej. cbn [bind]. apply andb_true_iff in Qj. destruct Qj as (Tj & Cj). apply tg_true in Tj; [|lia].
      assert (Cij : cl i j) by (unfold close; destruct (Rleb_spec (Rabs (centre F X axis i - centre F X axis j)) (/ 10 ^ 8)); [auto|discriminate]).
      assert (First : forall x, i < x < j -> tg x -> ~ cl i x).
      { intros x Hx Tx Cx. specialize (Bj x ltac:(lia)). apply andb_false_iff in Bj. destruct Bj as [Bj|Bj].
        - apply (tg_true x ltac:(lia)) in Tx. congruence.
        - unfold close in Cx. destruct (Rleb_spec (Rabs (centre F X axis i - centre F X axis x)) (/ 10 ^ 8)); [discriminate|auto]. }
      assert (Epj : aat pm j = (-1)%Z).
      { destruct (Z.eq_dec (aat pm j) (-1)); auto. exfalso.
        destruct (p_pair i _ I j ltac:(lia) n) as (k & K1 & K2 & K3 & K4 & K5 & K6 & K7 & K8 & K9). cbn [fst snd] in *.
        assert (k < i) by lia. apply (p_first i _ I k j i); cbn [snd]; auto. lia.
        apply close_sym. apply (Htr i j k); auto; lia. }
      destruct Sm as (LG & Sm).
      rewrite aset_ok by lia. cbn [bind]. rewrite aset_ok by (cbn; lia). cbn [bind]. rewrite !aget_ok by lia. cbn [bind].
      rewrite aset_ok by lia. cbn [bind]. rewrite !aget_ok by (cbn; lia). cbn [bind alen aat]. rewrite aset_ok by (cbn; lia). cbn [bind alen aat].
      eexists; split; [reflexivity|]. rewrite upd_eq, upd_ne by lia. cbn [set_right f_left].
      destruct I as [I1 I2 I3 I4 I5 I6 I7]. cbn [fst snd] in *.
      destruct (Sm i) as (Si1 & Si2 & Si3). destruct (Sm j) as (Sj1 & Sj2 & Sj3).
      split; cbn [fst snd alen aat].
      * split; [cbn; auto|]. intros k. cbn [aat]. unfold upd. destruct (Nat.eqb_spec k j); [subst; cbn; auto|]. destruct (Nat.eqb_spec k i); [subst; cbn; auto|]. auto.
      * auto.
      * intros k Hk. unfold upd. destruct (Nat.eqb_spec k j); [lia|]. destruct (Nat.eqb_spec k i); [lia|]. auto.
      * intros k Hk. unfold upd. destruct (Nat.eqb_spec k j); [lia|]. destruct (Nat.eqb_spec k i); [lia|]. auto.
      * intros k Hk. unfold upd at 1. destruct (Nat.eqb_spec k j).
        -- intros _. subst k. exists i. split; auto. split; [lia|]. split; auto. split; auto. split; [apply close_sym; auto|].
           rewrite !upd_eq. rewrite upd_ne by lia. rewrite upd_eq. cbn. repeat split; auto. lia.
        -- unfold upd at 1. destruct (Nat.eqb_spec k i).
           ++ intros _. subst k. exists j. split; [lia|]. split; auto. split; auto. split; auto. split; auto.
              rewrite !(upd_ne _ _ j i) by lia. rewrite !upd_eq. cbn. repeat split; auto. lia.
           ++ intros K. destruct (I5 k Hk K) as (q & A & B & C & D & E' & E1 & E2 & E3 & E4).
              assert (q <> i) by (intros ->; rewrite Epi in E2; lia). assert (q <> j) by (intros ->; rewrite Epj in E2; lia).
              exists q. do 5 (split; [auto|]). rewrite !upd_ne by auto. repeat split; auto. lia.
      * intros k q x Hk. unfold upd at 1. destruct (Nat.eqb_spec k j).
        -- intros K. lia.
        -- unfold upd at 1. destruct (Nat.eqb_spec k i).
           ++ intros K Hx. subst k. assert (q = j) by lia. subst q. apply First; auto.
           ++ apply I6; auto.
      * intros k q Hk Hkb Tk. unfold upd at 1. destruct (Nat.eqb_spec k j); [lia|]. unfold upd at 1. destruct (Nat.eqb_spec k i); [lia|]. apply I7; auto. lia.
    + rewrite Ej. cbn [bind]. eexists; split; [reflexivity|]. destruct I as [I1 I2 I3 I4 I5 I6 I7]. split; auto.
      * intros k Hk K. destruct (I5 k Hk K) as (j & A & B & C & D & E' & E1 & E2 & E3 & E4). exists j. repeat (split; auto). lia.
      * intros k j Hk Hkb Tk K Hj Tj Ckj. destruct (Nat.eq_dec k i); [subst k|revert Ckj; apply I7; auto; lia].
        specialize (Q j ltac:(lia)). apply andb_false_iff in Q. destruct Q as [Q|Q].
        -- apply (tg_true j ltac:(lia)) in Tj. congruence.
        -- unfold close in Ckj. destruct (Rleb_spec (Rabs (centre F X axis i - centre F X axis j)) (/ 10 ^ 8)); [discriminate|auto].
  - exists G, pm. auto.
Qed.
End Per.
