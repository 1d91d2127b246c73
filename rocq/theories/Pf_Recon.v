(** Proofs about the reconstruction schemes (M_Recon.v). *)
From Coq Require Import Reals Lra List Arith Lia ZArith Bool.
From Verif Require Import Base BaseR BaseSum M_Gas M_Mesh M_Geom M_Space S_Space Pf_Space Pf_Grad S_Recon M_Recon.
Import ListNotations.
Open Scope R_scope.

Lemma ovec_ok (f : ix -> option R) (g : ix -> R) : (forall v, f v = Some (g v)) -> ovec f = Some (mkst g).
Proof. intros H. unfold ovec. rewrite !H. reflexivity. Qed.
Lemma rdiv_ok a b : b <> 0 -> rdiv a b = Some (a / b).
Proof. intros H. unfold rdiv. destruct (Req_EM_T b 0); [contradiction|reflexivity]. Qed.
Lemma zget_ok {A} (a : arr A) n : (n < alen a)%nat -> zget a (Z.of_nat n) = Some (aat a n).
Proof. intros H. unfold zget. destruct (Z.ltb_spec (Z.of_nat n) 0); [lia|]. rewrite Nat2Z.id. apply aget_ok; auto. Qed.
Lemma zget_none {A} (a : arr A) n : (alen a <= n)%nat -> zget a (Z.of_nat n) = None.
Proof. intros H. unfold zget. destruct (Z.ltb_spec (Z.of_nat n) 0); [reflexivity|]. rewrite Nat2Z.id. unfold aget. destruct (Nat.ltb_spec n (alen a)); [lia|reflexivity]. Qed.

Lemma floop_none {T} (body : nat -> T -> option T) n k : (k < n)%nat -> (forall s, body k s = None) -> forall s, floop n body s = None.
Proof.
  induction n as [|n IH]; intros Hk H s; [lia|]. cbn [floop]. destruct (Nat.eq_dec k n) as [->|D].
  - destruct (floop n body s); cbn [bind]; auto.
  - rewrite IH by (auto; lia). reflexivity.
Qed.

Lemma lt_lr S k : sm_ok S -> (k < sm_nf_all S)%nat -> (f_left (aat (sm_F S) k) < f_right (aat (sm_F S) k))%nat.
Proof.
  intros OK Hk. pose proof (so_left _ OK k Hk). unfold sm_nf_all in Hk.
  destruct (Nat.lt_ge_cases k (sm_nb S)); [pose proof (so_phy _ OK k ltac:(auto)); lia|].
  destruct (Nat.lt_ge_cases k (sm_nb S + sm_ni S)); [pose proof (so_int _ OK k ltac:(auto)); lia|].
  pose proof (so_con _ OK k ltac:(unfold sm_nf_all; lia)). lia.
Qed.
Lemma right_real S k : sm_ok S -> (k < sm_nf_all S)%nat -> (f_right (aat (sm_F S) k) < sm_ne S)%nat -> (sm_nb S <= k < sm_nb S + sm_ni S)%nat.
Proof.
  intros OK Hk H. unfold sm_nf_all in *.
  destruct (Nat.lt_ge_cases k (sm_nb S)); [pose proof (so_phy _ OK k ltac:(auto)); lia|].
  destruct (Nat.lt_ge_cases k (sm_nb S + sm_ni S)); [lia|].
  pose proof (so_con _ OK k ltac:(unfold sm_nf_all; lia)). lia.
Qed.

(** ** loops over faces *)
Definition sized (N : nat) (s : faces2) : Prop := alen (fst s) = N /\ alen (snd s) = N.

Lemma face_loop N lo hi body (L : nat -> st) (Rr : nat -> option st) s : (lo <= hi <= N)%nat -> sized N s ->
  (forall k s, (lo <= k < hi)%nat -> sized N s -> body k s =
     Some (mkarr (alen (fst s)) (upd (aat (fst s)) k (L k)), match Rr k with Some y => mkarr (alen (snd s)) (upd (aat (snd s)) k y) | None => snd s end)) ->
  exists s', frange lo hi body s = Some s' /\ sized N s' /\
  (forall k, (lo <= k < hi)%nat -> aat (fst s') k = L k /\ aat (snd s') k = match Rr k with Some y => y | None => aat (snd s) k end) /\
  (forall k, ~ (lo <= k < hi)%nat -> aat (fst s') k = aat (fst s) k /\ aat (snd s') k = aat (snd s) k).
Proof.
  intros Hr Hs Hb.
  destruct (frange_inv _ (fun j s' => sized N s' /\
    (forall k, (lo <= k < j)%nat -> aat (fst s') k = L k /\ aat (snd s') k = match Rr k with Some y => y | None => aat (snd s) k end) /\
    (forall k, ~ (lo <= k < j)%nat -> aat (fst s') k = aat (fst s) k /\ aat (snd s') k = aat (snd s) k)) lo hi body s) as (s' & E & H1 & H2 & H3).
  - lia.
  - split; auto. split; [intros; lia|auto].
  - intros j t Hj (Ht & H1 & H2). rewrite Hb by auto. eexists. split; [reflexivity|]. destruct Ht as (T1 & T2). split; [|split].
    + split; cbn [fst snd alen]; auto. destruct (Rr j); auto.
    + intros k Hk. cbn [fst snd]. destruct (Nat.eq_dec k j) as [->|D].
      * cbn [aat]. rewrite upd_eq. split; auto. destruct (Rr j); cbn [aat]; [apply upd_eq|]. apply H2. lia.
      * cbn [aat]. rewrite upd_ne by auto. destruct (H1 k ltac:(lia)) as (A & B). split; auto. destruct (Rr j); cbn [aat]; [rewrite upd_ne by auto|]; auto.
    + intros k Hk. cbn [fst snd]. destruct (H2 k ltac:(lia)) as (A & B). cbn [aat]. rewrite upd_ne by lia. split; auto. destruct (Rr j); cbn [aat]; [rewrite upd_ne by lia|]; auto.
  - eauto.
Qed.

(** ** loops over cells *)
Section Cells.
Variable S : smesh.
Hypothesis OK : sm_ok S.
Let F k := aat (sm_F S) k.
Let N := sm_nf_all S.

Lemma store_ok i val s : (i < sm_ne S)%nat -> sized N s -> exists s', store_faces S i val s = Some s' /\ sized N s' /\
  forall k, (k < N)%nat ->
    aat (fst s') k = (if (f_left (F k) =? i)%nat then val (aat (sm_gr S) k) (aat (sm_rc S) i) else aat (fst s) k) /\
    aat (snd s') k = (if (f_right (F k) =? i)%nat then val (aat (sm_gr S) k) (aat (sm_rc S) i) else aat (snd s) k).
Proof.
  intros Hi Hs. unfold store_faces. rewrite aget_ok by (rewrite (so_nf _ OK); auto). cbn [bind].
  set (X := fun k => val (aat (sm_gr S) k) (aat (sm_rc S) i)).
  destruct (so_tab _ OK) as (R1 & R2 & R3). specialize (R3 i Hi).
  match goal with |- context [floop _ ?bb s] => set (body := bb) end.
  destruct (floop_inv _ (fun j s' => sized N s' /\ forall k, (k < N)%nat ->
     (forall f, (f < j)%nat -> at2 (sm_EF S) i f = k -> (f_left (F k) = i -> aat (fst s') k = X k) /\ (f_right (F k) = i -> aat (snd s') k = X k)) /\
     (f_left (F k) <> i -> aat (fst s') k = aat (fst s) k) /\ (f_right (F k) <> i -> aat (snd s') k = aat (snd s) k)) (aat (sm_nf S) i) body s) as (s' & E & H1 & H2).
  - split; auto. intros k Hk. split; [intros; lia|auto].
  - intros j t Hj (Ht & I). destruct (so_ef _ OK i j Hi Hj) as (K & W). set (k := at2 (sm_EF S) i j) in *. fold N in K.
    pose proof (lt_lr S k OK K) as LR. fold (F k) in LR, W.
    unfold body. rewrite (get2_ok _ (sm_EF S)) by lia. cbn [bind]. rewrite (get2_ok _ (sm_ES S)) by lia. cbn [bind]. fold k.
    rewrite (aget_ok _ (sm_gr S)) by (rewrite (so_gr _ OK); auto). cbn [bind]. rewrite (aget_ok _ (sm_rc S)) by (rewrite (so_rc _ OK); lia). cbn [bind].
    fold (X k). destruct Ht as (T1 & T2). destruct W as [(W1 & W2)|(W1 & W2)]; rewrite W2.
    + destruct (Z.ltb_spec (Z.of_nat i) (Z.of_nat (f_right (F k)))); [|lia]. rewrite aset_ok by lia. cbn [bind]. eexists. split; [reflexivity|].
      split; [split; cbn [fst snd alen]; auto|]. intros q Hq. destruct (I q Hq) as (I1 & I2 & I3). cbn [fst snd aat]. split; [|split; auto].
      * intros f Hf Ef. split; intros W.
        { destruct (Nat.eq_dec q k) as [->|D]; [apply upd_eq|]. rewrite upd_ne by auto. destruct (Nat.eq_dec f j) as [->|]; [exfalso; apply D; symmetry; exact Ef|]. apply (I1 f); auto. lia. }
        { destruct (Nat.eq_dec f j) as [->|]. { assert (QK : q = k) by (symmetry; exact Ef). rewrite QK in W. lia. } apply (I1 f); auto. lia. }
      * intros D. destruct (Nat.eq_dec q k) as [->|D']; [congruence|]. rewrite upd_ne by auto. auto.
    + destruct (Z.ltb_spec (Z.of_nat i) (Z.of_nat (f_left (F k)))); [lia|]. rewrite aset_ok by lia. cbn [bind]. eexists. split; [reflexivity|].
      split; [split; cbn [fst snd alen]; auto|]. intros q Hq. destruct (I q Hq) as (I1 & I2 & I3). cbn [fst snd aat]. split; [|split; auto].
      * intros f Hf Ef. split; intros W.
        { destruct (Nat.eq_dec f j) as [->|]. { assert (QK : q = k) by (symmetry; exact Ef). rewrite QK in W. lia. } apply (I1 f); auto. lia. }
        { destruct (Nat.eq_dec q k) as [->|D]; [apply upd_eq|]. rewrite upd_ne by auto. destruct (Nat.eq_dec f j) as [->|]; [exfalso; apply D; symmetry; exact Ef|]. apply (I1 f); auto. lia. }
      * intros D. destruct (Nat.eq_dec q k) as [->|D']; [congruence|]. rewrite upd_ne by auto. auto.
  - exists s'. split; auto. split; auto. intros k Hk. destruct (H2 k Hk) as (I1 & I2 & I3). fold (X k). split.
    + destruct (Nat.eqb_spec (f_left (F k)) i) as [D|D]; auto. destruct (so_sur _ OK k i Hk Hi (or_introl D)) as (f & Hf & Ef). apply (I1 f Hf Ef); auto.
    + destruct (Nat.eqb_spec (f_right (F k)) i) as [D|D]; auto. destruct (so_sur _ OK k i Hk Hi (or_intror D)) as (f & Hf & Ef). apply (I1 f Hf Ef); auto.
Qed.

Lemma cell_loop body (P : nat -> (v2 -> v2 -> st) -> Prop) s : sized N s ->
  (forall i, (i < sm_ne S)%nat -> exists val, P i val /\ forall s, body i s = store_faces S i val s) ->
  exists s', floop (sm_ne S) body s = Some s' /\ sized N s' /\
   (forall i, (i < sm_ne S)%nat -> exists val, P i val /\ forall k, (k < N)%nat ->
      (f_left (F k) = i -> aat (fst s') k = val (aat (sm_gr S) k) (aat (sm_rc S) i)) /\
      (f_right (F k) = i -> aat (snd s') k = val (aat (sm_gr S) k) (aat (sm_rc S) i))) /\
   (forall k, (k < N)%nat -> (sm_ne S <= f_right (F k))%nat -> aat (snd s') k = aat (snd s) k).
Proof.
  intros Hs Hb.
  destruct (floop_inv _ (fun j s' => sized N s' /\
     (forall i, (i < j)%nat -> exists val, P i val /\ forall k, (k < N)%nat ->
      (f_left (F k) = i -> aat (fst s') k = val (aat (sm_gr S) k) (aat (sm_rc S) i)) /\
      (f_right (F k) = i -> aat (snd s') k = val (aat (sm_gr S) k) (aat (sm_rc S) i))) /\
     (forall k, (k < N)%nat -> (sm_ne S <= f_right (F k))%nat -> aat (snd s') k = aat (snd s) k)) (sm_ne S) body s) as (s' & E & H1 & H2 & H3).
  - split; auto. split; [intros; lia|auto].
  - intros j t Hj (Ht & I1 & I2). destruct (Hb j Hj) as (val & Pj & Ej). rewrite Ej.
    destruct (store_ok j val t Hj Ht) as (t' & Et & Ht' & It). exists t'. split; auto. split; auto. split.
    + intros i Hi. destruct (Nat.eq_dec i j) as [->|D].
      * exists val. split; auto. intros k Hk. destruct (It k Hk) as (A & B). rewrite A, B.
        split; intros W; rewrite W, Nat.eqb_refl; reflexivity.
      * destruct (I1 i ltac:(lia)) as (w & Pw & Iw). exists w. split; auto. intros k Hk. destruct (It k Hk) as (A & B). rewrite A, B.
        split; intros W; rewrite W; destruct (Nat.eqb_spec i j); try congruence; apply (Iw k Hk); auto.
    + intros k Hk Hr. destruct (It k Hk) as (_ & B). rewrite B. destruct (Nat.eqb_spec (f_right (F k)) j); [lia|]. auto.
  - eauto 6.
Qed.

(** the neighbours of a cell as the table [esuel] lists them *)
Lemma table_nbr i f : (i < sm_ne S)%nat -> (f < aat (sm_nf S) i)%nat ->
  let k := at2 (sm_EF S) i f in bounds S i k /\ at2 (sm_ES S) i f = Z.of_nat (other S i k).
Proof.
  intros Hi Hf k. destruct (so_ef _ OK i f Hi Hf) as (K & W). fold k in K, W. cbv zeta in W. fold (F k) in W. pose proof (lt_lr S k OK K) as LR. fold (F k) in LR.
  unfold bounds, other. fold (F k). split; [split; auto; destruct W as [(W & _)|(W & _)]; auto|].
  destruct W as [(W & ->)|(W & ->)]; [rewrite W, Nat.eqb_refl; reflexivity|]. destruct (Nat.eqb_spec (f_left (F k)) i); [lia|reflexivity].
Qed.
Lemma nbr_table i k : (i < sm_ne S)%nat -> bounds S i k -> exists f, (f < aat (sm_nf S) i)%nat /\ at2 (sm_EF S) i f = k.
Proof. intros Hi (Hk & W). apply (so_sur _ OK k i Hk Hi W). Qed.

Lemma other_lt i k : (i < sm_ne S)%nat -> bounds S i k -> (other S i k < sm_ne S + sm_nc S + sm_nb S)%nat.
Proof.
  intros Hi (Hk & _). unfold other. fold (F k). destruct (Nat.eqb_spec (f_left (F k)) i) as [D|D].
  - destruct (Nat.lt_ge_cases k (sm_nb S)) as [L|L]; [pose proof (so_phy _ OK k L); unfold F; lia|]. pose proof (right_lt S k OK ltac:(lia)). unfold F. lia.
  - pose proof (so_left _ OK k Hk). unfold F in *. lia.
Qed.

(** *** limiters *)
Section Lim.
Variables (u : arr st) (G : arr grad).
Hypothesis Lu : (sm_ne S + sm_nc S + sm_nb S <= alen u)%nat.
Hypothesis LG : (sm_ne S <= alen G)%nat.
Variable i : nat.
Hypothesis Hi : (i < sm_ne S)%nat.
Let d f v := cget (aat u (other S i (at2 (sm_EF S) i f))) v - cget (aat u i) v.

Lemma du_range_ok : exists dmin dmax, du_range S u i = Some (dmin, dmax) /\ forall v,
  cget dmin v <= 0 <= cget dmax v /\
  (forall k, bounds S i k -> cget dmin v <= cget (aat u (other S i k)) v - cget (aat u i) v <= cget dmax v) /\
  (exists j, near S i j /\ cget dmin v = cget (aat u j) v - cget (aat u i) v) /\
  (exists j, near S i j /\ cget dmax v = cget (aat u j) v - cget (aat u i) v).
Proof.
  unfold du_range. rewrite aget_ok by (rewrite (so_nf _ OK); auto). cbn [bind].
  destruct (so_tab _ OK) as (R1 & R2 & R3). specialize (R3 i Hi).
  match goal with |- context [floop _ ?bb ?s] => set (body := bb) end.
  destruct (floop_inv _ (fun j (a : st * st) => forall v, cget (fst a) v <= 0 <= cget (snd a) v /\
     (forall f, (f < j)%nat -> cget (fst a) v <= d f v <= cget (snd a) v) /\
     (exists q, near S i q /\ cget (fst a) v = cget (aat u q) v - cget (aat u i) v) /\
     (exists q, near S i q /\ cget (snd a) v = cget (aat u q) v - cget (aat u i) v)) (aat (sm_nf S) i) body (szero, szero)) as ([dmin dmax] & E & I).
  - intros v. assert (Z : cget szero v = 0) by (destruct v; reflexivity). cbn [fst snd]. rewrite Z. split; [lra|]. split; [intros; lia|].
    split; (exists i; split; [left; auto|lra]).
  - intros j [a b] Hj I. destruct (table_nbr i j Hi Hj) as (Bk & Es). cbv zeta in Es. pose proof (other_lt i _ Hi Bk) as Lo.
    unfold body. rewrite (get2_ok _ (sm_ES S)) by lia. cbn [bind]. rewrite Es, zget_ok by lia. cbn [bind]. rewrite aget_ok by lia. cbn [bind].
    eexists. split; [reflexivity|]. intros v. cbn [fst snd]. rewrite !cget_mkst. fold (d j v). destruct (I v) as (I1 & I2 & I3 & I4). cbn [fst snd] in *.
    assert (ND : near S i (other S i (at2 (sm_EF S) i j))) by (right; eauto).
    destruct (Rltb_spec (d j v) (cget a v)) as [A|A]; destruct (Rltb_spec (cget b v) (d j v)) as [B|B].
    all: split; [lra|]; split; [intros f Hf; destruct (Nat.eq_dec f j) as [->|]; [lra|]; specialize (I2 f ltac:(lia)); lra|].
    all: split; auto; try (exists (other S i (at2 (sm_EF S) i j)); split; [exact ND|reflexivity]).
  - exists dmin, dmax. split; auto. intros v. destruct (I v) as (I1 & I2 & I3 & I4). cbn [fst snd] in *. split; auto. split; auto.
    intros k Bk. destruct (nbr_table i k Hi Bk) as (f & Hf & Ef). specialize (I2 f Hf). unfold d in I2. rewrite Ef in I2. exact I2.
Qed.

(** the unlimited increment at face k *)
Definition uinc v k : R := cget (linearExtrapolate (aat u i) (aat G i) sone (aat (sm_gr S) k) (aat (sm_rc S) i)) v - cget (aat u i) v.
Lemma uinc_along v k : uinc v k = along (aat G i) v (vsub (aat (sm_gr S) k) (aat (sm_rc S) i)).
Proof. unfold uinc, linearExtrapolate, along. rewrite cget_mkst. destruct v; cbn; ring. Qed.

Lemma min_factor_ok phi (p : ix -> R -> R) : (forall v x, phi v x = Some (p v x)) -> exists lim, min_factor S u G i phi = Some lim /\ forall v,
  cget lim v <= 1 /\ (forall k, bounds S i k -> cget lim v <= p v (uinc v k)) /\ (cget lim v = 1 \/ exists k, bounds S i k /\ cget lim v = p v (uinc v k)).
Proof.
  intros Hp. unfold min_factor. rewrite aget_ok by (rewrite (so_nf _ OK); auto). cbn [bind].
  destruct (so_tab _ OK) as (R1 & R2 & R3). specialize (R3 i Hi).
  match goal with |- context [floop _ ?bb ?s] => set (body := bb) end.
  destruct (floop_inv _ (fun j (lim : st) => forall v, cget lim v <= 1 /\ (forall f, (f < j)%nat -> cget lim v <= p v (uinc v (at2 (sm_EF S) i f))) /\
     (cget lim v = 1 \/ exists k, bounds S i k /\ cget lim v = p v (uinc v k))) (aat (sm_nf S) i) body sone) as (lim & E & I).
  - intros v. assert (Z : cget sone v = 1) by (destruct v; reflexivity). rewrite Z. split; [lra|]. split; [intros; lia|auto].
  - intros j a Hj I. destruct (table_nbr i j Hi Hj) as (Bk & _). set (k := at2 (sm_EF S) i j) in *. pose proof (proj1 Bk) as Hk.
    unfold body. rewrite (get2_ok _ (sm_EF S)) by lia. cbn [bind]. fold k. rewrite (aget_ok _ u) by lia. cbn [bind]. rewrite (aget_ok _ G) by lia. cbn [bind].
    rewrite (aget_ok _ (sm_gr S)) by (rewrite (so_gr _ OK); auto). cbn [bind]. rewrite (aget_ok _ (sm_rc S)) by (rewrite (so_rc _ OK); lia). cbn [bind].
    rewrite (ovec_ok _ (fun v => p v (uinc v k))) by (intros v; apply Hp). cbn [bind]. eexists. split; [reflexivity|]. intros v. rewrite !cget_mkst.
    destruct (I v) as (I1 & I2 & I3). destruct (Rltb_spec (p v (uinc v k)) (cget a v)) as [A|A].
    + split; [lra|]. split; [|right; eauto]. intros f Hf. destruct (Nat.eq_dec f j) as [->|]; [fold k; lra|]. specialize (I2 f ltac:(lia)). lra.
    + split; [lra|]. split; auto. intros f Hf. destruct (Nat.eq_dec f j) as [->|]; [fold k; lra|]. apply I2. lia.
  - exists lim. split; auto. intros v. destruct (I v) as (I1 & I2 & I3). split; auto. split; auto.
    intros k Bk. destruct (nbr_table i k Hi Bk) as (f & Hf & Ef). rewrite <- Ef. auto.
Qed.
End Lim.

Lemma du_range_none u i k : (i < sm_ne S)%nat -> bounds S i k -> (alen u <= other S i k)%nat -> du_range S u i = None.
Proof.
  intros Hi Bk Lu. unfold du_range. rewrite aget_ok by (rewrite (so_nf _ OK); auto). cbn [bind].
  destruct (so_tab _ OK) as (R1 & R2 & R3). specialize (R3 i Hi). destruct (nbr_table i k Hi Bk) as (f & Hf & Ef). destruct (table_nbr i f Hi Hf) as (_ & Es). cbv zeta in Es. rewrite Ef in Es.
  apply floop_none with f; auto. intros a. rewrite (get2_ok _ (sm_ES S)) by lia. cbn [bind]. rewrite Es, zget_none by auto. reflexivity.
Qed.

Lemma lim_val u g lim gp rc v : cget (linearExtrapolate u g lim gp rc) v = cget u v + cget lim v * along g v (vsub gp rc).
Proof. unfold linearExtrapolate, along. rewrite cget_mkst. destruct v; cbn; ring. Qed.
End Cells.

(** ** the scalar limiter functions *)
Definition bj_val dmin dmax diff : R :=
  if Rltb 0 diff then (if Rltb 1 (dmax / diff) then 1 else dmax / diff)
  else if Rltb diff 0 then (if Rltb 1 (dmin / diff) then 1 else dmin / diff) else 1.
Lemma bj_phi_ok dmin dmax diff : bj_phi dmin dmax diff = Some (bj_val dmin dmax diff).
Proof.
  unfold bj_phi, bj_val. destruct (Rltb_spec 0 diff). rewrite rdiv_ok by lra. reflexivity.
  destruct (Rltb_spec diff 0); auto. rewrite rdiv_ok by lra. reflexivity.
Qed.
Lemma bj_val_bounds dmin dmax diff : dmin <= 0 <= dmax -> 0 <= bj_val dmin dmax diff <= 1 /\ forall l, 0 <= l <= bj_val dmin dmax diff -> dmin <= l * diff <= dmax.
Proof.
  intros H. unfold bj_val. destruct (Rltb_spec 0 diff) as [P|P]; [|destruct (Rltb_spec diff 0) as [Q|Q]].
  - assert (D : dmax / diff * diff = dmax) by (field; lra). assert (D0 : 0 <= dmax / diff) by (apply Rmult_le_pos; [lra|left; apply Rinv_0_lt_compat; lra]).
    destruct (Rltb_spec 1 (dmax / diff)); (split; [lra|]); intros l Hl.
    + assert (1 * diff <= dmax / diff * diff) by (apply Rmult_le_compat_r; lra). assert (l * diff <= 1 * diff) by (apply Rmult_le_compat_r; lra). assert (0 <= l * diff) by (apply Rmult_le_pos; lra). lra.
    + assert (l * diff <= dmax / diff * diff) by (apply Rmult_le_compat_r; lra). assert (0 <= l * diff) by (apply Rmult_le_pos; lra). lra.
  - assert (D : dmin / diff * diff = dmin) by (field; lra).
    assert (D0 : 0 <= dmin / diff). { replace (dmin / diff) with ((- dmin) / (- diff)) by (field; lra). apply Rmult_le_pos; [lra|left; apply Rinv_0_lt_compat; lra]. }
    assert (M : forall a b, a <= b -> b * diff <= a * diff) by (intros; apply Rmult_le_compat_neg_l with (r := diff) in H0; lra).
    destruct (Rltb_spec 1 (dmin / diff)); (split; [lra|]); intros l Hl.
    + pose proof (M 1 (dmin / diff) ltac:(lra)). pose proof (M l 1 ltac:(lra)). pose proof (M 0 l ltac:(lra)). lra.
    + pose proof (M l (dmin / diff) ltac:(lra)). pose proof (M 0 l ltac:(lra)). lra.
  - assert (diff = 0) by lra. subst. split; [lra|]. intros l Hl. rewrite Rmult_0_r. lra.
Qed.
(** no limiting if the unlimited values stay within the range *)
Lemma bj_val_one dmin dmax diff : dmin <= diff <= dmax -> 1 <= bj_val dmin dmax diff.
Proof.
  intros H. unfold bj_val. destruct (Rltb_spec 0 diff) as [P|P]; [|destruct (Rltb_spec diff 0) as [Q|Q]]; [| |lra].
  - assert (1 <= dmax / diff). { apply Rmult_le_reg_r with diff; [lra|]. replace (dmax / diff * diff) with dmax by (field; lra). lra. }
    destruct (Rltb_spec 1 (dmax / diff)); lra.
  - assert (1 <= dmin / diff). { replace (dmin / diff) with ((- dmin) / (- diff)) by (field; lra). apply Rmult_le_reg_r with (- diff); [lra|]. replace (- dmin / - diff * - diff) with (- dmin) by (field; lra). lra. }
    destruct (Rltb_spec 1 (dmin / diff)); lra.
Qed.

Definition vk_den eps2 dp dm : R := dp * dp + dp * dm + 2 * dm * dm + eps2.
Definition vk_val eps2 dmin dmax dm : R :=
  let dp := if Rltb dm 0 then dmin else dmax in (dp * dp + 2 * dp * dm + eps2) / vk_den eps2 dp dm.
Lemma vk_ok eps2 dmin dmax dm : 0 < eps2 -> dmin <= 0 <= dmax -> venkat_phi eps2 dmin dmax dm = Some (vk_val eps2 dmin dmax dm) /\ 0 < vk_val eps2 dmin dmax dm.
Proof.
  intros He Hd. unfold venkat_phi, vk_val, vk_den. set (dp := if Rltb dm 0 then dmin else dmax).
  assert (P : 0 <= dp * dm).
  { unfold dp. destruct (Rltb_spec dm 0). replace (dmin * dm) with ((- dmin) * (- dm)) by ring. apply Rmult_le_pos; lra. apply Rmult_le_pos; lra. }
  pose proof (Rle_0_sqr dp) as Q1. pose proof (Rle_0_sqr dm) as Q2. unfold Rsqr in *. replace (2 * dm * dm) with (2 * (dm * dm)) by ring. replace (2 * dp * dm) with (2 * (dp * dm)) by ring. cbv zeta.
  rewrite rdiv_ok by lra. split; auto. apply Rdiv_lt_0_compat; lra.
Qed.

(** MUSCL *)
Lemma mu_eps_pos : 0 < mu_eps.
Proof. unfold mu_eps. lra. Qed.
Definition mu_phiv (d du : R) : R := let q := (2 * d * du + mu_eps) / (d * d + du * du + mu_eps) in if Rltb q 0 then 0 else q.
Lemma mu_den d du : 0 < d * d + du * du + mu_eps.
Proof. pose proof (Rle_0_sqr d). pose proof (Rle_0_sqr du). unfold Rsqr in *. pose proof mu_eps_pos. lra. Qed.
Lemma mu_phi_ok d du : mu_phi d du = Some (mu_phiv d du).
Proof. unfold mu_phi. pose proof (mu_den d du). rewrite rdiv_ok by lra. reflexivity. Qed.
Lemma mu_phi_range d du : 0 <= mu_phiv d du <= 1.
Proof.
  unfold mu_phiv. cbv zeta. pose proof (mu_den d du) as P. destruct (Rltb_spec ((2 * d * du + mu_eps) / (d * d + du * du + mu_eps)) 0) as [A|A]; [lra|].
  split; [lra|]. apply Rmult_le_reg_r with (d * d + du * du + mu_eps); auto.
  replace ((2 * d * du + mu_eps) / (d * d + du * du + mu_eps) * (d * d + du * du + mu_eps)) with (2 * d * du + mu_eps) by (field; lra).
  pose proof (Rle_0_sqr (d - du)) as Q. unfold Rsqr in Q. lra.
Qed.
Lemma mu_phi_neg d du : mu_phiv (- d) (- du) = mu_phiv d du.
Proof. unfold mu_phiv. replace (2 * - d * - du) with (2 * d * du) by ring. replace (- d * - d) with (d * d) by ring. replace (- du * - du) with (du * du) by ring. reflexivity. Qed.
Lemma mu_phi_same d : mu_phiv d d = 1.
Proof.
  unfold mu_phiv. pose proof (mu_den d d) as P. replace (2 * d * d + mu_eps) with (d * d + d * d + mu_eps) by ring.
  replace ((d * d + d * d + mu_eps) / (d * d + d * d + mu_eps)) with 1 by (field; lra). cbv zeta. destruct (Rltb_spec 1 0); lra.
Qed.
Definition mu_lv (ri rj : v2) (ui uj : st) (gi : grad) : st := mkst (fun v =>
  let dm := biased ri rj (cget ui v) (cget uj v) (cget (gx gi) v) (cget (gy gi) v) in mu_left (cget ui v) (cget uj v) dm (mu_phiv dm (cget uj v - cget ui v))).
Definition mu_rv (ri rj : v2) (ui uj : st) (gj : grad) : st := mkst (fun v =>
  let dp := biased ri rj (cget ui v) (cget uj v) (cget (gx gj) v) (cget (gy gj) v) in mu_right (cget ui v) (cget uj v) dp (mu_phiv dp (cget uj v - cget ui v))).
Lemma mu_left_ok ri rj ui uj gi : mu_face_left ri rj ui uj gi = Some (mu_lv ri rj ui uj gi).
Proof. apply ovec_ok. intros v. cbv zeta. rewrite mu_phi_ok. reflexivity. Qed.
Lemma mu_right_ok ri rj ui uj gj : mu_face_right ri rj ui uj gj = Some (mu_rv ri rj ui uj gj).
Proof. apply ovec_ok. intros v. cbv zeta. rewrite mu_phi_ok. reflexivity. Qed.
Lemma mu_mirror ri rj ui uj g : mu_rv ri rj ui uj g = mu_lv rj ri uj ui g.
Proof.
  apply st_ext. intros v. unfold mu_rv, mu_lv. rewrite !cget_mkst. cbv zeta.
  set (a := cget ui v). set (b := cget uj v). set (p := cget (gx g) v). set (q := cget (gy g) v).
  assert (B : biased rj ri b a p q = - biased ri rj a b p q) by (unfold biased; ring). rewrite B.
  set (d := biased ri rj a b p q). replace (a - b) with (- (b - a)) by ring. rewrite mu_phi_neg. unfold mu_right, mu_left. ring.
Qed.
Lemma mu_linear ri rj ui uj g v : cget uj v - cget ui v = along g v (vsub rj ri) -> cget (mu_lv ri rj ui uj g) v = (cget ui v + cget uj v) / 2.
Proof.
  intros H. unfold mu_lv. rewrite cget_mkst. cbv zeta.
  assert (B : biased ri rj (cget ui v) (cget uj v) (cget (gx g) v) (cget (gy g) v) = cget uj v - cget ui v).
  { unfold biased, along in *. cbn in H. rewrite H. ring. }
  rewrite B, mu_phi_same. unfold mu_left. field.
Qed.

(** ** WENO *)
Section Weno.
Variable S : smesh.
Hypothesis OK : sm_ok S.
Variables (lambda : R) (G : arr grad).
Hypothesis Hl : 0 < lambda.
Hypothesis LG : (sm_ne S + sm_nc S <= alen G)%nat.

Lemma weno_den g v : 0 < (gradientMagnitude2 g v + weno_eps) ^ 4.
Proof.
  apply pow_lt. unfold gradientMagnitude2, weno_eps. pose proof (Rle_0_sqr (cget (gx g) v)). pose proof (Rle_0_sqr (cget (gy g) v)). unfold Rsqr in *. lra.
Qed.
Definition weno_sums i (a : st * grad) : Prop := forall v, exists ws : list (nat * R),
  ws <> [] /\
  (forall p, In p ws -> near S i (fst p) /\ (fst p < sm_ne S + sm_nc S)%nat /\ 0 < snd p) /\
  cget (fst a) v = rsum snd ws /\
  cget (gx (snd a)) v = rsum (fun p => snd p * cget (gx (aat G (fst p))) v) ws /\
  cget (gy (snd a)) v = rsum (fun p => snd p * cget (gy (aat G (fst p))) v) ws.

Lemma weno_add_ok c g a : exists a', weno_add c g a = Some a' /\ forall v,
  let w := c / (gradientMagnitude2 g v + weno_eps) ^ 4 in
  cget (fst a') v = cget (fst a) v + w /\ cget (gx (snd a')) v = cget (gx (snd a)) v + w * cget (gx g) v /\ cget (gy (snd a')) v = cget (gy (snd a)) v + w * cget (gy g) v.
Proof.
  unfold weno_add. rewrite (ovec_ok _ (fun v => c / (gradientMagnitude2 g v + weno_eps) ^ 4)).
  2:{ intros v. apply rdiv_ok. pose proof (weno_den g v). lra. }
  cbn [bind]. eexists. split; [reflexivity|]. intros v. cbv zeta. cbn [fst snd gx gy]. rewrite !cget_mkst. split; auto. destruct v; reflexivity.
Qed.

Lemma weno_grad_ok i : (i < sm_ne S)%nat -> exists lg, weno_grad S lambda G i = Some lg /\ forall v, exists ws : list (nat * R),
  (forall p, In p ws -> near S i (fst p) /\ (fst p < sm_ne S + sm_nc S)%nat /\ 0 < snd p) /\ rsum snd ws = 1 /\
  forall d, along lg v d = rsum (fun p => snd p * along (aat G (fst p)) v d) ws.
Proof.
  intros Hi. unfold weno_grad. rewrite (aget_ok _ G) by lia. cbn [bind].
  destruct (weno_add_ok lambda (aat G i) (szero, mkgrad szero szero)) as (a0 & E0 & I0). rewrite E0. cbn [bind].
  rewrite aget_ok by (rewrite (so_nf _ OK); auto). cbn [bind].
  destruct (so_tab _ OK) as (R1 & R2 & R3). specialize (R3 i Hi).
  match goal with |- context [floop _ ?bb ?s] => set (body := bb) end.
  destruct (floop_inv _ (fun j a => weno_sums i a) (aat (sm_nf S) i) body a0) as (a & E & I).
  - intros v. exists [(i, lambda / (gradientMagnitude2 (aat G i) v + weno_eps) ^ 4)]. split; [discriminate|]. destruct (I0 v) as (A & B & C). cbv zeta in *. cbn [fst snd gx gy] in A, B, C.
    assert (Z : cget szero v = 0) by (destruct v; reflexivity). rewrite Z in *. split; [|cbn [rsum fst snd]; rewrite A, B, C; lra].
    intros p [<-|[]]. cbn [fst snd]. split; [left; auto|]. split; [lia|]. apply Rdiv_lt_0_compat; auto. apply weno_den.
  - intros j a Hj I. destruct (table_nbr S OK i j Hi Hj) as (Bk & Es). cbv zeta in Es. set (o := other S i (at2 (sm_EF S) i j)) in *.
    unfold body. rewrite (get2_ok _ (sm_ES S)) by lia. cbn [bind]. rewrite Es. destruct (Z.leb_spec (Z.of_nat (sm_ne S + sm_nc S)) (Z.of_nat o)) as [D|D]; [eauto|].
    rewrite zget_ok by lia. cbn [bind]. destruct (weno_add_ok 1 (aat G o) a) as (a' & E' & I'). exists a'. split; auto. intros v. destruct (I v) as (ws & W0 & W1 & W2 & W3 & W4).
    destruct (I' v) as (A & B & C). cbv zeta in *. exists ((o, 1 / (gradientMagnitude2 (aat G o) v + weno_eps) ^ 4) :: ws). split; [discriminate|].
    split; [|cbn [rsum fst snd]; rewrite A, B, C, W2, W3, W4; repeat split; lra].
    intros p [<-|Hp]; auto. cbn [fst snd]. split; [right; unfold o; eauto|]. split; [lia|]. apply Rdiv_lt_0_compat; [lra|apply weno_den].
  - rewrite E. cbn [bind].
    assert (PS : forall v, 0 < cget (fst a) v).
    { intros v. destruct (I v) as (ws & W0 & W1 & W2 & _). rewrite W2. destruct ws as [|p ws]; [congruence|]. cbn [rsum].
      assert (0 <= rsum snd ws) by (apply rsum_nonneg; intros q Hq; destruct (W1 q (or_intror Hq)) as (_ & _ & ?); lra). destruct (W1 p (or_introl eq_refl)) as (_ & _ & ?). lra. }
    rewrite (ovec_ok _ (fun v => cget (gx (snd a)) v / cget (fst a) v)). 2:{ intros v. apply rdiv_ok. pose proof (PS v). lra. } cbn [bind].
    rewrite (ovec_ok _ (fun v => cget (gy (snd a)) v / cget (fst a) v)). 2:{ intros v. apply rdiv_ok. pose proof (PS v). lra. } cbn [bind].
    eexists. split; [reflexivity|]. intros v. destruct (I v) as (ws & W0 & W1 & W2 & W3 & W4). pose proof (PS v) as P. set (t := cget (fst a) v) in *.
    exists (map (fun p => (fst p, / t * snd p)) ws). split; [|split].
    + intros p Hp. apply in_map_iff in Hp. destruct Hp as (q & <- & Hq). destruct (W1 q Hq) as (A & B & C). cbn [fst snd]. split; auto. split; auto. apply Rmult_lt_0_compat; auto. apply Rinv_0_lt_compat; auto.
    + rewrite rsum_map. cbn [snd]. rewrite rsum_scal, <- W2. field. lra.
    + intros d. rewrite rsum_map. cbn [fst snd]. unfold along at 1. cbn [gx gy]. rewrite !cget_mkst. fold t. rewrite W3, W4. unfold Rdiv.
      transitivity (/ t * (rsum (fun p => snd p * cget (gx (aat G (fst p))) v) ws * vx d + rsum (fun p => snd p * cget (gy (aat G (fst p))) v) ws * vy d)); [ring|].
      rewrite <- !rsum_scal_r, <- rsum_plus, <- rsum_scal. apply rsum_ext. intros p _. unfold along. ring.
Qed.
End Weno.

(** ** Venkatakrishnan: characteristic length *)
Lemma venkat_ctor_ok m X : (forall c v, In c (cells m) -> In v c -> (v < alen X)%nat) ->
  exists C, venkat_ctor m X = Some C /\ alen C = nelem m /\
  forall i, (i < nelem m)%nat -> let c := nth i (cells m) [] in
    0 <= aat C i /\
    (forall f, (f < length c)%nat -> let a := aat X (nth f c 0%nat) in let b := aat X (nth ((f + 1) mod length c) c 0%nat) in
       (vx a - vx b) ^ 2 + (vy a - vy b) ^ 2 <= (aat C i) ^ 2) /\
    (aat C i = 0 \/ exists f, (f < length c)%nat /\ let a := aat X (nth f c 0%nat) in let b := aat X (nth ((f + 1) mod length c) c 0%nat) in
       (vx a - vx b) ^ 2 + (vy a - vy b) ^ 2 = (aat C i) ^ 2).
Proof.
  intros HX. unfold venkat_ctor.
  set (P := fun i (x : R) => let c := nth i (cells m) [] in 0 <= x /\
    (forall f, (f < length c)%nat -> let a := aat X (nth f c 0%nat) in let b := aat X (nth ((f + 1) mod length c) c 0%nat) in (vx a - vx b) ^ 2 + (vy a - vy b) ^ 2 <= x ^ 2) /\
    (x = 0 \/ exists f, (f < length c)%nat /\ let a := aat X (nth f c 0%nat) in let b := aat X (nth ((f + 1) mod length c) c 0%nat) in (vx a - vx b) ^ 2 + (vy a - vy b) ^ 2 = x ^ 2)).
  match goal with |- context [floop _ ?bb ?s] => set (body := bb); set (s0 := s) end.
  destruct (floop_inv _ (fun j C => alen C = nelem m /\ forall i, (i < j)%nat -> P i (aat C i)) (nelem m) body s0) as (C & E & L & I).
  - split; [reflexivity|intros; lia].
  - intros i C Hi (L & I). set (c := nth i (cells m) []). assert (Hc : In c (cells m)) by (apply nth_In; exact Hi).
    unfold body. fold c.
    set (e := fun f => let a := aat X (nth f c 0%nat) in let b := aat X (nth ((f + 1) mod length c) c 0%nat) in (vx a - vx b) ^ 2 + (vy a - vy b) ^ 2).
    match goal with |- context [floop (length c) ?bb 0] => set (b2 := bb) end.
    destruct (floop_inv _ (fun j l => 0 <= l /\ (forall f, (f < j)%nat -> e f <= l) /\ (l = 0 \/ exists f, (f < length c)%nat /\ e f = l)) (length c) b2 0) as (l & El & L0 & L1 & L2).
    + split; [lra|]. split; [intros; lia|auto].
    + intros f l Hf (L0 & L1 & L2). unfold b2.
      assert (N1 : In (nth f c 0%nat) c) by (apply nth_In; auto). assert (N2 : In (nth ((f + 1) mod length c) c 0%nat) c) by (apply nth_In; apply Nat.mod_upper_bound; lia).
      rewrite (aget_ok _ X (nth f c 0%nat)) by eauto. cbn [bind]. rewrite (aget_ok _ X (nth ((f + 1) mod length c) c 0%nat)) by eauto. cbn [bind].
      eexists. split; [reflexivity|]. rewrite Rplus_0_l. change (0 <= (if Rltb l (e f) then e f else l) /\ (forall g, (g < f + 1)%nat -> e g <= (if Rltb l (e f) then e f else l)) /\ ((if Rltb l (e f) then e f else l) = 0 \/ exists g, (g < length c)%nat /\ e g = (if Rltb l (e f) then e f else l))).
      destruct (Rltb_spec l (e f)); (split; [lra|]); (split; [intros g Hg; destruct (Nat.eq_dec g f) as [->|]; [lra|]; specialize (L1 g ltac:(lia)); lra|]); auto.
      right. eauto.
    + rewrite El. cbn [bind]. rewrite aset_ok by lia. eexists. split; [reflexivity|]. split; [exact L|]. intros q Hq. cbn [aat].
      destruct (Nat.eq_dec q i) as [->|]; [|rewrite upd_ne by auto; apply I; lia]. rewrite upd_eq.
      assert (SQ : sqrt l ^ 2 = l) by (apply pow2_sqrt; auto). unfold P. fold c. cbv zeta. split; [apply sqrt_pos|]. rewrite SQ. split; [exact L1|].
      destruct L2 as [-> | L2]; [left; apply sqrt_0|right; exact L2].
  - exists C. split; auto.
Qed.
