(** The effect of compute_residual with second-order reconstruction. *)
From Coq Require Import Reals Lra List Arith Lia ZArith Bool.
From Verif Require Import Base BaseR BaseSum M_Gas M_Flux M_Visc M_BC M_BCConf M_Mesh M_Geom M_Space S_Space Pf_Space
  M_Grad Pf_Grad M_Recon S_Recon Pf_Recon M_Resid S_Gas S_Resid Pf_Gas Pf_Resid.
Import ListNotations.
Open Scope R_scope.

Lemma convert_ok f lo hi a : (lo <= hi <= alen a)%nat -> exists b, convert f lo hi a = Some b /\ alen b = alen a /\
  (forall k, (lo <= k < hi)%nat -> aat b k = f (aat a k)) /\ (forall k, ~ (lo <= k < hi)%nat -> aat b k = aat a k).
Proof.
  intros H. unfold convert.
  match goal with |- context [frange ?lo ?hi ?bb ?ss] =>
    destruct (frange_inv _ (fun j (b : arr st) => alen b = alen a /\ (forall k, (lo <= k < j)%nat -> aat b k = f (aat a k)) /\ (forall k, ~ (lo <= k < j)%nat -> aat b k = aat a k)) lo hi bb ss) as (b & E & L & P & Q) end.
  - lia.
  - split; auto. split; auto. intros; lia.
  - intros j b Hj (L & P & Q). rewrite aget_ok by lia. cbn [bind]. rewrite aset_ok by lia. eexists; split; [reflexivity|]. cbn [alen aat]. split; auto.
    split; intros k Hk; unfold upd; destruct (Nat.eqb_spec k j) as [->|D].
    + f_equal. apply Q. lia.
    + apply P. lia.
    + lia.
    + apply Q. lia.
  - eauto.
Qed.

Section Second.
Variables (S : smesh) (fl : flow) (bc : nat -> flowbc) (gs : gradscheme) (rs : recscheme) (gg : nat -> grad) (rf : nat -> st).
Variables (u ul0 ur0 res : arr st) (G0 : arr grad) (jp : nat -> st) (dt : option (arr R)).
Hypothesis OK : sm_ok S.
Hypothesis C : bcs_cover S fl bc.
Hypothesis Lu : alen u = (sm_ne S + sm_nc S)%nat.
Hypothesis L0 : alen ul0 = sm_nf_all S.
Hypothesis R0 : alen ur0 = sm_nf_all S.
Hypothesis LR : alen res = sm_ne S.
Let g := fl_gas fl.
Let nf := sm_nf_all S.

(** what reaches the faces: left states after reconstruction; right states from the boundary
    conditions, the reconstruction or the neighbours *)
Definition left2 (ul3 : arr st) (k : nat) : st := getConservedFromPrimitive_inplace g (aat ul3 k).
Definition right2 (ul3 ur3 : arr st) (k : nat) : st :=
  if (k <? sm_nb S)%nat then ghost_state g (bc k) (left2 ul3 k) (fm_n (aat (sm_M S) k))
  else if (k <? sm_nb S + sm_ni S)%nat then getConservedFromPrimitive_inplace g (aat ur3 k) else rf (k - sm_nb S - sm_ni S)%nat.
Definition grad2 (G1 : arr grad) (i : nat) : grad := if (i <? sm_ne S)%nat then aat G1 i else gg (i - sm_ne S)%nat.

Lemma residual2_ok : exists up ug s1, alen up = (sm_ne S + sm_nc S)%nat /\ alen ug = sm_nb S /\ sized nf s1 /\
  (forall i, (i < sm_ne S + sm_nc S)%nat -> aat up i = getPrimitiveFromConserved g (aat u i)) /\
  (forall k, (k < sm_nb S)%nat -> aat ug k = getPrimitiveFromConserved_inplace g (bghost S fl bc u k)) /\
  forall G1 ul3 ur3, compute_gradients S gs up ug G0 = Some G1 -> alen G1 = (sm_ne S + sm_nc S)%nat ->
    compute_face_values S rs up ug (if is_weno rs then ghost_gradients S gg G1 else G1) s1 = Some (ul3, ur3) -> sized nf (ul3, ur3) ->
    exists ul ur G res', alen ul = nf /\ alen ur = nf /\ alen G = (sm_ne S + sm_nc S)%nat /\
      (forall k, (k < nf)%nat -> aat ul k = left2 ul3 k /\ aat ur k = right2 ul3 ur3 k) /\
      (forall i, (i < sm_ne S + sm_nc S)%nat -> aat G i = grad2 G1 i) /\
      compute_residual2 S fl gs rs gg rf u ul0 ur0 res G0 jp dt = (dt' <- maybe_dt S fl ul ur dt ;; Some (mkro res' ul ur G dt')) /\
      alen res' = sm_ne S /\
      forall i v, (i < sm_ne S)%nat -> cget (aat res' i) v = cget (aat res i) v -
         outflow S (through S fl true (aat u) (grad2 G1) (bghost S fl bc u) (left2 ul3) (right2 ul3 ur3)) i v.
Proof.
  destruct (boundary_left_ok S u ul0 OK Lu L0) as (ul1 & E1 & L1 & P1 & _).
  destruct (boundary_states_ok S fl bc ul1 ur0 OK C L1 R0) as (ur1 & E2 & L2 & P2 & _).
  assert (NB : (sm_nb S <= sm_nf_all S)%nat) by (unfold sm_nf_all; lia).
  assert (BG : forall k, (k < sm_nb S)%nat -> aat ur1 k = bghost S fl bc u k).
  { intros k Hk. rewrite P2, P1 by auto. reflexivity. }
  destruct (convert_ok (getPrimitiveFromConserved_inplace g) 0 (sm_nb S) ur1 ltac:(lia)) as (ur2 & E3 & L3 & P3 & _).
  assert (EP : exists up, floop (sm_ne S + sm_nc S) (fun i a => x <- aget u i ;; aset a i (getPrimitiveFromConserved g x)) (mkarr (sm_ne S + sm_nc S) jp) = Some up /\
     alen up = (sm_ne S + sm_nc S)%nat /\ forall i, (i < sm_ne S + sm_nc S)%nat -> aat up i = getPrimitiveFromConserved g (aat u i)).
  { match goal with |- context [floop _ ?bb ?ss] =>
      destruct (floop_inv _ (fun j (b : arr st) => alen b = (sm_ne S + sm_nc S)%nat /\ forall k, (k < j)%nat -> aat b k = getPrimitiveFromConserved g (aat u k)) (sm_ne S + sm_nc S) bb ss) as (b & E & L & P) end.
    - split; auto. intros; lia.
    - intros j b Hj (L & P). rewrite aget_ok by lia. cbn [bind]. rewrite aset_ok by lia. eexists; split; [reflexivity|]. cbn [alen aat]. split; auto.
      intros k Hk. unfold upd. destruct (Nat.eqb_spec k j) as [->|]; auto. apply P. lia.
    - eauto. }
  destruct EP as (up & E4 & L4 & P4).
  exists up, (mkarr (sm_nb S) (aat ur2)), (ul1, ur2). split; auto. split; auto. split; [split; cbn; unfold nf; lia|]. split; auto.
  split. { intros k Hk. cbn [aat]. rewrite P3 by lia. rewrite BG by auto. reflexivity. }
  intros G1 ul3 ur3 EG LG1 ER (S1 & S2). cbn [fst snd] in S1, S2.
  destruct (convert_ok (getConservedFromPrimitive_inplace g) (sm_nb S + sm_ni S) nf ul3 ltac:(unfold nf, sm_nf_all in *; lia)) as (ul4 & E5 & L5 & P5 & Q5).
  destruct (convert_ok (getConservedFromPrimitive_inplace g) (sm_nb S) (sm_nb S + sm_ni S) ul4 ltac:(unfold nf, sm_nf_all in *; lia)) as (ul5 & E6 & L6 & P6 & Q6).
  destruct (convert_ok (getConservedFromPrimitive_inplace g) (sm_nb S) (sm_nb S + sm_ni S) ur3 ltac:(unfold nf, sm_nf_all in *; lia)) as (ur5 & E7 & L7 & P7 & Q7).
  destruct (convert_ok (getConservedFromPrimitive_inplace g) 0 (sm_nb S) ul5 ltac:(unfold nf, sm_nf_all in *; lia)) as (ul & E8 & L8 & P8 & Q8).
  assert (LU : alen ul = nf) by lia.
  destruct (boundary_states_ok S fl bc ul ur5 OK C ltac:(unfold nf in *; lia) ltac:(unfold nf in *; lia)) as (ur6 & E9 & L9 & P9 & Q9).
  assert (HL : forall k, (k < nf)%nat -> aat ul k = left2 ul3 k).
  { intros k Hk. unfold left2. destruct (Nat.lt_ge_cases k (sm_nb S)) as [A|A].
    - rewrite P8, Q6, Q5 by lia. reflexivity.
    - rewrite Q8 by lia. destruct (Nat.lt_ge_cases k (sm_nb S + sm_ni S)) as [B|B].
      + rewrite P6, Q5 by lia. reflexivity.
      + rewrite Q6, P5 by lia. reflexivity. }
  set (ur := recv_faces S rf ur6).
  assert (HR : forall k, (k < nf)%nat -> aat ur k = right2 ul3 ur3 k).
  { intros k Hk. unfold ur, recv_faces, right2. cbn [aat]. destruct (Nat.leb_spec (sm_nb S + sm_ni S) k) as [A|A].
    - destruct (Nat.ltb_spec k (sm_nb S)); [lia|]. destruct (Nat.ltb_spec k (sm_nb S + sm_ni S)); [lia|]. reflexivity.
    - destruct (Nat.ltb_spec k (sm_nb S)) as [B|B].
      + rewrite P9, HL by auto. reflexivity.
      + destruct (Nat.ltb_spec k (sm_nb S + sm_ni S)); [|lia]. rewrite Q9, P7 by lia. reflexivity. }
  set (G := if is_weno rs then (if is_weno rs then ghost_gradients S gg G1 else G1) else ghost_gradients S gg (if is_weno rs then ghost_gradients S gg G1 else G1)).
  assert (HG : alen G = (sm_ne S + sm_nc S)%nat /\ forall i, (i < sm_ne S + sm_nc S)%nat -> aat G i = grad2 G1 i).
  { unfold G, grad2. destruct (is_weno rs); cbn; split; auto. }
  destruct HG as (LG & HG).
  destruct (fluxes_ok S fl true u ul ur (mkarr (sm_nb S) (aat ur1)) G OK Lu LU ltac:(unfold ur; cbn; lia) eq_refl ltac:(intros _; exact LG) res LR) as (res' & EF & LF & PF).
  exists ul, ur, G, res'. split; auto. split; [unfold ur; cbn; unfold nf; lia|]. split; auto. split; auto. split; auto. split.
  { unfold compute_residual2. fold g. rewrite E1. cbn [bind]. rewrite E2. cbn [bind]. rewrite E3. cbn [bind]. rewrite E4. cbn [bind]. rewrite EG. cbn [bind].
    rewrite ER. cbn [bind]. fold nf. rewrite E5. cbn [bind]. rewrite E6. cbn [bind]. rewrite E7. cbn [bind]. rewrite E8. cbn [bind]. rewrite E9. cbn [bind]. fold ur. fold G. rewrite EF. reflexivity. }
  split; auto. intros i v Hi. rewrite PF by auto. f_equal. unfold outflow. apply rsum_ext. intros k Hk. apply in_seq in Hk. fold nf in Hk.
  assert (E : thru S fl true u ul ur (mkarr (sm_nb S) (aat ur1)) G k = through S fl true (aat u) (grad2 G1) (bghost S fl bc u) (left2 ul3) (right2 ul3 ur3) k); [|rewrite E; reflexivity].
  unfold thru, through. rewrite HL, HR by lia. cbv zeta. f_equal. pose proof (so_left _ OK k ltac:(unfold nf in *; lia)).
  rewrite !HG by lia. unfold right_value. destruct (Nat.ltb_spec k (sm_nb S)).
  - cbn [aat]. rewrite BG by auto. reflexivity.
  - rewrite HG by (apply right_lt; auto; unfold nf in *; lia). reflexivity.
Qed.
End Second.

(** ** facts that follow from success alone *)
Lemma floop_some {T} n (body : nat -> T -> option T) s s' : floop n body s = Some s' -> forall k, (k < n)%nat -> exists t t', body k t = Some t'.
Proof.
  revert s'. induction n as [|n IH]; intros s' E k Hk. lia. cbn [floop] in E. destruct (floop n body s) as [t|] eqn:E2; [|discriminate]. cbn [bind] in E.
  destruct (Nat.eq_dec k n) as [->|]; [eauto|]. eapply IH; eauto. lia.
Qed.
Lemma acc_some {T} (plus : T -> T -> T) lo hi body (A A' : arr T) : acc_loop plus lo hi body A = Some A' -> forall k, (lo <= k < hi)%nat -> exists l, body k = Some l.
Proof.
  intros E k Hk. unfold acc_loop, frange in E. destruct (floop_some _ _ _ _ E (k - lo)%nat ltac:(lia)) as (t & t' & E2). replace (lo + (k - lo))%nat with k in E2 by lia.
  destruct (body k) eqn:E3; [eauto|discriminate].
Qed.

Lemma aget_some {T} (a : arr T) i x : aget a i = Some x -> x = aat a i.
Proof. unfold aget. destruct (i <? alen a)%nat; congruence. Qed.

Ltac step_bind E :=
  match type of E with
  | bind ?e ?k = Some _ => let x := fresh "x" in let Q := fresh "Q" in destruct e as [x|] eqn:Q; cbn [bind] in E; [|discriminate E]
  end.

Lemma face_flux_inv S fl second (u ul ur ug : arr st) (G : arr grad) k f :
  face_flux S fl second u G ul ur ug k = Some f -> f = thru S fl second u ul ur ug G k.
Proof.
  unfold face_flux. intros E. do 4 step_bind E.
  apply aget_some in Q, Q0, Q1, Q2. subst. unfold thru, through, face_law. destruct (fl_visc fl).
  - do 6 step_bind E. apply aget_some in Q, Q1. subst.
    assert (A : x0 = right_value S (aat (sm_rc S)) (aat (sm_rcbp S)) k).
    { unfold right_value. unfold far_centre in Q0. destruct (k <? sm_nb S)%nat; apply aget_some in Q0; auto. }
    assert (B : x2 = right_value S (aat u) (aat ug) k).
    { unfold right_value. unfold far_value in Q2. destruct (k <? sm_nb S)%nat; apply aget_some in Q2; auto. }
    assert (C : x3 = if second then aat G (f_left (aat (sm_F S) k)) else grad0). { destruct second; [apply aget_some in Q3; auto|congruence]. }
    assert (D : x4 = if second then if (k <? sm_nb S)%nat then aat G (f_left (aat (sm_F S) k)) else aat G (f_right (aat (sm_F S) k)) else grad0).
    { destruct second; [|congruence]. destruct (k <? sm_nb S)%nat; apply aget_some in Q4; auto. }
    injection E as <-. rewrite <- A, <- B, <- C, <- D. unfold left_value. apply st_ext; intros v. rewrite cget_add, !cget_scal, cget_add. ring.
  - injection E as <-. unfold left_value. apply st_ext; intros v. rewrite !cget_scal, cget_add, cget_zero. ring.
Qed.

Lemma fluxes_inv S fl second (u ul ur ug : arr st) (G : arr grad) (res res' : arr st) : sm_ok S -> alen res = sm_ne S ->
  compute_fluxes S fl second u G ul ur ug res = Some res' -> alen res' = sm_ne S /\
  forall i v, (i < sm_ne S)%nat -> cget (aat res' i) v = cget (aat res i) v - outflow S (thru S fl second u ul ur ug G) i v.
Proof.
  intros OK LR E. unfold compute_fluxes in E.
  set (T := thru S fl second u ul ur ug G).
  assert (HB : forall k, (0 <= k < sm_nf_all S)%nat -> flux_incs S fl second u G ul ur ug k = Some (two S (fun k => sneg (T k)) T k) /\
     forall p, In p (two S (fun k => sneg (T k)) T k) -> (fst p < alen res)%nat).
  { intros k Hk. split. 2:{ intros p Hp. rewrite LR. eapply two_in; eauto. lia. }
    destruct (acc_some _ _ _ _ _ _ E k Hk) as (l & El). rewrite El. unfold flux_incs in El. step_bind El. step_bind El. apply face_flux_inv in Q. apply aget_some in Q0. subst.
    injection El as <-. fold T. unfold two. reflexivity. }
  destruct (acc_loop_ok sadd 0 (sm_nf_all S) _ res _ ltac:(lia) HB) as (r & E2 & L & P & _). rewrite E in E2. injection E2 as <-.
  split; [lia|]. intros i v Hi. rewrite (P (fun x => cget x v) (cget_additive v) i). rewrite Nat.sub_0_r. unfold outflow, all_faces. unfold Rminus at 1. f_equal. rewrite <- rsum_opp. apply rsum_ext. intros k Hk.
  rewrite added_two by auto. destruct (_ =? _)%nat; destruct (_ =? _)%nat; rewrite ?cget_neg; lra.
Qed.

Lemma total_of S (f : nat -> st) (res res' : arr st) : sm_ok S ->
  (forall i v, (i < sm_ne S)%nat -> cget (aat res' i) v = cget (aat res i) v - outflow S f i v) ->
  forall v, rsum (fun i => cget (aat res' i) v) (all_cells S) = rsum (fun i => cget (aat res i) v) (all_cells S) - rsum (fun k => cget (f k) v) (outer_faces S).
Proof.
  intros OK H v. rewrite <- (outflow_total S f v OK), <- rsum_minus. apply rsum_ext. intros i Hi. apply H. apply in_seq in Hi. lia.
Qed.

Lemma residual2_inv S fl bc gs rs gg rf u ul0 ur0 res G0 jp dt out : sm_ok S -> bcs_cover S fl bc -> alen u = (sm_ne S + sm_nc S)%nat ->
  alen ul0 = sm_nf_all S -> alen ur0 = sm_nf_all S -> alen res = sm_ne S ->
  compute_residual2 S fl gs rs gg rf u ul0 ur0 res G0 jp dt = Some out ->
  alen (ro_res out) = sm_ne S /\ forall i v, (i < sm_ne S)%nat -> cget (aat (ro_res out) i) v = cget (aat res i) v -
     outflow S (through S fl true (aat u) (aat (ro_grad out)) (bghost S fl bc u) (aat (ro_left out)) (aat (ro_right out))) i v.
Proof.
  intros OK C Lu L0 R0 LR E. unfold compute_residual2 in E.
  destruct (boundary_left_ok S u ul0 OK Lu L0) as (ul1 & E1 & L1 & P1 & _). rewrite E1 in E. cbn [bind] in E.
  destruct (boundary_states_ok S fl bc ul1 ur0 OK C L1 R0) as (ur1 & E2 & L2 & P2 & _). rewrite E2 in E. cbn [bind] in E.
  step_bind E. step_bind E. step_bind E. step_bind E. destruct x2 as (ul3 & ur3). do 7 step_bind E. injection E as <-. cbn [ro_res ro_left ro_right ro_grad].
  destruct (fluxes_inv _ _ _ _ _ _ _ _ _ _ OK LR Q8) as (LF & PF). split; auto. intros i v Hi. rewrite PF by auto. f_equal. unfold outflow. apply rsum_ext. intros k Hk. apply in_seq in Hk.
  match goal with |- context [thru S fl true u ?a ?b ?c ?d k] => assert (X : thru S fl true u a b c d k = through S fl true (aat u) (aat d) (bghost S fl bc u) (aat a) (aat b) k); [|rewrite X; reflexivity] end.
  unfold thru, through, right_value. destruct (Nat.ltb_spec k (sm_nb S)) as [B|B]; [|reflexivity]. cbn [aat]. rewrite P2, P1 by auto. reflexivity.
Qed.
