(** The assembled Jacobian matrix as a linear map. *)
From Coq Require Import Reals Lra List Arith Lia ZArith Bool.
From Verif Require Import Base BaseR BaseSum M_Gas M_Flux M_Visc M_BC M_BCConf M_Mesh M_Geom M_Space S_Space Pf_Space Pf_Grad
  M_Resid S_Gas S_Resid S_Deriv S_Deriv2 Pf_Deriv Pf_FluxJac Pf_Gas Pf_Resid P_Visc.
Import ListNotations.
Open Scope R_scope.

Lemma sdot_mplus a b v x : sdot (mrow (mplus a b) v) x = sdot (mrow a v) x + sdot (mrow b v) x.
Proof. destruct v; unfold mplus, mkmat, mkst, mget, sdot; cbn; ring. Qed.
Lemma sdot_msub a b v x : sdot (mrow (msub a b) v) x = sdot (mrow a v) x - sdot (mrow b v) x.
Proof. destruct v; unfold msub, mkmat, mkst, mget, sdot; cbn; ring. Qed.
Lemma sdot_mscal c a v x : sdot (mrow (mscal c a) v) x = c * sdot (mrow a v) x.
Proof. destruct v, a; unfold mscal, sdot; cbn; ring. Qed.
Lemma sdot_mmul a b v x : sdot (mrow (mmul a b) v) x = sdot (mrow a v) (mkst (fun i => sdot (mrow b i) x)).
Proof. destruct v; unfold mmul, mkmat, mkst, mget, sdot; cbn; ring. Qed.

Lemma dl_rsum {A} (f : A -> R -> R) (g : A -> R) t l : (forall x, In x l -> DL (f x) t (g x)) -> DL (fun s => rsum (fun x => f x s) l) t (rsum g l).
Proof.
  induction l as [|a l IH]; intros H. cbn. apply dl_const. change (DL (fun s => f a s + rsum (fun x => f x s) l) t (g a + rsum g l)).
  apply dl_plus. apply H; left; auto. apply IH. intros; apply H; right; auto.
Qed.

Lemma floop_frange {T} n (b : nat -> T -> option T) a : floop n b a = frange 0 n b a.
Proof. unfold frange. rewrite Nat.sub_0_r. reflexivity. Qed.

Section Assembly.
Variables (S : smesh) (lb : nat -> st -> option mat4) (li : nat -> st -> st -> option (mat4 * mat4)) (u : arr st) (row : nat -> nat) (col : option (nat -> nat)) (N : nat) (d : nat -> st).
Hypothesis OK : sm_ok S.
Hypothesis Lu : alen u = (sm_ne S + sm_nc S)%nat.
Hypothesis Hrow : forall i, (i < sm_ne S)%nat -> (row i < N)%nat.
Hypothesis Hcol : forall k, (k < sm_nc S)%nat -> exists c, col = Some c /\ (c k < N)%nat.

(** row [p], component [v], of the product with [d] *)
Definition app (A : bmat) (p : nat) (v : ix) : R := rsum (fun q => sdot (mrow (A p q) v) (d q)) (seq 0 N).

Lemma app_add A i j b p v : (j < N)%nat -> app (mat_add A i j b) p v = app A p v + (if (p =? i)%nat then sdot (mrow b v) (d j) else 0).
Proof.
  intros Hj. unfold app. destruct (Nat.eqb_spec p i) as [E|E].
  - transitivity (rsum (fun q => sdot (mrow (A p q) v) (d q) + (if (q =? j)%nat then sdot (mrow b v) (d q) else 0)) (seq 0 N)).
    + apply rsum_ext. intros q _. unfold mat_add. subst i. rewrite Nat.eqb_refl. cbn [andb]. destruct (q =? j)%nat; [apply sdot_mplus|lra].
    + rewrite rsum_plus. f_equal. exact (rsum_single (fun q => sdot (mrow b v) (d q)) N j Hj).
  - rewrite Rplus_0_r. apply rsum_ext. intros q _. unfold mat_add. destruct (Nat.eqb_spec p i); [congruence|]. reflexivity.
Qed.
Lemma add_other A i j b p q : p <> i -> mat_add A i j b p q = A p q.
Proof. intros H. unfold mat_add. destruct (Nat.eqb_spec p i); [congruence|]. reflexivity. Qed.

Variables JB JL JR : nat -> mat4.
Hypothesis HB : forall k, (k < sm_nb S)%nat -> lb k (aat u (f_left (aat (sm_F S) k))) = Some (JB k).
Hypothesis HI : forall k, (sm_nb S <= k < sm_nf_all S)%nat ->
  li k (aat u (f_left (aat (sm_F S) k))) (aat u (f_right (aat (sm_F S) k))) = Some (JL k, JR k).

Let fl_ k := f_left (aat (sm_F S) k).
Let fr_ k := f_right (aat (sm_F S) k).

Definition contrib (p : nat) (v : ix) (k : nat) : R :=
  let l := row (fl_ k) in let r := row (fr_ k) in
  if (k <? sm_nb S)%nat then if (p =? l)%nat then - sdot (mrow (JB k) v) (d l) else 0
  else if (k <? sm_nb S + sm_ni S)%nat then
    (if (p =? l)%nat then sdot (mrow (JR k) v) (d r) - sdot (mrow (JL k) v) (d l) else 0) +
    (if (p =? r)%nat then sdot (mrow (JL k) v) (d l) - sdot (mrow (JR k) v) (d r) else 0)
  else if (p =? l)%nat then (match col with Some c => sdot (mrow (JR k) v) (d (c (k - sm_nb S - sm_ni S)%nat)) | None => 0 end) - sdot (mrow (JL k) v) (d l) else 0.

Lemma loop_app lo hi body A : (lo <= hi)%nat ->
  (forall k A, (lo <= k < hi)%nat -> exists A', body k A = Some A' /\ (forall p v, app A' p v = app A p v + contrib p v k) /\
     (forall p q, (forall i, (i < sm_ne S)%nat -> row i <> p) -> A' p q = A p q)) ->
  exists A', frange lo hi body A = Some A' /\ (forall p v, app A' p v = app A p v + rsum (contrib p v) (seq lo (hi - lo))) /\
     (forall p q, (forall i, (i < sm_ne S)%nat -> row i <> p) -> A' p q = A p q).
Proof.
  intros Hlh H.
  destruct (frange_inv _ (fun j (B : bmat) => (forall p v, app B p v = app A p v + rsum (contrib p v) (seq lo (j - lo))) /\
     (forall p q, (forall i, (i < sm_ne S)%nat -> row i <> p) -> B p q = A p q)) lo hi body A) as (A' & E & P & Q); auto.
  - split; auto. intros p v. rewrite Nat.sub_diag. cbn. lra.
  - intros j B Hj (P & Q). destruct (H j B Hj) as (B' & E & P' & Q'). exists B'. split; auto. split.
    + intros p v. rewrite P', P. replace (j + 1 - lo)%nat with ((j - lo) + 1)%nat by lia. rewrite seq_app, rsum_app. cbn [seq rsum]. replace (lo + (j - lo))%nat with j by lia. lra.
    + intros p q Hp. rewrite Q', Q; auto.
  - eauto.
Qed.

Lemma assemble_ok A : exists A', assemble_with S lb li u row col A = Some A' /\ (forall p v, app A' p v = app A p v + rsum (contrib p v) (all_faces S)) /\
  (forall p q, (forall i, (i < sm_ne S)%nat -> row i <> p) -> A' p q = A p q).
Proof.
  unfold assemble_with.
  match goal with |- context [floop (sm_nb S) ?b A] => rewrite (floop_frange (sm_nb S) b A);
    destruct (loop_app 0 (sm_nb S) b A) as (A1 & E1 & P1 & Q1) end.
  - lia.
  - intros k B Hk. assert (K : (k < sm_nf_all S)%nat) by (unfold sm_nf_all; lia). pose proof (so_left _ OK k K).
    rewrite aget_ok by (rewrite (so_F _ OK); lia). cbn [bind]. rewrite aget_ok by lia. cbn [bind]. rewrite HB by lia. cbn [bind]. eexists; split; [reflexivity|]. split.
    + intros p v. rewrite app_add by (apply Hrow; auto). f_equal. unfold contrib, fl_. cbv zeta. destruct (Nat.ltb_spec k (sm_nb S)); [|lia]. destruct (_ =? _)%nat; auto. rewrite sdot_mscal. ring.
    + intros p q Hp. apply add_other. apply not_eq_sym, Hp. auto.
  - rewrite E1. cbn [bind].
    match goal with |- context [frange (sm_nb S) (sm_nb S + sm_ni S) ?b A1] => destruct (loop_app (sm_nb S) (sm_nb S + sm_ni S) b A1) as (A2 & E2 & P2 & Q2) end.
    + lia.
    + intros k B Hk. assert (K : (k < sm_nf_all S)%nat) by (unfold sm_nf_all; lia). pose proof (so_int _ OK k Hk).
      rewrite aget_ok by (rewrite (so_F _ OK); lia). cbn [bind]. rewrite aget_ok by lia. cbn [bind]. rewrite aget_ok by lia. cbn [bind]. rewrite HI by lia. cbn [bind fst snd]. eexists; split; [reflexivity|]. split.
      * intros p v. rewrite !app_add by (apply Hrow; lia). unfold contrib, fl_, fr_. cbv zeta. destruct (Nat.ltb_spec k (sm_nb S)); [lia|]. destruct (Nat.ltb_spec k (sm_nb S + sm_ni S)); [|lia].
        destruct (_ =? _)%nat; destruct (_ =? _)%nat; rewrite ?sdot_mscal; ring.
      * intros p q Hp. rewrite !add_other; auto; apply not_eq_sym, Hp; lia.
    + rewrite E2. cbn [bind].
      match goal with |- context [frange (sm_nb S + sm_ni S) (sm_nf_all S) ?b A2] => destruct (loop_app (sm_nb S + sm_ni S) (sm_nf_all S) b A2) as (A3 & E3 & P3 & Q3) end.
      * unfold sm_nf_all; lia.
      * intros k B Hk. pose proof (so_left _ OK k ltac:(lia)). pose proof (right_lt S k OK ltac:(lia)).
        destruct (Hcol (k - sm_nb S - sm_ni S)%nat) as (c & Ec & Hc). { unfold sm_nf_all in Hk. lia. }
        rewrite aget_ok by (rewrite (so_F _ OK); lia). cbn [bind]. rewrite aget_ok by lia. cbn [bind]. rewrite aget_ok by lia. cbn [bind]. rewrite HI by lia. cbn [bind fst snd]. rewrite Ec. eexists; split; [reflexivity|]. split.
        -- intros p v. rewrite app_add by (apply Hrow; lia). rewrite app_add by auto. unfold contrib, fl_, fr_. cbv zeta. destruct (Nat.ltb_spec k (sm_nb S)); [lia|]. destruct (Nat.ltb_spec k (sm_nb S + sm_ni S)); [lia|]. rewrite Ec.
           destruct (_ =? _)%nat; rewrite ?sdot_mscal; ring.
        -- intros p q Hp. rewrite !add_other; auto; apply not_eq_sym, Hp; lia.
      * exists A3. split; auto. split.
        -- intros p v. rewrite P3, P2, P1. unfold all_faces. replace (sm_nf_all S) with (sm_nb S + (sm_ni S + sm_nc S))%nat at 2 by (unfold sm_nf_all; lia). rewrite !seq_app, !rsum_app. rewrite Nat.add_0_l, Nat.sub_0_r.
           replace (sm_nb S + sm_ni S - sm_nb S)%nat with (sm_ni S) by lia. replace (sm_nf_all S - (sm_nb S + sm_ni S))%nat with (sm_nc S) by (unfold sm_nf_all; lia). ring.
        -- intros p q Hp. rewrite Q3, Q2, Q1; auto.
Qed.
End Assembly.

(** ** Derivative of the flux through a face *)

(** The inviscid face Jacobian at states [ul], [ur] exists and is exact, and if there is a viscous
    flux its coefficient is constant and the states are physical. *)
Definition face_smooth (fl : flow) (ul ur : st) (n : v2) : Prop :=
  (exists J, get_jacobian (fl_jflux fl) (fl_gas fl) ul ur n = Some J /\
     jac2_is (fun x y => get_flux (fl_flux fl) (fl_gas fl) x y n) ul ur (mneg (dfdl J)) (dfdr J)) /\
  (fl_visc fl = true -> fl_cst fl = true /\ physical (gam (fl_gas fl)) ul /\ physical (gam (fl_gas fl)) ur).

(** The Jacobian of the boundary condition exists and is exact at [ul]. *)
Definition bc_smooth (G : gas) (b : flowbc) (ul : st) (n : v2) : Prop :=
  exists r, ghost_jac G b ul n = Some r /\ g_s r = ghost_state G b ul n /\ jac_is (fun x => ghost_state G b x n) ul (g_d r).

Lemma sdot_madd a b v x : sdot (mrow (madd a b) v) x = sdot (mrow a v) x + sdot (mrow b v) x.
Proof. destruct v, a, b; unfold madd, sdot; cbn; ring. Qed.

Lemma face_jac_exact S fl k ul ur : sm_ok S -> (k < sm_nf_all S)%nat ->
  face_smooth fl ul ur (fm_n (aat (sm_M S) k)) -> exists J, face_jac S fl k ul ur = Some J /\
  jac2_is (fun x y => face_law fl false (fm_n (aat (sm_M S) k)) (left_value S (aat (sm_rc S)) k) (right_value S (aat (sm_rc S)) (aat (sm_rcbp S)) k) x y grad0 grad0 x y)
    ul ur (mneg (dfdl J)) (dfdr J).
Proof.
  intros OK Hk ((J & EJ & DJ) & HV). unfold face_jac. rewrite aget_ok by (rewrite (so_M _ OK); auto). cbn [bind]. rewrite aget_ok by (rewrite (so_F _ OK); auto). cbn [bind].
  rewrite EJ. cbn [bind]. unfold face_law. destruct (fl_visc fl).
  - destruct (HV eq_refl) as (HC & Pl & Pr). pose proof (so_left _ OK k Hk). rewrite aget_ok by (rewrite (so_rc _ OK); lia). cbn [bind]. rewrite (far_c S OK k Hk). cbn [bind].
    rewrite HC. fold (left_value S (aat (sm_rc S)) k).
    destruct (C52_constant_viscosity (fl_gas fl) (fm_n (aat (sm_M S) k)) (left_value S (aat (sm_rc S)) k) (right_value S (aat (sm_rc S)) (aat (sm_rcbp S)) k) ul ur (dfdl J) (dfdr J) Pl Pr) as (VL & VR & DV & EV).
    rewrite EV. eexists; split; [reflexivity|]. cbn [dfdl dfdr]. intros i cl cr t dul dur Cl Cr.
    eapply dl_ext. { intros s. apply cget_add. } eapply dl_eq. { apply dl_plus. exact (DJ i cl cr t dul dur Cl Cr). exact (DV i cl cr t dul dur Cl Cr). }
    rewrite !sdot_mneg, !sdot_madd, !sdot_mneg. ring.
  - eexists; split; [reflexivity|]. intros i cl cr t dul dur Cl Cr.
    eapply dl_ext. { intros s. rewrite cget_add, cget_zero. apply Rplus_0_r. } exact (DJ i cl cr t dul dur Cl Cr).
Qed.

Section Derivative.
Variables (S : smesh) (fl : flow) (bc : nat -> flowbc) (u : nat -> st).
Hypothesis OK : sm_ok S.
Hypothesis C : bcs_cover S fl bc.
Let uu : arr st := mkarr (sm_ne S + sm_nc S) u.
Let nk k := fm_n (aat (sm_M S) k).
Hypothesis HB : forall k, (k < sm_nb S)%nat -> bc_smooth (fl_gas fl) (bc k) (left_value S u k) (nk k).
Hypothesis HF : forall k, (k < sm_nf_all S)%nat ->
  face_smooth fl (left_value S u k) (right_value S u (fun k => ghost_state (fl_gas fl) (bc k) (left_value S u k) (nk k)) k) (nk k).

Lemma interior_ex k : (sm_nb S <= k < sm_nf_all S)%nat -> exists P,
  local_jacobian_interior S fl k (u (f_left (aat (sm_F S) k))) (u (f_right (aat (sm_F S) k))) = Some P /\
  forall (cs : nat -> R -> st) t dl dr, curve_at (cs (f_left (aat (sm_F S) k))) t (u (f_left (aat (sm_F S) k))) dl -> curve_at (cs (f_right (aat (sm_F S) k))) t (u (f_right (aat (sm_F S) k))) dr ->
    forall v, DL (fun s => cget (thru1 S fl bc (mkarr (sm_ne S + sm_nc S) (fun j => cs j s)) k) v) t (sdot (mrow (snd P) v) dr - sdot (mrow (fst P) v) dl).
Proof.
  intros Hk. pose proof (HF k ltac:(lia)) as F. unfold right_value in F. destruct (Nat.ltb_spec k (sm_nb S)); [lia|].
  destruct (face_jac_exact S fl k _ _ OK ltac:(lia) F) as (J & EJ & DJ). unfold local_jacobian_interior. rewrite aget_ok by (rewrite (so_M _ OK); lia). cbn [bind].
  unfold left_value in EJ. rewrite EJ. cbn [bind]. eexists; split; [reflexivity|]. intros cs t dl dr Cl Cr v. cbn [fst snd].
  eapply dl_ext. { intros s. unfold thru1, through. cbv zeta. rewrite cget_scal. cbn [aat]. unfold right_value. destruct (Nat.ltb_spec k (sm_nb S)); [lia|]. reflexivity. }
  eapply dl_eq. { apply dl_scal. unfold right_value in DJ. destruct (Nat.ltb_spec k (sm_nb S)); [lia|]. exact (DJ v _ _ t dl dr Cl Cr). }
  rewrite !sdot_mscal, sdot_mneg. ring.
Qed.

Lemma boundary_ex k : (k < sm_nb S)%nat -> exists P,
  local_jacobian_boundary S fl k (u (f_left (aat (sm_F S) k))) = Some P /\
  forall (cs : nat -> R -> st) t dl, curve_at (cs (f_left (aat (sm_F S) k))) t (u (f_left (aat (sm_F S) k))) dl ->
    forall v, DL (fun s => cget (thru1 S fl bc (mkarr (sm_ne S + sm_nc S) (fun j => cs j s)) k) v) t (- sdot (mrow P v) dl).
Proof.
  intros Hk. assert (K : (k < sm_nf_all S)%nat) by (unfold sm_nf_all; lia). pose proof (HF k K) as F. destruct (HB k Hk) as (r & E1 & E2 & D). unfold right_value in F. destruct (Nat.ltb_spec k (sm_nb S)); [|lia].
  destruct (face_jac_exact S fl k _ _ OK K F) as (J & EJ & DJ). unfold local_jacobian_boundary. rewrite aget_ok by (rewrite (so_M _ OK); lia). cbn [bind].
  rewrite (C k Hk). cbn [bind]. fold (nk k). change (u (f_left (aat (sm_F S) k))) with (left_value S u k). rewrite E1. cbn [bind]. rewrite E2, EJ. cbn [bind]. eexists; split; [reflexivity|].
  intros cs t dl Cl v.
  eapply dl_ext. { intros s. unfold thru1, through, bghost. cbv zeta. rewrite cget_scal. cbn [aat]. unfold right_value. destruct (Nat.ltb_spec k (sm_nb S)); [|lia]. reflexivity. }
  assert (Cr : curve_at (fun s => ghost_state (fl_gas fl) (bc k) (cs (f_left (aat (sm_F S) k)) s) (nk k)) t (ghost_state (fl_gas fl) (bc k) (left_value S u k) (nk k)) (mkst (fun i => sdot (mrow (g_d r) i) dl))).
  { split. - destruct Cl as (E & _). rewrite E. reflexivity. - intros i. rewrite cget_mkst. exact (D i _ t dl Cl). }
  unfold right_value in DJ. destruct (Nat.ltb_spec k (sm_nb S)); [|lia]. eapply dl_eq. { apply dl_scal. exact (DJ v _ _ t _ _ Cl Cr). }
  rewrite sdot_mscal, sdot_msub, sdot_mmul, sdot_mneg. ring.
Qed.

Variables (row : nat -> nat) (col : option (nat -> nat)) (N : nat).
Hypothesis Hrow : forall i, (i < sm_ne S)%nat -> (row i < N)%nat.
Hypothesis Hinj : forall i j, (i < sm_ne S)%nat -> (j < sm_ne S)%nat -> row i = row j -> i = j.
Hypothesis Hcol : forall k, (k < sm_nc S)%nat -> exists c, col = Some c /\ (c k < N)%nat.

Lemma choose_b : exists JB : nat -> mat4, forall k, (k < sm_nb S)%nat ->
  local_jacobian_boundary S fl k (u (f_left (aat (sm_F S) k))) = Some (JB k).
Proof.
  exists (fun k => match local_jacobian_boundary S fl k (u (f_left (aat (sm_F S) k))) with Some P => P | None => mat0 end).
  intros k Hk. destruct (boundary_ex k Hk) as (P & -> & _). reflexivity.
Qed.
Lemma choose_i : exists JI : nat -> mat4 * mat4, forall k, (sm_nb S <= k < sm_nf_all S)%nat ->
  local_jacobian_interior S fl k (u (f_left (aat (sm_F S) k))) (u (f_right (aat (sm_F S) k))) = Some (JI k).
Proof.
  exists (fun k => match local_jacobian_interior S fl k (u (f_left (aat (sm_F S) k))) (u (f_right (aat (sm_F S) k))) with Some P => P | None => (mat0, mat0) end).
  intros k Hk. destruct (interior_ex k Hk) as (P & -> & _). reflexivity.
Qed.

Theorem assembled A0 : exists A, assemble_jacobian S fl uu row col A0 = Some A /\
  (forall d (cs : nat -> R -> st) t,
     (forall j, (j < sm_ne S)%nat -> curve_at (cs j) t (u j) (d (row j))) ->
     (forall k c, (k < sm_nc S)%nat -> col = Some c -> curve_at (cs (sm_ne S + k)%nat) t (u (sm_ne S + k)%nat) (d (c k))) ->
     forall i v, (i < sm_ne S)%nat ->
     DL (fun s => outflow S (thru1 S fl bc (mkarr (sm_ne S + sm_nc S) (fun j => cs j s))) i v) t (app N d A (row i) v - app N d A0 (row i) v)) /\
  (forall p q, (forall i, (i < sm_ne S)%nat -> row i <> p) -> A p q = A0 p q).
Proof.
  destruct choose_b as (JB & EB). destruct choose_i as (JI & EI).
  assert (EI' : forall k, (sm_nb S <= k < sm_nf_all S)%nat -> local_jacobian_interior S fl k (aat uu (f_left (aat (sm_F S) k))) (aat uu (f_right (aat (sm_F S) k))) = Some (fst (JI k), snd (JI k))).
  { intros k Hk. rewrite <- surjective_pairing. exact (EI k Hk). }
  destruct (assemble_ok S (local_jacobian_boundary S fl) (local_jacobian_interior S fl) uu row col N (fun _ => szero) OK eq_refl Hrow Hcol JB (fun k => fst (JI k)) (fun k => snd (JI k)) EB EI' A0) as (A & EA & _ & QA).
  exists A. split; auto. split; auto. intros d cs t HC1 HC2 i v Hi.
  destruct (assemble_ok S (local_jacobian_boundary S fl) (local_jacobian_interior S fl) uu row col N d OK eq_refl Hrow Hcol JB (fun k => fst (JI k)) (fun k => snd (JI k)) EB EI' A0) as (A' & EA' & PA & _).
  rewrite EA in EA'. injection EA' as <-. rewrite PA.
  unfold outflow. eapply dl_eq. 2:{ rewrite Rplus_comm. unfold Rminus. rewrite Rplus_assoc, Rplus_opp_r, Rplus_0_r. reflexivity. }
  apply dl_rsum. intros k Hk. unfold all_faces in Hk. apply in_seq in Hk. pose proof (so_left _ OK k ltac:(lia)) as HL.
  unfold contrib. cbv zeta.
  assert (EQ : forall j, (j < sm_ne S)%nat -> (row i =? row j)%nat = (j =? i)%nat).
  { intros j Hj. destruct (Nat.eqb_spec j i) as [->|]. apply Nat.eqb_refl. apply Nat.eqb_neq. intro Q. apply Hinj in Q; auto. }
  rewrite EQ by auto.
  destruct (Nat.ltb_spec k (sm_nb S)) as [K|K].
  - rewrite (so_phy _ OK k K). destruct (Nat.eqb_spec (sm_ne S + sm_nc S + k) i); [lia|].
    destruct (boundary_ex k K) as (P & E & D). rewrite EB in E by auto. injection E as <-.
    destruct (f_left (aat (sm_F S) k) =? i)%nat.
    + eapply dl_ext. intros s; apply Rminus_0_r. exact (D cs t _ (HC1 _ HL) v).
    + eapply dl_ext. intros s; apply Rminus_0_r. apply dl_const.
  - destruct (interior_ex k ltac:(lia)) as (P & E & D). rewrite EI in E by lia. injection E as <-.
    destruct (Nat.ltb_spec k (sm_nb S + sm_ni S)) as [K2|K2].
    + pose proof (so_int _ OK k ltac:(lia)) as HR. rewrite EQ by lia. specialize (D cs t _ _ (HC1 _ HL) (HC1 _ (proj2 HR)) v).
      assert (Z : DL (fun _ => 0) t 0) by apply dl_const.
      destruct (f_left (aat (sm_F S) k) =? i)%nat; destruct (f_right (aat (sm_F S) k) =? i)%nat; (eapply dl_eq; [apply dl_minus; [first [exact D|exact Z]|first [exact D|exact Z]]|ring]).
    + assert (Q : (k - sm_nb S - sm_ni S < sm_nc S)%nat) by (unfold sm_nf_all in Hk; lia). destruct (Hcol _ Q) as (c & Ec & _). rewrite Ec.
      pose proof (so_con _ OK k ltac:(lia)) as HR. rewrite HR in D |- *. destruct (Nat.eqb_spec (sm_ne S + (k - sm_nb S - sm_ni S)) i); [lia|].
      specialize (D cs t _ _ (HC1 _ HL) (HC2 _ c Q Ec) v).
      eapply dl_ext. intros s; apply Rminus_0_r. destruct (f_left (aat (sm_F S) k) =? i)%nat. exact D. apply dl_const.
Qed.
End Derivative.
