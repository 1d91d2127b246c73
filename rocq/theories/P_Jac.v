(** Property C67: the assembled block matrix is the derivative of the first-order residual.

    The residual vector that [compute_residual] returns is [res0] minus the net outflow of each
    cell, and the solvers solve (V/dt + A) du = residual; so [A] has to be minus the derivative
    of that vector. Derivatives are taken along arbitrary curves of states (S_Deriv.v), so this is
    full differentiability and not only partial derivatives. *)
From Coq Require Import Reals Lra List Arith Lia ZArith Bool.
From Verif Require Import Base BaseR BaseSum M_Gas M_Flux M_Visc M_BC M_BCConf M_Mesh M_Geom S_Mesh S_Geom S_Gas S_Visc Pf_Topo Pf_Full Pf_Geom P_Geom
  M_Space S_Space Pf_Space M_Grad Pf_Grad P_Grad M_Resid S_Resid Pf_Resid Pf_Resid2 P_Resid S_Deriv S_Deriv2 Pf_Deriv Pf_FluxJac Pf_RoeAvg
  Pf_Gas P_Gas P_Flux P_FluxJac P_Visc P_BC Pf_FluxUp Pf_Jac.
Import ListNotations.
Open Scope R_scope.

(** Component [v] of the residual of cell [i]; the theorem also says the computation succeeds. *)
Definition residual_at (S : smesh) (fl : flow) (u ul0 ur0 res : arr st) (G : arr grad) (i : nat) (v : ix) : option R :=
  out <- compute_residual1 S fl u ul0 ur0 res G None ;; x <- aget (ro_res out) i ;; Some (cget x v).

(** Exactness of the face Jacobians is the hypothesis [face_smooth], that of the boundary
    conditions [bc_smooth] (Pf_Jac.v); see below for when they hold. Rows are numbered by [row]
    (any numbering), columns of ghost cells by [col] ([None] is possible only without ghosts). *)
Theorem C67_assembled_jacobian : forall m hs X ghost S, built m hs X ghost S ->
  forall fl bc (u : nat -> st) (row : nat -> nat) (col : option (nat -> nat)) (N : nat), bcs_cover S fl bc ->
  let n k := fm_n (aat (sm_M S) k) in
  let ub k := ghost_state (fl_gas fl) (bc k) (left_value S u k) (n k) in
  (forall k, (k < sm_nb S)%nat -> bc_smooth (fl_gas fl) (bc k) (left_value S u k) (n k)) ->
  (forall k, (k < sm_nf_all S)%nat -> face_smooth fl (left_value S u k) (right_value S u ub k) (n k)) ->
  (forall i, (i < sm_ne S)%nat -> (row i < N)%nat) ->
  (forall i j, (i < sm_ne S)%nat -> (j < sm_ne S)%nat -> row i = row j -> i = j) ->
  (forall k, (k < sm_nc S)%nat -> exists c, col = Some c /\ (c k < N)%nat) ->
  exists A, assemble_jacobian S fl (mkarr (sm_ne S + sm_nc S) u) row col (fun _ _ => mat0) = Some A /\
  (forall p q, (forall i, (i < sm_ne S)%nat -> row i <> p) -> A p q = mat0) /\
  forall (d : nat -> st) (cs : nat -> R -> st) (t : R),
    (forall j, (j < sm_ne S)%nat -> curve_at (cs j) t (u j) (d (row j))) ->
    (forall k c, (k < sm_nc S)%nat -> col = Some c -> curve_at (cs (sm_ne S + k)%nat) t (u (sm_ne S + k)%nat) (d (c k))) ->
    forall (ul0 ur0 res : arr st) (G : arr grad), alen ul0 = sm_nf_all S -> alen ur0 = sm_nf_all S -> alen res = sm_ne S ->
    forall i v, (i < sm_ne S)%nat -> exists r : R -> R,
      (forall s, residual_at S fl (mkarr (sm_ne S + sm_nc S) (fun j => cs j s)) ul0 ur0 res G i v = Some (r s)) /\
      derivable_pt_lim r t (- rsum (fun q => sdot (mrow (A (row i) q) v) (d q)) (seq 0 N)).
Proof.
  intros m hs X ghost S B fl bc u row col N C n ub HB HF Hrow Hinj Hcol. pose proof (built_sm _ _ _ _ _ B) as OK.
  destruct (assembled S fl bc u OK C HB HF row col N Hrow Hinj Hcol (fun _ _ => mat0)) as (A & EA & D & Z).
  exists A. split; auto. split; auto. intros d cs t H1 H2 ul0 ur0 res G L0 R0 LR i v Hi.
  exists (fun s => cget (aat res i) v - outflow S (thru1 S fl bc (mkarr (sm_ne S + sm_nc S) (fun j => cs j s))) i v). split.
  - intros s. destruct (residual1_ok S fl bc (mkarr (sm_ne S + sm_nc S) (fun j => cs j s)) ul0 ur0 res G None OK C eq_refl L0 R0 LR) as (ul & ur & res' & _ & _ & _ & E & L & P).
    unfold residual_at. rewrite E. cbn [maybe_dt bind ro_res]. rewrite aget_ok by lia. cbn [bind]. rewrite P by auto. reflexivity.
  - specialize (D d cs t H1 H2 i v Hi). eapply dl_eq. { apply dl_minus. apply dl_const. exact D. }
    unfold app. assert (Q : rsum (fun q => sdot (mrow mat0 v) (d q)) (seq 0 N) = 0). { apply rsum_zero. intros q _. destruct v; unfold mat0, sdot; cbn; ring. }
    rewrite Q. ring.
Qed.
Print Assumptions C67_assembled_jacobian.

(** When the hypotheses hold. *)
Lemma smooth_ausm fl ul ur n : fl_flux fl = AUSM -> fl_jflux fl = AUSM -> (fl_visc fl = true -> fl_cst fl = true) ->
  1 < gam (fl_gas fl) -> physical (gam (fl_gas fl)) ul -> physical (gam (fl_gas fl)) ur ->
  mach_plus (normal_velocity ul n / sound (gam (fl_gas fl)) ul) - mach_plus (- (normal_velocity ur n / sound (gam (fl_gas fl)) ur)) <> 0 ->
  face_smooth fl ul ur n.
Proof.
  intros E1 E2 HV Hg Pl Pr Hm. split; [|intros; auto]. rewrite E1, E2. eexists; split; [reflexivity|]. apply C42_ausm; auto.
Qed.
Lemma smooth_roe fl ul ur n : fl_flux fl = ROE -> fl_jflux fl = ROE -> (fl_visc fl = true -> fl_cst fl = true) ->
  1 < gam (fl_gas fl) -> physical (gam (fl_gas fl)) ul -> physical (gam (fl_gas fl)) ur ->
  let c := roe_sound (gam (fl_gas fl)) ul ur in let W := roe_normal ul ur n in
  fixeps * c <= Rabs (W - c) -> fixeps * c <= Rabs W -> fixeps * c <= Rabs (W + c) ->
  face_smooth fl ul ur n.
Proof.
  intros E1 E2 HV Hg Pl Pr c W H1 H2 H3. split; [|intros; auto]. rewrite E1, E2. eexists; split; [reflexivity|]. apply C43_roe_exact_off_fix; auto.
Qed.
Lemma smooth_bc G b u n : 1 < gam G -> Minf G <> 0 -> physical (gam G) u -> far_ok G b -> smooth_at (gam G) b u n -> bc_smooth G b u n.
Proof. exact (C46_bc_jacobian G b u n). Qed.

(** A case: the example mesh (with one ghost cell), AUSM, with and without viscosity, at a state
    whose velocity is parallel to none of the faces. *)
Lemma ex_edge S k : built exo exh exX exg S -> (k < sm_nf_all S)%nat -> exists i f, (i < 3)%nat /\ (f < length (cell (cells exo) i))%nat /\
  aat (sm_M S) k = face_metric (aat exX (fst (edge (cell (cells exo) i) f))) (aat exX (snd (edge (cell (cells exo) i) f))).
Proof.
  intros B Hk. pose proof B as (T & _). destruct (built_ok _ _ _ _ _ B) as (p & e & ni & s & il & TO & OK & E1 & E2 & E3 & E4 & E5 & E6 & _).
  rewrite (so_met _ OK k Hk). pose proof (so_F _ OK) as LF. rewrite E5, E6 in *. pose proof (to_ranges _ _ _ _ _ _ _ TO) as HR.
  destruct (face_points exo exh _ il T HR (aat (intfac s) k)) as (i & f & Hi & Hf & Ei & Ee).
  { unfold alist. apply in_map. apply in_seq. lia. }
  exists i, f. split; [exact Hi|]. split; auto. rewrite <- Ee. reflexivity.
Qed.
Lemma ex_normal_velocity S k : built exo exh exX exg S -> (k < sm_nf_all S)%nat -> normal_velocity exU (fm_n (aat (sm_M S) k)) <> 0.
Proof.
  intros B Hk. destruct (ex_edge S k B Hk) as (i & f & Hi & Hf & ->).
  assert (P : exists a b, fm_n (face_metric (aat exX (fst (edge (cell (cells exo) i) f))) (aat exX (snd (edge (cell (cells exo) i) f)))) = mkv (a / sqrt (a ^ 2 + b ^ 2)) (b / sqrt (a ^ 2 + b ^ 2)) /\ 0 < a ^ 2 + b ^ 2 /\ 2 * a + b <> 0).
  { destruct i as [|[|[|i]]]; try lia; cbn in Hf; destruct f as [|[|[|[|f]]]]; try lia; 
      (match goal with |- context [edge ?c ?g] => let e := eval vm_compute in (edge c g) in change (edge c g) with e end; unfold face_metric; cbn; do 2 eexists;
       split; [reflexivity|split; [ring_simplify|intro]; lra]). }
  destruct P as (a & b & -> & Hp & Hn). unfold normal_velocity, exU. cbn [s0 s1 s2 vx vy]. pose proof (sqrt_lt_R0 _ Hp) as Hs. set (q := sqrt (a ^ 2 + b ^ 2)) in *. intro E. apply Hn.
  apply (f_equal (fun x => x * (4 * q))) in E. field_simplify in E; lra.
Qed.
Lemma ausm_mach_ne m : m <> 0 -> mach_plus m - mach_plus (- m) <> 0.
Proof.
  intros Hm. destruct (Rlt_le_dec m 0). pose proof (mach_plus_lo m ltac:(lra)). pose proof (mach_plus_hi (- m) ltac:(lra)). lra.
  pose proof (mach_plus_hi m ltac:(lra)). pose proof (mach_plus_lo (- m) ltac:(lra)). lra.
Qed.
Example C67_ex : forall visc, exists S bc, built exo exh exX exg S /\ bcs_cover S (exfl AUSM visc) bc /\ sm_ne S = 3%nat /\ sm_nc S = 1%nat /\
  let u := fun _ : nat => exU in let n k := fm_n (aat (sm_M S) k) in
  let ub k := ghost_state air (bc k) (left_value S u k) (n k) in
  (forall k, (k < sm_nb S)%nat -> bc_smooth air (bc k) (left_value S u k) (n k)) /\
  (forall k, (k < sm_nf_all S)%nat -> face_smooth (exfl AUSM visc) (left_value S u k) (right_value S u ub k) (n k)).
Proof.
  intros visc. destruct (ex_cover AUSM visc) as (S & bc & B & C & A). exists S, bc. split; auto. split; auto. destruct (ex_faces S B) as (En & _ & Ec & _).
  split; auto. split; auto. cbv zeta. assert (HU : physical (gam air) exU) by (unfold physical, pressure; cbn; lra).
  assert (Hg : 1 < gam air) by (cbn; lra).
  assert (NB : forall k, (k < sm_nb S)%nat -> bc k = BFar exU \/ bc k = BExtrap).
  { intros k Hk. pose proof (A k vzero Hk) as Q. pose proof (A k (mkv 1 0) Hk) as Q'. pose proof (C k Hk) as F. unfold face_bc in F.
    destruct (aget (sm_bt S) k) as [tg|]; [|discriminate F]. cbn [bind] in F.
    unfold exfl in F. cbn [fl_bcs] in F. destruct tg as [|z r]; cbn [nth_error bind mfind] in F; [discriminate F|].
    destruct (1 =? z)%Z; [injection F; auto|]. destruct (2 =? z)%Z; [injection F; auto|]. destruct (3 =? z)%Z; [injection F; auto|discriminate F]. }
  split.
  - intros k Hk. destruct (NB k Hk) as [-> | ->]; apply smooth_bc; auto; cbn; try lra; auto.
  - intros k Hk. assert (E : right_value S (fun _ => exU) (fun k => ghost_state air (bc k) (left_value S (fun _ => exU) k) (fm_n (aat (sm_M S) k))) k = exU).
    { unfold right_value, left_value. destruct (Nat.ltb_spec k (sm_nb S)) as [K|K]; auto. destruct (NB k K) as [-> | ->]; reflexivity. }
    rewrite E. unfold left_value. apply smooth_ausm; auto. apply ausm_mach_ne. pose proof (sound_pos (gam air) exU Hg HU). pose proof (ex_normal_velocity S k B Hk).
    intro Q. apply H0. change (gam (fl_gas (exfl AUSM visc))) with (gam air) in Q. apply (f_equal (fun x => x * sound (gam air) exU)) in Q. field_simplify in Q; lra.
Qed.
