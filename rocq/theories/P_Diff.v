(** Property C79: the diffusion operator. Vocabulary: S_Diff.v. *)
From Coq Require Import Reals Lra List Arith Lia Permutation ZArith Bool.
From Verif Require Import Base BaseR BaseSum M_Gas M_Flux M_Visc M_Mesh M_Geom S_Mesh S_Geom Pf_Topo Pf_Full Pf_Incid ChkMesh Pf_Geom P_Geom
  M_Space S_Space Pf_Space M_Grad Pf_Grad P_Grad M_Recon M_Resid S_Resid Pf_Resid Pf_Resid2 P_Resid S_Visc Pf_Visc P_Visc
  S_Deriv Pf_Deriv Pf_Jac Pf_Linalg P_Linalg P_Ode3 M_Diff S_Diff Pf_Diff.
Import ListNotations.
Open Scope R_scope.

(** what the gradient scheme needs to run *)
Definition gscheme_runs (S : smesh) (gs : gradscheme) : Prop := match gs with GLeastSquares V => alen V = sm_ne S | _ => True end.
(** the two centres of every face differ *)
Definition centres_differ (S : smesh) : Prop := forall k, (k < sm_nf_all S)%nat ->
  left_value S (aat (sm_rc S)) k <> right_value S (aat (sm_rc S)) (aat (sm_rcbp S)) k.
(** [g] is the field of gradients the scheme computes from the values [u] and Dirichlet ghost values,
    with the gradients [gg] received for connectivity ghost cells *)
Definition gradients_of (S : smesh) (d : diffn) (G0 : arr grad) (gg : nat -> grad) (u : arr st) (ug : arr st) (g : nat -> grad) : Prop :=
  alen ug = sm_nb S /\ (forall k, (k < sm_nb S)%nat -> aat ug k = dirichlet S (df_bval d) (aat u) k) /\
  exists G, compute_gradients S (df_gs d) u ug G0 = Some G /\
    (forall i, (i < sm_ne S)%nat -> g i = aat G i) /\ forall k, (k < sm_nc S)%nat -> g (sm_ne S + k)%nat = gg k.

Lemma fick_ext S nu u g ub ub' k : (forall k, (k < sm_nb S)%nat -> ub k = ub' k) -> fick S nu u g ub k = fick S nu u g ub' k.
Proof.
  intros H. unfold fick, right_value at 2. unfold right_value at 3. cbv zeta. apply st_ext; intros v. rewrite !cget_mkst. destruct (Nat.ltb_spec k (sm_nb S)); auto. rewrite H; auto.
Qed.

(** The residual is minus the net Fick flux out of each cell plus the source, so what leaves one
    cell enters its neighbour; the sum over all cells is minus the flux through the outer faces plus
    the total source. The time step is the square of the largest face length over the diffusivity. *)
Theorem C79_residual : forall m hs X ghost S, built m hs X ghost S -> distinct_ends m X -> centres_differ S ->
  forall d ju jg G0 gg (u res : arr st) (b : bool) dt, gscheme_runs S (df_gs d) -> (b = true -> df_nu d <> 0) ->
  alen u = (sm_ne S + sm_nc S)%nat -> alen G0 = (sm_ne S + sm_nc S)%nat -> alen dt = sm_ne S -> alen res = sm_ne S ->
  exists h ug g dt' res', diff_sizes S = Some h /\ (forall i, (i < sm_ne S)%nat -> largest_face S i (aat h i)) /\
    gradients_of S d G0 gg u ug g /\
    diff_residual S d h ju jg G0 gg u res b (Some dt) = Some (Val (dt', res')) /\ alen dt' = sm_ne S /\ alen res' = sm_ne S /\
    let F := fick S (df_nu d) (aat u) g (dirichlet S (df_bval d) (aat u)) in
    let src i v := cget (df_src d (aat (sm_rc S) i) (aat u i)) v * aat (sm_A S) i in
    (forall i, (i < sm_ne S)%nat -> aat dt' i = if b then aat h i * aat h i / df_nu d else aat dt i) /\
    (forall i v, (i < sm_ne S)%nat -> cget (aat res' i) v = cget (aat res i) v - outflow S F i v + src i v) /\
    (forall v, rsum (fun i => cget (aat res' i) v) (all_cells S) =
       rsum (fun i => cget (aat res i) v) (all_cells S) - rsum (fun k => cget (F k) v) (outer_faces S) + rsum (fun i => src i v) (all_cells S)).
Proof.
  intros m hs X ghost S B D CD d ju jg G0 gg u res b dt HS Hnu Lu LG0 Ld LR. pose proof (built_sm _ _ _ _ _ B) as OK.
  destruct (sizes_ok S OK) as (h & Eh & Lh & Ph).
  { intros i Hi. destruct (cell_has_face _ _ _ _ _ i B Hi) as (k & Hk & Bk). destruct (so_sur _ OK k i Hk Hi Bk) as (f & Hf & _). lia. }
  { intros k Hk. apply (face_unit _ _ _ _ _ B D k Hk). }
  destruct (diff_residual_ok S d h ju jg G0 gg u res b dt OK Lu HS LG0 Lh Ld LR Hnu) as (ug & G & dt' & res' & Lg & Pg & EG & LG & E & L1 & L2 & _ & P).
  exists h, ug, (with_ghosts S gg G), dt', res'. split; auto. split; auto. split.
  { split; auto. split; auto. exists G. split; auto. unfold with_ghosts. split.
    - intros i Hi. destruct (Nat.ltb_spec i (sm_ne S)); [auto|lia].
    - intros k Hk. destruct (Nat.ltb_spec (sm_ne S + k) (sm_ne S)); [lia|]. f_equal. lia. }
  split; auto. split; auto. split; auto. cbv zeta.
  set (F := fick S (df_nu d) (aat u) (with_ghosts S gg G) (dirichlet S (df_bval d) (aat u))).
  assert (Q : forall i v, (i < sm_ne S)%nat -> cget (aat res' i) v = cget (aat res i) v - outflow S F i v + cget (df_src d (aat (sm_rc S) i) (aat u i)) v * aat (sm_A S) i).
  { intros i v Hi. rewrite (proj2 (P i Hi)). do 2 f_equal. unfold outflow. apply rsum_ext. intros k _. unfold F. rewrite (fick_ext S _ _ _ (aat ug) (dirichlet S (df_bval d) (aat u)) k Pg). reflexivity. }
  split. { intros i Hi. apply P; auto. } split; auto.
  intros v. rewrite <- (outflow_total S F v OK), <- rsum_minus, <- rsum_plus. apply rsum_ext. intros i Hi. apply Q. apply in_seq in Hi. lia.
Qed.
Print Assumptions C79_residual.

(** Without a vector for time steps the call throws, even if no time steps are asked for: the
    matrix-free product (alinalg.cpp 146, 196) passes a null Vec and so fails for diffusion. *)
Theorem C79_needs_timestep_vector : forall m hs X ghost S, built m hs X ghost S ->
  forall d h ju jg G0 gg (u res : arr st) (b : bool), gscheme_runs S (df_gs d) -> (b = true -> df_nu d <> 0) ->
  alen u = (sm_ne S + sm_nc S)%nat -> alen G0 = (sm_ne S + sm_nc S)%nat -> alen h = sm_ne S -> alen res = sm_ne S ->
  diff_residual S d h ju jg G0 gg u res b None = Some Exn.
Proof.
  intros m hs X ghost S B d h ju jg G0 gg u res b HS Hnu Lu LG0 Lh LR. pose proof (built_sm _ _ _ _ _ B) as OK.
  destruct (diff_residual_ok S d h ju jg G0 gg u res b (aconst (sm_ne S) 0) OK Lu HS LG0 Lh eq_refl LR Hnu) as (ug & G & dt' & res' & _ & _ & _ & _ & _ & _ & _ & E & _). exact E.
Qed.
Print Assumptions C79_needs_timestep_vector.

(** ** Constants *)
Lemma corrected_const rl rr a : corrected rl rr a a vzero = vzero.
Proof. unfold corrected, dot2, vadd, vscal, vzero. cbv zeta. cbn [vx vy]. unfold Rdiv. apply v2_eq; cbn [vx vy]; ring. Qed.

(** If all values equal the boundary value, all fluxes vanish. *)
Theorem C79_constant : forall m hs X ghost S, built m hs X ghost S -> distinct_ends m X -> centres_differ S ->
  forall d h ju jg G0 gg (u res : arr st) (b : bool) dt, scheme_ok S (df_gs d) -> (b = true -> df_nu d <> 0) ->
  alen u = (sm_ne S + sm_nc S)%nat -> alen G0 = (sm_ne S + sm_nc S)%nat -> alen h = sm_ne S -> alen dt = sm_ne S -> alen res = sm_ne S ->
  (forall j v, (j < sm_ne S + sm_nc S)%nat -> cget (aat u j) v = df_bval d) -> (forall k, (k < sm_nc S)%nat -> gg k = grad0) ->
  exists dt' res', diff_residual S d h ju jg G0 gg u res b (Some dt) = Some (Val (dt', res')) /\
  forall i v, (i < sm_ne S)%nat -> cget (aat res' i) v = cget (aat res i) v + cget (df_src d (aat (sm_rc S) i) (aat u i)) v * aat (sm_A S) i.
Proof.
  intros m hs X ghost S B D CD d h ju jg G0 gg u res b dt HS Hnu Lu LG0 Lh Ld LR Hc Hgg. pose proof (built_sm _ _ _ _ _ B) as OK.
  assert (HR : gscheme_runs S (df_gs d)).
  { destruct (df_gs d) as [| |V] eqn:Ed; cbn; auto. destruct HS as (HV & _). destruct (wls_ctor_ok S OK) as (V2 & E2 & L2 & _). congruence. }
  destruct (diff_residual_ok S d h ju jg G0 gg u res b dt OK Lu HR LG0 Lh Ld LR Hnu) as (ug & G & dt' & res' & Lg & Pg & EG & LG & E & _ & _ & _ & P).
  exists dt', res'. split; auto. intros i v Hi. rewrite (proj2 (P i Hi)).
  assert (Z : forall k, (k < sm_nf_all S)%nat -> cget (fick S (df_nu d) (aat u) (with_ghosts S gg G) (aat ug) k) v = 0).
  { intros k Hk. pose proof (so_left _ OK k Hk) as HL.
    set (c := mkst (fun _ => df_bval d)).
    assert (Hu : forall j, (j < sm_ne S + sm_nc S)%nat -> aat u j = c). { intros j Hj. apply st_ext; intros w. unfold c. rewrite cget_mkst. auto. }
    assert (Hg : forall j, (j < sm_nb S)%nat -> aat ug j = c).
    { intros j Hj. rewrite Pg by auto. apply st_ext; intros w. unfold dirichlet, left_value, c. rewrite !cget_mkst, Hc. ring. pose proof (so_left _ OK j ltac:(unfold sm_nf_all; lia)). lia. }
    destruct (uniform_gradients m hs X ghost S (df_gs d) u ug G0 c B D HS Lu Lg LG0 Hu Hg) as (G1 & E1 & _ & PG). rewrite EG in E1. injection E1 as <-.
    assert (W : forall j, (j < sm_ne S + sm_nc S)%nat -> with_ghosts S gg G j = grad0).
    { intros j Hj. unfold with_ghosts. destruct (Nat.ltb_spec j (sm_ne S)). auto. apply Hgg. lia. }
    unfold fick. cbv zeta. rewrite cget_mkst. rewrite W by lia.
    assert (W2 : (if (k <? sm_nb S)%nat then grad0 else with_ghosts S gg G (f_right (aat (sm_F S) k))) = grad0).
    { destruct (Nat.ltb_spec k (sm_nb S)); auto. apply W. apply right_lt; auto. }
    rewrite W2. unfold left_value at 2, right_value at 2. rewrite Hu by lia.
    assert (W3 : (if (k <? sm_nb S)%nat then aat ug k else aat u (f_right (aat (sm_F S) k))) = c).
    { destruct (Nat.ltb_spec k (sm_nb S)); auto. apply Hu. apply right_lt; auto. }
    rewrite W3. replace (vscal (1/2) (vadd (gvec grad0 v) (gvec grad0 v))) with vzero. 2:{ destruct v; apply v2_eq; cbn; ring. }
    rewrite corrected_const. unfold dot2, vzero; cbn [vx vy]. ring. }
  assert (O : outflow S (fick S (df_nu d) (aat u) (with_ghosts S gg G) (aat ug)) i v = 0).
  { unfold outflow. apply rsum_zero. intros k Hk. apply in_seq in Hk. rewrite !Z by lia. destruct (_ =? i)%nat, (_ =? i)%nat; lra. }
  rewrite O. lra.
Qed.
Print Assumptions C79_constant.

(** ** Linear fields *)
(** the values on the two sides of every face of cell [i] are those of a linear field *)
Definition linear_near (S : smesh) (u ub : nat -> st) (c ga gb : st) (i : nat) : Prop := forall k, bounds S i k ->
  left_value S u k = linear_field c ga gb (left_value S (aat (sm_rc S)) k) /\
  right_value S u ub k = linear_field c ga gb (right_value S (aat (sm_rc S)) (aat (sm_rcbp S)) k).
(** the neighbours of cell [i] are at other points than [i] and in two directions *)
Definition good_stencil (S : smesh) (i : nat) : Prop :=
  let nbr := beyond S (aat (sm_rc S)) (aat (sm_rcbp S)) i in
  (forall k, bounds S i k -> nbr k <> aat (sm_rc S) i) /\
  (exists k l, bounds S i k /\ bounds S i l /\ cross (vsub (nbr k) (aat (sm_rc S) i)) (vsub (nbr l) (aat (sm_rc S) i)) <> 0).

Lemma wls_local m hs X ghost S V (u ug : arr st) G0 c ga gb i : built m hs X ghost S -> WLS_ctor S = Some V ->
  alen u = (sm_ne S + sm_nc S)%nat -> alen ug = sm_nb S -> alen G0 = (sm_ne S + sm_nc S)%nat -> (i < sm_ne S)%nat ->
  linear_near S (aat u) (aat ug) c ga gb i -> good_stencil S i ->
  exists G, WLS_gradients S V u ug G0 = Some G /\ aat G i = mkgrad ga gb.
Proof.
  intros B EV Lu Lg LG Hi HL (H1 & H2). pose proof (built_sm _ _ _ _ _ B) as OK. destruct (wls_ctor_ok S OK) as (V' & EV' & LV & PV). rewrite EV in EV'. injection EV' as <-.
  destruct (wls_grad_ok S OK u ug Lu Lg V G0 LV ltac:(lia)) as (G & E & _ & P & _). exists G. split; auto. rewrite P by auto.
  set (u' := mkarr (sm_ne S + sm_nc S) (fun j => linear_field c ga gb (aat (sm_rc S) j))). set (ug' := mkarr (sm_nb S) (fun k => linear_field c ga gb (aat (sm_rcbp S) k))).
  destruct (C53_wls_exact m hs X ghost S B) as (V2 & EV2 & PX). rewrite EV in EV2. injection EV2 as <-.
  destruct (PX u' ug' G0 c ga gb eq_refl eq_refl ltac:(lia)) as (G' & E' & P'). { intros; reflexivity. } { intros; reflexivity. }
  destruct (wls_grad_ok S OK u' ug' eq_refl eq_refl V G0 LV ltac:(lia)) as (G2 & E2 & _ & P2 & _). rewrite E' in E2. injection E2 as <-.
  rewrite <- (P' i Hi H1 H2), P2 by auto. f_equal. unfold fsum.
  assert (FK : forall k, bounds S i k -> fk S u ug k = fk S u' ug' k).
  { intros k Bk. destruct (HL k Bk) as (A1 & A2). unfold fk, uL, uRr. unfold left_value in A1. rewrite A1, A2. f_equal.
    unfold right_value. destruct (_ <? _)%nat; reflexivity. }
  f_equal; apply st_ext; intros v; rewrite !cget_mkst; apply (cellsum_ext S u ug Lu Lg); intros k Bk; rewrite FK; auto.
Qed.

Lemma corrected_linear rl rr g a b : rl <> rr -> b - a = dot2 g (vsub rr rl) -> corrected rl rr a b g = g.
Proof.
  intros N E. unfold corrected. cbv zeta. rewrite E. unfold towards.
  assert (D : dist2 rl rr <> 0). { apply Rgt_not_eq. unfold dist2. apply sqrt_lt_R0. destruct (Req_dec (vx rl) (vx rr)) as [Q|Q]; [destruct (Req_dec (vy rl) (vy rr)) as [Q'|Q']|].
    - exfalso. apply N. apply v2_eq; auto.
    - assert (0 < (vy rr - vy rl) * (vy rr - vy rl)) by (apply Rsqr_pos_lt; lra). pose proof (Rle_0_sqr (vx rr - vx rl)). unfold Rsqr in *. nra.
    - assert (0 < (vx rr - vx rl) * (vx rr - vx rl)) by (apply Rsqr_pos_lt; lra). pose proof (Rle_0_sqr (vy rr - vy rl)). unfold Rsqr in *. nra. }
  set (dd := dist2 rl rr) in *. unfold dot2, vadd, vscal, vsub; cbn [vx vy]. apply v2_eq; cbn [vx vy]; field; auto.
Qed.

Lemma closed_out S (f : nat -> st) i v a b : sm_ok S -> cells_closed S -> (i < sm_ne S)%nat ->
  (forall k, bounds S i k -> cget (f k) v = fm_len (aat (sm_M S) k) * (a * vx (fm_n (aat (sm_M S) k)) + b * vy (fm_n (aat (sm_M S) k)))) -> outflow S f i v = 0.
Proof.
  intros OK CL Hi HF. specialize (CL i Hi).
  transitivity (a * vx (vsum (fun k => outward i (aat (sm_F S) k) (aat (sm_M S) k)) (seq 0 (sm_nf_all S))) + b * vy (vsum (fun k => outward i (aat (sm_F S) k) (aat (sm_M S) k)) (seq 0 (sm_nf_all S)))).
  2:{ rewrite CL. cbn. ring. }
  cbn [vsum vx vy]. rewrite <- !rsum_scal, <- rsum_plus. unfold outflow, all_faces. apply rsum_ext. intros k Hk. apply in_seq in Hk.
  unfold outward. pose proof (lr_ne S k OK ltac:(lia)).
  destruct (Nat.eqb_spec (f_left (aat (sm_F S) k)) i); destruct (Nat.eqb_spec (f_right (aat (sm_F S) k)) i); try congruence; try (rewrite (HF k) by (split; [lia|auto])); cbn; ring.
Qed.

(** With least-squares gradients the operator vanishes on linear fields, at every cell that sees
    such values together with its neighbours (for cells at the physical boundary this means that the
    linear field has the boundary value at the face midpoint). *)
Theorem C79_linear : forall m hs X ghost S, built m hs X ghost S -> distinct_ends m X -> centres_differ S ->
  forall d V h ju jg G0 gg (u res : arr st) (b : bool) dt c ga gb i, df_gs d = GLeastSquares V -> WLS_ctor S = Some V -> (b = true -> df_nu d <> 0) ->
  alen u = (sm_ne S + sm_nc S)%nat -> alen G0 = (sm_ne S + sm_nc S)%nat -> alen h = sm_ne S -> alen dt = sm_ne S -> alen res = sm_ne S -> (i < sm_ne S)%nat ->
  let ub := dirichlet S (df_bval d) (aat u) in
  (forall j, j = i \/ (exists k, bounds S i k /\ bounds S j k) -> (j < sm_ne S)%nat -> linear_near S (aat u) ub c ga gb j /\ good_stencil S j) ->
  (forall k, (k < sm_nc S)%nat -> bounds S i (sm_nb S + sm_ni S + k) -> gg k = mkgrad ga gb) ->
  exists dt' res', diff_residual S d h ju jg G0 gg u res b (Some dt) = Some (Val (dt', res')) /\
  forall v, cget (aat res' i) v = cget (aat res i) v + cget (df_src d (aat (sm_rc S) i) (aat u i)) v * aat (sm_A S) i.
Proof.
  intros m hs X ghost S B D CD d V h ju jg G0 gg u res b dt c ga gb i EV EC Hnu Lu LG0 Lh Ld LR Hi ub HL Hgg. pose proof (built_sm _ _ _ _ _ B) as OK.
  assert (LV : alen V = sm_ne S). { destruct (wls_ctor_ok S OK) as (V2 & E2 & L2 & _). congruence. }
  destruct (diff_residual_ok S d h ju jg G0 gg u res b dt OK Lu ltac:(rewrite EV; exact LV) LG0 Lh Ld LR Hnu) as (ug & G & dt' & res' & Lg & Pg & EG & LG & E & _ & _ & _ & P).
  exists dt', res'. split; auto. intros v. rewrite (proj2 (P i Hi)). rewrite EV in EG. cbn [compute_gradients] in EG.
  assert (UB : forall j k, linear_near S (aat u) ub c ga gb j -> bounds S j k -> left_value S (aat u) k = linear_field c ga gb (left_value S (aat (sm_rc S)) k) /\
     right_value S (aat u) (aat ug) k = linear_field c ga gb (right_value S (aat (sm_rc S)) (aat (sm_rcbp S)) k)).
  { intros j k HLj Bk. destruct (HLj k Bk) as (A1 & A2). split; auto. rewrite <- A2. unfold right_value. destruct (Nat.ltb_spec k (sm_nb S)); auto. }
  assert (GJ : forall j, j = i \/ (exists k, bounds S i k /\ bounds S j k) -> (j < sm_ne S)%nat -> aat G j = mkgrad ga gb).
  { intros j Hj Hlt. destruct (HL j Hj Hlt) as (A1 & A2). destruct (wls_local m hs X ghost S V u ug G0 c ga gb j B EC Lu Lg LG0 Hlt) as (G' & E' & P'); auto.
    intros k Bk. apply (UB j); auto. rewrite EG in E'. injection E' as <-. auto. }
  assert (O : outflow S (fick S (df_nu d) (aat u) (with_ghosts S gg G) (aat ug)) i v = 0).
  { apply (closed_out S _ i v (- df_nu d * cget ga v) (- df_nu d * cget gb v)); auto. exact (built_closed _ _ _ _ _ B D).
    intros k Bk. pose proof (proj1 Bk) as Hk. destruct (UB i k (proj1 (HL i (or_introl eq_refl) Hi)) Bk) as (A1 & A2).
    unfold fick. cbv zeta. rewrite cget_mkst, A1, A2. pose proof (so_left _ OK k Hk) as HLt.
    assert (W1 : with_ghosts S gg G (f_left (aat (sm_F S) k)) = mkgrad ga gb).
    { unfold with_ghosts. destruct (Nat.ltb_spec (f_left (aat (sm_F S) k)) (sm_ne S)); [|lia]. apply GJ; auto. right. exists k. split; auto. split; auto. }
    assert (W2 : (if (k <? sm_nb S)%nat then with_ghosts S gg G (f_left (aat (sm_F S) k)) else with_ghosts S gg G (f_right (aat (sm_F S) k))) = mkgrad ga gb).
    { destruct (Nat.ltb_spec k (sm_nb S)); auto. unfold with_ghosts. destruct (Nat.ltb_spec (f_right (aat (sm_F S) k)) (sm_ne S)).
      - apply GJ; auto. right. exists k. split; auto. split; auto.
      - destruct (Nat.lt_ge_cases k (sm_nb S + sm_ni S)). { pose proof (so_int _ OK k ltac:(lia)). lia. }
        rewrite (so_con _ OK k) by lia. replace (sm_ne S + (k - sm_nb S - sm_ni S) - sm_ne S)%nat with (k - sm_nb S - sm_ni S)%nat by lia. apply Hgg.
        unfold sm_nf_all in Hk; lia. replace (sm_nb S + sm_ni S + (k - sm_nb S - sm_ni S))%nat with k by lia. auto. }
    rewrite W2, W1. replace (vscal (1/2) (vadd (gvec (mkgrad ga gb) v) (gvec (mkgrad ga gb) v))) with (mkv (cget ga v) (cget gb v)). 2:{ unfold gvec; cbn [gx gy]. apply v2_eq; cbn; field. }
    rewrite corrected_linear. unfold dot2; cbn [vx vy]. ring. exact (CD k Hk). destruct v; unfold dot2; cbn; ring. }
  rewrite O. lra.
Qed.
Print Assumptions C79_linear.

(** ** The matrix *)
Lemma zero_gradients S u ug (G0 G : arr grad) : alen G0 = (sm_ne S + sm_nc S)%nat -> compute_gradients S GZero u ug G0 = Some G -> forall i, (i < sm_ne S)%nat -> aat G i = grad0.
Proof.
  intros L E. cbn [compute_gradients] in E. destruct (zero_ok S G0 ltac:(lia)) as (G' & E' & _ & P & _). unfold ZeroGradients in E. rewrite E' in E. injection E as <-. exact P.
Qed.

Lemma thin_fick S nu u g ub k v : (forall j, (j < sm_ne S + sm_nc S)%nat -> g j = grad0) -> (f_left (aat (sm_F S) k) < sm_ne S)%nat -> ((k < sm_nb S)%nat \/ (f_right (aat (sm_F S) k) < sm_ne S + sm_nc S)%nat) ->
  cget (fick S nu u g ub k) v = conductance S nu k * (cget (left_value S u k) v - cget (right_value S u ub k) v).
Proof.
  intros Hg HL HR. unfold fick, conductance. cbv zeta. rewrite cget_mkst.
  assert (W : (if (k <? sm_nb S)%nat then g (f_left (aat (sm_F S) k)) else g (f_right (aat (sm_F S) k))) = grad0).
  { destruct (Nat.ltb_spec k (sm_nb S)); apply Hg; lia. }
  rewrite W, Hg by lia. replace (vscal (1/2) (vadd (gvec grad0 v) (gvec grad0 v))) with vzero. 2:{ destruct v; apply v2_eq; cbn; ring. }
  set (rl := left_value S (aat (sm_rc S)) k). set (rr := right_value S (aat (sm_rc S)) (aat (sm_rcbp S)) k). unfold corrected, towards, dot2, vadd, vscal, vzero, Rdiv. cbv zeta. cbn [vx vy]. ring.
Qed.

(** the physical boundary faces of cell [i] *)
Definition boundary_faces_of (S : smesh) (i : nat) : list nat := filter (fun k => (f_left (aat (sm_F S) k) =? i)%nat) (seq 0 (sm_nb S)).

(** With zero gradients and a source that does not depend on the solution the residual is affine,
    and the matrix is minus its linear part except that a boundary face enters the diagonal block
    of its cell with one conductance instead of two. *)
Theorem C79_jacobian : forall m hs X ghost S, built m hs X ghost S -> centres_differ S ->
  forall d h ju jg G0 gg (u u' res : arr st) (b : bool) dt row col N, df_gs d = GZero -> (forall x a a', df_src d x a = df_src d x a') -> (b = true -> df_nu d <> 0) ->
  alen u = (sm_ne S + sm_nc S)%nat -> alen u' = (sm_ne S + sm_nc S)%nat -> alen G0 = (sm_ne S + sm_nc S)%nat -> alen h = sm_ne S -> alen dt = sm_ne S -> alen res = sm_ne S ->
  (forall k, (k < sm_nc S)%nat -> gg k = grad0) ->
  (forall i, (i < sm_ne S)%nat -> (row i < N)%nat) ->
  (forall i j, (i < sm_ne S)%nat -> (j < sm_ne S)%nat -> row i = row j -> i = j) ->
  (forall k, (k < sm_nc S)%nat -> exists c, col = Some c /\ (c k < N)%nat) ->
  exists A, diff_jacobian S d u row col (fun _ _ => mat0) = Some A /\
  (forall p q, (forall i, (i < sm_ne S)%nat -> row i <> p) -> A p q = mat0) /\
  exists dt1 r1 dt2 r2, diff_residual S d h ju jg G0 gg u res b (Some dt) = Some (Val (dt1, r1)) /\ diff_residual S d h ju jg G0 gg u' res b (Some dt) = Some (Val (dt2, r2)) /\
  forall w : nat -> st,
    (forall j, (j < sm_ne S)%nat -> w (row j) = ssub (aat u' j) (aat u j)) ->
    (forall k c, (k < sm_nc S)%nat -> col = Some c -> w (c k) = ssub (aat u' (sm_ne S + k)%nat) (aat u (sm_ne S + k)%nat)) ->
    forall i v, (i < sm_ne S)%nat ->
      cget (aat r2 i) v - cget (aat r1 i) v = - (app N w A (row i) v + rsum (fun k => conductance S (df_nu d) k) (boundary_faces_of S i) * cget (w (row i)) v) /\
      (boundary_faces_of S i = [] -> cget (aat r2 i) v - cget (aat r1 i) v = - app N w A (row i) v).
Proof.
  intros m hs X ghost S B CD d h ju jg G0 gg u u' res b dt row col N EZ Hs Hnu Lu Lu' LG0 Lh Ld LR Hgg Hrow Hinj Hcol. pose proof (built_sm _ _ _ _ _ B) as OK.
  destruct (matrix_action S d u row col N OK Lu Hrow Hinj Hcol (fun _ _ => mat0)) as (A & EA & PA & QA). exists A. split; auto. split; auto.
  destruct (diff_residual_ok S d h ju jg G0 gg u res b dt OK Lu ltac:(rewrite EZ; exact Logic.I) LG0 Lh Ld LR Hnu) as (ug & G & dt1 & r1 & Lg & Pg & EG & LG & E & _ & _ & _ & P).
  destruct (diff_residual_ok S d h ju jg G0 gg u' res b dt OK Lu' ltac:(rewrite EZ; exact Logic.I) LG0 Lh Ld LR Hnu) as (ug' & G' & dt2 & r2 & Lg' & Pg' & EG' & LG' & E' & _ & _ & _ & P').
  exists dt1, r1, dt2, r2. split; auto. split; auto. intros w Hw Hc i v Hi. rewrite EZ in EG, EG'. pose proof (zero_gradients S u ug G0 G LG0 EG) as Z. pose proof (zero_gradients S u' ug' G0 G' LG0 EG') as Z'.
  assert (W : forall j, (j < sm_ne S + sm_nc S)%nat -> with_ghosts S gg G j = grad0) by (intros j Hj; unfold with_ghosts; destruct (Nat.ltb_spec j (sm_ne S)); auto; apply Hgg; lia).
  assert (W' : forall j, (j < sm_ne S + sm_nc S)%nat -> with_ghosts S gg G' j = grad0) by (intros j Hj; unfold with_ghosts; destruct (Nat.ltb_spec j (sm_ne S)); auto; apply Hgg; lia).
  enough (M : cget (aat r2 i) v - cget (aat r1 i) v = - (app N w A (row i) v + rsum (fun k => conductance S (df_nu d) k) (boundary_faces_of S i) * cget (w (row i)) v)).
  { split; auto. intros Hz. rewrite M, Hz. cbn. lra. }
  rewrite (proj2 (P i Hi)), (proj2 (P' i Hi)). rewrite (Hs _ (aat u' i) (aat u i)).
  set (x := fun j => if (j <? sm_ne S)%nat then w (row j) else match col with Some c => w (c (j - sm_ne S)%nat) | None => szero end).
  assert (Hx : forall j, (j < sm_ne S + sm_nc S)%nat -> x j = ssub (aat u' j) (aat u j)).
  { intros j Hj. unfold x. destruct (Nat.ltb_spec j (sm_ne S)); auto. destruct (Hcol (j - sm_ne S)%nat ltac:(lia)) as (c & -> & _). rewrite (Hc (j - sm_ne S)%nat c) by (auto; lia). replace (sm_ne S + (j - sm_ne S))%nat with j by lia. reflexivity. }
  rewrite (PA w x). 3:{ intros k c Hk Ec. unfold x. destruct (Nat.ltb_spec (sm_ne S + k) (sm_ne S)); [lia|]. rewrite Ec. f_equal. f_equal. lia. } 2:{ intros j Hj. unfold x. destruct (Nat.ltb_spec j (sm_ne S)); auto. lia. } 2: auto.
  assert (Z0 : app N w (fun _ _ => mat0) (row i) v = 0). { unfold app. apply rsum_zero. intros q _. destruct v; unfold sdot; cbn; ring. } rewrite Z0.
  set (Fu := fick S (df_nu d) (aat u) (with_ghosts S gg G) (aat ug)). set (Fu' := fick S (df_nu d) (aat u') (with_ghosts S gg G') (aat ug')).
  enough (O : outflow S Fu' i v - outflow S Fu i v = outflow S (thin S d x) i v + rsum (fun k => conductance S (df_nu d) k) (boundary_faces_of S i) * cget (w (row i)) v) by lra.
  unfold boundary_faces_of. rewrite rsum_filter, <- rsum_scal_r. unfold outflow, all_faces. rewrite <- rsum_minus.
  unfold sm_nf_all. rewrite <- Nat.add_assoc, seq_app, !rsum_app.
  match goal with |- ?a + ?b = ?c + ?d + ?e => enough (a = c + e /\ b = d) as (-> & ->) by lra end.
  assert (D : forall k, (k < sm_nf_all S)%nat -> cget (Fu' k) v - cget (Fu k) v = cget (thin S d x k) v + (if (k <? sm_nb S)%nat then conductance S (df_nu d) k * cget (x (f_left (aat (sm_F S) k))) v else 0)).
  { intros k Hk. pose proof (so_left _ OK k Hk) as HL. unfold Fu, Fu'.
    assert (HR : (k < sm_nb S)%nat \/ (f_right (aat (sm_F S) k) < sm_ne S + sm_nc S)%nat) by (destruct (Nat.lt_ge_cases k (sm_nb S)); [left; auto|right; apply right_lt; auto]).
    rewrite !thin_fick by auto. unfold thin. rewrite cget_mkst. unfold left_value, right_value. rewrite Hx by lia.
    destruct (Nat.ltb_spec k (sm_nb S)).
    - rewrite Pg, Pg' by auto. unfold dirichlet, left_value. rewrite !cget_mkst. destruct v; cbn; ring.
    - rewrite Hx by lia. destruct v; cbn; ring. }
  split.
  - rewrite <- rsum_plus. apply rsum_ext. intros k Hk. apply in_seq in Hk. specialize (D k ltac:(unfold sm_nf_all; lia)). destruct (Nat.ltb_spec k (sm_nb S)); [|lia].
    assert (NE : f_right (aat (sm_F S) k) <> i) by (rewrite (so_phy _ OK k); lia).
    destruct (Nat.eqb_spec (f_right (aat (sm_F S) k)) i); [lia|]. destruct (Nat.eqb_spec (f_left (aat (sm_F S) k)) i) as [El|]; [|lra].
    rewrite El in D. unfold x in D at 2. destruct (Nat.ltb_spec i (sm_ne S)); [|lia]. lra.
  - apply rsum_ext. intros k Hk. apply in_seq in Hk. specialize (D k ltac:(unfold sm_nf_all; lia)). destruct (Nat.ltb_spec k (sm_nb S)); [lia|].
    destruct (Nat.eqb_spec (f_right (aat (sm_F S) k)) i), (Nat.eqb_spec (f_left (aat (sm_F S) k)) i); lra.
Qed.
Print Assumptions C79_jacobian.

(** On one process the matrix is symmetric with the quadratic form of a resistor network; it is
    positive semidefinite when no conductance is negative. *)
Theorem C79_energy : forall m hs X ghost S, built m hs X ghost S -> centres_differ S -> sm_nc S = 0%nat ->
  forall d (u : arr st), alen u = (sm_ne S + sm_nc S)%nat ->
  exists A, diff_jacobian S d u (fun i => i) None (fun _ _ => mat0) = Some A /\
  (forall (x y : nat -> st) v, rsum (fun i => cget (y i) v * app (sm_ne S) x A i v) (all_cells S) =
     rsum (fun k => conductance S (df_nu d) k * (cget (left_value S x k) v * cget (left_value S y k) v)) (seq 0 (sm_nb S)) +
     rsum (fun k => conductance S (df_nu d) k * ((cget (left_value S x k) v - cget (x (f_right (aat (sm_F S) k))) v) * (cget (left_value S y k) v - cget (y (f_right (aat (sm_F S) k))) v))) (seq (sm_nb S) (sm_ni S))) /\
  (forall (x y : nat -> st) v, rsum (fun i => cget (y i) v * app (sm_ne S) x A i v) (all_cells S) = rsum (fun i => cget (x i) v * app (sm_ne S) y A i v) (all_cells S)) /\
  ((forall k, (k < sm_nf_all S)%nat -> 0 <= conductance S (df_nu d) k) -> forall (x : nat -> st) v, 0 <= rsum (fun i => cget (x i) v * app (sm_ne S) x A i v) (all_cells S)).
Proof.
  intros m hs X ghost S B CD Hc d u Lu. pose proof (built_sm _ _ _ _ _ B) as OK.
  destruct (matrix_action S d u (fun i => i) None (sm_ne S) OK Lu ltac:(auto) ltac:(auto) ltac:(intros; lia) (fun _ _ => mat0)) as (A & EA & PA & _). exists A. split; auto.
  assert (M : forall (x y : nat -> st) v, rsum (fun i => cget (y i) v * app (sm_ne S) x A i v) (all_cells S) =
     rsum (fun k => conductance S (df_nu d) k * (cget (left_value S x k) v * cget (left_value S y k) v)) (seq 0 (sm_nb S)) +
     rsum (fun k => conductance S (df_nu d) k * ((cget (left_value S x k) v - cget (x (f_right (aat (sm_F S) k))) v) * (cget (left_value S y k) v - cget (y (f_right (aat (sm_F S) k))) v))) (seq (sm_nb S) (sm_ni S))).
  { intros x y v. transitivity (rsum (fun i => rsum (fun k => (if (f_left (aat (sm_F S) k) =? i)%nat then cget (thin S d x k) v * cget (y i) v else 0) - (if (f_right (aat (sm_F S) k) =? i)%nat then cget (thin S d x k) v * cget (y i) v else 0)) (all_faces S)) (all_cells S)).
    - apply rsum_ext. intros i Hi. apply in_seq in Hi. rewrite (PA x x) by (auto; discriminate || lia).
      replace (app (sm_ne S) x (fun _ _ => mat0) i v) with 0. 2:{ unfold app. symmetry. apply rsum_zero. intros q _. destruct v; unfold sdot; cbn; ring. }
      rewrite Rplus_0_l. unfold outflow. rewrite <- rsum_scal. apply rsum_ext. intros k _. destruct (_ =? _)%nat, (_ =? _)%nat; ring.
    - rewrite rsum_swap.
      assert (Pick : forall j k, (j < sm_ne S)%nat -> rsum (fun i => if (j =? i)%nat then cget (thin S d x k) v * cget (y i) v else 0) (all_cells S) = cget (thin S d x k) v * cget (y j) v).
      { intros j k Hj. unfold all_cells. etransitivity; [|exact (rsum_single (fun i => cget (thin S d x k) v * cget (y i) v) (sm_ne S) j Hj)]. apply rsum_ext. intros i _. rewrite Nat.eqb_sym. reflexivity. }
      unfold all_faces, sm_nf_all. rewrite Hc, Nat.add_0_r, seq_app, rsum_app. cbn [Nat.add].
      f_equal; apply rsum_ext; intros k Hk; apply in_seq in Hk; pose proof (so_left _ OK k ltac:(unfold sm_nf_all; lia)) as HL; rewrite rsum_minus, Pick by auto.
      + rewrite rsum_zero. 2:{ intros i Hi. apply in_seq in Hi. rewrite (so_phy _ OK k) by lia. destruct (Nat.eqb_spec (sm_ne S + sm_nc S + k) i); auto. lia. }
        unfold thin. rewrite cget_mkst. unfold right_value. destruct (Nat.ltb_spec k (sm_nb S)); [|lia]. cbn [cget]. unfold left_value. destruct v; cbn; ring.
      + rewrite Pick by (pose proof (so_int _ OK k ltac:(lia)); lia). unfold thin. rewrite cget_mkst. unfold right_value. destruct (Nat.ltb_spec k (sm_nb S)); [lia|]. unfold left_value. ring. }
  split; auto. split.
  - intros x y v. rewrite !M. f_equal; apply rsum_ext; intros; ring.
  - intros Hp x v. rewrite M. apply Rplus_le_le_0_compat; apply rsum_nonneg; intros k Hk; apply in_seq in Hk; apply Rmult_le_pos; try (apply Hp; unfold sm_nf_all; lia); apply Rle_0_sqr.
Qed.
Print Assumptions C79_energy.

(** ** Gradients for output *)
Theorem C79_getGradients : forall m hs X ghost S, built m hs X ghost S ->
  forall d jg (u : arr st) G0, gscheme_runs S (df_gs d) -> alen u = (sm_ne S + sm_nc S)%nat -> alen G0 = (sm_ne S + sm_nc S)%nat ->
  (sm_nb S = 0%nat -> diff_getGradients S d jg u G0 = None) /\
  ((0 < sm_nb S)%nat -> forall gg, exists ug g G, gradients_of S d G0 gg u ug g /\ diff_getGradients S d jg u G0 = Some G /\ forall i, (i < sm_ne S)%nat -> aat G i = g i).
Proof.
  intros m hs X ghost S B d jg u G0 HS Lu LG0. pose proof (built_sm _ _ _ _ _ B) as OK.
  assert (K : exists ug, floop (sm_nb S) (fun k ug => fc <- aget (sm_F S) k ;; ul <- aget u (f_left fc) ;; aset ug k (diff_boundary_state d ul)) (mkarr (sm_nb S) jg) = Some ug /\
    alen ug = sm_nb S /\ forall k, (k < sm_nb S)%nat -> aat ug k = dirichlet S (df_bval d) (aat u) k).
  { match goal with |- context [floop _ ?bb ?ss] =>
      destruct (floop_inv _ (fun j (a : arr st) => alen a = sm_nb S /\ (forall k, (k < j)%nat -> aat a k = dirichlet S (df_bval d) (aat u) k)) (sm_nb S) bb ss) as (a & E & L & P) end.
    - split; auto. intros; lia.
    - intros k a Hk (L & P). assert (Kk : (k < sm_nf_all S)%nat) by (unfold sm_nf_all; lia). pose proof (so_left _ OK k Kk).
      rewrite aget_ok by (rewrite (so_F _ OK); auto). cbn [bind]. rewrite aget_ok by lia. cbn [bind]. rewrite aset_ok by lia. eexists; split; [reflexivity|].
      cbn. split; auto. intros q Hq; unfold upd; destruct (Nat.eqb_spec q k); subst; auto. apply P; lia.
    - eauto. }
  destruct K as (ug & E & Lg & Pg). unfold diff_getGradients. split.
  - intros Z. rewrite E. cbn [bind]. unfold aget. rewrite Lg, Z. reflexivity.
  - intros Hb gg. rewrite E. cbn [bind]. rewrite aget_ok by lia. cbn [bind].
    destruct (gradients_run S (df_gs d) u ug G0 OK HS Lu Lg LG0) as (G & EG & LG). exists ug, (with_ghosts S gg G), G. split.
    + split; auto. split; auto. exists G. split; auto. unfold with_ghosts. split; intros j Hj.
      * destruct (Nat.ltb_spec j (sm_ne S)); auto; lia.
      * destruct (Nat.ltb_spec (sm_ne S + j) (sm_ne S)); [lia|]. f_equal. lia.
    + split; auto. intros i Hi. unfold with_ghosts. destruct (Nat.ltb_spec i (sm_ne S)); auto; lia.
Qed.
Print Assumptions C79_getGradients.

(** ** Components *)
Lemma gradient_component S gs (u ug u' ug' : arr st) G0 G0' G G' v : sm_ok S -> gscheme_runs S gs ->
  alen u = (sm_ne S + sm_nc S)%nat -> alen u' = (sm_ne S + sm_nc S)%nat -> alen ug = sm_nb S -> alen ug' = sm_nb S ->
  alen G0 = (sm_ne S + sm_nc S)%nat -> alen G0' = (sm_ne S + sm_nc S)%nat ->
  (forall j, (j < sm_ne S + sm_nc S)%nat -> cget (aat u j) v = cget (aat u' j) v) -> (forall k, (k < sm_nb S)%nat -> cget (aat ug k) v = cget (aat ug' k) v) ->
  compute_gradients S gs u ug G0 = Some G -> compute_gradients S gs u' ug' G0' = Some G' ->
  forall i, (i < sm_ne S)%nat -> gvec (aat G i) v = gvec (aat G' i) v.
Proof.
  intros OK HS Lu Lu' Lg Lg' LG LG' Hu Hg E E' i Hi.
  assert (HR : forall k, (k < sm_nf_all S)%nat -> cget (right_value S (aat u) (aat ug) k) v = cget (right_value S (aat u') (aat ug') k) v).
  { intros k Hk. unfold right_value. destruct (Nat.ltb_spec k (sm_nb S)); auto. apply Hu. apply right_lt; auto. }
  assert (HL : forall k, (k < sm_nf_all S)%nat -> cget (aat u (f_left (aat (sm_F S) k))) v = cget (aat u' (f_left (aat (sm_F S) k))) v).
  { intros k Hk. apply Hu. pose proof (so_left _ OK k Hk). lia. }
  destruct gs as [| |V]; cbn [compute_gradients] in E, E'.
  - rewrite (zero_gradients S u ug G0 G LG E i Hi), (zero_gradients S u' ug' G0' G' LG' E' i Hi). reflexivity.
  - destruct (gg_formula S u ug OK Lu Lg G0 ltac:(lia)) as (G1 & E1 & _ & P1). rewrite E in E1. injection E1 as <-.
    destruct (gg_formula S u' ug' OK Lu' Lg' G0' ltac:(lia)) as (G1 & E1 & _ & P1'). rewrite E' in E1. injection E1 as <-.
    assert (Q : forall d, gsel d v (aat G i) = gsel d v (aat G' i)).
    { intros d. rewrite P1, P1' by auto. f_equal. apply rsum_ext. intros k Hk. apply in_seq in Hk. cbv zeta. unfold uR_at. rewrite HL, HR by lia. reflexivity. }
    apply v2_eq; [exact (Q DX)|exact (Q DY)].
  - destruct (wls_grad_ok S OK u ug Lu Lg V G0 HS ltac:(lia)) as (G1 & E1 & _ & P1 & _). rewrite E in E1. injection E1 as <-.
    destruct (wls_grad_ok S OK u' ug' Lu' Lg' V G0' HS ltac:(lia)) as (G1 & E1 & _ & P1' & _). rewrite E' in E1. injection E1 as <-.
    rewrite P1, P1' by auto.
    assert (Q : forall d, gsel d v (fsum S u ug i) = gsel d v (fsum S u' ug' i)).
    { assert (Q0 : forall d k, bounds S i k -> gsel d v (fk S u ug k) = gsel d v (fk S u' ug' k)).
      { intros d k (Hk & _). unfold fk, uL, uRr, wls_vec. cbv zeta. specialize (HL k Hk). specialize (HR k Hk). destruct d, v; cbn in HL, HR |- *; rewrite HL, HR; reflexivity. }
      intros [|]; unfold fsum, gsel; cbn [gx gy]; rewrite !cget_mkst; apply (cellsum_ext S u ug Lu Lg); intros k Bk; [exact (Q0 DX k Bk)|exact (Q0 DY k Bk)]. }
    pose proof (Q DX) as QX. pose proof (Q DY) as QY. unfold gsel in QX, QY. unfold gvec, m2grad. cbn [gx gy]. rewrite !cget_mkst, QX, QY. reflexivity.
Qed.

(** Every component of the result depends only on that component of the data, so the operator for
    one variable is a component of the one modelled here. *)
Theorem C79_components : forall m hs X ghost S, built m hs X ghost S ->
  forall d d' h ju jg ju' jg' G0 G0' gg gg' (u u' res res' : arr st) (b : bool) dt v,
  df_nu d = df_nu d' -> df_bval d = df_bval d' -> df_gs d = df_gs d' -> gscheme_runs S (df_gs d) -> (b = true -> df_nu d <> 0) ->
  alen u = (sm_ne S + sm_nc S)%nat -> alen u' = (sm_ne S + sm_nc S)%nat -> alen G0 = (sm_ne S + sm_nc S)%nat -> alen G0' = (sm_ne S + sm_nc S)%nat ->
  alen h = sm_ne S -> alen dt = sm_ne S -> alen res = sm_ne S -> alen res' = sm_ne S ->
  (forall j, (j < sm_ne S + sm_nc S)%nat -> cget (aat u j) v = cget (aat u' j) v) ->
  (forall j, (j < sm_ne S)%nat -> cget (aat res j) v = cget (aat res' j) v) ->
  (forall k, (k < sm_nc S)%nat -> gvec (gg k) v = gvec (gg' k) v) ->
  (forall x a a', cget a v = cget a' v -> cget (df_src d x a) v = cget (df_src d' x a') v) ->
  exists dt1 r1 dt2 r2, diff_residual S d h ju jg G0 gg u res b (Some dt) = Some (Val (dt1, r1)) /\ diff_residual S d' h ju' jg' G0' gg' u' res' b (Some dt) = Some (Val (dt2, r2)) /\
  forall i, (i < sm_ne S)%nat -> aat dt1 i = aat dt2 i /\ cget (aat r1 i) v = cget (aat r2 i) v.
Proof.
  intros m hs X ghost S B d d' h ju jg ju' jg' G0 G0' gg gg' u u' res res' b dt v En Eb Es HS Hnu Lu Lu' LG0 LG0' Lh Ld LR LR' Hu Hr Hgg Hs. pose proof (built_sm _ _ _ _ _ B) as OK.
  destruct (diff_residual_ok S d h ju jg G0 gg u res b dt OK Lu HS LG0 Lh Ld LR Hnu) as (ug & G & dt1 & r1 & Lg & Pg & EG & LG & E & _ & _ & _ & P).
  destruct (diff_residual_ok S d' h ju' jg' G0' gg' u' res' b dt OK Lu' ltac:(rewrite <- Es; exact HS) LG0' Lh Ld LR' ltac:(rewrite <- En; exact Hnu)) as (ug' & G' & dt2 & r2 & Lg' & Pg' & EG' & LG' & E' & _ & _ & _ & P').
  exists dt1, r1, dt2, r2. split; auto. split; auto. intros i Hi. destruct (P i Hi) as (P1 & P2). destruct (P' i Hi) as (P1' & P2'). split. { rewrite P1, P1', En. reflexivity. }
  rewrite P2, P2', (Hr i Hi), (Hs _ _ _ (Hu i ltac:(lia))). do 2 f_equal.
  assert (Hg : forall k, (k < sm_nb S)%nat -> cget (aat ug k) v = cget (aat ug' k) v).
  { intros k Hk. rewrite Pg, Pg' by auto. unfold dirichlet, left_value. rewrite !cget_mkst, Eb, (Hu _). reflexivity. pose proof (so_left _ OK k ltac:(unfold sm_nf_all; lia)). lia. }
  rewrite <- Es in EG'. pose proof (gradient_component S (df_gs d) u ug u' ug' G0 G0' G G' v OK HS Lu Lu' Lg Lg' LG0 LG0' Hu Hg EG EG') as HG.
  assert (HW : forall j, (j < sm_ne S + sm_nc S)%nat -> gvec (with_ghosts S gg G j) v = gvec (with_ghosts S gg' G' j) v).
  { intros j Hj. unfold with_ghosts. destruct (Nat.ltb_spec j (sm_ne S)); auto. apply Hgg. lia. }
  unfold outflow. apply rsum_ext. intros k Hk. apply in_seq in Hk. pose proof (so_left _ OK k ltac:(lia)) as HL.
  assert (Q : cget (fick S (df_nu d) (aat u) (with_ghosts S gg G) (aat ug) k) v = cget (fick S (df_nu d') (aat u') (with_ghosts S gg' G') (aat ug') k) v).
  { unfold fick. cbv zeta. rewrite !cget_mkst, En. do 2 f_equal.
    assert (A1 : cget (left_value S (aat u) k) v = cget (left_value S (aat u') k) v) by (apply Hu; lia).
    assert (A2 : cget (right_value S (aat u) (aat ug) k) v = cget (right_value S (aat u') (aat ug') k) v).
    { unfold right_value. destruct (Nat.ltb_spec k (sm_nb S)); auto. apply Hu. apply right_lt; auto; lia. }
    rewrite A1, A2. f_equal. rewrite (HW (f_left (aat (sm_F S) k))) by lia. do 2 f_equal.
    destruct (Nat.ltb_spec k (sm_nb S)); apply HW. lia. apply right_lt; auto; lia. }
  rewrite Q. reflexivity.
Qed.
Print Assumptions C79_components.

(** ** A triangle with one boundary face and two neighbours on other processes *)
Definition oneg (k : nat) : v2 := if (k =? 0)%nat then mkv (2/3) (2/3) else mkv (-1/3) (1/3).
Lemma one_built2 : exists S, built exone [(0,0)%nat] exX3t oneg S.
Proof.
  destruct (C86_setup_total exone [(0,0)%nat] exX3t oneg (fun _ _ => 0%Z) (fun _ => mkface 0 0 0 0) (fun _ _ => 0%nat) (fun _ => []) (fun _ => mkfm vzero 0) (fun _ => 0%R) (fun _ => vzero) (fun _ => vzero)) as (S & _ & B); eauto.
  apply tiledb_ok; vm_compute; reflexivity. intros c [<-|[]]; cbn; auto.
Qed.
Lemma one_distinct : distinct_ends exone exX3t.
Proof. intros i f Hi Hf. cbn in Hi. assert (i = 0)%nat by lia. subst i. cbn in Hf. destruct f as [|[|[|f]]]; try lia; cbn; intros E; inversion E; lra. Qed.
Lemma one_shape S : built exone [(0,0)%nat] exX3t oneg S -> sm_ne S = 1%nat /\ sm_nb S = 1%nat /\ sm_ni S = 0%nat /\ sm_nc S = 2%nat /\
  f_left (aat (sm_F S) 0) = 0%nat /\ f_left (aat (sm_F S) 1) = 0%nat /\ f_left (aat (sm_F S) 2) = 0%nat /\
  f_right (aat (sm_F S) 0) = 3%nat /\ f_right (aat (sm_F S) 1) = 1%nat /\ f_right (aat (sm_F S) 2) = 2%nat /\
  aat (sm_rc S) 0%nat = mkv (1/3) (1/3) /\ aat (sm_rc S) 1%nat = mkv (2/3) (2/3) /\ aat (sm_rc S) 2%nat = mkv (-1/3) (1/3) /\
  aat (sm_rcbp S) 0%nat = mkv (2/3) (-1/3) /\ aat (sm_M S) 0%nat = mkfm (mkv 0 (-1)) 1 /\ aat (sm_A S) 0%nat = 1/2.
Proof.
  intros B. destruct (built_ok _ _ _ _ _ B) as (p & e & ni & s & il & TO & OK & E1 & E2 & E3 & E4 & E5 & E6 & IA & IC & IG & _).
  change (nelem exone) with 1%nat in *. change (nbface exone) with 1%nat in *. change (nconnface exone) with 2%nat in *.
  assert (HNI : sm_ni S = 0%nat).
  { destruct (Nat.eq_dec (sm_ni S) 0); auto. pose proof (so_int _ OK 1%nat ltac:(lia)). lia. }
  destruct (built_conn _ _ _ _ _ 0 (mkcf 0 1 0 0 0) B eq_refl) as (H0 & F1). destruct (built_conn _ _ _ _ _ 1 (mkcf 0 2 0 0 0) B eq_refl) as (H1 & F2).
  rewrite E1, E2, HNI in F1, F2. cbn [Nat.add] in F1, F2.
  pose proof (to_ranges _ _ _ _ _ _ _ TO) as (bl & cl & EF & Lb & Lc & Hbl & _).
  assert (F0 : aat (sm_F S) 0 = mkface 0 3 0 1).
  { pose proof (Hbl 0%nat _ _ eq_refl eq_refl) as Q.
    assert (Q2 : nth_error (bl ++ il ++ cl) 0 = Some (Pf_Faces.bface_entry exone 0 (mkbf 0 1 [1%Z]) (0%nat,0%nat))) by (rewrite nth_error_app1; auto; rewrite Lb; cbn; lia).
    rewrite <- EF in Q2. rewrite nth_alist in Q2. 2:{ rewrite (to_len _ _ _ _ _ _ _ TO). change (nbface exone) with 1%nat. lia. }
    rewrite E5. injection Q2. intros ->. reflexivity. }
  assert (RC : aat (sm_rc S) 0%nat = mkv (1/3) (1/3)) by (rewrite IC by lia; apply v2_eq; cbn; field).
  rewrite F0, F1, F2. cbn [f_left f_right cf_elem]. rewrite E1, E2, E4. repeat (split; [solve [auto]|]).
  split; [exact (IG 0%nat ltac:(lia))|]. split; [exact (IG 1%nat ltac:(lia))|]. split; [|split].
  - rewrite (so_bp _ OK), (so_mid _ OK) by (unfold sm_nf_all; lia). rewrite F0, E6. cbn [f_left f_a f_b]. rewrite RC. apply v2_eq; cbn; field.
  - rewrite (so_met _ OK) by (unfold sm_nf_all; lia). rewrite F0, E6. unfold face_metric. cbn [f_a f_b exX3t aat nth vx vy].
    replace (sqrt ((0 - 0) ^ 2 + (-1 * (1 - 0)) ^ 2)) with 1 by (symmetry; transitivity (sqrt 1); [f_equal; ring|apply sqrt_1]). f_equal. apply v2_eq; cbn; field.
  - rewrite IA by lia. unfold polygon_area, cross; cbn. field.
Qed.

Definition sone (a : R) : st := mks a a a a.
Definition onu (j : nat) : st := sone (match j with 0%nat => 1/3 | 1%nat => 2/3 | _ => 1/3 end).
Definition od (gs : gradscheme) : diffn := mkdiff 2 0 (fun _ _ => szero) gs.

Lemma one_faces S k i : built exone [(0,0)%nat] exX3t oneg S -> bounds S i k -> (k = 0 \/ k = 1 \/ k = 2)%nat.
Proof. intros B (Hk & _). destruct (one_shape S B) as (E1 & E2 & E3 & E4 & _). unfold sm_nf_all in Hk. lia. Qed.
Lemma one_centres S : built exone [(0,0)%nat] exX3t oneg S -> centres_differ S.
Proof.
  intros B k Hk. destruct (one_shape S B) as (E1 & E2 & E3 & E4 & L0 & L1 & L2 & R0 & R1 & R2 & C0 & C1 & C2 & CB & _).
  unfold sm_nf_all in Hk. assert (k = 0 \/ k = 1 \/ k = 2)%nat as [-> | [-> | ->]] by lia; unfold left_value, right_value; rewrite E2.
  - rewrite L0, C0. change (0 <? 1)%nat with true. cbn iota. rewrite CB. intros Q; injection Q; lra.
  - rewrite L1, R1, C0, C1. change (1 <? 1)%nat with false. cbn iota. intros Q; injection Q; lra.
  - rewrite L2, R2, C0, C2. change (2 <? 1)%nat with false. cbn iota. intros Q; injection Q; lra.
Qed.
(** the field u = y with boundary value 0 on y = 0 meets the hypotheses of C79_linear *)
Example C79_linear_ex : exists S, built exone [(0,0)%nat] exX3t oneg S /\ distinct_ends exone exX3t /\ centres_differ S /\ (0 < sm_ne S)%nat /\
  forall j, (j < sm_ne S)%nat -> linear_near S onu (dirichlet S 0 onu) szero szero (sone 1) j /\ good_stencil S j.
Proof.
  destruct one_built2 as (S & B). exists S. split; auto. split. exact one_distinct. split. exact (one_centres S B).
  destruct (one_shape S B) as (E1 & E2 & E3 & E4 & L0 & L1 & L2 & R0 & R1 & R2 & C0 & C1 & C2 & CB & _). split; [lia|].
  intros j Hj. assert (j = 0)%nat by lia. subst j. split.
  - intros k Bk. destruct (one_faces S k 0 B Bk) as [-> | [-> | ->]]; unfold left_value, right_value, dirichlet, left_value; rewrite E2.
    + rewrite L0, C0. change (0 <? 1)%nat with true. cbn iota. rewrite CB. split; apply st_ext; intros v; destruct v; cbn; field.
    + rewrite L1, R1, C0, C1. change (1 <? 1)%nat with false. cbn iota. split; apply st_ext; intros v; destruct v; cbn; field.
    + rewrite L2, R2, C0, C2. change (2 <? 1)%nat with false. cbn iota. split; apply st_ext; intros v; destruct v; cbn; field.
  - unfold good_stencil. cbv zeta. unfold beyond, right_value. rewrite E2, C0. split.
    + intros k Bk. destruct (one_faces S k 0 B Bk) as [-> | [-> | ->]]; rewrite ?L0, ?L1, ?L2; change (0 =? 0)%nat with true; cbn iota.
      * change (0 <? 1)%nat with true. cbn iota. rewrite CB. intros Q; injection Q; lra.
      * change (1 <? 1)%nat with false. cbn iota. rewrite R1, C1. intros Q; injection Q; lra.
      * change (2 <? 1)%nat with false. cbn iota. rewrite R2, C2. intros Q; injection Q; lra.
    + exists 1%nat, 2%nat. unfold bounds, sm_nf_all. rewrite E2, E3, E4, L1, L2. split; [split; [lia|auto]|]. split; [split; [lia|auto]|].
      change (0 =? 0)%nat with true. cbn iota. change (1 <? 1)%nat with false. change (2 <? 1)%nat with false. cbn iota. rewrite R1, R2, C1, C2. unfold cross, vsub; cbn. lra.
Qed.

(** The matrix is not the derivative of the residual in cells at the physical boundary. *)
Theorem C79_boundary_jacobian_refuted : exists m hs X ghost S d u u' row c N A dt1 r1 dt2 r2 w i v,
  built m hs X ghost S /\ distinct_ends m X /\ centres_differ S /\ df_gs d = GZero /\ 0 < df_nu d /\ alen u = (sm_ne S + sm_nc S)%nat /\ alen u' = (sm_ne S + sm_nc S)%nat /\
  diff_jacobian S d u row (Some c) (fun _ _ => mat0) = Some A /\
  (let run x := diff_residual S d (aconst (sm_ne S) 1) (fun _ => szero) (fun _ => szero) (aconst (sm_ne S + sm_nc S) grad0) (fun _ => grad0) x (aconst (sm_ne S) szero) false (Some (aconst (sm_ne S) 0)) in
   run u = Some (Val (dt1, r1)) /\ run u' = Some (Val (dt2, r2))) /\
  (forall j, (j < sm_ne S)%nat -> w (row j) = ssub (aat u' j) (aat u j)) /\ (forall k, (k < sm_nc S)%nat -> w (c k) = ssub (aat u' (sm_ne S + k)%nat) (aat u (sm_ne S + k)%nat)) /\
  (i < sm_ne S)%nat /\ cget (aat r2 i) v - cget (aat r1 i) v <> - app N w A (row i) v.
Proof.
  destruct one_built2 as (S & B). pose proof (one_centres S B) as CD. destruct (one_shape S B) as (E1 & E2 & E3 & E4 & L0 & L1 & L2 & R0 & R1 & R2 & C0 & C1 & C2 & CB & M0 & _).
  set (u := mkarr (sm_ne S + sm_nc S) (fun _ => szero)). set (u' := mkarr (sm_ne S + sm_nc S) (fun _ => sone 1)).
  destruct (C79_jacobian _ _ _ _ S B CD (od GZero) (aconst (sm_ne S) 1) (fun _ => szero) (fun _ => szero) (aconst (sm_ne S + sm_nc S) grad0) (fun _ => grad0) u u' (aconst (sm_ne S) szero) false (aconst (sm_ne S) 0)
    (fun i => i) (Some (fun k => 1 + k)%nat) 3%nat) as (A & EA & _ & dt1 & r1 & dt2 & r2 & Ra & Rb & P); auto; try discriminate.
  { intros i Hi; lia. } { intros k Hk. eexists. split; [reflexivity|]. cbn. lia. }
  exists exone, [(0,0)%nat], exX3t, oneg, S, (od GZero), u, u', (fun i => i), (fun k => 1 + k)%nat, 3%nat, A, dt1, r1, dt2, r2, (fun _ => sone 1), 0%nat, I0.
  split; auto. split. exact one_distinct. split; auto. split; auto. split; [cbn; lra|]. split; auto. split; auto. split; auto. split; [split; auto|].
  assert (W : sone 1 = ssub (sone 1) szero) by (apply st_ext; intros v; destruct v; cbn; ring).
  split. { intros j Hj. exact W. } split. { intros k Hk. exact W. } split; [lia|].
  destruct (P (fun _ => sone 1) (fun _ _ => W) (fun _ _ _ _ => W) 0%nat I0 ltac:(lia)) as (Q & _). rewrite Q.
  assert (K : rsum (fun k => conductance S (df_nu (od GZero)) k) (boundary_faces_of S 0) = 12/5).
  { unfold boundary_faces_of. rewrite E2. cbn [seq filter]. rewrite L0. change (0 =? 0)%nat with true. cbn [rsum]. rewrite Rplus_0_r.
    unfold conductance. cbv zeta. rewrite M0. unfold left_value, right_value. rewrite E2, L0, C0. change (0 <? 1)%nat with true. cbn iota. rewrite CB. cbn [fm_len fm_n].
    unfold towards. set (D := dist2 (mkv (1/3) (1/3)) (mkv (2/3) (-1/3))).
    assert (DD : D * D = 5/9) by (unfold D, dist2; rewrite sqrt_sqrt; cbn; lra). assert (D <> 0) by (intros Z; rewrite Z in DD; lra).
    unfold dot2, vscal, vsub; cbn [vx vy df_nu od]. transitivity (4/3 / (D * D)); [field; auto|]. rewrite DD. field. }
  rewrite K. cbn [cget sone s0]. lra.
Qed.
Print Assumptions C79_boundary_jacobian_refuted.

(** the hypotheses of C79_residual, C79_constant and C79_components hold for this mesh, with all three schemes *)
Example C79_ex : exists S V, built exone [(0,0)%nat] exX3t oneg S /\ distinct_ends exone exX3t /\ centres_differ S /\ (0 < sm_nb S)%nat /\ (0 < sm_nc S)%nat /\
  scheme_ok S (GLeastSquares V) /\ gscheme_runs S (GLeastSquares V) /\ scheme_ok S GZero /\ 0 < df_nu (od GZero).
Proof.
  destruct C79_linear_ex as (S & B & D & CD & _ & HL). destruct (one_shape S B) as (E1 & E2 & E3 & E4 & _). pose proof (built_sm _ _ _ _ _ B) as OK. destruct (wls_ctor_ok S OK) as (V & EV & LV & _).
  exists S, V. split; auto. split; auto. split; auto. split; [lia|]. split; [lia|]. split. { split; auto. intros i Hi. exact (proj2 (HL i Hi)). } split; [exact LV|]. split; cbn; [auto|lra].
Qed.

(** a mesh on one process, for C79_energy: two quadrilaterals *)
Lemma bx_centres S : built bx bxh bxX bxg S -> centres_differ S.
Proof.
  intros B. destruct (bx_shape S B) as (E1 & E2 & E4 & _). pose proof (built_sm _ _ _ _ _ B) as OK.
  destruct (built_ok _ _ _ _ _ B) as (p & e & ni & s & il & TO & _ & _ & _ & _ & _ & E5 & E6 & _ & IC & _).
  pose proof (to_ranges _ _ _ _ _ _ _ TO) as (bl & cl & EF & Lb & Lc & Hbl & _).
  assert (C0 : aat (sm_rc S) 0%nat = mkv (1/2) (1/2)) by (rewrite IC by (cbn; lia); apply v2_eq; cbn; field).
  assert (C1 : aat (sm_rc S) 1%nat = mkv 2 (1/2)) by (rewrite IC by (cbn; lia); apply v2_eq; cbn; field).
  assert (HF : forall q bf h, nth_error (bfaces bx) q = Some bf -> nth_error bxh q = Some h -> f_left (aat (sm_F S) q) = fst h /\ f_a (aat (sm_F S) q) = b0 bf /\ f_b (aat (sm_F S) q) = b1 bf).
  { intros q bf h Eb Eh. pose proof (Hbl q bf h Eb Eh) as Q. assert (q < length (bfaces bx))%nat by (apply nth_error_Some; congruence).
    assert (Q2 : nth_error (bl ++ il ++ cl) q = Some (Pf_Faces.bface_entry bx q bf h)) by (rewrite nth_error_app1; auto; rewrite Lb; auto).
    rewrite <- EF in Q2. rewrite nth_alist in Q2. 2:{ rewrite (to_len _ _ _ _ _ _ _ TO). change (nbface bx) with (length (bfaces bx)). lia. }
    rewrite E5. injection Q2. intros ->. split; [reflexivity|]. split; reflexivity. }
  intros k Hk. unfold left_value, right_value. destruct (Nat.ltb_spec k (sm_nb S)) as [Hb|Hb].
  - rewrite (so_bp _ OK), (so_mid _ OK), E6 by lia. rewrite E2 in Hb.
    assert (k = 0 \/ k = 1 \/ k = 2 \/ k = 3 \/ k = 4 \/ k = 5)%nat as [-> | [-> | [-> | [-> | [-> | ->]]]]] by lia;
    match goal with |- context [aat (sm_F S) ?q] => destruct (HF q _ _ eq_refl eq_refl) as (-> & -> & ->) end; cbn [fst b0 b1]; rewrite ?C0, ?C1; intros Q; injection Q; cbn; lra.
  - pose proof (so_int _ OK k ltac:(unfold sm_nf_all in Hk; lia)). replace (f_left (aat (sm_F S) k)) with 0%nat by lia. replace (f_right (aat (sm_F S) k)) with 1%nat by lia. rewrite C0, C1. intros Q; injection Q; lra.
Qed.
Example C79_energy_ex : exists S, built bx bxh bxX bxg S /\ centres_differ S /\ sm_nc S = 0%nat /\ (0 < sm_ni S)%nat /\ (0 < sm_nb S)%nat.
Proof. destruct bx_built as (S & B). exists S. destruct (bx_shape S B) as (E1 & E2 & E4 & E5 & _). split; auto. split. exact (bx_centres S B). split; auto. split; auto. lia. Qed.
