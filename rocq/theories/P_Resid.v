(** Properties C63, C65, C68 (and more instances of C55): the residual and the local time steps.
    Vocabulary: S_Resid.v. [bcs_cover S fl bc] (Pf_Resid.v): boundary face [k] finds the boundary
    condition [bc k] by its tag. *)
From Coq Require Import Reals Lra List Arith Lia Permutation ZArith Bool.
From Verif Require Import Base BaseR BaseSum M_Gas M_Flux M_Visc M_BC M_BCConf M_Mesh M_Geom S_Mesh S_Geom S_Gas S_Visc Pf_Topo Pf_Full Pf_Geom P_Geom
  M_Space S_Space Pf_Space M_Grad Pf_Grad M_Conc Pf_Conc P_Grad M_Recon S_Recon Pf_Recon P_Recon M_Resid S_Resid Pf_Resid Pf_Resid2
  Pf_Gas P_Gas P_Flux P_Visc P_BC Pf_FluxUp.
Import ListNotations.
Open Scope R_scope.

(** ** Boundary conditions are found by tag *)
Lemma cover_by_tag m hs X ghost S fl : built m hs X ghost S ->
  (forall bf, In bf (bfaces m) -> exists t r b, btg bf = t :: r /\ mfind (fl_bcs fl) t = Some b) ->
  exists bc, bcs_cover S fl bc /\ forall q bf t r, nth_error (bfaces m) q = Some bf -> btg bf = t :: r -> mfind (fl_bcs fl) t = Some (bc q).
Proof.
  intros B H. destruct (built_ok _ _ _ _ _ B) as (p & e & ni & s & il & TO & OK & E1 & E2 & E3 & E4 & E5 & E6 & _ & _ & _ & _ & _ & _ & _ & EB).
  set (bc := fun k => match face_bc S fl k with Some b => b | None => BExtrap end).
  assert (Q : forall q bf t r, nth_error (bfaces m) q = Some bf -> btg bf = t :: r -> face_bc S fl q = mfind (fl_bcs fl) t).
  { intros q bf t r En Et. assert (Hq : (q < nbface m)%nat) by (apply nth_error_Some; congruence).
    unfold face_bc. rewrite EB, aget_ok by (rewrite (to_blen _ _ _ _ _ _ _ TO); auto). cbn [bind]. rewrite (to_btags _ _ _ _ _ _ _ TO q bf En), Et. reflexivity. }
  exists bc. split.
  - intros k Hk. rewrite E2 in Hk. destruct (nth_error (bfaces m) k) as [bf|] eqn:En. 2:{ apply nth_error_None in En. unfold nbface in *. lia. }
    destruct (H bf (nth_error_In _ _ En)) as (t & r & b & Et & Ef). unfold bc. rewrite (Q k bf t r En Et), Ef. reflexivity.
  - intros q bf t r En Et. destruct (H bf (nth_error_In _ _ En)) as (t' & r' & b & Et' & Ef). rewrite Et in Et'. injection Et' as <- <-.
    unfold bc. rewrite (Q q bf t r En Et), Ef. reflexivity.
Qed.

(** an instance: example mesh, free stream conditions on tag 1, extrapolation on 2 and 3 *)
Definition exU : st := mks 1 (1/2) (1/4) 3.
Definition exfl (f : fluxname) (visc : bool) : flow := mkflow air f f visc true [(1%Z, BFar exU); (2%Z, BExtrap); (3%Z, BFar exU)].
Lemma ex_cover f visc : exists S bc, built exo exh exX exg S /\ bcs_cover S (exfl f visc) bc /\ forall k n, (k < sm_nb S)%nat -> admits air (bc k) exU n.
Proof.
  destruct ex_built as (S & B). exists S. destruct (cover_by_tag exo exh exX exg S (exfl f visc) B) as (bc & C & Q).
  { intros bf Hb. cbn in Hb. destruct Hb as [<-|[<-|[<-|[<-|[<-|[]]]]]]; do 3 eexists; split; reflexivity. }
  exists bc. split; auto. split; auto. intros k n Hk. destruct (ex_faces S B) as (_ & E2 & _). rewrite E2 in Hk.
  destruct k as [|[|[|[|[|k]]]]]; try lia;
  match goal with |- admits _ (bc ?k) _ _ => destruct (nth_error (bfaces exo) k) as [bf|] eqn:En; cbn in En; inversion En; subst;
    specialize (Q k _ _ _ En eq_refl); cbn in Q; injection Q as <-; cbn; auto end.
Qed.

(** ** C63 *)
(** Whatever states the faces get, the residuals of all cells add up to minus the fluxes through the
    outer faces (physical boundary and connectivity faces): internal faces cancel. *)
Theorem C63_any_face_states : forall m hs X ghost S, built m hs X ghost S ->
  forall fl second (u ul ur ug : arr st) (G : arr grad) (res : arr st),
  alen u = (sm_ne S + sm_nc S)%nat -> alen ul = sm_nf_all S -> alen ur = sm_nf_all S -> alen ug = sm_nb S ->
  (second = true -> alen G = (sm_ne S + sm_nc S)%nat) -> alen res = sm_ne S ->
  exists res', compute_fluxes S fl second u G ul ur ug res = Some res' /\
  let f := through S fl second (aat u) (aat G) (aat ug) (aat ul) (aat ur) in
  (forall i v, (i < sm_ne S)%nat -> cget (aat res' i) v = cget (aat res i) v - outflow S f i v) /\
  (forall v, rsum (fun i => cget (aat res' i) v) (all_cells S) =
             rsum (fun i => cget (aat res i) v) (all_cells S) - rsum (fun k => cget (f k) v) (outer_faces S)).
Proof.
  intros m hs X ghost S B fl second u ul ur ug G res Lu Ll Lr Lg LG LR. pose proof (built_sm _ _ _ _ _ B) as OK.
  destruct (fluxes_ok S fl second u ul ur ug G OK Lu Ll Lr Lg LG res LR) as (res' & E & L & P). exists res'. split; auto. cbv zeta. split; auto.
  intros v. apply (total_of S (thru S fl second u ul ur ug G)); auto.
Qed.
Print Assumptions C63_any_face_states.

Theorem C63_first_order : forall m hs X ghost S, built m hs X ghost S ->
  forall fl bc (u ul0 ur0 res : arr st) (G : arr grad), bcs_cover S fl bc ->
  alen u = (sm_ne S + sm_nc S)%nat -> alen ul0 = sm_nf_all S -> alen ur0 = sm_nf_all S -> alen res = sm_ne S ->
  exists out, compute_residual1 S fl u ul0 ur0 res G None = Some out /\
  let ub k := ghost_state (fl_gas fl) (bc k) (left_value S (aat u) k) (fm_n (aat (sm_M S) k)) in
  let f := through S fl false (aat u) (fun _ => grad0) ub (left_value S (aat u)) (right_value S (aat u) ub) in
  (forall i v, (i < sm_ne S)%nat -> cget (aat (ro_res out) i) v = cget (aat res i) v - outflow S f i v) /\
  (forall v, rsum (fun i => cget (aat (ro_res out) i) v) (all_cells S) =
             rsum (fun i => cget (aat res i) v) (all_cells S) - rsum (fun k => cget (f k) v) (outer_faces S)) /\
  (sm_nc S = 0%nat -> outer_faces S = seq 0 (sm_nb S)).
Proof.
  intros m hs X ghost S B fl bc u ul0 ur0 res G C Lu L0 R0 LR. pose proof (built_sm _ _ _ _ _ B) as OK.
  destruct (residual1_ok S fl bc u ul0 ur0 res G None OK C Lu L0 R0 LR) as (ul & ur & res' & _ & _ & _ & E & L & P).
  cbn [maybe_dt bind] in E. eexists. split; [exact E|]. cbn [ro_res]. cbv zeta. split; [exact P|]. split.
  - intros v. apply (total_of S (thru1 S fl bc u)); auto.
  - intros Z. unfold outer_faces. rewrite Z. cbn [seq]. apply app_nil_r.
Qed.
Print Assumptions C63_first_order.
Example C63_ex : exists S bc, built exo exh exX exg S /\ bcs_cover S (exfl ROE true) bc /\ (0 < sm_ne S)%nat.
Proof. destruct (ex_cover ROE true) as (S & bc & B & C & _). exists S, bc. split; auto. split; auto. destruct (ex_faces S B) as (E & _). lia. Qed.

(** Second order, every gradient scheme and reconstruction: whenever the computation completes. *)
Theorem C63_second_order : forall m hs X ghost S, built m hs X ghost S ->
  forall fl bc gs rs gg rf (u ul0 ur0 res : arr st) (G0 : arr grad) jp dt out, bcs_cover S fl bc ->
  alen u = (sm_ne S + sm_nc S)%nat -> alen ul0 = sm_nf_all S -> alen ur0 = sm_nf_all S -> alen res = sm_ne S ->
  compute_residual2 S fl gs rs gg rf u ul0 ur0 res G0 jp dt = Some out ->
  let ub k := ghost_state (fl_gas fl) (bc k) (left_value S (aat u) k) (fm_n (aat (sm_M S) k)) in
  let f := through S fl true (aat u) (aat (ro_grad out)) ub (aat (ro_left out)) (aat (ro_right out)) in
  (forall i v, (i < sm_ne S)%nat -> cget (aat (ro_res out) i) v = cget (aat res i) v - outflow S f i v) /\
  (forall v, rsum (fun i => cget (aat (ro_res out) i) v) (all_cells S) =
             rsum (fun i => cget (aat res i) v) (all_cells S) - rsum (fun k => cget (f k) v) (outer_faces S)).
Proof.
  intros m hs X ghost S B fl bc gs rs gg rf u ul0 ur0 res G0 jp dt out C Lu L0 R0 LR E. pose proof (built_sm _ _ _ _ _ B) as OK.
  destruct (residual2_inv S fl bc gs rs gg rf u ul0 ur0 res G0 jp dt out OK C Lu L0 R0 LR E) as (L & P). cbv zeta. split; [exact P|].
  intros v. apply (total_of S (through S fl true (aat u) (aat (ro_grad out)) (bghost S fl bc u) (aat (ro_left out)) (aat (ro_right out)))); auto.
Qed.
Print Assumptions C63_second_order.

(** It does complete, for every gradient scheme, with the unlimited linear, WENO and Van Albada
    reconstructions. *)
Definition scheme_runs (S : smesh) (gs : gradscheme) (rs : recscheme) : Prop :=
  match gs with GLeastSquares V => alen V = sm_ne S | _ => True end /\
  match rs with RLinear | RAlbada => True | RWENO lambda => 0 < lambda | RBJ | RVenkat _ _ => False end.

Lemma gradients_run S gs up ug G0 : sm_ok S -> match gs with GLeastSquares V => alen V = sm_ne S | _ => True end ->
  alen up = (sm_ne S + sm_nc S)%nat -> alen ug = sm_nb S -> alen G0 = (sm_ne S + sm_nc S)%nat ->
  exists G1, compute_gradients S gs up ug G0 = Some G1 /\ alen G1 = (sm_ne S + sm_nc S)%nat.
Proof.
  intros OK H Lu Lg LG. destruct gs; cbn [compute_gradients].
  - destruct (zero_ok S G0 ltac:(lia)) as (G' & E & L & _). exists G'. split; auto. lia.
  - destruct (gg_formula S up ug OK Lu Lg G0 ltac:(lia)) as (G' & E & L & _). exists G'. split; auto. lia.
  - destruct (wls_grad_ok S OK up ug Lu Lg V G0 H ltac:(lia)) as (G' & E & L & _). exists G'. split; auto. lia.
Qed.
Lemma faces_run m hs X ghost S rs u ug G s : built m hs X ghost S -> match rs with RLinear | RAlbada => True | RWENO lambda => 0 < lambda | RBJ | RVenkat _ _ => False end ->
  alen u = (sm_ne S + sm_nc S)%nat -> alen ug = sm_nb S -> alen G = (sm_ne S + sm_nc S)%nat -> sized (sm_nf_all S) s ->
  exists s', compute_face_values S rs u ug G s = Some s' /\ sized (sm_nf_all S) s'.
Proof.
  intros B H Lu Lg LG Hs. destruct rs; cbn [compute_face_values]; try tauto.
  - destruct (C57_formula m hs X ghost S B u G s Lu ltac:(lia) Hs) as (s' & E & Z & _). eauto.
  - destruct (C60_convex m hs X ghost S B lambda u G s H ltac:(lia) ltac:(lia) Hs) as (s' & E & Z & _). eauto.
  - destruct (C61_formula m hs X ghost S B u ug G s Lu Lg ltac:(lia) Hs) as (s' & E & Z & _). eauto.
Qed.

Theorem C63_second_order_runs : forall m hs X ghost S, built m hs X ghost S ->
  forall fl bc gs rs gg rf (u ul0 ur0 res : arr st) (G0 : arr grad) jp, bcs_cover S fl bc -> scheme_runs S gs rs ->
  alen u = (sm_ne S + sm_nc S)%nat -> alen ul0 = sm_nf_all S -> alen ur0 = sm_nf_all S -> alen res = sm_ne S ->
  alen G0 = (sm_ne S + sm_nc S)%nat ->
  exists out, compute_residual2 S fl gs rs gg rf u ul0 ur0 res G0 jp None = Some out.
Proof.
  intros m hs X ghost S B fl bc gs rs gg rf u ul0 ur0 res G0 jp C (Hg & Hr) Lu L0 R0 LR LG. pose proof (built_sm _ _ _ _ _ B) as OK.
  destruct (residual2_ok S fl bc gs rs gg rf u ul0 ur0 res G0 jp None OK C Lu L0 R0 LR) as (up & ug & s1 & A1 & A2 & A3 & _ & _ & K).
  destruct (gradients_run S gs up ug G0 OK Hg A1 A2 LG) as (G1 & EG & LG1).
  destruct (faces_run m hs X ghost S rs up ug (if is_weno rs then ghost_gradients S gg G1 else G1) s1 B Hr A1 A2) as ((ul3 & ur3) & ER & Z); auto.
  { destruct (is_weno rs); auto. }
  destruct (K G1 ul3 ur3 EG LG1 ER Z) as (ul & ur & G & res' & _ & _ & _ & _ & _ & E & _). cbn [maybe_dt bind] in E. eauto.
Qed.
Print Assumptions C63_second_order_runs.

(** ** C65 *)
Lemma face_unit m hs X ghost S : built m hs X ghost S -> distinct_ends m X -> forall k, (k < sm_nf_all S)%nat ->
  unit_vec (fm_n (aat (sm_M S) k)) /\ 0 < fm_len (aat (sm_M S) k).
Proof.
  intros B D k Hk. pose proof (built_distinct _ _ _ _ _ B D k Hk) as N. pose proof (built_sm _ _ _ _ _ B) as OK. rewrite (so_met _ OK k Hk).
  split. { pose proof (metric_unit _ _ N) as U. unfold unit_vec. unfold dot2 in U. lra. }
  rewrite metric_len. apply norm2_pos, vsub_ne; auto.
Qed.

Lemma euler_lin ga U v : exists a b, forall n, cget (euler_flux ga U n) v = a * vx n + b * vy n.
Proof.
  unfold euler_flux, normal_velocity. destruct v; cbn [cget s0 s1 s2 s3].
  - exists (s0 U * s1 U / s0 U), (s0 U * s2 U / s0 U). intros. unfold Rdiv. ring.
  - exists (s1 U * s1 U / s0 U + pressure ga U), (s1 U * s2 U / s0 U). intros. unfold Rdiv. ring.
  - exists (s2 U * s1 U / s0 U), (s2 U * s2 U / s0 U + pressure ga U). intros. unfold Rdiv. ring.
  - exists ((s3 U + pressure ga U) * s1 U / s0 U), ((s3 U + pressure ga U) * s2 U / s0 U). intros. unfold Rdiv. ring.
Qed.

Lemma uniform_out S ga U f : sm_ok S -> cells_closed S ->
  (forall k, (k < sm_nf_all S)%nat -> f k = sscal (fm_len (aat (sm_M S) k)) (euler_flux ga U (fm_n (aat (sm_M S) k)))) ->
  forall i v, (i < sm_ne S)%nat -> outflow S f i v = 0.
Proof.
  intros OK CL HF i v Hi. destruct (euler_lin ga U v) as (a & b & L). specialize (CL i Hi).
  transitivity (a * vx (vsum (fun k => outward i (aat (sm_F S) k) (aat (sm_M S) k)) (seq 0 (sm_nf_all S))) + b * vy (vsum (fun k => outward i (aat (sm_F S) k) (aat (sm_M S) k)) (seq 0 (sm_nf_all S)))).
  2:{ rewrite CL. cbn. ring. }
  cbn [vsum vx vy]. rewrite <- !rsum_scal, <- rsum_plus. unfold outflow, all_faces. apply rsum_ext. intros k Hk. apply in_seq in Hk.
  rewrite (HF k) by lia. rewrite cget_scal, L. unfold outward. pose proof (lr_ne S k OK ltac:(lia)).
  destruct (Nat.eqb_spec (f_left (aat (sm_F S) k)) i); destruct (Nat.eqb_spec (f_right (aat (sm_F S) k)) i); try congruence; cbn; ring.
Qed.

Lemma admits_ok G b U n : 1 < gam G -> physical (gam G) U -> admits G b U n -> ghost_state G b U n = U.
Proof.
  intros Hg Hp A. pose proof Hp as [Hr _]. destruct b; cbn [admits ghost_state] in *; try tauto.
  - unfold slip_gs. cbv zeta. assert (Z : dot2 (mom U) n / s0 U = 0) by exact A. rewrite Z. apply st_eq; cbn; ring.
  - destruct A as (-> & HM & HP). destruct (C47_inout G U U n Hg HM Hp) as (I1 & I2 & I3). cbn [ghost_state] in *.
    destruct (Rle_or_lt (normal_velocity U n) 0) as [W|W]; [auto|]. destruct (Rle_or_lt (sound (gam G) U) (normal_velocity U n)) as [Y|Y]; [auto|].
    destruct (I3 (conj W Y)) as (J0 & J1 & J2 & J3). apply st_eq; auto.
    unfold pressure in J3, HP. rewrite J0, J1, J2 in J3. rewrite <- HP in J3. apply Rmult_eq_reg_l in J3; lra.
Qed.

Lemma law_uniform fl second n rl rr U : 1 < gam (fl_gas fl) -> physical (gam (fl_gas fl)) U -> unit_vec n ->
  face_law fl second n rl rr U U grad0 grad0 U U = euler_flux (gam (fl_gas fl)) U n.
Proof.
  intros. unfold face_law. rewrite C34_flux_consistent by auto. destruct (fl_visc fl); [rewrite C50_uniform|]; destruct (euler_flux _ U n); unfold sadd, szero; cbn; f_equal; ring.
Qed.

(** Every flux, inviscid or viscous, constant or variable viscosity. *)
Theorem C65_first_order : forall m hs X ghost S, built m hs X ghost S -> distinct_ends m X ->
  forall fl bc U (u ul0 ur0 res : arr st) (G : arr grad), bcs_cover S fl bc ->
  1 < gam (fl_gas fl) -> physical (gam (fl_gas fl)) U ->
  (forall k, (k < sm_nb S)%nat -> admits (fl_gas fl) (bc k) U (fm_n (aat (sm_M S) k))) ->
  alen u = (sm_ne S + sm_nc S)%nat -> alen ul0 = sm_nf_all S -> alen ur0 = sm_nf_all S -> alen res = sm_ne S ->
  (forall j, (j < sm_ne S + sm_nc S)%nat -> aat u j = U) ->
  exists out, compute_residual1 S fl u ul0 ur0 res G None = Some out /\ forall i, (i < sm_ne S)%nat -> aat (ro_res out) i = aat res i.
Proof.
  intros m hs X ghost S B D fl bc U u ul0 ur0 res G C Hg Hp HA Lu L0 R0 LR HU. pose proof (built_sm _ _ _ _ _ B) as OK.
  destruct (C63_first_order m hs X ghost S B fl bc u ul0 ur0 res G C Lu L0 R0 LR) as (out & E & P & _). exists out. split; auto. intros i Hi. apply st_ext. intros v. rewrite P by auto.
  rewrite (uniform_out S (gam (fl_gas fl)) U _ OK (built_closed _ _ _ _ _ B D)); auto. lra.
  intros k Hk. unfold through. cbv zeta. pose proof (so_left _ OK k Hk). assert (HL : left_value S (aat u) k = U) by (unfold left_value; apply HU; lia).
  assert (HR : right_value S (aat u) (fun k => ghost_state (fl_gas fl) (bc k) (left_value S (aat u) k) (fm_n (aat (sm_M S) k))) k = U).
  { unfold right_value. destruct (Nat.ltb_spec k (sm_nb S)). rewrite HL. apply admits_ok; auto. apply HU. apply right_lt; auto. }
  rewrite HL, HR. f_equal. apply law_uniform; auto. apply (face_unit _ _ _ _ _ B D); auto.
Qed.
Print Assumptions C65_first_order.
Example C65_ex : forall f visc, exists S bc, built exo exh exX exg S /\ distinct_ends exo exX /\ bcs_cover S (exfl f visc) bc /\
  physical (gam air) exU /\ forall k, (k < sm_nb S)%nat -> admits air (bc k) exU (fm_n (aat (sm_M S) k)).
Proof.
  intros. destruct (ex_cover f visc) as (S & bc & B & C & A). exists S, bc. split; auto. split; [exact exX_distinct|]. split; auto. split; [unfold physical, pressure; cbn; lra|]. intros; apply A; auto.
Qed.

(** the gradient schemes and reconstructions for which the second-order statement is proved *)
Definition scheme_ok (S : smesh) (gs : gradscheme) : Prop :=
  match gs with
  | GZero => True
  | GGreenGauss => (forall k, (k < sm_nf_all S)%nat -> left_value S (aat (sm_rc S)) k <> aat (sm_gr S) k /\ right_value S (aat (sm_rc S)) (aat (sm_rcbp S)) k <> aat (sm_gr S) k) /\
      forall i, (i < sm_ne S)%nat -> 0 < aat (sm_A S) i
  | GLeastSquares V => WLS_ctor S = Some V /\ forall i, (i < sm_ne S)%nat ->
      let nbr := beyond S (aat (sm_rc S)) (aat (sm_rcbp S)) i in
      (forall k, bounds S i k -> nbr k <> aat (sm_rc S) i) /\
      (exists k l, bounds S i k /\ bounds S i l /\ cross (vsub (nbr k) (aat (sm_rc S) i)) (vsub (nbr l) (aat (sm_rc S) i)) <> 0)
  end.

Lemma lin0 c x : linear_field c szero szero x = c.
Proof. destruct c. unfold linear_field, sadd, sscal, szero; cbn. f_equal; ring. Qed.

Lemma uniform_gradients m hs X ghost S gs up ug G0 c : built m hs X ghost S -> distinct_ends m X -> scheme_ok S gs ->
  alen up = (sm_ne S + sm_nc S)%nat -> alen ug = sm_nb S -> alen G0 = (sm_ne S + sm_nc S)%nat ->
  (forall j, (j < sm_ne S + sm_nc S)%nat -> aat up j = c) -> (forall k, (k < sm_nb S)%nat -> aat ug k = c) ->
  exists G1, compute_gradients S gs up ug G0 = Some G1 /\ alen G1 = (sm_ne S + sm_nc S)%nat /\ forall i, (i < sm_ne S)%nat -> aat G1 i = grad0.
Proof.
  intros B D H Lu Lg LG Hu Hg. pose proof (built_sm _ _ _ _ _ B) as OK. destruct gs; cbn [compute_gradients scheme_ok] in *.
  - destruct (zero_ok S G0 ltac:(lia)) as (G' & E & L & P & _). exists G'. split; auto. split; [lia|]. intros i Hi. apply P; auto.
  - destruct H as (H1 & H2). destruct (C54_constant m hs X ghost S B D H1 up ug G0 c Lu Lg ltac:(lia) Hu Hg) as (G' & E & P).
    destruct (gg_formula S up ug OK Lu Lg G0 ltac:(lia)) as (G2 & E2 & L & _). rewrite E in E2. injection E2 as <-. exists G'. split; auto. split; [lia|].
    intros i Hi. rewrite P; auto.
  - destruct H as (H1 & H2). destruct (C53_wls_exact m hs X ghost S B) as (V' & EV & P). rewrite H1 in EV. injection EV as <-.
    destruct (P up ug G0 c szero szero Lu Lg ltac:(lia)) as (G' & E & Q).
    { intros. rewrite lin0. auto. } { intros. rewrite lin0. auto. }
    destruct (wls_ctor_ok S OK) as (V2 & EV2 & LV & _). rewrite H1 in EV2. injection EV2 as <-.
    destruct (wls_grad_ok S OK up ug Lu Lg V G0 LV ltac:(lia)) as (G2 & E2 & L & _). rewrite E in E2. injection E2 as <-. exists G'. split; auto. split; [lia|].
    intros i Hi. destruct (H2 i Hi). rewrite Q; auto.
Qed.

Lemma albada_const c : albada c c 0 = c.
Proof. unfold albada. cbv zeta. set (phi := albada_phi _ _). field. Qed.

Lemma uniform_faces m hs X ghost S rs u ug G s c : built m hs X ghost S -> match rs with RLinear | RAlbada => True | RWENO lambda => 0 < lambda | RBJ | RVenkat _ _ => False end ->
  alen u = (sm_ne S + sm_nc S)%nat -> alen ug = sm_nb S -> alen G = (sm_ne S + sm_nc S)%nat -> sized (sm_nf_all S) s ->
  (forall j, (j < sm_ne S + sm_nc S)%nat -> aat u j = c) -> (forall k, (k < sm_nb S)%nat -> aat ug k = c) ->
  (forall i, (i < sm_ne S)%nat -> aat G i = grad0) -> (is_weno rs = true -> forall i, (i < sm_ne S + sm_nc S)%nat -> aat G i = grad0) ->
  exists s', compute_face_values S rs u ug G s = Some s' /\ sized (sm_nf_all S) s' /\
   (forall k, (k < sm_nf_all S)%nat -> aat (fst s') k = c) /\ (forall k, (sm_nb S <= k < sm_nb S + sm_ni S)%nat -> aat (snd s') k = c).
Proof.
  intros B H Lu Lg LG Hs Hu Hg HG HW. pose proof (built_sm _ _ _ _ _ B) as OK.
  assert (A0 : forall v d, along grad0 v d = 0) by (intros v d; unfold along, grad0; cbn [gx gy]; rewrite !cget_zero; ring).
  destruct rs; cbn [compute_face_values is_weno] in *; try tauto.
  - destruct (C57_linear_exact m hs X ghost S B u G s c szero szero Lu ltac:(lia) Hs) as (s' & E & Z & I).
    { intros i Hi. rewrite lin0, Hu by lia. split; auto. }
    exists s'. split; auto. split; auto. split; intros k Hk; [destruct (I k Hk) as (I1 & _); rewrite I1|destruct (I k ltac:(unfold sm_nf_all; lia)) as (_ & I1 & _); rewrite I1 by auto]; apply lin0.
  - destruct (C60_linear_exact m hs X ghost S B lambda u G s c szero szero H ltac:(lia) ltac:(lia) Hs) as (s' & E & Z & I).
    { intros i Hi. rewrite lin0, Hu by lia. auto. } { intros i Hi. rewrite HW; auto. }
    exists s'. split; auto. split; auto. split; intros k Hk; [destruct (I k Hk) as (I1 & _); rewrite I1|destruct (I k ltac:(unfold sm_nf_all; lia)) as (_ & I1); rewrite I1 by (apply (so_int _ OK); auto)]; apply lin0.
  - destruct (C61_formula m hs X ghost S B u ug G s Lu Lg ltac:(lia) Hs) as (s' & E & Z & I). exists s'. split; auto. split; auto.
    assert (HL : forall k, (k < sm_nf_all S)%nat -> left_value S (aat u) k = c) by (intros k Hk; apply Hu; pose proof (so_left _ OK k Hk); lia).
    assert (HR : forall k, (k < sm_nf_all S)%nat -> right_value S (aat u) (aat ug) k = c).
    { intros k Hk. unfold right_value. destruct (Nat.ltb_spec k (sm_nb S)); auto. apply Hu. apply right_lt; auto. }
    split; intros k Hk; apply st_ext; intros v.
    + destruct (I k v Hk) as (I1 & _). rewrite I1, HL, HR by auto. unfold left_value. rewrite HG by (apply (so_left _ OK); auto). rewrite A0. apply albada_const.
    + assert (K : (k < sm_nf_all S)%nat) by (unfold sm_nf_all; lia). destruct (I k v K) as (_ & I1 & _). rewrite I1, HL, HR by (auto; lia). rewrite HG by (apply (so_int _ OK); auto). rewrite A0. apply albada_const.
Qed.

(** what happens in the second-order residual on a uniform state, for any request of time steps *)
Lemma second_uniform : forall m hs X ghost S, built m hs X ghost S -> distinct_ends m X ->
  forall fl bc gs rs gg rf U (u ul0 ur0 res : arr st) (G0 : arr grad) jp dt, bcs_cover S fl bc ->
  1 < gam (fl_gas fl) -> physical (gam (fl_gas fl)) U ->
  (forall k, (k < sm_nb S)%nat -> admits (fl_gas fl) (bc k) U (fm_n (aat (sm_M S) k))) ->
  scheme_ok S gs -> match rs with RLinear | RAlbada => True | RWENO lambda => 0 < lambda | RBJ | RVenkat _ _ => False end ->
  (forall k, (k < sm_nc S)%nat -> gg k = grad0 /\ rf k = U) ->
  alen u = (sm_ne S + sm_nc S)%nat -> alen ul0 = sm_nf_all S -> alen ur0 = sm_nf_all S -> alen res = sm_ne S -> alen G0 = (sm_ne S + sm_nc S)%nat ->
  (forall j, (j < sm_ne S + sm_nc S)%nat -> aat u j = U) ->
  exists ul ur G res', compute_residual2 S fl gs rs gg rf u ul0 ur0 res G0 jp dt = (dt' <- maybe_dt S fl ul ur dt ;; Some (mkro res' ul ur G dt')) /\
    alen res' = sm_ne S /\ alen ul = sm_nf_all S /\ alen ur = sm_nf_all S /\
    (forall k, (k < sm_nf_all S)%nat -> aat ul k = U /\ aat ur k = U) /\ forall i, (i < sm_ne S)%nat -> aat res' i = aat res i.
Proof.
  intros m hs X ghost S B D fl bc gs rs gg rf U u ul0 ur0 res G0 jp dt C Hg Hp HA Hs Hr HX Lu L0 R0 LR LG HU. pose proof (built_sm _ _ _ _ _ B) as OK.
  destruct (residual2_ok S fl bc gs rs gg rf u ul0 ur0 res G0 jp dt OK C Lu L0 R0 LR) as (up & ug & s1 & A1 & A2 & A3 & A4 & A5 & K).
  set (g := fl_gas fl) in *. set (c := getPrimitiveFromConserved g U).
  assert (BG : forall k, (k < sm_nb S)%nat -> bghost S fl bc u k = U).
  { intros k Hk. unfold bghost, left_value. assert (Hk' : (k < sm_nf_all S)%nat) by (unfold sm_nf_all; lia). pose proof (so_left _ OK k Hk'). rewrite HU by lia. apply admits_ok; auto. }
  assert (HP : forall j, (j < sm_ne S + sm_nc S)%nat -> aat up j = c) by (intros j Hj; rewrite A4, HU by auto; reflexivity).
  assert (HG : forall k, (k < sm_nb S)%nat -> aat ug k = c).
  { intros k Hk. rewrite A5, BG by auto. destruct (C25_in_place g U) as (E & _). exact E. }
  destruct (uniform_gradients m hs X ghost S gs up ug G0 c B D Hs A1 A2 LG HP HG) as (G1 & EG & LG1 & Z1).
  destruct (uniform_faces m hs X ghost S rs up ug (if is_weno rs then ghost_gradients S gg G1 else G1) s1 c B Hr A1 A2) as ((ul3 & ur3) & ER & Z & FL & FR); auto.
  { destruct (is_weno rs); auto. }
  { intros i Hi. destruct (is_weno rs); auto. cbn [ghost_gradients aat]. destruct (Nat.ltb_spec i (sm_ne S)); [auto|lia]. }
  { intros -> i Hi. cbn [ghost_gradients aat]. destruct (Nat.ltb_spec i (sm_ne S)); [auto|]. apply HX. lia. }
  cbn [fst snd] in FL, FR.
  assert (CC : getConservedFromPrimitive_inplace g c = U).
  { destruct (C25_in_place g c) as (_ & _ & E2). rewrite E2. unfold c. destruct Hp. apply (C25_round_trip g U U); lra. }
  assert (L2 : forall k, (k < sm_nf_all S)%nat -> left2 fl ul3 k = U) by (intros k Hk; unfold left2; rewrite FL by auto; exact CC).
  assert (R2 : forall k, (k < sm_nf_all S)%nat -> right2 S fl bc rf ul3 ur3 k = U).
  { intros k Hk. unfold right2. destruct (Nat.ltb_spec k (sm_nb S)); [rewrite L2 by auto; apply admits_ok; auto|]. destruct (Nat.ltb_spec k (sm_nb S + sm_ni S)); [rewrite FR by lia; exact CC|]. apply HX. unfold sm_nf_all in Hk. lia. }
  destruct (K G1 ul3 ur3 EG LG1 ER Z) as (ul & ur & G & res' & Ll & Lr & _ & V & _ & E & LL & P).
  exists ul, ur, G, res'. split; [exact E|]. split; [exact LL|]. split; [exact Ll|]. split; [exact Lr|]. split.
  { intros k Hk. destruct (V k Hk) as (-> & ->). split; [apply L2|apply R2]; exact Hk. }
  intros i Hi. apply st_ext. intros v. rewrite P by auto.
  rewrite (uniform_out S (gam g) U _ OK (built_closed _ _ _ _ _ B D)); auto. lra.
  intros k Hk. pose proof (so_left _ OK k Hk) as HL.
  assert (GR : forall i, (i < sm_ne S + sm_nc S)%nat -> grad2 S gg G1 i = grad0).
  { intros q Hq. unfold grad2. destruct (Nat.ltb_spec q (sm_ne S)); auto. apply HX. lia. }
  unfold through. cbv zeta. rewrite L2, R2 by auto. rewrite (GR (f_left (aat (sm_F S) k))) by lia.
  assert (EL : left_value S (aat u) k = U) by (apply HU; lia).
  assert (ERr : right_value S (aat u) (bghost S fl bc u) k = U).
  { unfold right_value. destruct (Nat.ltb_spec k (sm_nb S)); auto. apply HU. apply right_lt; auto. }
  rewrite EL, ERr. f_equal.
  assert (GG : (if (k <? sm_nb S)%nat then grad0 else grad2 S gg G1 (f_right (aat (sm_F S) k))) = grad0).
  { destruct (Nat.ltb_spec k (sm_nb S)); auto. apply GR. apply right_lt; auto. }
  rewrite GG. apply law_uniform; auto. apply (face_unit _ _ _ _ _ B D); auto.
Qed.
(** The neighbouring subdomains send what they have: the uniform state and zero gradients. *)
Theorem C65_second_order : forall m hs X ghost S, built m hs X ghost S -> distinct_ends m X ->
  forall fl bc gs rs gg rf U (u ul0 ur0 res : arr st) (G0 : arr grad) jp, bcs_cover S fl bc ->
  1 < gam (fl_gas fl) -> physical (gam (fl_gas fl)) U ->
  (forall k, (k < sm_nb S)%nat -> admits (fl_gas fl) (bc k) U (fm_n (aat (sm_M S) k))) ->
  scheme_ok S gs -> match rs with RLinear | RAlbada => True | RWENO lambda => 0 < lambda | RBJ | RVenkat _ _ => False end ->
  (forall k, (k < sm_nc S)%nat -> gg k = grad0 /\ rf k = U) ->
  alen u = (sm_ne S + sm_nc S)%nat -> alen ul0 = sm_nf_all S -> alen ur0 = sm_nf_all S -> alen res = sm_ne S -> alen G0 = (sm_ne S + sm_nc S)%nat ->
  (forall j, (j < sm_ne S + sm_nc S)%nat -> aat u j = U) ->
  exists out, compute_residual2 S fl gs rs gg rf u ul0 ur0 res G0 jp None = Some out /\ forall i, (i < sm_ne S)%nat -> aat (ro_res out) i = aat res i.
Proof.
  intros m hs X ghost S B D fl bc gs rs gg rf U u ul0 ur0 res G0 jp C Hg Hp HA Hs Hr HX Lu L0 R0 LR LG HU.
  destruct (second_uniform m hs X ghost S B D fl bc gs rs gg rf U u ul0 ur0 res G0 jp None C Hg Hp HA Hs Hr HX Lu L0 R0 LR LG HU) as (ul & ur & G & res' & E & _ & _ & _ & _ & P).
  cbn [maybe_dt bind] in E. eexists. split; [exact E|exact P].
Qed.
Print Assumptions C65_second_order.

(** With the Barth-Jespersen or Venkatakrishnan limiter the residual cannot be computed on any mesh
    with a physical boundary: the limiter reads beyond the state array (C62). *)
Theorem C65_limiters_overrun : forall m hs X ghost S, built m hs X ghost S -> (0 < sm_nb S)%nat ->
  forall fl bc gs rs gg rf (u ul0 ur0 res : arr st) (G0 : arr grad) jp dt, bcs_cover S fl bc ->
  match rs with RBJ => True | RVenkat _ cl => alen cl = sm_ne S | _ => False end ->
  alen u = (sm_ne S + sm_nc S)%nat -> alen ul0 = sm_nf_all S -> alen ur0 = sm_nf_all S -> alen res = sm_ne S ->
  compute_residual2 S fl gs rs gg rf u ul0 ur0 res G0 jp dt = None.
Proof.
  intros m hs X ghost S B Hb fl bc gs rs gg rf u ul0 ur0 res G0 jp dt C Hr Lu L0 R0 LR.
  destruct (compute_residual2 S fl gs rs gg rf u ul0 ur0 res G0 jp dt) as [out|] eqn:E; auto. exfalso.
  unfold compute_residual2 in E. do 6 step_bind E.
  assert (LX : alen x2 = (sm_ne S + sm_nc S)%nat).
  { clear - Q2. match type of Q2 with floop ?n ?b ?s = _ => assert (FI : forall k y, floop k b s = Some y -> alen y = (sm_ne S + sm_nc S)%nat) end.
    { induction k as [|k IH]; intros y E; cbn [floop] in E; [injection E as <-; reflexivity|]. step_bind E. step_bind E. specialize (IH _ eq_refl). unfold aset in E. destruct (_ <? _)%nat; [|discriminate]. injection E as <-. exact IH. }
    eapply FI; eauto. }
  destruct rs; try tauto; cbn [compute_face_values is_weno] in Q4.
  - destruct (C62_out_of_bounds m hs X ghost S B Hb x2 x3 (x, x1) 1 (mkarr (sm_ne S) (fun _ => 1)) ltac:(lia) eq_refl) as (N & _). rewrite N in Q4. discriminate.
  - destruct (C62_out_of_bounds m hs X ghost S B Hb x2 x3 (x, x1) K cl ltac:(lia) Hr) as (_ & N). rewrite N in Q4. discriminate.
Qed.
Print Assumptions C65_limiters_overrun.

(** ** C68 *)
Lemma rsum_pos_one {A} (f : A -> R) l x : (forall y, In y l -> 0 <= f y) -> In x l -> 0 < f x -> 0 < rsum f l.
Proof.
  intros H Hx Hp. apply in_split in Hx. destruct Hx as (l1 & l2 & ->). rewrite rsum_app. cbn [rsum fold_right].
  assert (0 <= rsum f l1) by (apply rsum_nonneg; intros; apply H; apply in_or_app; auto).
  assert (0 <= rsum f l2) by (apply rsum_nonneg; intros; apply H; apply in_or_app; right; right; auto).
  change (0 < rsum f l1 + (f x + rsum f l2)). lra.
Qed.

(** total rate of the waves in cell [i] with face states [l], [r] *)
Definition cell_rate (S : smesh) (fl : flow) (l r : nat -> st) (i : nat) : R :=
  rsum (fun k => let met := aat (sm_M S) k in
    (if (f_left (aat (sm_F S) k) =? i)%nat then wave_rate fl (aat (sm_A S) i) (l k) (fm_n met) (fm_len met) else 0) +
    (if (f_right (aat (sm_F S) k) =? i)%nat then wave_rate fl (aat (sm_A S) i) (r k) (fm_n met) (fm_len met) else 0)) (all_faces S).

Lemma cell_has_face m hs X ghost S i : built m hs X ghost S -> (i < sm_ne S)%nat -> exists k, bounds S i k.
Proof.
  intros B Hi. pose proof (built_sm _ _ _ _ _ B) as OK. pose proof B as (T & H34 & _).
  destruct (built_ok _ _ _ _ _ B) as (p & e & ni & s & il & _ & _ & E1 & _ & _ & _ & _ & _ & _ & _ & _ & NF & _).
  assert (H : (0 < aat (sm_nf S) i)%nat). { rewrite NF by lia. assert (In (cell (cells m) i) (cells m)) by (apply nth_In; unfold nelem in *; lia). destruct (H34 _ H); lia. }
  destruct (so_ef _ OK i 0%nat Hi H) as (K & W). exists (at2 (sm_EF S) i 0). split; auto. cbv zeta in W. tauto.
Qed.

Theorem C68_time_step : forall m hs X ghost S, built m hs X ghost S -> distinct_ends m X ->
  (forall i, (i < sm_ne S)%nat -> 0 < aat (sm_A S) i) ->
  forall fl (ul ur : arr st) (dt : arr R), 1 < gam (fl_gas fl) -> visc_ok fl ->
  alen ul = sm_nf_all S -> alen ur = sm_nf_all S -> alen dt = sm_ne S ->
  (forall k, (k < sm_nf_all S)%nat -> physical (gam (fl_gas fl)) (aat ul k)) ->
  (forall k, (sm_nb S <= k < sm_nb S + sm_ni S)%nat -> physical (gam (fl_gas fl)) (aat ur k)) ->
  exists dt', compute_max_timestep S fl ul ur dt = Some dt' /\ alen dt' = sm_ne S /\
  forall i, (i < sm_ne S)%nat -> 0 < aat dt' i /\ aat dt' i * cell_rate S fl (aat ul) (aat ur) i = aat (sm_A S) i.
Proof.
  intros m hs X ghost S B D HA fl ul ur dt Hg HV Ll Lr LD PL PR. pose proof (built_sm _ _ _ _ _ B) as OK.
  assert (LT : forall k i, (k < sm_nf_all S)%nat -> (i < sm_ne S)%nat -> f_right (aat (sm_F S) k) = i -> (sm_nb S <= k < sm_nb S + sm_ni S)%nat).
  { intros k i Hk Hi E. destruct (Nat.lt_ge_cases k (sm_nb S)) as [A|A]; [pose proof (so_phy _ OK k A); lia|]. destruct (Nat.lt_ge_cases k (sm_nb S + sm_ni S)); auto. pose proof (so_con _ OK k ltac:(lia)). lia. }
  assert (RE : forall i, (i < sm_ne S)%nat -> rate S fl ul ur i = cell_rate S fl (aat ul) (aat ur) i).
  { intros i Hi. unfold rate, cell_rate. apply rsum_ext. intros k Hk. apply in_seq in Hk. cbv zeta. f_equal.
    - destruct (Nat.eqb_spec (f_left (aat (sm_F S) k)) i) as [E|E]; auto. unfold spl. rewrite E. apply specrad_ok; auto. apply PL; lia.
    - destruct (Nat.eqb_spec (f_right (aat (sm_F S) k)) i) as [E|E]; auto. unfold spr. rewrite E. apply specrad_ok; auto. apply PR. eapply LT; eauto. lia. }
  assert (RP : forall i, (i < sm_ne S)%nat -> 0 < cell_rate S fl (aat ul) (aat ur) i).
  { intros i Hi. destruct (cell_has_face _ _ _ _ _ i B Hi) as (k & Hk & Hb). unfold cell_rate.
    assert (T1 : forall k, (k < sm_nf_all S)%nat -> let met := aat (sm_M S) k in
      0 < wave_rate fl (aat (sm_A S) i) (aat ul k) (fm_n met) (fm_len met) /\ (f_right (aat (sm_F S) k) = i -> 0 < wave_rate fl (aat (sm_A S) i) (aat ur k) (fm_n met) (fm_len met))).
    { intros q Hq. cbv zeta. destruct (face_unit _ _ _ _ _ B D q Hq) as (_ & LP). split; [|intros E]; apply wave_pos; auto; try lra. apply PR. eapply LT; eauto. }
    apply rsum_pos_one with k.
    - intros q Hq. apply in_seq in Hq. cbv zeta. destruct (T1 q ltac:(lia)) as (A1 & A2).
      destruct (Nat.eqb_spec (f_left (aat (sm_F S) q)) i); destruct (Nat.eqb_spec (f_right (aat (sm_F S) q)) i) as [E|E]; try specialize (A2 E); cbv zeta in *; lra.
    - apply in_seq. lia.
    - cbv zeta. destruct (T1 k Hk) as (A1 & A2). cbv zeta in *.
      destruct (Nat.eqb_spec (f_left (aat (sm_F S) k)) i); destruct (Nat.eqb_spec (f_right (aat (sm_F S) k)) i) as [E|E]; try specialize (A2 E); try lra. tauto. }
  destruct (timestep_ok S fl ul ur OK Ll Lr dt LD) as (dt' & E & L & P).
  { intros i Hi. rewrite RE by auto. pose proof (RP i Hi). lra. }
  exists dt'. split; auto. split; auto. intros i Hi. rewrite P, RE by auto. pose proof (RP i Hi). split; [apply Rdiv_lt_0_compat; auto|]. field. lra.
Qed.
Print Assumptions C68_time_step.

(** First order: the step of a cell depends on its own state and its own faces only. *)
Theorem C68_first_order : forall m hs X ghost S, built m hs X ghost S -> distinct_ends m X ->
  (forall i, (i < sm_ne S)%nat -> 0 < aat (sm_A S) i) ->
  forall fl bc (u ul0 ur0 res : arr st) (G : arr grad) (dt : arr R), bcs_cover S fl bc -> 1 < gam (fl_gas fl) -> visc_ok fl ->
  alen u = (sm_ne S + sm_nc S)%nat -> alen ul0 = sm_nf_all S -> alen ur0 = sm_nf_all S -> alen res = sm_ne S -> alen dt = sm_ne S ->
  (forall i, (i < sm_ne S)%nat -> physical (gam (fl_gas fl)) (aat u i)) ->
  exists out dt', compute_residual1 S fl u ul0 ur0 res G (Some dt) = Some out /\ ro_dt out = Some dt' /\
  forall i, (i < sm_ne S)%nat -> 0 < aat dt' i /\
    aat dt' i * rsum (fun k => wave_rate fl (aat (sm_A S) i) (aat u i) (fm_n (aat (sm_M S) k)) (fm_len (aat (sm_M S) k)))
                     (filter (fun k => (f_left (aat (sm_F S) k) =? i) || (f_right (aat (sm_F S) k) =? i))%nat%bool (all_faces S)) = aat (sm_A S) i.
Proof.
  intros m hs X ghost S B D HA fl bc u ul0 ur0 res G dt C Hg HV Lu L0 R0 LR LD HP. pose proof (built_sm _ _ _ _ _ B) as OK.
  destruct (residual1_ok S fl bc u ul0 ur0 res G (Some dt) OK C Lu L0 R0 LR) as (ul & ur & res' & Ll & Lr & V & E & L & P).
  destruct (C68_time_step m hs X ghost S B D HA fl ul ur dt Hg HV Ll Lr LD) as (dt' & ET & LT & PT).
  - intros k Hk. rewrite (proj1 (V k Hk)). apply HP. apply (so_left _ OK); auto.
  - intros k Hk. assert (Hk' : (k < sm_nf_all S)%nat) by (unfold sm_nf_all; lia). rewrite (proj2 (V k Hk')). unfold right_value. destruct (Nat.ltb_spec k (sm_nb S)); [lia|]. apply HP. apply (so_int _ OK); auto.
  - cbn [maybe_dt] in E. rewrite ET in E. cbn [bind] in E. eexists _, dt'. split; [exact E|]. split; [reflexivity|]. intros i Hi. destruct (PT i Hi) as (P1 & P2). split; auto.
    etransitivity; [|exact P2]. f_equal. unfold cell_rate. rewrite rsum_filter. apply rsum_ext. intros k Hk. apply in_seq in Hk. cbv zeta. destruct (V k ltac:(lia)) as (V1 & V2). rewrite V1, V2.
    pose proof (lr_ne S k OK ltac:(lia)) as NE.
    destruct (Nat.eqb_spec (f_left (aat (sm_F S) k)) i) as [A1|A1]; destruct (Nat.eqb_spec (f_right (aat (sm_F S) k)) i) as [A2|A2]; cbn [orb]; try congruence; try lra.
    + unfold left_value. rewrite A1. lra.
    + unfold right_value. destruct (Nat.ltb_spec k (sm_nb S)) as [A3|A3]. pose proof (so_phy _ OK k A3). lia. rewrite A2. lra.
Qed.
Print Assumptions C68_first_order.
Example C68_ex : exists S bc, built exo exh exX exg S /\ distinct_ends exo exX /\ bcs_cover S (exfl ROE true) bc /\ 1 < gam air /\ visc_ok (exfl ROE true) /\
  (forall i, (i < sm_ne S)%nat -> 0 < aat (sm_A S) i) /\ (0 < sm_ne S)%nat /\ physical (gam air) exU.
Proof.
  destruct (ex_cover ROE true) as (S & bc & B & C & _). exists S, bc. split; auto. split; [exact exX_distinct|]. split; auto. split; [cbn; lra|].
  split. { intros _. cbn. split; [lra|]. split; [lra|]. discriminate. }
  destruct (built_ok _ _ _ _ _ B) as (p & e & ni & s & il & _ & _ & E1 & _ & _ & _ & _ & _ & IA & _).
  split. { intros i Hi. rewrite E1 in Hi. rewrite IA by auto. cbn in Hi. destruct i as [|[|[|i]]]; try lia; unfold polygon_area, cross; cbn; lra. }
  rewrite E1. split; [cbn; lia|]. unfold physical, pressure; cbn; lra.
Qed.

(** ** C55: the flux loop and the spectral radius loop (all their updates are atomic) *)
Theorem C55_residual_loops : forall m hs X ghost S, built m hs X ghost S ->
  forall fl second (u ul ur ug : arr st) (G : arr grad),
  alen u = (sm_ne S + sm_nc S)%nat -> alen ul = sm_nf_all S -> alen ur = sm_nf_all S -> alen ug = sm_nb S ->
  (second = true -> alen G = (sm_ne S + sm_nc S)%nat) ->
  (forall res res' sched, alen res = sm_ne S -> compute_fluxes S fl second u G ul ur ug res = Some res' ->
     Permutation sched (flat_map (loop_ups lay_st (flux_incs S fl second u G ul ur ug)) (seq 0 (sm_nf_all S))) ->
     forall x, run_atomic sched (flat lay_st res) x = flat lay_st res' x) /\
  (forall A A' sched, alen A = sm_ne S -> acc_loop Rplus 0 (sm_nf_all S) (specrad_incs S fl ul ur) A = Some A' ->
     Permutation sched (flat_map (loop_ups lay_R (specrad_incs S fl ul ur)) (seq 0 (sm_nf_all S))) ->
     forall x, run_atomic sched (flat lay_R A) x = flat lay_R A' x).
Proof.
  intros m hs X ghost S B fl second u ul ur ug G Lu Ll Lr Lg LG. pose proof (built_sm _ _ _ _ _ B) as OK. split.
  - intros res res' sched LR E P. set (T := thru S fl second u ul ur ug G).
    apply (loop_order sadd lay_st S 0 (sm_nf_all S) (flux_incs S fl second u G ul ur ug) (fun k => sneg (T k)) T res res' sched); auto.
    + cbn; lia.
    + intros j a b. cbn [comp lay_st]. apply cget_add.
    + lia.
    + lia.
    + intros k Hk. apply flux_incs_ok; auto. lia.
    + rewrite Nat.sub_0_r; auto.
  - intros A A' sched LA E P.
    apply (loop_order Rplus lay_R S 0 (sm_nf_all S) (specrad_incs S fl ul ur) (spl S fl ul) (spr S fl ur) A A' sched); auto; try (cbn; lia); try lia.
    + intros j a b; reflexivity.
    + intros k Hk. apply specrad_incs_ok; auto. lia.
    + rewrite Nat.sub_0_r; auto.
Qed.
Print Assumptions C55_residual_loops.
