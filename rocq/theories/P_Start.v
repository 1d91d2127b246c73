(** C98: how a case starts, and a case whose boundary conditions the free stream satisfies. *)
From Coq Require Import Reals Lra List String ZArith Bool Arith Lia.
From Verif Require Import Base BaseR BaseSum M_Gas M_Flux M_Visc M_BC M_BCConf M_Mesh M_Geom S_Mesh S_Geom S_Gas Pf_Topo Pf_Incid Pf_Full Pf_Geom P_Geom
  M_Space S_Space Pf_Space M_Grad Pf_Grad P_Grad M_Recon Pf_Recon M_Resid S_Resid Pf_Resid Pf_Resid2 P_Resid Pf_Gas P_Gas P_BC Pf_BCConf
  ChkMesh M_Ode S_Ode Pf_Ode Pf_Ode2 P_Ode M_Ctl M_Case P_Case M_Start.
Import ListNotations.
Open Scope R_scope.

(** ** Specification *)
(** The free stream in the units of the solver: density and speed 1, direction [alpha]. *)
Definition free_stream (ga M alpha : R) (u : st) : Prop :=
  s0 u = 1 /\ s1 u = cos alpha /\ s2 u = sin alpha /\ pressure ga u = / (ga * M ^ 2).
(** every cell (and ghost cell) holds it *)
Definition at_free_stream (S : smesh) (o : fpopts) (u : arr st) : Prop :=
  alen u = (sm_ne S + sm_nc S)%nat /\ forall i, (i < sm_ne S + sm_nc S)%nat -> free_stream (o_gam o) (o_Minf o) (o_alpha o) (aat u i).

(** A case which the free stream satisfies: a mesh in one piece with positive areas; every boundary face has a section of its
    marker; the sections are far field, inflow/outflow, extrapolation, or slip walls along the flow. *)
Record fits (m : umesh) (hs : list (nat * nat)) (X : arr v2) (ghost : nat -> v2) (S : smesh) (o : fpopts) : Prop := {
  ft_built : built m hs X ghost S;
  ft_ends : distinct_ends m X;
  ft_area : forall i, (i < sm_ne S)%nat -> 0 < aat (sm_A S) i;
  ft_one : sm_nc S = 0%nat;
  ft_types : forall c, In c (o_bc o) -> In (fb_type c) [FARFIELD_BC; INFLOW_OUTFLOW_BC; EXTRAPOLATION_BC; SLIP_WALL_BC];
  ft_tags : forall bf, In bf (bfaces m) -> exists t r, btg bf = t :: r /\ In t (map fb_tag (o_bc o));
  ft_slip : forall q bf t r c, nth_error (bfaces m) q = Some bf -> btg bf = t :: r -> In c (o_bc o) -> fb_tag c = t -> fb_type c = SLIP_WALL_BC ->
    cos (o_alpha o) * vx (fm_n (aat (sm_M S) q)) + sin (o_alpha o) * vy (fm_n (aat (sm_M S) q)) = 0;
  ft_gas : 1 < o_gam o /\ 0 < o_Minf o;
  ft_visc : o_visc o = true -> exists re pr, o_Re o = XR re /\ o_Pr o = XR pr /\ 0 < re /\ 0 < pr /\ (o_cvisc o = false -> 0 < o_Tinf o);
  ft_flux : In (o_invflux o) ["VANLEER"; "ROE"; "HLL"; "HLLC"; "LLF"; "AUSM"; "AUSMPLUS"]%string }.
(** Second order: a reconstruction other than the two limiters that read out of bounds (C65_limiters_overrun), and cells on which the
    gradient scheme is defined. *)
Definition fits2 (S : smesh) (o : fpopts) : Prop :=
  (o_lim o = "NONE"%string \/ o_lim o = "VANALBADA"%string \/ o_lim o = "WENO"%string /\ 0 < o_limpar o) /\
  (o_grad o = "GREENGAUSS"%string -> forall k, (k < sm_nf_all S)%nat ->
     left_value S (aat (sm_rc S)) k <> aat (sm_gr S) k /\ right_value S (aat (sm_rc S)) (aat (sm_rcbp S)) k <> aat (sm_gr S) k) /\
  (o_grad o = "LEASTSQUARES"%string -> forall i, (i < sm_ne S)%nat ->
     let nbr := beyond S (aat (sm_rc S)) (aat (sm_rcbp S)) i in
     (forall k, bounds S i k -> nbr k <> aat (sm_rc S) i) /\
     (exists k l, bounds S i k /\ bounds S i l /\ cross (vsub (nbr k) (aat (sm_rc S) i)) (vsub (nbr l) (aat (sm_rc S) i)) <> 0)).
Definition work_ok (S : smesh) (w : work) : Prop :=
  alen (wk_l w) = sm_nf_all S /\ alen (wk_r w) = sm_nf_all S /\ alen (wk_g w) = (sm_ne S + sm_nc S)%nat /\ alen (wk_dt w) = sm_ne S.

(** ** The initial state *)
Lemma free_stream_unique ga M al u v : 1 < ga -> free_stream ga M al u -> free_stream ga M al v -> u = v.
Proof.
  intros Hg (A1 & A2 & A3 & A4) (B1 & B2 & B3 & B4). assert (P : pressure ga u = pressure ga v) by congruence. unfold pressure in P. rewrite A1, A2, A3, B1, B2, B3 in P.
  destruct u as [a1 a2 a3 a4], v as [b1 b2 b3 b4]; cbn [s0 s1 s2 s3] in *; subst. f_equal. apply Rmult_eq_reg_l with (ga - 1); [|lra]. lra.
Qed.
Lemma computed_free_stream jr o : 1 < o_gam o -> 0 < o_Minf o ->
  free_stream (o_gam o) (o_Minf o) (o_alpha o) (compute_freestream_state (gas_of jr (extract_spatial_physics_config o)) (o_alpha o)).
Proof.
  intros Hg HM. destruct (C27_freestream (gas_of jr (extract_spatial_physics_config o)) (o_alpha o) Hg HM) as (A & B & C & _ & P & _). exact (conj A (conj B (conj C P))).
Qed.

Lemma init_row (x : st) i N (u : arr R) : alen u = (N * 4)%nat -> (i < N)%nat ->
  exists u', floop 4 (fun j u => y <- comp x j ;; aset u (i * 4 + j) y) u = Some u' /\ alen u' = (N * 4)%nat /\
    (forall j y, comp x j = Some y -> aat u' (i * 4 + j)%nat = y) /\ forall q, (q < i * 4)%nat -> aat u' q = aat u q.
Proof.
  intros L Hi. destruct (floop_inv _ (fun k (v : arr R) => alen v = (N * 4)%nat /\ (forall j y, (j < k)%nat -> comp x j = Some y -> aat v (i * 4 + j)%nat = y) /\ forall q, (q < i * 4)%nat -> aat v q = aat u q)
    4 (fun j u => y <- comp x j ;; aset u (i * 4 + j) y) u) as (u' & E & L' & P & Q).
  - split; auto. split; auto. intros; lia.
  - intros k v Hk (Lv & P & Q). assert (exists y, comp x k = Some y) as (y & Ey) by (destruct k as [|[|[|[|k]]]]; try lia; cbn; eauto).
    rewrite Ey. cbn [bind]. rewrite aset_ok by lia. eexists. split; [reflexivity|]. cbn [alen aat]. split; auto. split.
    + intros j z Hj Ez. unfold upd. destruct (Nat.eqb_spec (i * 4 + j) (i * 4 + k)) as [A|A]; [assert (j = k) by lia; subst; congruence|apply P; auto; lia].
    + intros q Hq. unfold upd. destruct (Nat.eqb_spec q (i * 4 + k)); [lia|auto].
  - exists u'. split; auto. split; auto. split; auto. intros j y Ey. apply P; auto. destruct j as [|[|[|[|j]]]]; try lia. discriminate Ey.
Qed.
(** Whatever the array contained, it then has the free stream in every cell and every ghost cell, and the loop stays within it. *)
Theorem C98_initial_state : forall jr S o junk, 1 < o_gam o -> 0 < o_Minf o ->
  exists u, initializeSystemVector S (gas_of jr (extract_spatial_physics_config o)) (o_alpha o) junk = Some u /\
    alen u = ((sm_ne S + sm_nc S) * 4)%nat /\ at_free_stream S o (states u).
Proof.
  intros jr S o junk Hg HM. unfold initializeSystemVector. cbv zeta. set (x := compute_freestream_state _ _). set (N := (sm_ne S + sm_nc S)%nat).
  destruct (floop_inv _ (fun k (v : arr R) => alen v = (N * 4)%nat /\ forall i j y, (i < k)%nat -> comp x j = Some y -> aat v (i * 4 + j)%nat = y)
    N (fun i u => floop 4 (fun j u => y <- comp x j ;; aset u (i * 4 + j) y) u) (mkarr (N * 4) junk)) as (u & E & L & P).
  - split; auto. intros; lia.
  - intros i v Hi (Lv & P). destruct (init_row x i N v Lv Hi) as (u' & E & L & Q & K). exists u'. split; auto. split; auto.
    intros a j y Ha Ey. destruct (Nat.eq_dec a i) as [->|Na]; [apply Q; auto|]. rewrite K; [apply P; auto; lia|].
    destruct j as [|[|[|[|j]]]]; try lia. discriminate Ey.
  - exists u. split; auto. split; auto. unfold at_free_stream. fold N. cbn [states alen aat]. rewrite L, Nat.div_mul by lia. split; auto.
    intros i Hi. replace (i * 4)%nat with (i * 4 + 0)%nat at 1 by lia. rewrite (P i 0%nat (s0 x)), (P i 1%nat (s1 x)), (P i 2%nat (s2 x)), (P i 3%nat (s3 x)) by auto.
    replace (mks (s0 x) (s1 x) (s2 x) (s3 x)) with x by (destruct x; reflexivity). apply computed_free_stream; auto.
Qed.
Print Assumptions C98_initial_state.

(** ** The discretizations *)
Definition far_types : list bctype := [FARFIELD_BC; INFLOW_OUTFLOW_BC; EXTRAPOLATION_BC; SLIP_WALL_BC].
Lemma create_ok uinf conf : (forall c, In c conf -> In (fb_type c) far_types) -> forall m, exists r, create_loop uinf conf m = COk r.
Proof.
  induction conf as [|c conf IH]; intros H m; cbn [create_loop]; eauto.
  assert (E : exists b, create_flowBC uinf (mkbcconf (fb_tag c) (fb_type c) (fb_vals c)) = BcOk b).
  { pose proof (H c ltac:(cbn; auto)) as T. unfold create_flowBC. cbn [bc_type bc_vals]. cbn in T. destruct T as [<-|[<-|[<-|[<-|[]]]]]; eauto. }
  destruct E as (b & ->). apply IH. intros d Hd. apply H. cbn. auto.
Qed.
Lemma last_with_in k conf : In k (map fb_tag conf) -> exists c, last_with k conf = Some c.
Proof.
  intros H. unfold last_with. destruct (find _ (rev conf)) as [c|] eqn:E; eauto. exfalso. apply in_map_iff in H. destruct H as (c & T & I).
  pose proof (find_none _ _ E c (proj1 (in_rev _ _) I)) as Q. cbv beta in Q. rewrite T, Z.eqb_refl in Q. discriminate.
Qed.
Lemma last_with_spec k conf c : last_with k conf = Some c -> In c conf /\ fb_tag c = k.
Proof. intros H. unfold last_with in H. apply find_some in H. destruct H as (A & B). split; [apply in_rev; exact A|apply Z.eqb_eq; exact B]. Qed.

Section Case.
Context (m : umesh) (hs : list (nat * nat)) (X : arr v2) (ghost : nat -> v2) (S : smesh) (o : fpopts) (jr : xreal -> R).
Hypothesis FT : fits m hs X ghost S o.
Let G := gas_of jr (extract_spatial_physics_config o).
Let U := compute_freestream_state G (o_alpha o).

Lemma U_fs : free_stream (o_gam o) (o_Minf o) (o_alpha o) U.
Proof. destruct (ft_gas _ _ _ _ _ _ FT). apply computed_free_stream; auto. Qed.
Lemma U_physical : physical (gam G) U.
Proof. destruct (ft_gas _ _ _ _ _ _ FT) as (A & B). destruct (C27_freestream G (o_alpha o) A B) as (_ & _ & _ & _ & _ & _ & _ & P). exact P. Qed.

Lemma flux_known : exists k, create_inviscidflux (o_invflux o) = Some k.
Proof. pose proof (ft_flux _ _ _ _ _ _ FT) as H. cbn in H. repeat (destruct H as [<-|H]; [eexists; reflexivity|]). destruct H. Qed.

Lemma grads_ok k : exists gs, grad_of S k = Some gs.
Proof.
  destruct k; cbn [grad_of]; eauto. pose proof (built_sm _ _ _ _ _ (ft_built _ _ _ _ _ _ FT)) as OK. destruct (wls_ctor_ok S OK) as (V & -> & _). cbn [bind]. eauto.
Qed.

(** a discretization made from the physics of the options is one that the free stream satisfies *)
Lemma made n sp : make_spatial jr m X S (extract_spatial_physics_config o) n = Some (Val sp) -> nc_flux n = o_invflux o ->
  (nc_order2 n = true -> exists rs, sp_rec sp = Some rs /\ scheme_ok S (sp_grad sp) /\ match rs with M_Resid.RLinear | RAlbada => True | M_Resid.RWENO lambda => 0 < lambda | RBJ | RVenkat _ _ => False end) ->
  sp_gas sp = G /\
  forall w u, work_ok S w -> alen u = sm_ne S -> (forall i, (i < sm_ne S)%nat -> aat u i = U) ->
  exists ro, spatial_eval S sp w u = Some (Val ro) /\ rt_fin ro = true /\ alen (rt_r ro) = sm_ne S /\ alen (rt_dt ro) = sm_ne S /\
    forall i, (i < sm_ne S)%nat -> aat (rt_r ro) i = szero /\ 0 < aat (rt_dt ro) i.
Proof.
  intros E Ef H2. unfold make_spatial in E. cbv zeta in E. fold G in E. cbn [pc_aoa extract_spatial_physics_config pc_bc] in E. fold U in E.
  destruct (grad_of S _) as [gs|] eqn:Eg; [|discriminate]. cbn [bind] in E.
  match type of E with (bind ?e _) = _ => destruct e as [rs|] eqn:Er; [|discriminate] end. cbn [bind] in E.
  destruct (create_const_flowBCs U (o_bc o)) as [bcs| |] eqn:Eb; try discriminate. injection E as <-. set (sp := mksp _ _ _ _ _ _ _ _ _) in *. split; [reflexivity|].
  intros w u (W1 & W2 & W3 & W4) Lu HU. unfold spatial_eval. destruct flux_known as (fk & EF).
  assert (SF : sp_flux sp = Some (flux_of fk)) by (cbn [sp_flux sp create_flowSpatialDiscretization sc_flux]; rewrite Ef, EF; reflexivity). rewrite SF. cbn [bind]. set (fl := sp_flow sp (flux_of fk)).
  pose proof (ft_built _ _ _ _ _ _ FT) as B. pose proof (ft_ends _ _ _ _ _ _ FT) as D. pose proof (built_sm _ _ _ _ _ B) as OK.
  pose proof (ft_one _ _ _ _ _ _ FT) as N0. destruct (ft_gas _ _ _ _ _ _ FT) as (Hg & HM). pose proof U_physical as HP. destruct U_fs as (F1 & F2 & F3 & F4).
  assert (LK : forall t, In t (map fb_tag (o_bc o)) -> exists c b, In c (o_bc o) /\ fb_tag c = t /\ create_flowBC U (mkbcconf (fb_tag c) (fb_type c) (fb_vals c)) = BcOk b /\ mfind bcs t = Some b).
  { intros t Ht. destruct (last_with_in _ _ Ht) as (c & Hc). pose proof (create_lookup U (o_bc o) [] bcs Eb t) as Q. rewrite Hc in Q. destruct Q as (b & Q1 & Q2).
    destruct (last_with_spec _ _ _ Hc) as (I & T). exists c, b. auto. }
  destruct (cover_by_tag m hs X ghost S fl B) as (bc & C & BC).
  { intros bf Hb. destruct (ft_tags _ _ _ _ _ _ FT bf Hb) as (t & r & Et & It). destruct (LK t It) as (c & b & _ & _ & _ & Q). exists t, r, b. auto. }
  destruct (built_ok _ _ _ _ _ B) as (p & e & ni & s & il & TO & _ & E1 & E2 & _).
  assert (AD : forall k, (k < sm_nb S)%nat -> admits (fl_gas fl) (bc k) U (fm_n (aat (sm_M S) k))).
  { intros k Hk. rewrite E2 in Hk. destruct (nth_error (bfaces m) k) as [bf|] eqn:En. 2:{ apply nth_error_None in En. unfold nbface in *. lia. }
    destruct (ft_tags _ _ _ _ _ _ FT bf (nth_error_In _ _ En)) as (t & r & Et & It). pose proof (BC k bf t r En Et) as Q. destruct (LK t It) as (c & b & Ic & Tc & Cb & Mb).
    change (fl_bcs fl) with bcs in Q. rewrite Mb in Q. injection Q as <-. pose proof (ft_types _ _ _ _ _ _ FT c Ic) as Ty. cbn in Ty. unfold create_flowBC in Cb. cbn [bc_type bc_vals] in Cb.
    destruct Ty as [Ty|[Ty|[Ty|[Ty|[]]]]]; rewrite <- Ty in Cb; injection Cb as <-; cbn [admits].
    - reflexivity.
    - split; [reflexivity|]. split; [change (o_Minf o <> 0); lra|exact F4].
    - exact Logic.I.
    - unfold normal_velocity. rewrite F1, F2, F3. rewrite (ft_slip _ _ _ _ _ _ FT k bf t r c En Et Ic Tc (eq_sym Ty)). unfold Rdiv. ring. }
  assert (VO : visc_ok fl).
  { intros V. destruct (ft_visc _ _ _ _ _ _ FT V) as (re & pr & R1 & R2 & R3 & R4 & R5). cbn [fl_gas fl sp_flow sp sp_gas G gas_of Prn Reinf Tinf Minf fl_cst]. unfold G, gas_of. cbn [Prn Reinf Tinf Minf extract_spatial_physics_config pc_Re pc_Pr pc_Tinf pc_Minf].
    rewrite R1, R2. cbn [xval]. split; auto. split; auto. intros Hc. split; [apply R5; exact Hc|lra]. }
  assert (HU' : forall j, (j < sm_ne S + sm_nc S)%nat -> aat u j = U) by (intros j Hj; apply HU; lia).
  assert (FIN : forall ul ur, alen ul = sm_nf_all S -> alen ur = sm_nf_all S -> (forall k, (k < sm_nf_all S)%nat -> aat ul k = U /\ aat ur k = U) ->
     exists d, compute_max_timestep S fl ul ur (wk_dt w) = Some d /\ alen d = sm_ne S /\ forall i, (i < sm_ne S)%nat -> 0 < aat d i).
  { intros ul ur Ll Lr V. destruct (C68_time_step m hs X ghost S B D (ft_area _ _ _ _ _ _ FT) fl ul ur (wk_dt w) Hg VO Ll Lr W4) as (d & Ed & Ld & Pd).
    - intros k Hk. rewrite (proj1 (V k Hk)). exact HP.
    - intros k Hk. rewrite (proj2 (V k ltac:(unfold sm_nf_all; lia))). exact HP.
    - exists d. split; auto. split; auto. intros i Hi. apply Pd; auto. }
  destruct (sp_order2 sp) eqn:O2.
  - destruct (H2 O2) as (rs' & Rs & SO & RO). rewrite Rs. cbn [bind].
    destruct (second_uniform m hs X ghost S B D fl bc (sp_grad sp) rs' (fun _ => grad0) (fun _ => szero) U u (wk_l w) (wk_r w) (mkarr (sm_ne S) (fun _ => szero)) (wk_g w) (wk_p w) (Some (wk_dt w)) C Hg HP AD SO RO) as (ul & ur & G' & res' & ER & LR & Ll & Lr & V & P); auto; try lia.
    destruct (FIN ul ur Ll Lr V) as (d & Ed & Ld & Pd). rewrite ER. cbn [maybe_dt]. rewrite Ed. cbn [bind ro_dt ro_res]. eexists. split; [reflexivity|]. cbn [rt_fin rt_r rt_dt]. split; auto. split; auto. split; auto.
    intros i Hi. split; [apply P; auto|apply Pd; auto].
  - destruct (residual1_ok S fl bc u (wk_l w) (wk_r w) (mkarr (sm_ne S) (fun _ => szero)) (wk_g w) (Some (wk_dt w)) OK C ltac:(lia) W1 W2 eq_refl) as (ul & ur & res' & Ll & Lr & V & ER & LR & P).
    assert (V' : forall k, (k < sm_nf_all S)%nat -> aat ul k = U /\ aat ur k = U).
    { intros k Hk. destruct (V k Hk) as (-> & ->). pose proof (so_left _ OK k Hk). assert (HL : left_value S (aat u) k = U) by (unfold left_value; apply HU; lia). split; [exact HL|].
      unfold right_value. destruct (Nat.ltb_spec k (sm_nb S)). unfold bghost. rewrite HL. apply admits_ok; auto. apply HU'. apply right_lt; auto. }
    destruct (FIN ul ur Ll Lr V') as (d & Ed & Ld & Pd). rewrite ER. cbn [maybe_dt]. rewrite Ed. cbn [bind ro_dt ro_res]. eexists. split; [reflexivity|]. cbn [rt_fin rt_r rt_dt]. split; auto. split; auto. split; auto.
    destruct (C65_first_order m hs X ghost S B D fl bc U u (wk_l w) (wk_r w) (mkarr (sm_ne S) (fun _ => szero)) (wk_g w) C Hg HP AD ltac:(lia) W1 W2 eq_refl HU') as (out & EO & PO).
    destruct (residual1_ok S fl bc u (wk_l w) (wk_r w) (mkarr (sm_ne S) (fun _ => szero)) (wk_g w) None OK C ltac:(lia) W1 W2 eq_refl) as (ul1 & ur1 & res1 & _ & _ & _ & ER1 & _ & P1).
    cbn [maybe_dt bind] in ER1. rewrite ER1 in EO. injection EO as <-. cbn [ro_res aat] in PO.
    intros i Hi. split; [|apply Pd; auto]. rewrite <- (PO i Hi). apply st_ext. intros v. rewrite P, P1 by auto. reflexivity.
Qed.

Lemma recs_ok k : exists r, rec_of m X k = Some r.
Proof.
  destruct k; cbn [rec_of]; eauto. destruct (ft_built _ _ _ _ _ _ FT) as (T & _ & LX & _). pose proof (gm_valid _ _ (tl_good _ _ T)) as Hv.
  destruct (venkat_ctor_ok m X) as (cl & -> & _); [|cbn [bind]; eauto]. intros c v Hc Hin. rewrite LX. apply (Hv c Hc); auto.
Qed.
Lemma spatial_made n : exists sp, make_spatial jr m X S (extract_spatial_physics_config o) n = Some (Val sp) /\
  grad_of S (create_gradientscheme (nc_grad n)) = Some (sp_grad sp) /\
  match create_reconstruction (nc_rec n) (nc_par n) with None => sp_rec sp = None | Some k => rec_of m X k = sp_rec sp end.
Proof.
  unfold make_spatial. cbv zeta. cbn [create_flowSpatialDiscretization sc_grad sc_rec sc_flux sc_jac sc_cvisc sc_order2 extract_spatial_physics_config pc_bc pc_aoa pc_visc pc_cvisc].
  destruct (grads_ok (create_gradientscheme (nc_grad n))) as (gs & ->). cbn [bind].
  destruct (create_ok U (o_bc o) (ft_types _ _ _ _ _ _ FT) []) as (bcs & Eb). unfold create_const_flowBCs. unfold U, G in Eb. rewrite Eb.
  destruct (create_reconstruction (nc_rec n) (nc_par n)) as [k|].
  - destruct (recs_ok k) as (r & Er). rewrite Er. cbn [bind]. eexists. split; [reflexivity|]. cbn [sp_grad sp_rec]. split; auto.
  - cbn [bind]. eexists. split; [reflexivity|]. cbn [sp_grad sp_rec]. auto.
Qed.

(** what the solvers need to know of a residual function: it vanishes on the free stream *)
Definition still (Rf : arr st -> option (exc rout)) : Prop :=
  forall u, alen u = sm_ne S -> (forall i, (i < sm_ne S)%nat -> aat u i = U) ->
  exists ro, Rf u = Some (Val ro) /\ rt_fin ro = true /\ alen (rt_r ro) = sm_ne S /\ alen (rt_dt ro) = sm_ne S /\
    forall i, (i < sm_ne S)%nat -> aat (rt_r ro) i = szero /\ 0 < aat (rt_dt ro) i.
Definition uni (u : arr st) : Prop := alen u = sm_ne S /\ forall i, (i < sm_ne S)%nat -> aat u i = U.
Lemma uni_fs u : uni u <-> at_free_stream S o u.
Proof.
  unfold uni, at_free_stream. rewrite (ft_one _ _ _ _ _ _ FT), Nat.add_0_r. destruct (ft_gas _ _ _ _ _ _ FT) as (Hg & _). split; intros (A & B); (split; [exact A|]); intros i Hi.
  - rewrite B by auto. apply U_fs.
  - eapply free_stream_unique; [exact Hg|apply B; auto|apply U_fs].
Qed.
(** The residual of both discretizations vanishes on the free stream, whatever the work arrays contain. *)
Lemma main_still : (o_order2 o = true -> fits2 S o) -> exists sp, main_spatial jr m X S o = Some (Val sp) /\ sp_gas sp = G /\ forall w, work_ok S w -> still (spatial_eval S sp w).
Proof.
  intros H2. destruct (spatial_made (extract_spatial_numerics_config o)) as (sp & E & Eg & Er). exists sp. split; [exact E|].
  destruct (made _ sp E eq_refl) as (A & B); [|split; [exact A|intros w Hw u L1 L2; exact (B w u Hw L1 L2)]].
  cbn [extract_spatial_numerics_config nc_order2 nc_grad nc_rec nc_par] in *. intros O2. destruct (H2 O2) as (HR & HG & HL).
  assert (RR : exists rs, sp_rec sp = Some rs /\ match rs with M_Resid.RLinear | RAlbada => True | M_Resid.RWENO lambda => 0 < lambda | RBJ | RVenkat _ _ => False end).
  { destruct HR as [Q|[Q|(Q & QP)]]; rewrite Q in Er; cbn in Er; rewrite <- Er; eexists; split; try reflexivity; cbn; auto. }
  destruct RR as (rs & R1 & R2). exists rs. split; [exact R1|]. split; [|exact R2].
  unfold create_gradientscheme in Eg. destruct (String.eqb_spec (o_grad o) "LEASTSQUARES") as [Q|Q].
  - cbn [grad_of] in Eg. destruct (WLS_ctor S) as [V|] eqn:EV; [|discriminate]. cbn [bind] in Eg. injection Eg as <-. split; [exact EV|exact (HL Q)].
  - destruct (String.eqb_spec (o_grad o) "GREENGAUSS") as [Q'|Q'].
    + cbn [grad_of] in Eg. injection Eg as <-. split; [exact (HG Q')|exact (ft_area _ _ _ _ _ _ FT)].
    + cbn [grad_of] in Eg. injection Eg as <-. exact Logic.I.
Qed.
Lemma start_still : exists sp, start_spatial jr m X S o = Some (Val sp) /\ sp_gas sp = G /\ forall w, work_ok S w -> still (spatial_eval S sp w).
Proof.
  destruct (spatial_made (firstorder_spatial_numerics_config o)) as (sp & E & _). exists sp. split; [exact E|].
  destruct (made _ sp E eq_refl) as (A & B); [discriminate|split; [exact A|intros w Hw u L1 L2; exact (B w u Hw L1 L2)]].
Qed.

(** ** The steady solvers *)
Lemma norm_zero A ro : (forall i, (i < sm_ne S)%nat -> aat (rt_r ro) i = szero) -> res_norm (sm_ne S) A (rt_r ro) = 0.
Proof.
  intros Z. unfold res_norm. rewrite rsum_zero; [apply sqrt_0|]. intros i Hi. apply in_seq in Hi. rewrite Z by lia. cbn [szero s3]. ring.
Qed.
Lemma sadd_zero x a : sadd x (sscal a szero) = x.
Proof. destruct x. unfold sadd, sscal, szero; cbn. f_equal; ring. Qed.

Section Solve.
Context (Rf : bool -> arr st -> option (exc rout)) (glob : nat -> nat) (Jf : bool -> arr st -> option (exc bmat))
        (ksp : nat -> bmat -> arr R -> arr st -> arr st -> arr st * nat) (at_throw : arr st -> arr st).
Notation slv := (ode_solve (sm_ne S) (sm_A S) Rf glob Jf ksp G at_throw).
(** linear solves: a zero right-hand side has the solution zero *)
Definition ksp_zero : Prop := forall k M dtm u b, alen b = sm_ne S -> (forall i, (i < sm_ne S)%nat -> aat b i = szero) ->
  alen (fst (ksp k M dtm u b)) = sm_ne S /\ forall i, (i < sm_ne S)%nat -> aat (fst (ksp k M dtm u b)) i = szero.

(** One pass of a solver at the free stream: the residual becomes zero and the state stays. *)
Lemma pass_still c main eup edown upd s : still (Rf main) -> uni (m_u s) -> m_step s = 0%nat ->
  (forall cfl ro, alen (rt_r ro) = sm_ne S -> alen (rt_dt ro) = sm_ne S -> (forall i, (i < sm_ne S)%nat -> aat (rt_r ro) i = szero /\ 0 < aat (rt_dt ro) i) ->
     exists u' its, upd 0%nat cfl (m_u s) ro = Some (Val (u', its)) /\ uni u') ->
  exists u' cfl its, uni u' /\ steady_body (sm_ne S) (sm_A S) c (Rf main) eup edown upd s =
    Some (SNext (mkmon u' 1 0 (m_resi s) 0 cfl (m_lin s + its) (m_log s ++ [mklog 1 0 0 cfl]))).
Proof.
  intros ST (L & HU) S0 H. destruct (ST _ L HU) as (ro & E & F & L1 & L2 & Z). unfold steady_body. rewrite E, S0.
  set (cfl := expResidualRamp _ _ _ _ _ _). destruct (H cfl ro L1 L2 Z) as (u' & its & EU & HU'). rewrite EU, F. cbv zeta.
  rewrite norm_zero by (intros i Hi; apply Z; auto). change (0 =? 0)%nat with true. cbv iota. exists u', cfl, its. split; [exact HU'|reflexivity].
Qed.
Lemma loop_still c body s u' cfl its lg k : m_resi s = 1 -> m_init s = 1 -> m_step s = 0%nat -> (0 < maxiter c)%Z ->
  body s = Some (SNext (mkmon u' 1 0 1 0 cfl its lg)) ->
  steady_loop c body (Datatypes.S k) s = Some (SNext (if Rlt_dec (tol c) 1 then mkmon u' 1 0 1 0 cfl its lg else s)).
Proof.
  intros R1 R2 R3 M E. cbn [steady_loop]. unfold steady_cont at 1. rewrite R1, R2, R3. unfold rel_gt. destruct (Req_EM_T 1 0); [lra|].
  replace (1 / 1) with 1 by field. destruct (Rlt_dec (tol c) 1) as [T|T]; [|reflexivity]. destruct (Z.ltb_spec (Z.of_nat 0) (maxiter c)); [|cbn in *; lia]. cbn [andb]. rewrite E.
  destruct k; [reflexivity|]. cbn [steady_loop]. unfold steady_cont, rel_gt. cbn [m_resi m_init]. destruct (Req_EM_T 0 0); [|lra]. reflexivity.
Qed.
Lemma fe_still c main s : still (Rf main) -> uni (m_u s) -> m_step s = 0%nat -> exists u' cfl its, uni u' /\
  steady_body (sm_ne S) (sm_A S) c (Rf main) 0.3 0.25 (fe_upd (sm_ne S) (sm_A S) c) s = Some (SNext (mkmon u' 1 0 (m_resi s) 0 cfl (m_lin s + its) (m_log s ++ [mklog 1 0 0 cfl]))).
Proof.
  intros ST U0 S0. apply pass_still; auto. intros cfl ro L1 L2 Z. destruct U0 as (L & HU). pose proof (so_A _ (built_sm _ _ _ _ _ (ft_built _ _ _ _ _ _ FT))) as LA.
  destruct (fe_update_ok (sm_ne S) (sm_A S) c (m_u s) ro) as (u' & E & L' & P & _); try lia. exists u', 0%nat. unfold fe_upd. rewrite E. cbn [bind]. split; auto. split; [lia|].
  intros i Hi. rewrite P by auto. rewrite (proj1 (Z i Hi)), sadd_zero. apply HU; auto.
Qed.
(** The explicit solver never leaves the free stream. With more than one step allowed and a tolerance below 1 it converges in one step. *)
Lemma explicit_still main c lg up u : still (Rf main) -> uni u -> let r := slv false main c lg up u in
  uni (so_u r) /\ (so_end r = Some (inl 0%Z) \/ so_end r = Some (inr Tolerance_error)) /\
  ((1 < maxiter c)%Z -> tol c < 1 -> so_end r = Some (inl 0%Z) /\ so_vecs r = 0%nat /\ exists cfl, so_td r = mktd true 1 (if lg then [mklog 1 0 0 cfl] else [])).
Proof.
  intros ST U0. cbv zeta. unfold ode_solve, loop_of, fe_solve. cbv zeta. destruct (Z.leb_spec (maxiter c) 0) as [M|M].
  - cbn [so_u so_end m_u]. split; [exact U0|]. split; [auto|]. intros; lia.
  - destruct (fe_still c main (mkmon u 0 1 1 1 (cflinit c) 0 []) ST U0 eq_refl) as (u' & cfl & its & HU & E). cbn [m_resi m_lin m_log app] in E.
    destruct (Z.to_nat (maxiter c)) as [|k] eqn:K; [lia|].
    rewrite (loop_still c _ (mkmon u 0 1 1 1 (cflinit c) 0 []) u' cfl (0 + its) [mklog 1 0 0 cfl] k eq_refl eq_refl eq_refl M E).
    destruct (Rlt_dec (tol c) 1) as [T|T]; cbn [m_step].
    + destruct (Z.eqb_spec (Z.of_nat 1) (maxiter c)) as [Q|Q]; cbn [so_u so_end so_vecs so_td m_u m_step m_log].
      * split; [exact HU|]. split; [auto|]. intros; cbn in Q; lia.
      * split; [exact HU|]. split; [auto|]. intros _ _. split; auto. split; auto. exists cfl. destruct lg; reflexivity.
    + destruct (Z.eqb_spec (Z.of_nat 0) (maxiter c)) as [Q|Q]; [cbn in Q; lia|]. cbn [so_u so_end m_u]. split; [exact U0|]. split; [auto|]. intros _ T'. contradiction.
Qed.
Lemma be_still c main up s : still (Rf main) -> uni (m_u s) -> m_step s = 0%nat -> ksp_zero -> (exists J, Jf main (m_u s) = Some (Val J)) -> exists u' cfl its, uni u' /\
  steady_body (sm_ne S) (sm_A S) c (Rf main) 0.25 0.3 (be_upd (sm_ne S) (sm_A S) glob (Jf main) ksp (relax_of G up)) s = Some (SNext (mkmon u' 1 0 (m_resi s) 0 cfl (m_lin s + its) (m_log s ++ [mklog 1 0 0 cfl]))).
Proof.
  intros ST U0 S0 KZ (J & EJ). apply pass_still; auto. intros cfl ro L1 L2 Z. destruct U0 as (L & HU). pose proof (so_A _ (built_sm _ _ _ _ _ (ft_built _ _ _ _ _ _ FT))) as LA.
  unfold be_upd. rewrite EJ. assert (exists d M', add_pseudo_time (sm_ne S) (sm_A S) glob cfl (rt_dt ro) J = Some (d, M')) as (d & M' & EP).
  { unfold add_pseudo_time. match goal with |- context [floop _ ?b ?s] => destruct (floop_inv _ (fun _ (x : arr R * bmat) => alen (fst x) = sm_ne S) (sm_ne S) b s) as ((d & M') & E & _) end; [exact L2| |eauto].
    intros i (d & M') Hi Hl. cbn [fst snd] in *. rewrite !aget_ok by lia. cbn [bind]. rewrite aset_ok by lia. cbn [bind]. rewrite aget_ok by (cbn [alen]; lia). cbn [bind]. eexists. split; [reflexivity|]. exact Hl. }
  rewrite EP. cbn [bind]. destruct (KZ 0%nat M' d (m_u s) (rt_r ro) L1 (fun i Hi => proj1 (Z i Hi))) as (LK & PK). destruct (ksp 0%nat M' d (m_u s) (rt_r ro)) as (du & its). cbn [fst] in LK, PK.
  destruct (be_update_ok (sm_ne S) (relax_of G up) (m_u s) du) as (u' & E & L' & P & _); try lia. rewrite E. cbn [bind]. exists u', its. split; auto. split; [lia|].
  intros i Hi. rewrite P by auto. rewrite (PK i Hi), sadd_zero. apply HU; auto.
Qed.
(** The implicit solver also stays there, but throws: Numerical_error, or Tolerance_error with a single step allowed. *)
Lemma implicit_still main c lg up u : still (Rf main) -> uni u -> ksp_zero -> (exists J, Jf main u = Some (Val J)) -> (0 < maxiter c)%Z -> tol c < 1 ->
  let r := slv true main c lg up u in
  uni (so_u r) /\ so_end r = Some (inr (if (maxiter c =? 1)%Z then Tolerance_error else Numerical_error)).
Proof.
  intros ST U0 KZ EJ M T. cbv zeta. unfold ode_solve, loop_of, be_solve. cbv zeta. destruct (Z.leb_spec (maxiter c) 0) as [Q|_]; [lia|].
  destruct (be_still c main up (mkmon u 0 1 1 1 0 0 []) ST U0 eq_refl KZ EJ) as (u' & cfl & its & HU & E). cbn [m_resi m_lin m_log app] in E.
  destruct (Z.to_nat (maxiter c)) as [|k] eqn:K; [lia|].
  rewrite (loop_still c _ (mkmon u 0 1 1 1 0 0 []) u' cfl (0 + its) [mklog 1 0 0 cfl] k eq_refl eq_refl eq_refl M E).
  destruct (Rlt_dec (tol c) 1) as [_|T']; [|contradiction]. cbn [m_step m_resi m_init]. change (1 =? 0)%nat with false. cbv iota. unfold rel_le. destruct (Req_EM_T 0 0); [|lra]. rewrite andb_false_r.
  destruct (Z.leb_spec (maxiter c) (Z.of_nat 1)) as [Q|Q]; cbn in Q; destruct (Z.eqb_spec (maxiter c) 1) as [Q'|Q']; try lia; cbn [so_u so_end m_u]; auto.
Qed.
End Solve.
End Case.

(** ** Theorems *)
(** *** The discretizations are made of what the options name *)
Definition flux_names : list (string * fluxname) :=
  [("LLF", LLF); ("ROE", ROE); ("HLL", HLL); ("HLLC", HLLC); ("AUSM", AUSM); ("AUSMPLUS", AUSMPLUS); ("VANLEER", VANLEER)]%string.
(** what the two have in common: the gas, the flux (a null pointer for an unknown name), viscosity, and boundary conditions; those that
    refer to the free stream have that of the options *)
Definition made_for (o : fpopts) (sp : spatial) : Prop :=
  gam (sp_gas sp) = o_gam o /\ Minf (sp_gas sp) = o_Minf o /\ Tinf (sp_gas sp) = o_Tinf o /\
  (forall x, o_Re o = XR x -> Reinf (sp_gas sp) = x) /\ (forall x, o_Pr o = XR x -> Prn (sp_gas sp) = x) /\
  (forall f, sp_flux sp = Some f <-> In (o_invflux o, f) flux_names) /\ (forall f, sp_jac sp = Some f <-> In (o_invfluxjac o, f) flux_names) /\
  sp_visc sp = o_visc o /\ sp_cvisc sp = o_cvisc o /\
  (forall t, (exists b, mfind (sp_bcs sp) t = Some b) <-> In t (map fb_tag (o_bc o))) /\
  (forall t c, last_with t (o_bc o) = Some c -> match fb_type c with
     | FARFIELD_BC => exists u, mfind (sp_bcs sp) t = Some (BFar u) /\ free_stream (o_gam o) (o_Minf o) (o_alpha o) u
     | INFLOW_OUTFLOW_BC => exists u, mfind (sp_bcs sp) t = Some (BInOut u) /\ free_stream (o_gam o) (o_Minf o) (o_alpha o) u
     | SLIP_WALL_BC => mfind (sp_bcs sp) t = Some BSlip
     | EXTRAPOLATION_BC => mfind (sp_bcs sp) t = Some BExtrap
     | SUBSONIC_INFLOW_BC => exists p T r, fb_vals c = p :: T :: r /\ mfind (sp_bcs sp) t = Some (BInflow p T)
     | ADIABATIC_WALL_BC => exists v r, fb_vals c = v :: r /\ mfind (sp_bcs sp) t = Some (BAdia v)
     | ISOTHERMAL_WALL_BC => exists v T r, fb_vals c = v :: T :: r /\ mfind (sp_bcs sp) t = Some (BIso v T)
     | PERIODIC_BC => False end).
Lemma flux_name k f : option_map flux_of (create_inviscidflux k) = Some f <-> In (k, f) flux_names.
Proof.
  split.
  - unfold create_inviscidflux. repeat match goal with |- context [String.eqb k ?n] => destruct (String.eqb_spec k n) as [->|_]; [cbn; intros [= <-]; auto 10|] end. discriminate.
  - cbn. intros H. decompose [or] H; try contradiction; match goal with Q : (_, _) = _ |- _ => injection Q as <- <-; reflexivity end.
Qed.
Lemma make_for jr m X S o n sp : 1 < o_gam o -> 0 < o_Minf o -> make_spatial jr m X S (extract_spatial_physics_config o) n = Some (Val sp) -> nc_flux n = o_invflux o -> nc_jac n = o_invfluxjac o ->
  made_for o sp /\ sp_order2 sp = nc_order2 n /\ grad_of S (create_gradientscheme (nc_grad n)) = Some (sp_grad sp) /\
  match create_reconstruction (nc_rec n) (nc_par n) with None => sp_rec sp = None | Some k => rec_of m X k = sp_rec sp end.
Proof.
  intros Hg HM E Ef Ej. unfold make_spatial in E. cbv zeta in E. cbn [create_flowSpatialDiscretization sc_grad sc_rec sc_flux sc_jac sc_cvisc sc_order2 extract_spatial_physics_config pc_bc pc_aoa pc_visc pc_cvisc] in E.
  destruct (grad_of S _) as [gs|] eqn:Eg; [|discriminate]. cbn [bind] in E.
  match type of E with (bind ?e _) = _ => destruct e as [rs|] eqn:Er; [|discriminate] end. cbn [bind] in E.
  pose proof (computed_free_stream jr o Hg HM) as FS. set (U := compute_freestream_state _ _) in *.
  destruct (create_const_flowBCs U (o_bc o)) as [bcs| |] eqn:Eb; try discriminate. injection E as <-. rewrite Ef, Ej. pose proof (create_lookup U (o_bc o) [] bcs Eb) as LK.
  split; [|split; [reflexivity|split; [reflexivity|]]].
  - unfold made_for. cbn [sp_gas sp_flux sp_jac sp_visc sp_cvisc sp_bcs gas_of gam Minf Tinf Reinf Prn pc_gam pc_Minf pc_Tinf pc_Re pc_Pr extract_spatial_physics_config].
    do 3 (split; [reflexivity|]). split; [intros x ->; reflexivity|]. split; [intros x ->; reflexivity|]. split; [intros f; apply flux_name|]. split; [intros f; apply flux_name|]. do 2 (split; [reflexivity|]). split.
    + intros t. specialize (LK t). split.
      * intros (b & Hb). destruct (last_with t (o_bc o)) as [c|] eqn:Ec; [|rewrite Hb in LK; discriminate]. destruct (last_with_spec _ _ _ Ec) as (A & <-). apply in_map. exact A.
      * intros Ht. destruct (last_with_in _ _ Ht) as (c & Ec). rewrite Ec in LK. destruct LK as (b & _ & Q). eauto.
    + intros t c Ec. specialize (LK t). rewrite Ec in LK. destruct LK as (b & Q1 & Q2). unfold create_flowBC in Q1. cbn [bc_type bc_vals] in Q1.
      destruct (fb_type c); try discriminate; try (injection Q1 as <-; eauto); destruct (fb_vals c) as [|v1 [|v2 vr]]; try discriminate; injection Q1 as <-; eauto 6.
  - cbn [sp_rec]. destruct (create_reconstruction _ _); [|congruence]. destruct (rec_of m X r); [|discriminate]. cbn [bind] in Er. congruence.
Qed.
Theorem C98_discretization : forall m X S o jr, 1 < o_gam o -> 0 < o_Minf o ->
  (forall sp, main_spatial jr m X S o = Some (Val sp) -> made_for o sp /\ sp_order2 sp = o_order2 o /\
     (o_grad o = "LEASTSQUARES"%string -> exists V, WLS_ctor S = Some V /\ sp_grad sp = M_Resid.GLeastSquares V) /\
     (o_grad o = "GREENGAUSS"%string -> sp_grad sp = M_Resid.GGreenGauss) /\
     (o_grad o <> "LEASTSQUARES"%string -> o_grad o <> "GREENGAUSS"%string -> sp_grad sp = M_Resid.GZero) /\
     (o_lim o = "NONE"%string -> sp_rec sp = Some M_Resid.RLinear) /\ (o_lim o = "WENO"%string -> sp_rec sp = Some (M_Resid.RWENO (o_limpar o))) /\
     (o_lim o = "VANALBADA"%string -> sp_rec sp = Some RAlbada) /\ (o_lim o = "BARTHJESPERSEN"%string -> sp_rec sp = Some RBJ) /\
     (o_lim o = "VENKATAKRISHNAN"%string -> exists cl, venkat_ctor m X = Some cl /\ sp_rec sp = Some (RVenkat (o_limpar o) cl))) /\
  (forall sp, start_spatial jr m X S o = Some (Val sp) -> made_for o sp /\ sp_order2 sp = false).
Proof.
  intros m X S o jr Hg HM. split; intros sp E.
  - destruct (make_for jr m X S o _ sp Hg HM E eq_refl eq_refl) as (A & B & C & D). cbn [extract_spatial_numerics_config nc_grad nc_rec nc_par nc_order2] in *. split; [exact A|]. split; [exact B|].
    split; [|split; [|split; [|split; [|split; [|split; [|split]]]]]].
    + intros Q. rewrite Q in C. cbn in C. destruct (WLS_ctor S) as [V|]; [|discriminate]. cbn [bind] in C. injection C as <-. eauto.
    + intros Q. rewrite Q in C. cbn in C. injection C as <-. reflexivity.
    + intros Q1 Q2. unfold create_gradientscheme in C. apply String.eqb_neq in Q1, Q2. rewrite Q1, Q2 in C. injection C as <-. reflexivity.
    + intros Q. rewrite Q in D. exact (eq_sym D).
    + intros Q. rewrite Q in D. exact (eq_sym D).
    + intros Q. rewrite Q in D. exact (eq_sym D).
    + intros Q. rewrite Q in D. exact (eq_sym D).
    + intros Q. rewrite Q in D. cbn in D. destruct (venkat_ctor m X) as [cl|] eqn:V; [cbn [bind] in D; eauto|].
      exfalso. unfold main_spatial, make_spatial in E. cbv zeta in E. cbn [create_flowSpatialDiscretization sc_rec sc_grad extract_spatial_numerics_config nc_rec nc_par] in E. rewrite Q in E. cbn [create_reconstruction String.eqb Ascii.eqb Bool.eqb rec_of] in E.
      rewrite V in E. cbn [bind] in E. destruct (grad_of S _); discriminate.
  - destruct (make_for jr m X S o _ sp Hg HM E eq_refl eq_refl) as (A & B & _). split; [exact A|exact B].
Qed.
Print Assumptions C98_discretization.

(** *** Both discretizations can be made, and their residual vanishes on the free stream, with positive time steps, whatever the work arrays contain *)
Theorem C98_residual : forall m hs X ghost S o jr, fits m hs X ghost S o -> (o_order2 o = true -> fits2 S o) ->
  exists spm sps, main_spatial jr m X S o = Some (Val spm) /\ start_spatial jr m X S o = Some (Val sps) /\
  forall sp, sp = spm \/ sp = sps -> forall w u, work_ok S w -> at_free_stream S o u ->
  exists ro, spatial_eval S sp w u = Some (Val ro) /\ rt_fin ro = true /\ alen (rt_r ro) = sm_ne S /\ alen (rt_dt ro) = sm_ne S /\
    forall i, (i < sm_ne S)%nat -> aat (rt_r ro) i = szero /\ 0 < aat (rt_dt ro) i.
Proof.
  intros m hs X ghost S o jr FT H2. destruct (main_still m hs X ghost S o jr FT H2) as (spm & Em & _ & Sm). destruct (start_still m hs X ghost S o jr FT) as (sps & Es & _ & Ss).
  exists spm, sps. split; [exact Em|]. split; [exact Es|]. intros sp Hsp w u Hw Hu. apply (uni_fs m hs X ghost S o jr FT) in Hu. destruct Hu as (L & HU).
  destruct Hsp as [->| ->]; [exact (Sm w Hw u L HU)|exact (Ss w Hw u L HU)].
Qed.

(** *** The whole explicit run: whatever the starter's settings, it ends converged after one step of the main solve, the state is still the free stream, the history has one line *)
Theorem C98_explicit_run : forall m hs X ghost S o jr spm sps wk glob Jf ksp at_throw F mf (fnl : arr st -> Z -> F) surf vtu rank size w wall rest,
  fits m hs X ghost S o -> (o_order2 o = true -> fits2 S o) ->
  main_spatial jr m X S o = Some (Val spm) -> start_spatial jr m X S o = Some (Val sps) -> (forall b, work_ok S (wk b)) ->
  o_ptype o <> "IMPLICIT"%string -> (1 < o_maxit o)%Z -> o_tol o < 1 -> o_lwalls o = wall :: rest -> at_free_stream S o (w_u w) ->
  exists u' w' cfl, run_output (case_solve S spm sps wk glob Jf ksp at_throw) o mf fnl surf vtu rank size w = (Ret (fnl u' wall), w') /\
    w_u w' = u' /\ at_free_stream S o u' /\
    (o_lognres o = true -> rank = 0%nat -> exists fs, w_files w' = (w_files w ++ FHistory [mklog 1 0 0 cfl] :: fs)%list).
Proof.
  intros m hs X ghost S o jr spm sps wk glob Jf ksp at_throw F mf fnl surf vtu rank size w wall rest FT H2 Em Es Hw HI HM HT HW Hu.
  destruct (main_still m hs X ghost S o jr FT H2) as (spm' & Em' & Gm & Sm). destruct (start_still m hs X ghost S o jr FT) as (sps' & Es' & _ & Ss).
  assert (spm' = spm) by congruence. assert (sps' = sps) by congruence. subst spm' sps'. clear Em' Es'.
  apply (uni_fs m hs X ghost S o jr FT) in Hu. set (slv := case_solve S spm sps wk glob Jf ksp at_throw).
  assert (EI : String.eqb (o_ptype o) "IMPLICIT" = false) by (apply String.eqb_neq; exact HI).
  pose proof (explicit_still m hs X ghost S o jr FT (fun main => spatial_eval S (if main then spm else sps) (wk main)) glob Jf ksp at_throw) as XS. rewrite <- Gm in XS.
  assert (U1 : uni S o jr (so_u (run1 slv o (w_u w))) /\ (so_end (run1 slv o (w_u w)) = Some (inl 0%Z) \/ so_end (run1 slv o (w_u w)) = Some (inr Tolerance_error))).
  { unfold run1. rewrite EI. destruct (XS false (start_conf o) (o_lognres o) (the_update o) (w_u w) (Ss _ (Hw false)) Hu) as (A & B & _). split; [exact A|exact B]. }
  assert (U2 : uni S o jr (start_u slv o (w_u w))) by (unfold start_u; destruct (Z.eqb (o_starter o) 0); [exact Hu|apply U1]).
  assert (SP : starter_passes slv o (w_u w)) by (right; apply U1).
  assert (NL : nlu_ok o) by (intros Q; contradiction).
  destruct (XS true (main_conf o) (o_lognres o) (the_update o) _ (Sm _ (Hw true)) U2) as (A & _ & B). destruct (B HM HT) as (B1 & B2 & cfl & B3).
  assert (MR : main_run slv o (w_u w) = slv false true (main_conf o) (o_lognres o) (the_update o) (start_u slv o (w_u w))) by (unfold main_run, run2; rewrite EI; reflexivity).
  change (ode_solve _ _ _ glob Jf ksp (sp_gas spm) at_throw) with slv in A, B1, B2, B3. rewrite <- MR in A, B1, B2, B3.
  assert (CV : converges slv o (w_u w)) by (split; [exact B1|rewrite B3; reflexivity]).
  assert (HO : hist_ok slv o (w_u w) (o_lognres o) rank) by (intros Q _; rewrite B3, Q; cbn; lia).
  destruct (C96_run_output slv o mf fnl w surf vtu rank size wall rest NL SP HW) as (RO & _). rewrite (RO CV HO). do 2 eexists. exists cfl. split; [reflexivity|]. cbn [w_u w_files].
  split; [reflexivity|]. split; [apply (uni_fs m hs X ghost S o jr FT); exact A|]. intros Q1 Q2. unfold hist_files. rewrite B3, Q1, Q2. cbn [andb td_steps td_hist firstn].
  change (0 =? 0)%nat with true. cbv iota. eexists. rewrite <- app_assoc. reflexivity.
Qed.

(** *** The whole implicit run is reported as failed, although it starts in a steady state: without the starter it ends unconverged, without a history, and the
    functionals are those of the free stream; with the starter it ends with an exception *)
Theorem C98_implicit_run_refuted : forall m hs X ghost S o jr spm sps wk glob Jf ksp at_throw F mf (fnl : arr st -> Z -> F) surf vtu rank size w wall rest,
  fits m hs X ghost S o -> (o_order2 o = true -> fits2 S o) ->
  main_spatial jr m X S o = Some (Val spm) -> start_spatial jr m X S o = Some (Val sps) -> (forall b, work_ok S (wk b)) ->
  ksp_zero S ksp -> (forall b u, at_free_stream S o u -> exists J, Jf b u = Some (Val J)) ->
  o_ptype o = "IMPLICIT"%string -> nlu_ok o -> o_lwalls o = wall :: rest -> at_free_stream S o (w_u w) ->
  let slv := case_solve S spm sps wk glob Jf ksp at_throw in
  ((o_starter o = 0%Z -> (0 < o_maxit o)%Z -> o_tol o < 1 ->
      fst (run slv o mf rank w) = Thr Tolerance_error /\
      exists u' w', run_output slv o mf fnl surf vtu rank size w = (Ret (fnl u' wall), w') /\ w_u w' = u' /\ at_free_stream S o u' /\
        w_files w' = (w_files w ++ out_files slv o (w_u w) surf vtu size)%list) /\
   (o_starter o <> 0%Z -> (1 < o_fmaxit o)%Z -> o_ftol o < 1 ->
      fst (run slv o mf rank w) = Thr Numerical_error /\ fst (run_output slv o mf fnl surf vtu rank size w) = Thr Numerical_error)).
Proof.
  intros m hs X ghost S o jr spm sps wk glob Jf ksp at_throw F mf fnl surf vtu rank size w wall rest FT H2 Em Es Hw KZ HJ HI NL HW Hu slv.
  destruct (main_still m hs X ghost S o jr FT H2) as (spm' & Em' & Gm & Sm). destruct (start_still m hs X ghost S o jr FT) as (sps' & Es' & _ & Ss).
  assert (spm' = spm) by congruence. assert (sps' = sps) by congruence. subst spm' sps'. clear Em' Es'.
  pose proof Hu as HF. apply (uni_fs m hs X ghost S o jr FT) in Hu.
  assert (EI : String.eqb (o_ptype o) "IMPLICIT" = true) by (apply String.eqb_eq; exact HI).
  pose proof (implicit_still m hs X ghost S o jr FT (fun main => spatial_eval S (if main then spm else sps) (wk main)) glob Jf ksp at_throw) as XS. rewrite <- Gm in XS.
  change (ode_solve _ _ _ glob Jf ksp (sp_gas spm) at_throw) with slv in XS. split.
  - intros S0 HM HT.
    destruct (XS true (main_conf o) (o_lognres o) (the_update o) (w_u w) (Sm _ (Hw true)) Hu KZ (HJ _ _ HF) HM HT) as (A & B).
    assert (MR : main_run slv o (w_u w) = slv true true (main_conf o) (o_lognres o) (the_update o) (w_u w)) by (unfold main_run, run2, start_u; rewrite EI, S0; reflexivity).
    rewrite <- MR in A, B. assert (SP : starter_passes slv o (w_u w)) by (left; exact S0).
    assert (FL : fails slv o (w_u w)) by (unfold fails; rewrite B; destruct (_ =? _)%Z; auto).
    split; [rewrite (proj2 (C96_run slv o mf w rank NL SP) FL); reflexivity|].
    rewrite (proj2 (C96_run_output slv o mf fnl w surf vtu rank size wall rest NL SP HW) FL). do 2 eexists. split; [reflexivity|]. cbn [w_u w_files]. split; [reflexivity|]. split; [|reflexivity].
    apply (uni_fs m hs X ghost S o jr FT). exact A.
  - intros S0 HM HT.
    destruct (XS false (start_conf o) (o_lognres o) (the_update o) (w_u w) (Ss _ (Hw false)) Hu KZ (HJ _ _ HF) ltac:(cbn; lia) HT) as (_ & B).
    assert (E1 : so_end (run1 slv o (w_u w)) = Some (inr Numerical_error)).
    { unfold run1. rewrite EI. etransitivity; [exact B|]. cbn [start_conf maxiter]. destruct (Z.eqb_spec (o_fmaxit o) 1); [lia|reflexivity]. }
    assert (ST : forall w1, w_u w1 = w_u w -> fst (execute_starter slv o mf w1) = Thr Numerical_error).
    { intros w1 Ew. apply (proj2 (C96_starter slv o mf w1 NL) _ S0); [rewrite Ew; exact E1|discriminate]. }
    assert (EX : forall h w1, w_u w1 = w_u w -> fst (execute slv o mf h rank w1) = Thr Numerical_error).
    { intros h w1 Ew. pose proof (ST w1 Ew) as Q. unfold execute, mbind. destruct (execute_starter slv o mf w1) as (r & w2). cbn [fst] in Q. subst r. reflexivity. }
    split.
    + unfold run. unfold mbind at 1. cbn [new]. match goal with |- fst (mbind _ _ ?w1) = _ => pose proof (EX false w1 eq_refl) as Q; unfold mbind; destruct (execute slv o mf false rank w1) as (r & w2) end.
      cbn [fst] in Q. subst r. reflexivity.
    + unfold run_output. unfold mbind at 1. cbn [new]. match goal with |- fst (mbind _ _ ?w1) = _ => pose proof (EX (o_lognres o) w1 eq_refl) as Q; unfold mbind, catch; destruct (execute slv o mf (o_lognres o) rank w1) as (r & w2) end.
      cbn [fst] in Q. subst r. reflexivity.
Qed.
Print Assumptions C98_residual.
Print Assumptions C98_explicit_run.
Print Assumptions C98_implicit_run_refuted.

(** ** A case that fits: a channel of two cells along the x axis, slip walls above and below, an inflow/outflow section at one end and a far field section
    at the other; second order with least squares and the van Albada limiter *)
Definition ch : umesh := mkmesh 6 [[0;1;2;3]; [1;4;5;2]]%nat 4 [mkbf 0 1 [1%Z]; mkbf 1 4 [1%Z]; mkbf 4 5 [2%Z]; mkbf 5 2 [1%Z]; mkbf 2 3 [1%Z]; mkbf 3 0 [3%Z]] [].
Definition chX : arr v2 := mkarr 6 (fun k => nth k [mkv 0 0; mkv 1 0; mkv 1 1; mkv 0 1; mkv 3 0; mkv 3 1] vzero).
Definition chh : list (nat * nat) := [(0,0); (1,0); (1,1); (1,2); (0,2); (0,3)]%nat.
Definition chg : nat -> v2 := fun _ => vzero.
Definition ch_opts (ptype : string) (starter : Z) : fpopts := mkopts "" "" "" "EULER" "HLLC" "HLLC" "LEASTSQUARES" "VANALBADA" ptype "" "" "NO" "STEADY" "" "FULL"
  1 10 (1/3) 1 10 (1/3) (1/2) 0 XInf 0 XInf 1.4 0 0 0 0 0 5 0 0 5 0 0 0
  [mkfbc 1 SLIP_WALL_BC [] []; mkfbc 2 INFLOW_OUTFLOW_BC [] []; mkfbc 3 FARFIELD_BC [] []] starter true false false false true [1%Z] [].
Lemma ch_tiled : tiled ch chh. Proof. apply tiledb_ok; vm_compute; reflexivity. Qed.
Lemma ch_built : exists S, built ch chh chX chg S.
Proof.
  destruct (C86_setup_total ch chh chX chg (fun _ _ => 0%Z) (fun _ => mkface 0 0 0 0) (fun _ _ => 0%nat) (fun _ => []) (fun _ => mkfm vzero 0) (fun _ => 0%R) (fun _ => vzero) (fun _ => vzero)) as (S & _ & B); eauto.
  exact ch_tiled. intros c [<-|[<-|[]]]; cbn; auto.
Qed.
Lemma ch_fits S p t : built ch chh chX chg S -> fits ch chh chX chg S (ch_opts p t) /\ fits2 S (ch_opts p t).
Proof.
  intros B. pose proof (built_sm _ _ _ _ _ B) as OK.
  destruct (built_ok _ _ _ _ _ B) as (pp & e & ni & s & il & TO & _ & E1 & E2 & E3 & E4 & E5 & E6 & IA & IC & _).
  change (nelem ch) with 2%nat in E1, IA, IC. change (nbface ch) with 6%nat in E2. change (nconnface ch) with 0%nat in E4.
  pose proof (to_ranges _ _ _ _ _ _ _ TO) as (bl & cl & EF & Lb & Lc & Hbl & _).
  assert (C0 : aat (sm_rc S) 0%nat = mkv (1/2) (1/2)) by (rewrite IC by lia; apply v2_eq; cbn; field).
  assert (C1 : aat (sm_rc S) 1%nat = mkv 2 (1/2)) by (rewrite IC by lia; apply v2_eq; cbn; field).
  assert (HF : forall q bf h, nth_error (bfaces ch) q = Some bf -> nth_error chh q = Some h -> f_left (aat (sm_F S) q) = fst h /\ f_a (aat (sm_F S) q) = b0 bf /\ f_b (aat (sm_F S) q) = b1 bf).
  { intros q bf h Eb Eh. pose proof (Hbl q bf h Eb Eh) as Q. assert (q < List.length (bfaces ch))%nat by (apply nth_error_Some; congruence).
    assert (Q2 : nth_error (bl ++ il ++ cl) q = Some (Pf_Faces.bface_entry ch q bf h)) by (rewrite nth_error_app1; auto; rewrite Lb; auto).
    rewrite <- EF in Q2. rewrite nth_alist in Q2. 2:{ rewrite (to_len _ _ _ _ _ _ _ TO). change (nbface ch) with (List.length (bfaces ch)). lia. }
    rewrite E5. injection Q2. intros ->. split; [reflexivity|]. split; reflexivity. }
  assert (BP : forall q bf h, nth_error (bfaces ch) q = Some bf -> nth_error chh q = Some h ->
     f_left (aat (sm_F S) q) = fst h /\ aat (sm_rcbp S) q = vsub (vscal 2 (face_mid (aat chX (b0 bf)) (aat chX (b1 bf)))) (aat (sm_rc S) (fst h)) /\ aat (sm_M S) q = face_metric (aat chX (b0 bf)) (aat chX (b1 bf))).
  { intros q bf h Eb Eh. destruct (HF q bf h Eb Eh) as (L & A1 & A2). assert (q < 6)%nat by (change 6%nat with (List.length (bfaces ch)); apply nth_error_Some; congruence).
    rewrite (so_bp _ OK), (so_mid _ OK), (so_met _ OK) by (unfold sm_nf_all; lia). rewrite L, A1, A2, E6. auto. }
  pose proof (BP 0%nat _ _ eq_refl eq_refl) as (L0 & P0 & M0). pose proof (BP 1%nat _ _ eq_refl eq_refl) as (L1 & P1 & M1). pose proof (BP 2%nat _ _ eq_refl eq_refl) as (L2 & P2 & _).
  pose proof (BP 3%nat _ _ eq_refl eq_refl) as (L3 & P3 & M3). pose proof (BP 4%nat _ _ eq_refl eq_refl) as (L4 & P4 & M4). pose proof (BP 5%nat _ _ eq_refl eq_refl) as (L5 & P5 & _).
  cbn [fst b0 b1] in *. rewrite C0 in P0, P4, P5. rewrite C1 in P1, P2, P3.
  split; [constructor|split; [|split]]; cbn [ch_opts o_bc o_alpha o_gam o_Minf o_visc o_invflux o_lim o_grad].
  - exact B.
  - intros i f Hi Hf. cbn in Hi. destruct i as [|[|i]]; try lia; cbn in Hf; destruct f as [|[|[|[|f]]]]; try lia; cbn; intros E; inversion E; lra.
  - intros i Hi. rewrite E1 in Hi. rewrite IA by lia. destruct i as [|[|i]]; try lia; unfold polygon_area, cross; cbn; lra.
  - exact E4.
  - intros c [<-|[<-|[<-|[]]]]; cbn; auto.
  - intros bf [<-|[<-|[<-|[<-|[<-|[<-|[]]]]]]]; do 2 eexists; (split; [reflexivity|cbn; auto]).
  - intros q bf tg r c En Et Ic Tc Ty. rewrite cos_0, sin_0. assert (Q : c = mkfbc 1 SLIP_WALL_BC [] []) by (cbn in Ic; destruct Ic as [<-|[<-|[<-|[]]]]; [reflexivity|discriminate Ty|discriminate Ty]).
    subst c. cbn in Tc. subst tg.
    destruct q as [|[|[|[|[|[|q]]]]]]; cbn in En; try (injection En as <-; cbn in Et; try discriminate Et); try (destruct q; discriminate En); rewrite ?M0, ?M1, ?M3, ?M4; unfold face_metric; cbn; unfold Rdiv; ring.
  - lra.
  - discriminate.
  - cbn. auto.
  - auto.
  - discriminate.
  - intros _ i Hi. cbv zeta. rewrite E1 in Hi.
    assert (LT : forall k, (k < 6)%nat -> (k <? sm_nb S)%nat = true) by (intros k Hk; apply Nat.ltb_lt; lia).
    split.
    + intros k (Hk & Hb). unfold beyond, right_value, left_value. unfold sm_nf_all in Hk. destruct (Nat.ltb_spec k (sm_nb S)) as [Hkb|Hkb].
      * pose proof (so_phy _ OK k Hkb) as PH. rewrite E1, E4 in PH. destruct Hb as [Hb|Hb]; [|lia]. rewrite Hb, Nat.eqb_refl. rewrite E2 in Hkb.
        assert (k = 0 \/ k = 1 \/ k = 2 \/ k = 3 \/ k = 4 \/ k = 5)%nat as [-> | [-> | [-> | [-> | [-> | ->]]]]] by lia; rewrite ?L0, ?L1, ?L2, ?L3, ?L4, ?L5 in Hb; subst i;
          rewrite ?P0, ?P1, ?P2, ?P3, ?P4, ?P5, ?C0, ?C1; intros Q; injection Q; cbn; lra.
      * pose proof (so_int _ OK k ltac:(lia)) as IN. assert (FL : f_left (aat (sm_F S) k) = 0%nat) by lia. assert (FR : f_right (aat (sm_F S) k) = 1%nat) by lia. rewrite FL, FR in *.
        destruct Hb as [<-|<-]; cbn; rewrite C0, C1; intros Q; injection Q; lra.
    + assert (i = 0 \/ i = 1)%nat as [-> | ->] by lia; [exists 0%nat, 5%nat|exists 1%nat, 2%nat]; unfold bounds, sm_nf_all, beyond, right_value; rewrite ?L0, ?L1, ?L2, ?L5, ?Nat.eqb_refl, !LT by lia;
        rewrite ?P0, ?P1, ?P2, ?P5, ?C0, ?C1; (split; [split; [lia|auto]|]; split; [split; [lia|auto]|]); unfold cross; cbn; lra.
Qed.
Definition ch_work (S : smesh) (b : bool) : work :=
  mkwk (mkarr (sm_nf_all S) (fun _ => szero)) (mkarr (sm_nf_all S) (fun _ => szero)) (mkarr (sm_ne S + sm_nc S) (fun _ => grad0)) (fun _ => szero) (mkarr (sm_ne S) (fun _ => 0)).
Definition ch_ksp (n : nat) (M : bmat) (d : arr R) (u r : arr st) : arr st * nat := (r, 1%nat).
Definition ch_slv (S : smesh) (spm sps : spatial) := case_solve S spm sps (ch_work S) (fun i => i) (fun _ _ => Some (Val (fun _ _ => mat0))) ch_ksp (fun u => u).
(** The initial state of this case is computed and is at rest for the solvers; the explicit run converges after one step, with the starter; the implicit runs fail, without and with the starter. *)
Theorem C98_example : exists S u, built ch chh chX chg S /\ (1 < sm_ne S)%nat /\
  (forall p t, exists spm sps, main_spatial (fun _ => 0) ch chX S (ch_opts p t) = Some (Val spm) /\ start_spatial (fun _ => 0) ch chX S (ch_opts p t) = Some (Val sps) /\ sp_order2 spm = true /\ sp_order2 sps = false) /\
  initializeSystemVector S (gas_of (fun _ => 0) (extract_spatial_physics_config (ch_opts "EXPLICIT" 1))) 0 (fun _ => 0) = Some u /\
  (forall spm sps, main_spatial (fun _ => 0) ch chX S (ch_opts "EXPLICIT" 1) = Some (Val spm) -> start_spatial (fun _ => 0) ch chX S (ch_opts "EXPLICIT" 1) = Some (Val sps) ->
     exists u' w', run_output (ch_slv S spm sps) (ch_opts "EXPLICIT" 1) false (fun u _ => u) true true 0 1 (mkw (states u) [] []) = (Ret u', w') /\ at_free_stream S (ch_opts "EXPLICIT" 1) u') /\
  (forall spm sps, main_spatial (fun _ => 0) ch chX S (ch_opts "IMPLICIT" 0) = Some (Val spm) -> start_spatial (fun _ => 0) ch chX S (ch_opts "IMPLICIT" 0) = Some (Val sps) ->
     fst (run (ch_slv S spm sps) (ch_opts "IMPLICIT" 0) false 0 (mkw (states u) [] [])) = Thr Tolerance_error) /\
  (forall spm sps, main_spatial (fun _ => 0) ch chX S (ch_opts "IMPLICIT" 1) = Some (Val spm) -> start_spatial (fun _ => 0) ch chX S (ch_opts "IMPLICIT" 1) = Some (Val sps) ->
     fst (run_output (ch_slv S spm sps) (ch_opts "IMPLICIT" 1) false (fun u _ => u) true true 0 1 (mkw (states u) [] [])) = Thr Numerical_error).
Proof.
  destruct ch_built as (S & B). destruct (C98_initial_state (fun _ => 0) S (ch_opts "EXPLICIT" 1) (fun _ => 0) ltac:(cbn; lra) ltac:(cbn; lra)) as (u & Eu & Lu & FS). exists S, u.
  assert (WO : forall b, work_ok S (ch_work S b)) by (intros b; repeat split).
  assert (KZ : ksp_zero S ch_ksp) by (intros k M d x b L Z; split; [exact L|exact Z]).
  assert (NL : forall t, nlu_ok (ch_opts "IMPLICIT" t)) by (intros t _; left; reflexivity).
  split; [exact B|]. split. { destruct (built_ok _ _ _ _ _ B) as (pp & e & ni & s & il & _ & _ & E1 & _). rewrite E1. cbn. lia. }
  split; [|split; [exact Eu|]; split; [|split]].
  - intros p t. destruct (ch_fits S p t B) as (F & F2). destruct (C98_residual _ _ _ _ _ _ (fun _ => 0) F (fun _ => F2)) as (spm & sps & Em & Es & _). exists spm, sps. split; [exact Em|]. split; [exact Es|].
    unfold main_spatial, start_spatial, make_spatial in Em, Es. cbv zeta in Em, Es. split.
    + destruct (grad_of S _); [|discriminate]. cbn [bind] in Em. match type of Em with (bind ?e _) = _ => destruct e; [|discriminate] end. cbn [bind] in Em. destruct (create_const_flowBCs _ _); try discriminate. injection Em as <-. reflexivity.
    + destruct (grad_of S _); [|discriminate]. cbn [bind] in Es. match type of Es with (bind ?e _) = _ => destruct e; [|discriminate] end. cbn [bind] in Es. destruct (create_const_flowBCs _ _); try discriminate. injection Es as <-. reflexivity.
  - intros spm sps Em Es. destruct (ch_fits S "EXPLICIT" 1 B) as (F & F2).
    destruct (C98_explicit_run _ _ _ _ S _ _ spm sps (ch_work S) (fun i => i) (fun _ _ => Some (Val (fun _ _ => mat0))) ch_ksp (fun u => u) _ false (fun u _ => u) true true 0%nat 1%nat (mkw (states u) [] []) 1%Z [] F (fun _ => F2) Em Es WO) as (u' & w' & cfl & Q & _ & Q2 & _); [discriminate|cbn; lia|cbn; lra|reflexivity|exact FS|].
    exists u', w'. split; [exact Q|exact Q2].
  - intros spm sps Em Es. destruct (ch_fits S "IMPLICIT" 0 B) as (F & F2).
    destruct (C98_implicit_run_refuted _ _ _ _ S _ _ spm sps (ch_work S) (fun i => i) (fun _ _ => Some (Val (fun _ _ => mat0))) ch_ksp (fun u => u) _ false (fun u _ => u) true true 0%nat 1%nat (mkw (states u) [] []) 1%Z [] F (fun _ => F2) Em Es WO KZ) as (Q & _); [eauto|reflexivity|apply NL|reflexivity|exact FS|].
    apply Q; [reflexivity|cbn; lia|cbn; lra].
  - intros spm sps Em Es. destruct (ch_fits S "IMPLICIT" 1 B) as (F & F2).
    destruct (C98_implicit_run_refuted _ _ _ _ S _ _ spm sps (ch_work S) (fun i => i) (fun _ _ => Some (Val (fun _ _ => mat0))) ch_ksp (fun u => u) _ false (fun u _ => u) true true 0%nat 1%nat (mkw (states u) [] []) 1%Z [] F (fun _ => F2) Em Es WO KZ) as (_ & Q); [eauto|reflexivity|apply NL|reflexivity|exact FS|].
    apply Q; [discriminate|cbn; lia|cbn; lra].
Qed.
Print Assumptions C98_example.
