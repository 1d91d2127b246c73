(** C100: the order of the cells does not change what an explicit run computes. *)
From Coq Require Import Reals Lra List String ZArith Bool Arith Lia Permutation.
From Verif Require Import Base BaseR BaseSum M_Gas M_Flux M_Visc M_BC M_BCConf M_Mesh M_Geom M_Space M_Grad M_Recon S_Space S_Gas S_Mesh S_Geom M_Resid S_Resid M_Ode
  Pf_Topo Pf_Incid Pf_Full Pf_Geom Pf_Space Pf_Grad Pf_Recon Pf_Reorder P_Geom P_Resid P_Par2 Pf_BCConf Pf_Ode Pf_Ode2 M_Ctl M_Case P_Case M_Start P_Start Pf_Renum.
Import ListNotations.
Open Scope R_scope.

(** ** Specification *)
(** One mesh with its cells in two orders ([renumbered]: cell i of the second is cell [s i] of the first), and a case for it: every
    boundary face has a section of its marker. For second order, one of the reconstructions without out-of-bounds reads. *)
Record two_orders (m : umesh) (hs : list (nat * nat)) (X : arr v2) (gh : nat -> v2) (S : smesh)
    (m' : umesh) (hs' : list (nat * nat)) (X' : arr v2) (gh' : nat -> v2) (S' : smesh) (s : arr nat) (o : fpopts) : Prop := {
  to_built : built m hs X gh S;
  to_built' : built m' hs' X' gh' S';
  to_same : renumbered m X s m' X';
  to_ends : distinct_ends m X;
  to_tags : forall bf, In bf (bfaces m) -> exists t r, btg bf = t :: r /\ In t (map fb_tag (o_bc o));
  to_gas : 1 < o_gam o /\ 0 < o_Minf o /\ (o_invflux o = "HLLC"%string -> 5/4 <= o_gam o);
  to_lim : o_order2 o = true -> o_lim o = "NONE"%string \/ o_lim o = "VANALBADA"%string \/ o_lim o = "WENO"%string /\ 0 < o_limpar o }.
(** States at which the fluxes are evaluated are physical: those of the cells, or, for second order, those of the faces. *)
Definition sound_state (S : smesh) (sp : spatial) (w : work) (u : arr st) : Prop :=
  if sp_order2 sp then forall f rs out, sp_flux sp = Some f -> sp_rec sp = Some rs ->
    compute_residual2 S (sp_flow sp f) (sp_grad sp) rs (fun _ => grad0) (fun _ => szero) u (wk_l w) (wk_r w) (mkarr (sm_ne S) (fun _ => szero)) (wk_g w) (wk_p w) (Some (wk_dt w)) = Some out ->
    forall k, (k < sm_nf_all S)%nat -> physical (gam (sp_gas sp)) (aat (ro_left out) k) /\ physical (gam (sp_gas sp)) (aat (ro_right out) k)
  else forall i, (i < sm_ne S)%nat -> physical (gam (sp_gas sp)) (aat u i).
(** so is every state at which an explicit solve with [c] started from [u] evaluates them *)
Definition sound_solve (S : smesh) (sp : spatial) (w : work) (c : sconf) (u : arr st) : Prop :=
  forall k y, (k < Z.to_nat (maxiter c))%nat ->
  steady_loop c (steady_body (sm_ne S) (sm_A S) c (spatial_eval S sp w) 0.3 0.25 (fe_upd (sm_ne S) (sm_A S) c)) k (mkmon u 0 1 1 1 (cflinit c) 0 []) = Some (SNext y) ->
  sound_state S sp w (m_u y).

(** ** Proofs *)
Section Two.
Context (m : umesh) (hs : list (nat * nat)) (X : arr v2) (gh : nat -> v2) (S : smesh)
        (m' : umesh) (hs' : list (nat * nat)) (X' : arr v2) (gh' : nat -> v2) (S' : smesh) (s : arr nat) (o : fpopts) (jr : xreal -> R).
Hypothesis T : two_orders m hs X gh S m' hs' X' gh' S' s o.
Notation mv := (moved (sm_ne S) s).
Lemma two_sizes : sm_nc S = 0%nat /\ sm_ne S' = sm_ne S /\ sm_nc S' = 0%nat /\ is_perm (sm_ne S) s /\ nelem m = sm_ne S /\ forall i, (i < sm_ne S)%nat -> aat (sm_A S') i = aat (sm_A S) (aat s i).
Proof.
  destruct (sizes _ _ _ _ _ _ _ _ _ _ _ (to_built _ _ _ _ _ _ _ _ _ _ _ _ T) (to_built' _ _ _ _ _ _ _ _ _ _ _ _ T) (to_same _ _ _ _ _ _ _ _ _ _ _ _ T)) as (N1 & N2 & N3 & N4 & _ & _ & N7).
  pose proof (to_same _ _ _ _ _ _ _ _ _ _ _ _ T) as (P & _). rewrite N1. repeat split; auto; try lia. intros i Hi. apply N7; auto.
Qed.
Lemma two_recs k r : rec_of m X k = Some r -> exists r', rec_of m' X' k = Some r'.
Proof.
  intros _. destruct k; cbn [rec_of]; eauto. destruct (to_built' _ _ _ _ _ _ _ _ _ _ _ _ T) as (TT & _ & LX & _). pose proof (gm_valid _ _ (tl_good _ _ TT)) as Hv.
  destruct (venkat_ctor_ok m' X') as (cl & -> & _); [|cbn [bind]; eauto]. intros c v Hc Hin. rewrite LX. apply (Hv c Hc); auto.
Qed.
Lemma two_grads k gs : grad_of S k = Some gs -> exists gs', grad_of S' k = Some gs' /\ same_gradients S S' gs gs'.
Proof.
  destruct k; cbn [grad_of]; intros E; try (injection E as <-; eexists; split; [reflexivity|exact Logic.I]).
  destruct (WLS_ctor S) as [V|] eqn:EV; [|discriminate]. injection E as <-. destruct (wls_ctor_ok S' (built_sm _ _ _ _ _ (to_built' _ _ _ _ _ _ _ _ _ _ _ _ T))) as (V' & EV' & _). rewrite EV'. eexists. split; [reflexivity|]. cbn. auto.
Qed.
(** the discretization can be made on the other mesh, and the two differ in the geometry only *)
Lemma two_made n sp : make_spatial jr m X S (extract_spatial_physics_config o) n = Some (Val sp) -> nc_flux n = o_invflux o -> nc_jac n = o_invfluxjac o ->
  (nc_order2 n = true -> forall rs, create_reconstruction (nc_rec n) (nc_par n) = Some rs -> match rs with M_Ctl.RLinear | RVanAlbada => True | M_Ctl.RWENO p => 0 < p | _ => False end) ->
  exists sp', make_spatial jr m' X' S' (extract_spatial_physics_config o) n = Some (Val sp') /\ sp_gas sp' = sp_gas sp /\
  forall w w' u u' x, work_ok S w -> work_ok S' w' -> mv u u' -> sound_state S sp w u -> spatial_eval S sp w u = Some x ->
  exists ro ro', x = Val ro /\ spatial_eval S' sp' w' u' = Some (Val ro') /\ moved_out (sm_ne S) s ro ro' /\ rt_fin ro = true.
Proof.
  intros E Ef Ej H2. destruct (to_gas _ _ _ _ _ _ _ _ _ _ _ _ T) as (Hg & HM & HH). pose proof E as E0. unfold make_spatial in E |- *. cbv zeta in *.
  cbn [create_flowSpatialDiscretization sc_grad sc_rec sc_flux sc_jac sc_cvisc sc_order2 extract_spatial_physics_config pc_bc pc_aoa pc_visc pc_cvisc] in *.
  destruct (grad_of S (create_gradientscheme (nc_grad n))) as [gs|] eqn:Eg; [|discriminate]. destruct (two_grads _ _ Eg) as (gs' & Eg' & SG). rewrite Eg'. cbn [bind] in *.
  assert (RR : exists rs rs', match create_reconstruction (nc_rec n) (nc_par n) with None => Some None | Some k => r <- rec_of m X k ;; Some (Some r) end = Some rs /\ match create_reconstruction (nc_rec n) (nc_par n) with None => Some None | Some k => r <- rec_of m' X' k ;; Some (Some r) end = Some rs' /\
    (nc_order2 n = true -> rs' = rs /\ forall r, rs = Some r -> smooth_scheme r)).
  { destruct (create_reconstruction (nc_rec n) (nc_par n)) as [k|] eqn:Ek.
    - destruct (rec_of m X k) as [r|] eqn:Er; [|discriminate]. destruct (two_recs k r Er) as (r' & Er'). rewrite Er'. cbn [bind]. exists (Some r), (Some r'). split; auto. split; auto.
      intros O2. pose proof (H2 O2 k eq_refl) as K. destruct k; cbn [rec_of] in *; try contradiction; injection Er as <-; injection Er' as <-; (split; [reflexivity|]); intros r [= <-]; cbn; auto.
    - exists None, None. split; auto. split; auto. intros _. split; auto. discriminate. }
  destruct RR as (rs & rs' & R1 & R2 & R3). rewrite R1 in E. rewrite R2. cbn [bind] in *. set (U := compute_freestream_state _ _) in *.
  destruct (create_const_flowBCs U (o_bc o)) as [bcs| |] eqn:Eb; try discriminate. injection E as <-. eexists. split; [reflexivity|]. split; [reflexivity|].
  intros w w' u u' x (W1 & W2 & W3 & W4) (W1' & W2' & W3' & W4') (Lu & Lu' & MU) SS EV. unfold spatial_eval, sound_state in *. cbn [sp_flux sp_order2 sp_rec sp_grad sp_gas] in *.
  destruct (option_map flux_of (create_inviscidflux (nc_flux n))) as [f|] eqn:Eff; [|discriminate]. cbn [bind] in *. unfold sp_flow in *. cbn [sp_gas sp_jac sp_visc sp_cvisc sp_bcs] in *. set (fl := mkflow _ _ _ _ _ _) in *.
  destruct two_sizes as (N0 & NS & N0' & P & NE & NA). rewrite N0 in W3. rewrite NS, N0' in W3'. rewrite NS in W4'. rewrite Nat.add_0_r in *.
  assert (TC : forall bf, In bf (bfaces m) -> exists t r b, btg bf = t :: r /\ mfind (fl_bcs fl) t = Some b).
  { intros bf Hb. destruct (to_tags _ _ _ _ _ _ _ _ _ _ _ _ T bf Hb) as (t & r & Et & It). destruct (make_for jr m X S o n _ Hg HM E0 Ef Ej) as ((_ & _ & _ & _ & _ & _ & _ & _ & _ & MB & _) & _).
    destruct (proj2 (MB t) It) as (b & Q). exists t, r, b. auto. }
  assert (Hh : fl_flux fl = HLLC -> 5/4 <= gam (fl_gas fl)).
  { intros Q. apply HH. destruct (make_for jr m X S o n _ Hg HM E0 Ef Ej) as ((_ & _ & _ & _ & _ & MF & _) & _). cbn [fl_flux fl] in Q. subst f. clear Eff. pose proof (proj1 (MF HLLC) eq_refl) as Eff.
    cbn in Eff. repeat (destruct Eff as [Q|Eff]; [try discriminate; injection Q; congruence|]). destruct Eff. }
  pose proof (to_built _ _ _ _ _ _ _ _ _ _ _ _ T) as B. pose proof (to_built' _ _ _ _ _ _ _ _ _ _ _ _ T) as B'. pose proof (to_same _ _ _ _ _ _ _ _ _ _ _ _ T) as RN. pose proof (to_ends _ _ _ _ _ _ _ _ _ _ _ _ T) as D.
  assert (FIN : forall out out' d d', ro_dt out = Some d -> ro_dt out' = Some d' -> alen (ro_res out) = nelem m -> alen d = nelem m -> alen (ro_res out') = nelem m -> alen d' = nelem m ->
    (forall i, (i < nelem m)%nat -> aat (ro_res out') i = aat (ro_res out) (aat s i) /\ aat d' i = aat d (aat s i)) ->
    (d0 <- ro_dt out ;; Some (Val (mkrout (ro_res out) d0 true))) = Some x ->
    exists ro ro', x = Val ro /\ (d0 <- ro_dt out' ;; Some (Val (mkrout (ro_res out') d0 true))) = Some (Val ro') /\ moved_out (sm_ne S) s ro ro' /\ rt_fin ro = true).
  { intros out out' d d' D1 D2 L1 L2 L3 L4 V Q. rewrite D1 in Q. rewrite D2. cbn [bind] in *. injection Q as <-. eexists _, _. split; [reflexivity|]. split; [reflexivity|]. rewrite NE in *.
    split; [|reflexivity]. split; [|split; [|reflexivity]]; cbn [rt_r rt_dt]; (split; [lia|]; split; [lia|]); intros i Hi; apply V; auto. }
  destruct (nc_order2 n) eqn:O2.
  - destruct (R3 eq_refl) as (-> & SM). destruct rs as [r|]; [|discriminate]. cbn [bind] in *. specialize (SM r eq_refl).
    destruct (compute_residual2 S fl gs r _ _ u _ _ _ _ _ _) as [out|] eqn:EO; [|discriminate]. cbn [bind] in EV.
    destruct (eval2 m hs X gh S m' hs' X' gh' S' s B B' RN D fl TC Hg Hh u u' ltac:(lia) ltac:(lia) ltac:(intros; apply MU; lia) gs gs' r _ _ (fun _ => grad0) (fun _ => szero) (wk_l w) (wk_r w) (wk_g w) (wk_p w) (wk_dt w) (wk_l w') (wk_r w') (wk_g w') (wk_p w') (wk_dt w') out SM SG W1 W2 ltac:(lia) ltac:(lia) W1' W2' ltac:(lia) ltac:(lia) EO (SS f r out eq_refl eq_refl EO)) as (d & d' & out' & D1 & L1 & L2 & EO' & D2 & L3 & L4 & V).
    rewrite EO'. cbn [bind]. exact (FIN out out' d d' D1 D2 L1 L2 L3 L4 V EV).
  - destruct (compute_residual1 S fl u _ _ _ _ _) as [out|] eqn:EO; [|discriminate]. cbn [bind] in EV.
    destruct (eval1 m hs X gh S m' hs' X' gh' S' s B B' RN D fl TC Hg Hh u u' ltac:(lia) ltac:(lia) ltac:(intros; apply MU; lia) (wk_l w) (wk_r w) (wk_g w) (wk_dt w) (wk_l w') (wk_r w') (wk_g w') (wk_dt w') out ltac:(intros i Hi; apply SS; lia) W1 W2 ltac:(lia) W1' W2' ltac:(lia) EO) as (d & d' & out' & D1 & L1 & L2 & EO' & D2 & L3 & L4 & V).
    rewrite EO'. cbn [bind]. exact (FIN out out' d d' D1 D2 L1 L2 L3 L4 V EV).
Qed.

(** the explicit solver does not throw inside the loop *)
Lemma no_error (S0 : smesh) sp w c up down fuel : forall x e, steady_loop c (steady_body (sm_ne S0) (sm_A S0) c (spatial_eval S0 sp w) up down (fe_upd (sm_ne S0) (sm_A S0) c)) fuel x <> Some (SErr e).
Proof.
  induction fuel as [|k IH]; intros x e; cbn [steady_loop]; [discriminate|]. destruct (steady_cont c x); [|discriminate].
  destruct (steady_body _ _ _ _ _ _ _ x) as [[y|e']|] eqn:E; [apply IH| |discriminate]. exfalso. unfold steady_body in E. destruct (spatial_eval S0 sp w (m_u x)) as [z|] eqn:Ez; [|discriminate].
  unfold spatial_eval in Ez. destruct (sp_flux sp); [|discriminate]. cbn [bind] in Ez. match type of Ez with (bind ?q _) = _ => destruct q as [out|]; [|discriminate] end. cbn [bind] in Ez. destruct (ro_dt out); [|discriminate]. cbn [bind] in Ez. injection Ez as <-.
  cbv zeta in E. unfold fe_upd in E. match type of E with context [fe_update ?a ?b ?c ?d ?f] => destruct (fe_update a b c d f) end; discriminate.
Qed.
(** one explicit solve on both meshes *)
Lemma two_solve sp sp' w w' main c lg up glob Jf ksp G at_throw glob' Jf' ksp' G' at_throw' Rf Rf' u u' :
  Rf main = spatial_eval S sp w -> Rf' main = spatial_eval S' sp' w' ->
  (forall u u' x, mv u u' -> sound_state S sp w u -> spatial_eval S sp w u = Some x -> exists ro ro', x = Val ro /\ spatial_eval S' sp' w' u' = Some (Val ro') /\ moved_out (sm_ne S) s ro ro' /\ rt_fin ro = true) ->
  mv u u' -> sound_solve S sp w c u ->
  let r := ode_solve (sm_ne S) (sm_A S) Rf glob Jf ksp G at_throw false main c lg up u in
  let r' := ode_solve (sm_ne S') (sm_A S') Rf' glob' Jf' ksp' G' at_throw' false main c lg up u' in
  so_end r <> None -> (so_end r = Some (inl 0%Z) \/ so_end r = Some (inr Tolerance_error)) /\ so_end r' = so_end r /\ so_td r' = so_td r /\ so_vecs r' = so_vecs r /\ mv (so_u r) (so_u r').
Proof.
  intros ER ER' EV M SO r r'. subst r r'. destruct two_sizes as (N0 & NS & N0' & P & NE & NA).
  pose proof (so_A _ (built_sm _ _ _ _ _ (to_built _ _ _ _ _ _ _ _ _ _ _ _ T))) as LA. pose proof (so_A _ (built_sm _ _ _ _ _ (to_built' _ _ _ _ _ _ _ _ _ _ _ _ T))) as LA'.
  unfold ode_solve, loop_of, fe_solve. cbv zeta. rewrite ER, ER', NS in *. destruct (Z.leb_spec (maxiter c) 0) as [Q|Q].
  { cbn [so_end so_td so_vecs so_u m_u m_step m_log]. intros _. auto 6. }
  destruct (steady_loop c (steady_body (sm_ne S) (sm_A S) c (spatial_eval S sp w) 0.3 0.25 (fe_upd (sm_ne S) (sm_A S) c)) (Z.to_nat (maxiter c)) (mkmon u 0 1 1 1 (cflinit c) 0 [])) as [z|] eqn:EL; [|intros H; exfalso; apply H; reflexivity].
  destruct (moved_loop (sm_ne S) s (sm_A S) (sm_A S') c (spatial_eval S sp w) (spatial_eval S' sp' w') (sound_state S sp w) P ltac:(lia) ltac:(lia) NA) with (up := 0.3) (down := 0.25) (fuel := Z.to_nat (maxiter c)) (x := mkmon u 0 1 1 1 (cflinit c) 0 []) (x' := mkmon u' 0 1 1 1 (cflinit c) 0 []) (r := z) as (z' & EL' & MZ); auto.
  { intros v v' x Mv Sv Ev. destruct (EV v v' x Mv Sv Ev) as (ro & ro' & -> & E' & MO & _). exists ro'. auto. }
  { split; [exact M|reflexivity]. }
  rewrite EL'.
  destruct z as [y|e].
  - destruct z' as [y'|]; [|contradiction]. destruct MZ as (My & Q0). injection Q0 as Q1 Q2 Q3 Q4 Q5 Q6 Q7. rewrite Q1.
    destruct (Z.of_nat (m_step y) =? maxiter c)%Z; cbn [so_end so_td so_vecs so_u m_u m_step m_log]; intros _; rewrite ?Q1, ?Q7; auto 6.
  - exfalso. exact (no_error _ _ _ _ _ _ _ _ _ EL).
Qed.
End Two.

Lemma start_same (S S' : smesh) o s u u' : 1 < o_gam o -> is_perm (sm_ne S) s -> sm_ne S' = sm_ne S -> sm_nc S = 0%nat -> sm_nc S' = 0%nat -> at_free_stream S o u -> at_free_stream S' o u' -> moved (sm_ne S) s u u'.
Proof.
  intros Hg P NS N0 N0' (L & F) (L' & F'). rewrite NS, N0' in *. rewrite N0 in *. rewrite Nat.add_0_r in *. split; auto. split; auto. intros i Hi. eapply free_stream_unique; [exact Hg|apply F'; auto|apply F; apply perm_bound; auto].
Qed.

(** ** Theorems *)
(** *** Residual and time steps of one evaluation *)
Theorem C100_residual : forall m hs X gh S m' hs' X' gh' S' s o jr spm sps,
  two_orders m hs X gh S m' hs' X' gh' S' s o -> main_spatial jr m X S o = Some (Val spm) -> start_spatial jr m X S o = Some (Val sps) ->
  exists spm' sps', main_spatial jr m' X' S' o = Some (Val spm') /\ start_spatial jr m' X' S' o = Some (Val sps') /\
  forall sp sp', (sp, sp') = (spm, spm') \/ (sp, sp') = (sps, sps') ->
  forall w w' u u' x, work_ok S w -> work_ok S' w' -> alen u = sm_ne S -> alen u' = sm_ne S -> (forall i, (i < sm_ne S)%nat -> aat u' i = aat u (aat s i)) -> sound_state S sp w u -> spatial_eval S sp w u = Some x ->
  exists ro ro', x = Val ro /\ spatial_eval S' sp' w' u' = Some (Val ro') /\ rt_fin ro = true /\ rt_fin ro' = true /\
    forall i, (i < sm_ne S)%nat -> aat (rt_r ro') i = aat (rt_r ro) (aat s i) /\ aat (rt_dt ro') i = aat (rt_dt ro) (aat s i).
Proof.
  intros m hs X gh S m' hs' X' gh' S' s o jr spm sps T Em Es.
  destruct (two_made _ _ _ _ _ _ _ _ _ _ _ _ jr T _ _ Em eq_refl eq_refl) as (spm' & Em' & _ & Hm).
  { cbn [extract_spatial_numerics_config nc_order2 nc_rec nc_par]. intros O2 rs Er. destruct (to_lim _ _ _ _ _ _ _ _ _ _ _ _ T O2) as [Q|[Q|(Q & Q')]]; rewrite Q in Er; cbn in Er; injection Er as <-; auto. }
  destruct (two_made _ _ _ _ _ _ _ _ _ _ _ _ jr T _ _ Es eq_refl eq_refl ltac:(discriminate)) as (sps' & Es' & _ & Hs).
  exists spm', sps'. split; [exact Em'|]. split; [exact Es'|]. intros sp sp' Hp w w' u u' x Hw Hw' L L' V SS E.
  assert (H : exists ro ro', x = Val ro /\ spatial_eval S' sp' w' u' = Some (Val ro') /\ moved_out (sm_ne S) s ro ro' /\ rt_fin ro = true).
  { destruct Hp as [Q|Q]; injection Q as -> ->; [eapply Hm|eapply Hs]; eauto; repeat split; auto. }
  destruct H as (ro & ro' & -> & E' & ((_ & _ & M1) & (_ & _ & M2) & MF) & FF). exists ro, ro'. split; auto. split; auto. split; auto. split; [congruence|]. intros i Hi. auto.
Qed.

(** *** The whole explicit run, started from the free stream: starter and main solve. It ends in the same way after the same number of
    steps, the recorded history is the same, and the final states are the same, cell by cell *)
Theorem C100_explicit_run : forall m hs X gh S m' hs' X' gh' S' s o jr spm sps wk glob Jf ksp at_throw u u',
  two_orders m hs X gh S m' hs' X' gh' S' s o -> o_ptype o <> "IMPLICIT"%string ->
  main_spatial jr m X S o = Some (Val spm) -> start_spatial jr m X S o = Some (Val sps) -> (forall b, work_ok S (wk b)) ->
  at_free_stream S o u -> at_free_stream S' o u' ->
  let slv := case_solve S spm sps wk glob Jf ksp at_throw in
  (o_starter o <> 0%Z -> sound_solve S sps (wk false) (start_conf o) u /\ so_end (run1 slv o u) <> None) ->
  sound_solve S spm (wk true) (main_conf o) (start_u slv o u) -> so_end (main_run slv o u) <> None ->
  exists spm' sps', main_spatial jr m' X' S' o = Some (Val spm') /\ start_spatial jr m' X' S' o = Some (Val sps') /\
  forall wk' glob' Jf' ksp' at_throw', (forall b, work_ok S' (wk' b)) ->
  let slv' := case_solve S' spm' sps' wk' glob' Jf' ksp' at_throw' in
  let r := main_run slv o u in let r' := main_run slv' o u' in
  (so_end r = Some (inl 0%Z) \/ so_end r = Some (inr Tolerance_error)) /\ so_end r' = so_end r /\ so_td r' = so_td r /\
  (o_starter o <> 0%Z -> so_end (run1 slv' o u') = so_end (run1 slv o u) /\ so_td (run1 slv' o u') = so_td (run1 slv o u)) /\
  alen (so_u r) = sm_ne S /\ alen (so_u r') = sm_ne S /\ forall i, (i < sm_ne S)%nat -> aat (so_u r') i = aat (so_u r) (aat s i).
Proof.
  intros m hs X gh S m' hs' X' gh' S' s o jr spm sps wk glob Jf ksp at_throw u u' T HI Em Es Hw Fu Fu' slv S1 S2 N2.
  destruct (two_made _ _ _ _ _ _ _ _ _ _ _ _ jr T _ _ Em eq_refl eq_refl) as (spm' & Em' & _ & Hm).
  { cbn [extract_spatial_numerics_config nc_order2 nc_rec nc_par]. intros O2 rs Er. destruct (to_lim _ _ _ _ _ _ _ _ _ _ _ _ T O2) as [Q|[Q|(Q & Q')]]; rewrite Q in Er; cbn in Er; injection Er as <-; auto. }
  destruct (two_made _ _ _ _ _ _ _ _ _ _ _ _ jr T _ _ Es eq_refl eq_refl ltac:(discriminate)) as (sps' & Es' & _ & Hs).
  exists spm', sps'. split; [exact Em'|]. split; [exact Es'|]. intros wk' glob' Jf' ksp' at_throw' Hw' slv' r r'. subst r r'.
  destruct (two_sizes _ _ _ _ _ _ _ _ _ _ _ _ T) as (N0 & NS & N0' & P & _ & _).
  assert (M0 : moved (sm_ne S) s u u') by (eapply start_same; eauto; apply (to_gas _ _ _ _ _ _ _ _ _ _ _ _ T)).
  assert (EI : String.eqb (o_ptype o) "IMPLICIT" = false) by (apply String.eqb_neq; exact HI).
  unfold main_run, run2, run1 in *. rewrite EI in *.
  assert (ST : moved (sm_ne S) s (start_u slv o u) (start_u slv' o u') /\ (o_starter o <> 0%Z -> so_end (slv' false false (start_conf o) (o_lognres o) (the_update o) u') = so_end (slv false false (start_conf o) (o_lognres o) (the_update o) u) /\
     so_td (slv' false false (start_conf o) (o_lognres o) (the_update o) u') = so_td (slv false false (start_conf o) (o_lognres o) (the_update o) u))).
  { unfold start_u, run1. rewrite EI. destruct (Z.eqb_spec (o_starter o) 0) as [Q|Q]; [split; [exact M0|contradiction]|]. destruct (S1 Q) as (A1 & A2).
    destruct (two_solve _ _ _ _ _ _ _ _ _ _ _ _ T sps sps' (wk false) (wk' false) false (start_conf o) (o_lognres o) (the_update o) glob Jf ksp (sp_gas spm) at_throw glob' Jf' ksp' (sp_gas spm') at_throw'
      (fun main => spatial_eval S (if main then spm else sps) (wk main)) (fun main => spatial_eval S' (if main then spm' else sps') (wk' main)) u u' eq_refl eq_refl) as (B1 & B2 & B3 & B4 & B5); auto.
    - intros v v' x Mv Sv Ev. eapply Hs; eauto. }
  destruct ST as (M1 & ST).
  destruct (two_solve _ _ _ _ _ _ _ _ _ _ _ _ T spm spm' (wk true) (wk' true) true (main_conf o) (o_lognres o) (the_update o) glob Jf ksp (sp_gas spm) at_throw glob' Jf' ksp' (sp_gas spm') at_throw'
      (fun main => spatial_eval S (if main then spm else sps) (wk main)) (fun main => spatial_eval S' (if main then spm' else sps') (wk' main)) (start_u slv o u) (start_u slv' o u') eq_refl eq_refl) as (B1 & B2 & B3 & B4 & B5 & B6 & B7); auto.
  - intros v v' x Mv Sv Ev. eapply Hm; eauto.
  - split; [exact B1|]. split; [exact B2|]. split; [exact B3|]. split; [exact ST|]. split; [exact B5|]. split; [exact B6|exact B7].
Qed.
Print Assumptions C100_residual.
Print Assumptions C100_explicit_run.
