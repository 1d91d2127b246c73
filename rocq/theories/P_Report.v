(** C104: what a case reports, on one process and on several. *)
From Coq Require Import Reals Lra List String ZArith Bool Arith Lia Permutation.
From Verif Require Import Base BaseR BaseSum M_Gas M_Flux M_Visc M_BC M_BCConf M_Mesh M_Geom M_Part M_Space M_Grad M_Recon S_Space S_Gas S_Mesh S_Geom M_Resid S_Resid S_Par M_Out S_Out M_Ode M_Prep
  Pf_Host Pf_Topo Pf_Incid Pf_Full Pf_Geom Pf_Space Pf_Grad Pf_Recon Pf_Reorder Pf_Resid Pf_Resid2 Pf_Part Pf_Restrict Pf_Part2 P_Geom P_Grad P_Part P_Resid Pf_Par P_Par Pf_Par2 P_Par2 Pf_Out P_Out P_Out2 Pf_BCConf Pf_Ode Pf_Ode2 M_Ctl M_Case P_Case M_Start P_Start ChkMesh
  Pf_Renum P_Renum P_Prep P_Renum2 M_Dist Pf_Dist P_Dist M_Report Pf_Report.
Import ListNotations.
Open Scope R_scope.

(** the number of boundary faces of a mesh with a marker *)
Definition wall_faces (wall : Z) (m : umesh) : nat := List.length (filter (has_tag wall) (bfaces m)).

Lemma all_of_none {T} (d : T) n f r : (r < n)%nat -> f r = None -> all_of d n f = None.
Proof.
  intros Hr E. unfold all_of. destruct (forallb _ (seq 0 n)) eqn:Q; [|reflexivity]. rewrite forallb_forall in Q. specialize (Q r ltac:(apply in_seq; lia)). rewrite E in Q. discriminate.
Qed.
Lemma floop_keeps {T} (Inv : nat -> T -> Prop) (body : nat -> T -> option T) : forall n s s', floop n body s = Some s' -> Inv 0%nat s -> (forall k t t', (k < n)%nat -> Inv k t -> body k t = Some t' -> Inv (k + 1)%nat t') -> Inv n s'.
Proof.
  intros n s s' E I0 H. rewrite floop_seq in E. enough (K : forall q k t, ofold body (seq k q) t = Some s' -> (k + q <= n)%nat -> Inv k t -> Inv (k + q)%nat s') by (apply (K n 0%nat s E); auto; lia).
  induction q as [|q IH]; intros k t Q L Hk; cbn [seq ofold] in Q. { injection Q as <-. rewrite Nat.add_0_r. exact Hk. }
  destruct (body k t) as [t1|] eqn:Eb; [|discriminate]. cbn [bind] in Q. replace (k + Datatypes.S q)%nat with (Datatypes.S k + q)%nat by lia. apply (IH (Datatypes.S k) t1 Q); [lia|]. replace (Datatypes.S k) with (k + 1)%nat by lia. apply (H k t t1); auto; lia.
Qed.

(** *** More wall faces than cells on a process: rows are written outside of [output] *)
Lemma surface_fits G S aoa u gr tag out s : tags_known S -> surface_local G S aoa u gr tag out = Some s -> (List.length (marked S tag) <= alen out)%nat.
Proof.
  intros TK E. unfold surface_local in E.
  apply (floop_keeps (fun n (s : surf) => su_n s = List.length (marked_upto S tag n) /\ alen (su_out s) = alen out /\ (su_n s <= alen out)%nat)) in E.
  - destruct E as (E1 & _ & E3). unfold marked. lia.
  - cbn. repeat split; lia.
  - intros k t t' Hk (P1 & P2 & P3) Q. rewrite tag_some in Q by auto. cbn [bind] in Q. rewrite marked_snoc, app_length. destruct (_ =? tag)%Z.
    + destruct (surface_face _ _ _ _ _ k) as [(row & (((dl & dp) & df) & da))|]; [|discriminate]. cbn [bind] in Q. unfold aset in Q. destruct (Nat.ltb_spec (su_n t) (alen (su_out t))); [|discriminate]. cbn [bind] in Q. injection Q as <-. cbn. repeat split; lia.
    + injection Q as <-. cbn. repeat split; lia.
Qed.
Theorem C104_no_room : forall nr (m : nat -> umesh) hs X ghost S sp aoa wall jg jG jo u r, (r < nr)%nat -> built (m r) hs X ghost (S r) -> (forall bf, In bf (bfaces (m r)) -> btg bf <> []) ->
  (nelem (m r) < wall_faces wall (m r))%nat -> ranks_report nr S sp aoa wall jg jG jo u = None.
Proof.
  intros nr m hs X ghost S sp aoa wall jg jG jo u r Hr B HT H. unfold ranks_report. destruct (all_of 0 nr _) as [e|]; [|reflexivity]. cbn [bind]. rewrite (all_of_none _ nr _ r Hr); [reflexivity|].
  unfold local_surface. destruct (sp_flux (sp r)) as [f|]; [|reflexivity]. cbn [bind]. destruct (flow_getGradients _ _ _ _ _ _) as [G|]; [|reflexivity]. cbn [bind]. destruct (_ <=? _)%nat; [|reflexivity].
  destruct (surface_local _ _ _ _ _ _ _) as [s|] eqn:E; [|reflexivity]. exfalso. apply surface_fits in E; [|exact (tags_built _ _ _ _ _ B HT)]. rewrite (marked_count _ _ _ _ _ _ B HT) in E. cbn [alen] in E.
  destruct (built_ok _ _ _ _ _ B) as (_ & _ & _ & _ & _ & _ & _ & E1 & _). unfold wall_faces in H. lia.
Qed.
Print Assumptions C104_no_room.

(** *** The values of a state held by [nr] ranks and by one process *)
Theorem C104_report : forall g hs nr je dist lm jc jr ji jx j0 hsl gh S gh0 W o jreal spm spm',
  on_ranks g hs nr je dist lm jc jr ji jx j0 hsl gh S gh0 W o -> main_spatial jreal (g_m g) (g_X g) W o = Some (Val spm) ->
  (forall r, (r < nr)%nat -> main_spatial jreal (l_m (lm r)) (l_X (lm r)) (S r) o = Some (Val (spm' r))) -> sp_flux spm <> None ->
  forall wall u0 u, alen u0 = sm_ne W -> (forall i, (i < nelem (g_m g))%nat -> physical (o_gam o) (aat u0 i)) -> (forall r, (r < nr)%nat -> alen (u r) = (sm_ne (S r) + sm_nc (S r))%nat) ->
  (forall r l i, is_cell nr lm r l i -> aat (u r) l = aat u0 i) -> (forall r k i q, (r < nr)%nat -> is_ghost lm r k i q -> aat (u r) (sm_ne (S r) + k)%nat = aat u0 i) ->
  (exists bf t, In bf (bfaces (g_m g)) /\ btg bf = wall :: t) -> (forall r, (r < nr)%nat -> (wall_faces wall (l_m (lm r)) <= nelem (l_m (lm r)))%nat) ->
  forall jg jG jo jg' jG' jo', exists p0 p, serial_report W spm (o_alpha o) wall jg jG jo u0 = Some p0 /\ ranks_report nr S spm' (o_alpha o) wall jg' jG' jo' u = Some p /\
  rp_h p0 = 1 / Rpower (INR (nelem (g_m g))) (1 / 2) /\
  forall r, (r < nr)%nat -> rp_ent (p r) = rp_ent p0 /\ rp_cl (p r) = rp_cl p0 /\ rp_cdp (p r) = rp_cdp p0 /\ rp_cdf (p r) = rp_cdf p0 /\ rp_h (p r) = 1 / Rpower (INR (nelem (l_m (lm r)))) (1 / 2).
Proof.
  intros g hs nr je dist lm jc jr ji jx j0 hsl gh S gh0 W o jreal spm spm' T Em EA NF wall u0 u L0 PU LU UI UG (wbf & wt & Wi & Wt) ROOM jg jG jo jg' jG' jo'.
  pose proof T as [SO BW CE TG (Hg & HM & HH) LM]. pose proof (in_order _ _ _ _ _ _ _ _ _ _ _ _ _ _ SO) as MO. destruct SO as (NR & EP & SR). pose proof SR as [GO Hd Hr RM SE BU D].
  assert (Lm : nc_order2 (extract_spatial_numerics_config o) = true -> forall rs, create_reconstruction (nc_rec (extract_spatial_numerics_config o)) (nc_par (extract_spatial_numerics_config o)) = Some rs -> match rs with M_Ctl.RLinear | RVanAlbada => True | M_Ctl.RWENO p => 0 < p | _ => False end).
  { cbn [extract_spatial_numerics_config nc_order2 nc_rec nc_par]. intros O2 rs Er. destruct (LM O2) as [Q|[Q|(Q & Q')]]; rewrite Q in Er; cbn in Er; injection Er as <-; auto. }
  destruct (sp_flux spm) as [f|] eqn:Ef; [|congruence].
  assert (SP : forall a, (a < nr)%nat -> sp_flux (spm' a) = Some f /\ sp_flow (spm' a) f = sp_flow spm f /\ sp_gas (spm' a) = sp_gas spm /\ same_gradients W (S a) (sp_grad spm) (sp_grad (spm' a))).
  { intros a Ha. destruct (rank_made _ _ _ _ _ _ _ _ _ _ _ _ _ _ _ _ _ jreal T _ _ a Ha Em Lm) as (sp' & E' & Q1 & Q2 & Q3 & _). pose proof (EA a Ha) as E2. unfold main_spatial in E2. rewrite E2 in E'. injection E' as <-. rewrite Q1. split; [exact Ef|]. split; [apply Q2|]. split; [|exact Q3].
    specialize (Q2 f). unfold sp_flow in Q2. injection Q2 as Q2 _ _ _ _. exact Q2. }
  destruct (make_for jreal (g_m g) (g_X g) W o _ spm Hg HM Em eq_refl eq_refl) as ((MG & _ & _ & _ & _ & _ & _ & _ & _ & MB & _) & _).
  set (fl := sp_flow spm f) in *.
  assert (TC : tags_covered g fl). { intros bf Hb. destruct (TG bf Hb) as (t & r & Et & It). destruct (proj2 (MB t) It) as (b & Q). exists t, r, b. auto. }
  destruct (whole_sizes g hs dist nr lm jc jr ji jx j0 hsl gh S SR gh0 W BW) as (N1 & N2).
  assert (CE' : forall a k cf, (a < nr)%nat -> nth_error (conns (l_m (lm a))) k = Some cf -> gh a k = aat (sm_rc W) (Z.to_nat (cf_gelem cf))).
  { intros a k cf Ha. apply (ghost_rc g hs dist nr lm jc jr ji jx j0 hsl gh S SR MO gh0 W BW CE a Ha). }
  destruct (covers g hs dist nr lm jc jr ji jx j0 hsl gh S SR gh0 W BW fl TC) as (bc & bcs & C & BC & BT & CC).
  pose proof (built_sm _ _ _ _ _ BW) as OK. assert (OKS : forall a, (a < nr)%nat -> sm_ok (S a)) by (intros a Ha; eapply built_sm; apply (BU a Ha)).
  assert (EL : forall a l, (a < nr)%nat -> (l < sm_ne (S a))%nat -> (aat (l_eglob (lm a)) l < sm_ne W)%nat /\ aat (sm_A (S a)) l = aat (sm_A W) (aat (l_eglob (lm a)) l)) by (intros a l; apply (rank_area g hs dist nr lm jc jr ji jx j0 hsl gh S SR gh0 W BW NR)).
  assert (NE : forall a, (a < nr)%nat -> sm_ne (S a) = nelem (l_m (lm a))) by (intros a Ha; apply (local_sizes _ _ _ _ _ _ _ _ _ _ _ _ _ SR a Ha)).
  assert (UV : forall a l, (a < nr)%nat -> (l < sm_ne (S a))%nat -> aat (u a) l = aat u0 (aat (l_eglob (lm a)) l)). { intros a l Ha Hl. apply UI. repeat split; auto. rewrite <- NE by auto. exact Hl. }
  (* gradients *)
  assert (SG0 : match sp_grad spm with M_Resid.GLeastSquares V => WLS_ctor W = Some V | _ => True end).
  { destruct (SP 0%nat NR) as (_ & _ & _ & Q). destruct (sp_grad spm), (sp_grad (spm' 0%nat)); cbn [same_gradients] in Q; tauto. }
  destruct (getGradients_ok W fl bc (sp_grad spm) jg u0 (mkarr (sm_ne W) jG) OK C ltac:(lia) ltac:(cbn; lia) SG0) as (ug0 & G0 & EG0 & CG0 & LUG0 & LG0 & PG0). cbn [alen] in LG0.
  assert (GR : forall a, exists G1, (a < nr)%nat -> flow_getGradients (S a) fl (sp_grad (spm' a)) (jg' a) (u a) (mkarr (sm_ne (S a)) (jG' a)) = Some G1 /\ alen G1 = sm_ne (S a) /\ forall l, (l < sm_ne (S a))%nat -> aat G1 l = aat G0 (aat (l_eglob (lm a)) l)).
  { intros a. destruct (lt_dec a nr) as [Ha|]; [|exists G0; tauto]. destruct (CC a Ha) as (C' & BC'). destruct (SP a Ha) as (_ & _ & _ & SG).
    assert (SGa : match sp_grad (spm' a) with M_Resid.GLeastSquares V => WLS_ctor (S a) = Some V | _ => True end) by (destruct (sp_grad spm), (sp_grad (spm' a)); cbn [same_gradients] in SG; tauto).
    destruct (getGradients_ok (S a) fl (bcs a) (sp_grad (spm' a)) (jg' a) (u a) (mkarr (sm_ne (S a)) (jG' a)) (OKS a Ha) C' (LU a Ha) ltac:(cbn; lia) SGa) as (ug & G1 & EG & CG & LUG & LG & PG).
    exists G1. intros _. split; [exact EG|]. split; [exact LG|]. pose proof (restr_sub g hs dist a (lm a) GO Hd _ _ _ _ _ (RM a Ha)) as SM. intros l Hl.
    assert (AU : agree (lm a) (aat u0) (aat (u a))).
    { split. { intros q Hq. apply UV; auto. rewrite NE by auto. exact Hq. } intros k cf Ec. destruct (ghost_named _ _ _ _ _ _ _ _ _ _ _ _ _ a k cf SR Ha Ec) as (i & E1 & _ & E2 & _). rewrite E1, Nat2Z.id, <- NE by auto. apply (UG a k i (aat dist i) Ha). exists cf. auto. }
    apply (grads_same g hs (lm a) SM gh0 W (S a) (hsl a) (gh a) BW (BU a Ha) (fun k cf => CE' a k cf Ha) D fl bc (bcs a) BC BT BC' u0 (u a) ug0 ug) with (gs := sp_grad spm) (gs' := sp_grad (spm' a)) (G0 := mkarr (sm_ne W) jG) (G0' := mkarr (sm_ne (S a)) (jG' a)); auto; try lia; try (cbn; lia).
    - intros l' f' Hl' Hf' K' K. rewrite PG, PG0 by auto. destruct (same_view g hs (lm a) SM gh0 W (S a) (hsl a) (gh a) BW (BU a Ha) D fl bc (bcs a) BC BT BC' l' f' Hl' Hf') as (_ & (_ & _ & V3 & _) & V). cbv zeta in *. destruct V as [(_ & _ & V & Q' & Q)|[(K2 & _)|(q & cf & K2 & _)]]; [|lia|lia].
      unfold bghost, left_value. unfold out_normal in V3. rewrite Q, Q' in *. rewrite !Nat.eqb_refl in V3. rewrite V3, V, (proj1 AU l' Hl'). reflexivity.
    - rewrite <- NE by auto. exact Hl. }
  destruct (finite_choice _ G0 GR nr) as (Gr & HG). clear GR.
  (* surfaces *)
  assert (TKS : forall a, (a < nr)%nat -> tags_known (S a)) by (intros a Ha; apply (tags_built _ _ _ _ _ (BU a Ha)); intros bf; apply (rank_tags_some g hs dist nr lm jc jr ji jx j0 hsl gh S SR fl TC a bf Ha)).
  pose proof (tags_built _ _ _ _ _ BW BT) as TK0.
  assert (FIT : forall a, (a < nr)%nat -> (List.length (marked (S a) wall) <= sm_ne (S a))%nat).
  { intros a Ha. rewrite (marked_count _ _ _ _ _ _ (BU a Ha)), NE by (auto; intros bf; apply (rank_tags_some g hs dist nr lm jc jr ji jx j0 hsl gh S SR fl TC a bf Ha)). apply ROOM. exact Ha. }
  pose proof (enough_room g hs dist nr lm jc jr ji jx j0 hsl gh S SR gh0 W BW fl TC u0 G0 wall FIT) as FIT0.
  assert (RNG : forall SS (uu : arr st) (gg : arr grad), sm_ok SS -> alen uu = sm_ne SS -> alen gg = sm_ne SS -> forall k, (k < sm_nb SS)%nat -> (k < alen (sm_F SS))%nat /\ (k < alen (sm_M SS))%nat /\ (f_left (aat (sm_F SS) k) < alen uu)%nat /\ (f_left (aat (sm_F SS) k) < alen gg)%nat /\
    (f_a (aat (sm_F SS) k) < alen (sm_X SS))%nat /\ (f_b (aat (sm_F SS) k) < alen (sm_X SS))%nat).
  { intros SS uu gg OO Q1 Q2 k Hk. assert (K : (k < sm_nf_all SS)%nat) by (unfold sm_nf_all; lia). pose proof (so_left _ OO k K). pose proof (so_pts _ OO k K). rewrite (so_F _ OO), (so_M _ OO). lia. }
  destruct (surface_local_ok (sp_gas spm) W (o_alpha o) (mkarr (sm_ne W) (aat u0)) G0 wall (RNG W (mkarr (sm_ne W) (aat u0)) G0 OK eq_refl LG0) TK0 (mkarr (sm_ne W) jo)) as (s0 & Es0 & _ & _ & _ & _ & A1 & A2 & A3 & A4).
  { exact FIT0. }
  { intros k Hk. unfold left_value. cbn [aat]. unfold marked, marked_upto in Hk. apply filter_In in Hk. destruct Hk as (Hk & _). apply in_seq in Hk. assert (K : (k < sm_nf_all W)%nat) by (unfold sm_nf_all; lia). pose proof (so_left _ OK k K). destruct (PU (f_left (aat (sm_F W) k)) ltac:(lia)). lra. }
  assert (SF : forall a, exists s, (a < nr)%nat -> local_surface (S a) (spm' a) (o_alpha o) wall (jg' a) (jG' a) (jo' a) (u a) = Some s /\
    su_cl s = rsum (dl_of (sp_gas spm) (o_alpha o)) (walls (S a) (mkarr (sm_ne (S a)) (aat (u a))) (Gr a) wall) /\ su_dp s = rsum (dp_of (sp_gas spm) (o_alpha o)) (walls (S a) (mkarr (sm_ne (S a)) (aat (u a))) (Gr a) wall) /\
    su_df s = rsum (df_of (sp_gas spm) (o_alpha o)) (walls (S a) (mkarr (sm_ne (S a)) (aat (u a))) (Gr a) wall) /\ su_ar s = rsum wf_len (walls (S a) (mkarr (sm_ne (S a)) (aat (u a))) (Gr a) wall)).
  { intros a. destruct (lt_dec a nr) as [Ha|]; [|exists s0; tauto]. destruct (HG a Ha Ha) as (Q1 & Q2 & _). destruct (SP a Ha) as (P1 & P2 & P3 & _).
    destruct (surface_local_ok (sp_gas spm) (S a) (o_alpha o) (mkarr (sm_ne (S a)) (aat (u a))) (Gr a) wall (RNG (S a) (mkarr (sm_ne (S a)) (aat (u a))) (Gr a) (OKS a Ha) eq_refl Q2) (TKS a Ha) (mkarr (sm_ne (S a)) (jo' a))) as (s & Es & _ & _ & _ & _ & B1 & B2 & B3 & B4).
    { apply FIT. exact Ha. }
    { intros k Hk. unfold left_value. cbn [aat]. unfold marked, marked_upto in Hk. apply filter_In in Hk. destruct Hk as (Hk & _). apply in_seq in Hk. assert (K : (k < sm_nf_all (S a))%nat) by (unfold sm_nf_all; lia). pose proof (so_left _ (OKS a Ha) k K) as K2. rewrite UV by auto. destruct (EL a _ Ha K2) as (K3 & _).
      match goal with |- _ (aat u0 ?i) <> 0 => destruct (PU i ltac:(lia)) end. lra. }
    exists s. intros _. split; [|auto]. unfold local_surface. rewrite P1. cbn [bind]. rewrite P2, Q1. cbn [bind]. destruct (Nat.leb_spec (sm_ne (S a)) (alen (u a))) as [|QQ]; [|rewrite LU in QQ by auto; lia]. rewrite P3. exact Es. }
  destruct (finite_choice _ s0 SF nr) as (sf & HS). clear SF.
  assert (L1 : local_surface W spm (o_alpha o) wall jg jG jo u0 = Some s0). { unfold local_surface. rewrite Ef. cbn [bind]. fold fl. rewrite EG0. cbn [bind]. destruct (Nat.leb_spec (sm_ne W) (alen u0)); [exact Es0|lia]. }
  (* sums *)
  assert (SUM : forall (proj : surf -> R) phi, proj s0 = rsum phi (walls W (mkarr (sm_ne W) (aat u0)) G0 wall) -> (forall a, (a < nr)%nat -> proj (sf a) = rsum phi (walls (S a) (mkarr (sm_ne (S a)) (aat (u a))) (Gr a) wall)) ->
    rsum (fun a => proj (sf a)) (seq 0 nr) = proj s0).
  { intros proj phi Q0 Q. rewrite Q0. rewrite <- (all_walls_sum g hs dist nr lm jc jr ji jx j0 hsl gh S SR gh0 W BW fl TC (mkarr (sm_ne W) (aat u0)) G0 (fun a => mkarr (sm_ne (S a)) (aat (u a))) Gr wall phi).
    - apply rsum_ext. intros a Ha. apply in_seq in Ha. apply Q. lia.
    - intros a l Ha Hl. cbn [aat]. split; [apply UV; auto|]. apply (HG a Ha Ha). exact Hl. }
  assert (S1 : rsum (fun a => su_cl (sf a)) (seq 0 nr) = su_cl s0) by (apply (SUM su_cl _ A1); intros a Ha; apply (HS a Ha Ha)).
  assert (S2 : rsum (fun a => su_dp (sf a)) (seq 0 nr) = su_dp s0) by (apply (SUM su_dp _ A2); intros a Ha; apply (HS a Ha Ha)).
  assert (S3 : rsum (fun a => su_df (sf a)) (seq 0 nr) = su_df s0) by (apply (SUM su_df _ A3); intros a Ha; apply (HS a Ha Ha)).
  assert (S4 : rsum (fun a => su_ar (sf a)) (seq 0 nr) = su_ar s0) by (apply (SUM su_ar _ A4); intros a Ha; apply (HS a Ha Ha)).
  (* entropy *)
  assert (LA : (sm_ne W <= alen (sm_A W))%nat) by (rewrite (so_A _ OK); lia).
  pose proof (entropy_sum (sp_gas spm) (o_alpha o) (sm_ne W) (sm_A W) u0 LA ltac:(lia)) as EN0. set (e0 := rsum _ _) in EN0.
  assert (ENR : forall a, (a < nr)%nat -> entropy_local (sp_gas (spm' a)) (o_alpha o) (sm_ne (S a)) (sm_A (S a)) (u a) = Some (rsum (fun l => (fun i => ent_err (sp_gas spm) (o_alpha o) (aat u0 i) * aat (sm_A W) i) (aat (l_eglob (lm a)) l)) (seq 0 (sm_ne (S a))))).
  { intros a Ha. destruct (SP a Ha) as (_ & _ & -> & _). rewrite entropy_sum. 2:{ rewrite (so_A _ (OKS a Ha)). lia. } 2:{ rewrite LU by auto. lia. }
    f_equal. apply rsum_ext. intros l Hl. apply in_seq in Hl. destruct (EL a l Ha ltac:(lia)) as (_ & ->). rewrite UV by (auto; lia). reflexivity. }
  (* the total length of the wall *)
  assert (AR : su_ar s0 <> 0).
  { enough (0 < su_ar s0) by lra. rewrite A4.
    assert (RK : Forall (rank_ok (sp_gas spm)) [mkrank W (mkarr (sm_ne W) (aat u0)) G0]).
    { constructor; [|constructor]. exists (g_m g), hs, (g_X g), gh0. cbn [rk_S rk_u rk_g alen aat]. split; [exact BW|]. split; [exact D|]. split; [exact BT|]. split; [lia|]. split; [lia|]. rewrite MG. intros i Hi. apply PU. lia. }
    pose proof (walls_area_pos (sp_gas spm) wall _ RK) as Q. unfold wall_area, all_walls in Q. cbn [flat_map] in Q. rewrite app_nil_r in Q. apply Q. unfold rank_walls, walls. cbn [rk_S rk_u rk_g].
    apply In_nth_error in Wi. destruct Wi as (k & Ek). destruct (tag_built _ _ _ _ _ _ _ _ _ BW Ek Wt) as (K1 & K2).
    assert (In k (marked W wall)) as Hin. { unfold marked, marked_upto. apply filter_In. split; [apply in_seq; lia|]. rewrite K2. apply Z.eqb_refl. } destruct (marked W wall); [contradiction|discriminate]. }
  (* the two reports *)
  assert (RED : forall n (s : nat -> surf), rsum (fun a => su_cl (s a)) (seq 0 n) = su_cl s0 -> rsum (fun a => su_dp (s a)) (seq 0 n) = su_dp s0 -> rsum (fun a => su_df (s a)) (seq 0 n) = su_df s0 -> rsum (fun a => su_ar (s a)) (seq 0 n) = su_ar s0 ->
    surface_reduce (map s (seq 0 n)) = Some (su_cl s0 / su_ar s0, su_dp s0 / su_ar s0, su_df s0 / su_ar s0)).
  { intros n s Q1 Q2 Q3 Q4. unfold surface_reduce. rewrite !rsum_map, Q1, Q2, Q3, Q4. unfold rdiv. destruct (Req_EM_T (su_ar s0) 0); [contradiction|]. reflexivity. }
  destruct (all_of_ok 0 1 (fun _ => entropy_local (sp_gas spm) (o_alpha o) (sm_ne W) (sm_A W) u0) (fun _ => e0) (fun _ _ => EN0)) as (h0 & Eh0 & Ph0 & _).
  destruct (all_of_ok (mksurf 0 (mkarr 0 (fun _ => mksrow 0 0 0 0)) 0 0 0 0) 1 (fun _ => local_surface W spm (o_alpha o) wall jg jG jo u0) (fun _ => s0) (fun _ _ => L1)) as (k0 & Ek0 & Pk0 & _).
  destruct (all_of_ok 0 nr _ _ ENR) as (h1 & Eh1 & Ph1 & _).
  destruct (all_of_ok (mksurf 0 (mkarr 0 (fun _ => mksrow 0 0 0 0)) 0 0 0 0) nr (fun r => local_surface (S r) (spm' r) (o_alpha o) wall (jg' r) (jG' r) (jo' r) (u r)) sf (fun a Ha => proj1 (HS a Ha Ha))) as (k1 & Ek1 & Pk1 & _).
  assert (R1 : forall proj : surf -> R, rsum (fun a => proj (k1 a)) (seq 0 nr) = rsum (fun a => proj (sf a)) (seq 0 nr)) by (intros proj; apply rsum_ext; intros a Ha; apply in_seq in Ha; rewrite Pk1 by lia; reflexivity).
  unfold serial_report. unfold ranks_report at 1. rewrite Eh0. cbn [bind]. rewrite Ek0. cbn [bind]. rewrite (RED 1%nat k0) by (cbn [seq rsum]; rewrite Pk0 by lia; lra). cbn [bind].
  unfold ranks_report. rewrite Eh1. cbn [bind]. rewrite Ek1. cbn [bind]. rewrite (RED nr k1) by (rewrite R1; assumption). cbn [bind].
  do 2 eexists. split; [reflexivity|]. split; [reflexivity|]. cbn [rp_h rp_ent rp_cl rp_cdp rp_cdf]. unfold mesh_size. rewrite N1. split; [reflexivity|]. intros r Hr'. rewrite NE by auto. repeat (split; [|repeat split; reflexivity]).
  unfold compute_entropy_cell. f_equal. rewrite !rsum_map. cbn [seq rsum]. rewrite Ph0 by lia. unfold e0. rewrite Rplus_0_r, <- (all_cells g hs dist nr lm jc jr ji jx j0 hsl gh S SR gh0 W BW). apply rsum_ext. intros a Ha. apply in_seq in Ha. rewrite Ph1 by lia. reflexivity.
Qed.
Print Assumptions C104_report.

(** *** A whole explicit case: the run and what it reports *)
Theorem C104_explicit_case : forall g hs nr je dist lm jc jr ji jx j0 hsl gh S gh0 W o jreal spm sps wk glob Jf ksp at_throw u0,
  on_ranks g hs nr je dist lm jc jr ji jx j0 hsl gh S gh0 W o -> o_ptype o <> "IMPLICIT"%string ->
  main_spatial jreal (g_m g) (g_X g) W o = Some (Val spm) -> start_spatial jreal (g_m g) (g_X g) W o = Some (Val sps) -> sp_flux spm <> None -> (forall b, work_ok W (wk b)) -> at_free_stream W o u0 ->
  let slv := case_solve W spm sps wk glob Jf ksp at_throw in let r0 := main_run slv o u0 in
  (o_starter o <> 0%Z -> sound_solve W sps (wk false) (start_conf o) u0 /\ so_end (run1 slv o u0) <> None) ->
  sound_solve W spm (wk true) (main_conf o) (start_u slv o u0) -> so_end r0 <> None -> (forall i, (i < nelem (g_m g))%nat -> physical (o_gam o) (aat (so_u r0) i)) ->
  forall wall, (exists bf t, In bf (bfaces (g_m g)) /\ btg bf = wall :: t) -> (forall r, (r < nr)%nat -> (wall_faces wall (l_m (lm r)) <= nelem (l_m (lm r)))%nat) ->
  exists spm' sps', (forall r, (r < nr)%nat -> main_spatial jreal (l_m (lm r)) (l_X (lm r)) (S r) o = Some (Val (spm' r)) /\ start_spatial jreal (l_m (lm r)) (l_X (lm r)) (S r) o = Some (Val (sps' r))) /\
  forall wk' u jg jG jo jg' jG' jo', (forall b r, (r < nr)%nat -> work_ok (S r) (wk' b r)) -> (forall r, (r < nr)%nat -> at_free_stream (S r) o (u r)) ->
  exists q p0 p, ranks_run nr lm S o spm' sps' wk' u = Some q /\ serial_report W spm (o_alpha o) wall jg jG jo (so_u r0) = Some p0 /\ ranks_report nr S spm' (o_alpha o) wall jg' jG' jo' (fun r => so_u (q r)) = Some p /\
  forall r, (r < nr)%nat -> rp_ent (p r) = rp_ent p0 /\ rp_cl (p r) = rp_cl p0 /\ rp_cdp (p r) = rp_cdp p0 /\ rp_cdf (p r) = rp_cdf p0.
Proof.
  intros g hs nr je dist lm jc jr ji jx j0 hsl gh S gh0 W o jreal spm sps wk glob Jf ksp at_throw u0 T HI Em Es NF Hw Fu slv r0 S1 S2 N2 PU wall HW ROOM.
  destruct (C102_explicit_run _ _ _ _ _ _ _ _ _ _ _ _ _ _ _ _ _ jreal spm sps wk glob Jf ksp at_throw u0 T HI Em Es Hw Fu S1 S2 N2) as (spm' & sps' & E' & H). exists spm', sps'. split; [exact E'|].
  intros wk' u jg jG jo jg' jG' jo' Hw' Fu'. destruct (H wk' u Hw' Fu') as (q & Eq & _ & L0 & HQ & _). fold slv r0 in L0, HQ.
  destruct (C104_report _ _ _ _ _ _ _ _ _ _ _ _ _ _ _ _ _ jreal spm spm' T Em (fun r Hr => proj1 (E' r Hr)) NF wall (so_u r0) (fun r => so_u (q r)) L0 PU) with (jg := jg) (jG := jG) (jo := jo) (jg' := jg') (jG' := jG') (jo' := jo') as (p0 & p & P1 & P2 & _ & P3); auto.
  - intros r Hr. apply (HQ r Hr).
  - intros r l i Hc. destruct Hc as (Hr & Hc). apply (HQ r Hr). split; auto.
  - intros r k i q' Hr Hi. destruct (HQ r Hr) as (_ & _ & _ & _ & Q). exact (Q k i q' Hi).
  - exists q, p0, p. split; [exact Eq|]. split; [exact P1|]. split; [exact P2|]. intros r Hr. destruct (P3 r Hr) as (Q1 & Q2 & Q3 & Q4 & _). auto.
Qed.
Print Assumptions C104_explicit_case.

(** *** The mesh size: every rank reports that of its own cells *)
Lemma size_inj a b : (0 < a)%nat -> (0 < b)%nat -> (1 / Rpower (INR a) (1 / 2) = 1 / Rpower (INR b) (1 / 2) <-> a = b).
Proof.
  intros Ha Hb. apply lt_0_INR in Ha, Hb. split; [|intros ->; reflexivity]. intros E. apply INR_eq. replace (1/2) with (/2) in E by lra. rewrite !Rpower_sqrt in E by auto.
  pose proof (sqrt_lt_R0 _ Ha) as P1. pose proof (sqrt_lt_R0 _ Hb) as P2. assert (Q : sqrt (INR a) = sqrt (INR b)). { unfold Rdiv in E. rewrite !Rmult_1_l in E. rewrite <- (Rinv_inv (sqrt (INR a))), <- (Rinv_inv (sqrt (INR b))), E. reflexivity. }
  apply sqrt_inj in Q; lra.
Qed.
Theorem C104_mesh_size : forall nr S sp aoa wall jg jG jo u p sp0 W jg0 jG0 jo0 u0 p0, ranks_report nr S sp aoa wall jg jG jo u = Some p -> serial_report W sp0 aoa wall jg0 jG0 jo0 u0 = Some p0 ->
  forall r, (r < nr)%nat -> (0 < sm_ne (S r))%nat -> (0 < sm_ne W)%nat -> (rp_h (p r) = rp_h p0 <-> sm_ne (S r) = sm_ne W).
Proof.
  intros nr S sp aoa wall jg jG jo u p sp0 W jg0 jG0 jo0 u0 p0 E E0 r Hr N1 N2.
  assert (H : forall nr S sp jg jG jo u p, ranks_report nr S sp aoa wall jg jG jo u = Some p -> forall r, rp_h (p r) = 1 / Rpower (INR (sm_ne (S r))) (1 / 2)).
  { clear. intros nr S sp jg jG jo u p E r. unfold ranks_report in E. destruct (all_of 0 _ _) as [e|]; [|discriminate]. cbn [bind] in E. destruct (all_of _ _ _) as [s|]; [|discriminate]. cbn [bind] in E. destruct (surface_reduce _) as [((cl & dp) & df)|]; [|discriminate]. cbn [bind] in E. injection E as <-. reflexivity. }
  unfold serial_report in E0. destruct (ranks_report 1 _ _ _ _ _ _ _ _) as [q|] eqn:Eq; [|discriminate]. cbn [bind] in E0. injection E0 as <-. rewrite (H _ _ _ _ _ _ _ _ E), (H _ _ _ _ _ _ _ _ Eq). apply size_inj; auto.
Qed.
Print Assumptions C104_mesh_size.

(** *** The ring of seven triangles on two ranks, wall with marker 1: the hypotheses of C104_report hold, and neither rank reports the size one process does *)
Lemma wall_share g hs dist nr lm jc jr ji jx j0 hsl gh S wall r : split_run g hs dist nr lm jc jr ji jx j0 hsl gh S -> (r < nr)%nat -> (wall_faces wall (l_m (lm r)) <= wall_faces wall (g_m g))%nat.
Proof.
  intros [G Hd Hr RM SE BU D] Hr'. unfold wall_faces. rewrite <- (Permutation_length (perm_filter (has_tag wall) _ _ (C16_boundary_faces g hs dist nr G Hd Hr lm jc jr ji jx j0 RM))).
  replace nr with (r + (1 + (nr - r - 1)))%nat by lia. rewrite !seq_app, !flat_map_app, !filter_app, !app_length. cbn [seq flat_map]. rewrite Nat.add_0_l, app_nil_r.
  assert (Q : List.length (filter (has_tag wall) (map (back_bf (lm r)) (bfaces (l_m (lm r))))) = List.length (filter (has_tag wall) (bfaces (l_m (lm r))))).
  { generalize (bfaces (l_m (lm r))). induction l as [|x l IH]; [reflexivity|]. cbn [map filter]. change (has_tag wall (back_bf (lm r) x)) with (has_tag wall x). destruct (has_tag wall x); cbn; lia. }
  lia.
Qed.
Theorem C104_mesh_size_refuted : forall je, exists t dist lm jc jr ji jx j0 hsl gh S gh0 W spm spm' u0 u, let g := mkgm ring t ringX6 (mkarr 7 (fun _ => [1%Z])) in
  on_ranks g ring_h 2 je dist lm jc jr ji jx j0 hsl gh S gh0 W ring_opts /\ main_spatial (fun _ => 0) ring ringX6 W ring_opts = Some (Val spm) /\
  at_free_stream W ring_opts u0 /\ (forall r, (r < 2)%nat -> main_spatial (fun _ => 0) (l_m (lm r)) (l_X (lm r)) (S r) ring_opts = Some (Val (spm' r)) /\ at_free_stream (S r) ring_opts (u r)) /\
  forall jg jG jo jg' jG' jo', exists p0 p, serial_report W spm 0 1%Z jg jG jo u0 = Some p0 /\ ranks_report 2 S spm' 0 1%Z jg' jG' jo' u = Some p /\
    forall r, (r < 2)%nat -> rp_ent (p r) = rp_ent p0 /\ rp_cl (p r) = rp_cl p0 /\ rp_cdp (p r) = rp_cdp p0 /\ rp_cdf (p r) = rp_cdf p0 /\ rp_h (p r) <> rp_h p0.
Proof.
  intros je. destruct (C102_example je) as (t & dist & lm & jc & jr & ji & jx & j0 & hsl & gh & S & gh0 & W & H). cbv zeta in H. set (g := mkgm ring t ringX6 (mkarr 7 (fun _ => [1%Z]))) in *.
  destruct H as (T & NA & NB & spm & sps & spm' & sps' & u0 & u & Em & Fu0 & E' & _). exists t, dist, lm, jc, jr, ji, jx, j0, hsl, gh, S, gh0, W, spm, spm', u0, u. cbv zeta. fold g.
  split; [exact T|]. split; [exact Em|]. split; [exact Fu0|]. split; [exact E'|]. intros jg jG jo jg' jG' jo'.
  pose proof T as [(NR & EP & SR) BW _ _ _ _]. destruct (start_spread _ _ _ _ _ _ _ _ _ _ _ _ _ _ _ _ _ u0 u T Fu0 (fun r Hr => proj2 (E' r Hr))) as (L0 & SPR).
  destruct (whole_sizes g ring_h dist 2 lm jc jr ji jx j0 hsl gh S SR gh0 W BW) as (N1 & _).
  destruct (C104_report _ _ _ _ _ _ _ _ _ _ _ _ _ _ _ _ _ (fun _ => 0) spm spm' T Em (fun r Hr => proj1 (E' r Hr))) with (wall := 1%Z) (u0 := u0) (u := u) (jg := jg) (jG := jG) (jo := jo) (jg' := jg') (jG' := jG') (jo' := jo') as (p0 & p & P1 & P2 & P3 & P4).
  - destruct (make_for (fun _ => 0) ring ringX6 W ring_opts _ spm ltac:(cbn; lra) ltac:(cbn; lra) Em eq_refl eq_refl) as ((_ & _ & _ & _ & _ & MF & _) & _). rewrite (proj2 (MF HLLC)); [discriminate|]. cbn. auto 10.
  - exact L0.
  - intros i Hi. destruct (make_for (fun _ => 0) ring ringX6 W ring_opts _ spm ltac:(cbn; lra) ltac:(cbn; lra) Em eq_refl eq_refl) as ((MG & _) & _). change (o_gam ring_opts) with 1.4 in *. rewrite <- MG. apply (ring_physical W u0 spm i MG Fu0). lia.
  - intros r Hr. apply (SPR r Hr).
  - intros r l i (Hr & Hl & <-). apply (SPR r Hr). destruct (local_sizes _ _ _ _ _ _ _ _ _ _ _ _ _ SR r Hr) as (-> & _). exact Hl.
  - intros r k i q Hr (cf & Ec & Q & _). destruct (SPR r Hr) as (_ & _ & K). rewrite (K k cf Ec), Q, Nat2Z.id. reflexivity.
  - exists (mkbf 3 4 [1%Z]), []. split; [left; reflexivity|reflexivity].
  - intros r Hr. pose proof (wall_share _ _ _ _ _ _ _ _ _ _ _ _ _ 1%Z r SR Hr) as Q. change (wall_faces 1 (g_m g)) with 1%nat in Q. destruct r as [|[|r]]; [| |lia]; rewrite ?NA, ?NB; lia.
  - exists p0, p. split; [exact P1|]. split; [exact P2|]. intros r Hr. destruct (P4 r Hr) as (Q1 & Q2 & Q3 & Q4 & Q5). do 4 (split; [assumption|]). rewrite P3, Q5. intros K. destruct r as [|[|r]]; [| |lia]; [rewrite NA in K|rewrite NB in K]; change (nelem (g_m g)) with 7%nat in K; apply size_inj in K; lia.
Qed.
Print Assumptions C104_mesh_size_refuted.

(** *** A channel of one row of cells with one marker for both walls: a case with sound options on which run_output writes out of bounds, on one process *)
Theorem C104_room_refuted : exists S, built ch chh chX chg S /\ forall p t, fits ch chh chX chg S (ch_opts p t) /\ o_lwalls (ch_opts p t) = [1%Z] /\
  forall spm aoa jg jG jo u, serial_report S spm aoa 1%Z jg jG jo u = None.
Proof.
  destruct ch_built as (S & B). exists S. split; [exact B|]. intros p t. split; [apply (ch_fits S p t B)|]. split; [reflexivity|]. intros spm aoa jg jG jo u. unfold serial_report.
  rewrite (C104_no_room 1 (fun _ => ch) chh chX chg (fun _ => S) (fun _ => spm) aoa 1%Z _ _ _ _ 0%nat ltac:(lia) B); [reflexivity| |].
  - intros bf [<-|[<-|[<-|[<-|[<-|[<-|[]]]]]]]; discriminate.
  - vm_compute. lia.
Qed.
Print Assumptions C104_room_refuted.
