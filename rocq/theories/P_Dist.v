(** C101, the numbering of ghosted vectors; C102, an explicit run on several ranks. *)
From Coq Require Import Reals Lra List String ZArith Bool Arith Lia Permutation Sorted.
From Verif Require Import Base BaseR BaseSum M_Gas M_Flux M_Visc M_BC M_BCConf M_Mesh M_Geom M_Part M_Space M_Grad M_Recon S_Space S_Gas S_Mesh S_Geom M_Resid S_Resid S_Par M_Ode M_Prep
  Pf_Host Pf_Topo Pf_Incid Pf_Full Pf_Geom Pf_Space Pf_Grad Pf_Recon Pf_Reorder Pf_Resid Pf_Resid2 Pf_Part Pf_Restrict Pf_Part2 P_Geom P_Grad P_Part P_Resid Pf_Par P_Par Pf_Par2 P_Par2 Pf_BCConf Pf_Ode Pf_Ode2 M_Ctl M_Case P_Case M_Start P_Start ChkMesh
  Pf_Renum P_Renum P_Prep P_Renum2 M_Dist Pf_Dist.
Import ListNotations.
Open Scope R_scope.

(** ** Specification *)
(** The mesh [g] is split by the partitioner that every case uses (TrivialReplicatedGlobalMeshPartitioner), and every rank has set up its discretization. *)
Definition split_in_order (g : gmesh) (hs : list (nat * nat)) (nr : nat) (je : nat -> nat) (dist : arr nat) (lm : nat -> lmesh) jc jr ji jx j0 (hsl : nat -> list (nat * nat)) (gh : nat -> nat -> v2) (S : nat -> smesh) : Prop :=
  (0 < nr)%nat /\ trivial_partition (nelem (g_m g)) nr je = Some dist /\ split_run g hs dist nr lm jc jr ji jx j0 hsl gh S.
(** cell [l] of rank [r] is cell [i] of the mesh *)
Definition is_cell (nr : nat) (lm : nat -> lmesh) (r l i : nat) : Prop := (r < nr)%nat /\ (l < nelem (l_m (lm r)))%nat /\ aat (l_eglob (lm r)) l = i.
(** ghost cell [k] of rank [r] stands for cell [i] of the mesh, which the connectivity face says belongs to rank [q] *)
Definition is_ghost (lm : nat -> lmesh) (r k i q : nat) : Prop := exists cf, nth_error (conns (l_m (lm r))) k = Some cf /\ cf_gelem cf = Z.of_nat i /\ cf_rank cf = Z.of_nat q.

Lemma in_order g hs nr je dist lm jc jr ji jx j0 hsl gh S : split_in_order g hs nr je dist lm jc jr ji jx j0 hsl gh S ->
  forall i j, (i <= j)%nat -> (j < nelem (g_m g))%nat -> (aat dist i <= aat dist j)%nat.
Proof. intros (NR & E & _). destruct (C14_trivial_partition (nelem (g_m g)) nr je NR) as (d & E' & _ & _ & M & _). rewrite E in E'. injection E' as <-. exact M. Qed.
Lemma ghost_named g hs dist nr lm jc jr ji jx j0 hsl gh S a k cf : split_run g hs dist nr lm jc jr ji jx j0 hsl gh S -> (a < nr)%nat -> nth_error (conns (l_m (lm a))) k = Some cf ->
  exists i, cf_gelem cf = Z.of_nat i /\ (i < nelem (g_m g))%nat /\ cf_rank cf = Z.of_nat (aat dist i) /\ (aat dist i < nr)%nat.
Proof.
  intros [G Hd Hr RM SE BU D] Ha Ec. destruct (restr_facts g hs dist a (lm a) G Hd _ _ _ _ _ (RM a Ha)) as (_ & _ & _ & _ & F5 & _). destruct (F5 cf (nth_error_In _ _ Ec)) as (j & ((_ & _ & Hj & _) & _) & E1 & E2 & _). exists j. auto.
Qed.

(** ** C101 *)
(** Every block of a ghosted vector stands for one cell: block number i is cell i of the mesh, on its rank; and the ghost blocks of a rank are the blocks of the cells its connectivity faces name. *)
Theorem C101_blocks : forall g hs nr je dist lm jc jr ji jx j0 hsl gh S, split_in_order g hs nr je dist lm jc jr ji jx j0 hsl gh S ->
  (forall r l i, is_cell nr lm r l i -> slot (fun a => nelem (l_m (lm a))) nr i = Some (r, l)) /\
  (forall b r l, (b < nelem (g_m g))%nat -> slot (fun a => nelem (l_m (lm a))) nr b = Some (r, l) -> is_cell nr lm r l b) /\
  (forall r k, (r < nr)%nat -> (k < sm_nc (S r))%nat -> exists i q l, is_ghost lm r k i q /\ M_Dist.own nr lm r k = Some (q, l) /\ is_cell nr lm q l i).
Proof.
  intros g hs nr je dist lm jc jr ji jx j0 hsl gh S SO. pose proof (in_order _ _ _ _ _ _ _ _ _ _ _ _ _ _ SO) as MO. destruct SO as (NR & EP & SR). split; [|split].
  - intros r l i (H1 & H2 & <-). apply (own_block g hs dist nr lm jc jr ji jx j0 hsl gh S SR MO); auto.
  - intros b r l Hb E. destruct (block_at g hs dist nr lm jc jr ji jx j0 hsl gh S SR MO b Hb) as (q & k & E' & Q1 & Q2 & Q3). rewrite E in E'. injection E' as <- <-. split; auto.
  - intros r k Hr Hk. destruct (local_sizes _ _ _ _ _ _ _ _ _ _ _ _ _ SR r Hr) as (_ & NC). destruct (nth_error_some _ (conns (l_m (lm r))) k ltac:(lia)) as (cf & Ec). destruct (ghost_named _ _ _ _ _ _ _ _ _ _ _ _ _ r k cf SR Hr Ec) as (i & E1 & _ & E2 & _).
    destruct (own_ghost g hs dist nr lm jc jr ji jx j0 hsl gh S SR MO r k cf Hr Ec) as (q & l & E3 & Q1 & Q2 & Q3 & Q4). rewrite E1, Nat2Z.id in Q4. exists i, q, l. split; [exists cf; auto|]. split; auto. split; auto.
Qed.
(** VecGhostUpdate brings every ghost cell the values of the cell it stands for and changes nothing else, whatever the ghost cells held. *)
Theorem C101_ghost_update : forall g hs nr je dist lm jc jr ji jx j0 hsl gh S, split_in_order g hs nr je dist lm jc jr ji jx j0 hsl gh S ->
  forall (V : nat -> st) x, (forall r, (r < nr)%nat -> alen (x r) = (sm_ne (S r) + sm_nc (S r))%nat) -> (forall r l i, is_cell nr lm r l i -> aat (x r) l = V i) ->
  exists y, forward nr lm S x = Some y /\ forall r, (r < nr)%nat -> alen (y r) = alen (x r) /\
    (forall l i, is_cell nr lm r l i -> aat (y r) l = V i) /\ (forall k i q, is_ghost lm r k i q -> aat (y r) (sm_ne (S r) + k)%nat = V i).
Proof.
  intros g hs nr je dist lm jc jr ji jx j0 hsl gh S SO V x L P. pose proof (in_order _ _ _ _ _ _ _ _ _ _ _ _ _ _ SO) as MO. destruct SO as (NR & EP & SR).
  destruct (forward_ok g hs dist nr lm jc jr ji jx j0 hsl gh S SR MO x V) as (y & E & H).
  - intros q Hq. split; [auto|]. intros l Hl. destruct (local_sizes _ _ _ _ _ _ _ _ _ _ _ _ _ SR q Hq) as (Q & _). apply P. repeat split; auto. lia.
  - exists y. split; auto. intros r Hr. destruct (H r Hr) as (H1 & H2 & H3). destruct (local_sizes _ _ _ _ _ _ _ _ _ _ _ _ _ SR r Hr) as (Q & _). split; [rewrite H1, L; auto|]. split.
    + intros l i (_ & Hl & <-). apply H2. lia.
    + intros k i q (cf & Ec & E1 & _). rewrite (H3 k cf Ec), E1, Nat2Z.id. reflexivity.
Qed.
Print Assumptions C101_blocks.
Print Assumptions C101_ghost_update.

(** *** A partition that is not in order (ScotchRGMPartitioner may return one): the numbers of connectivity faces are not the block numbers *)
Lemma slot_some g hs dist nr lm jc jr ji jx j0 hsl gh S b : split_run g hs dist nr lm jc jr ji jx j0 hsl gh S -> (b < nelem (g_m g))%nat ->
  exists q l, slot (fun a => nelem (l_m (lm a))) nr b = Some (q, l) /\ (q < nr)%nat /\ (l < nelem (l_m (lm q)))%nat.
Proof.
  intros SR Hb. pose proof SR as [G Hd Hr RM SE BU D]. pose proof (C15_union g hs dist nr G Hd Hr lm jc jr ji jx j0 RM) as PE.
  destruct (nth_error_some _ (flat_map (fun r => alist (l_eglob (lm r))) (seq 0 nr)) b) as (x & E). { rewrite (Permutation_length PE), seq_length. exact Hb. }
  destruct (slot_concat (fun r => alist (l_eglob (lm r))) (fun r => List.length (alist (l_eglob (lm r)))) (fun r => eq_refl) _ _ _ _ E) as (q & l & E1 & E2 & E3). exists q, l.
  assert (LN : forall r, (r < nr)%nat -> List.length (alist (l_eglob (lm r))) = nelem (l_m (lm r))).
  { intros r Hr'. destruct (restr_facts g hs dist r (lm r) G Hd _ _ _ _ _ (RM r Hr')) as (_ & _ & _ & _ & _ & _ & F7 & _). unfold alist. rewrite map_length, seq_length. auto. }
  split; [|split; [lia|]]. { unfold slot. rewrite <- E1. apply slot_ext. intros r Hr'. symmetry. apply LN. lia. } rewrite <- LN by lia. apply nth_error_Some. congruence.
Qed.
Theorem C101_scattered_refuted : exists g hs dist nr lm jc jr ji jx j0 hsl gh S, split_run g hs dist nr lm jc jr ji jx j0 hsl gh S /\
  exists a k i q x y, (a < nr)%nat /\ is_ghost lm a k i q /\
  (forall r, (r < nr)%nat -> alen (x r) = (sm_ne (S r) + sm_nc (S r))%nat) /\ (forall r l j, is_cell nr lm r l j -> aat (x r) l = mks (INR j) 0 0 0) /\
  forward nr lm S x = Some y /\ aat (y a) (sm_ne (S a) + k)%nat <> mks (INR i) 0 0 0.
Proof.
  destruct (global_of ring ring_h ring_tiled eq_refl ringX (mkarr 7 (fun _ => [])) eq_refl eq_refl) as (t & G). set (g := mkgm ring t ringX (mkarr 7 (fun _ => []))) in *.
  assert (H34 : forall c, In c (cells ring) -> (List.length c = 3 \/ List.length c = 4)%nat).
  { intros c Hc. left. unfold ring in Hc. cbn [cells In] in Hc. repeat (destruct Hc as [<-|Hc]; [reflexivity|]). contradiction. }
  assert (HR : forall i, (i < 7)%nat -> (aat ring_d i < 2)%nat) by (intros i _; unfold ring_d; cbn; destruct (i =? 0)%nat; lia).
  destruct (C64_runs_exist g ring_h ring_d 2 G eq_refl HR H34 ringX_distinct (P_Par.ring_seen t _) (fun j => mks (INR j) 0 0 0)) as (lm & jc & jr & ji & jx & j0 & hsl & gh & S & u & SR & SU & EX).
  exists g, ring_h, ring_d, 2%nat, lm, jc, jr, ji, jx, j0, hsl, gh, S. split; auto. pose proof SR as [_ Hd _ RM SE BU D].
  destruct (C17_connectivity_faces _ ring_h ring_d 0 G Hd (jc 0%nat) (jr 0%nat) (ji 0%nat) (jx 0%nat) (j0 0%nat)) as (lm' & R' & _ & CF & _).
  rewrite (RM 0%nat ltac:(lia)) in R'. injection R' as <-. destruct (restr_facts g ring_h ring_d 0 (lm 0%nat) G Hd _ _ _ _ _ (RM 0%nat ltac:(lia))) as (F1 & F2 & F3 & _ & F5 & _).
  assert (I10 : exists f, interface g ring_d 0 1 f 0).
  { assert (AC : exists f, across (cells ring) 1 f 0). { first [exists 0%nat; apply acrossb_ok; vm_compute; reflexivity|exists 1%nat; apply acrossb_ok; vm_compute; reflexivity|exists 2%nat; apply acrossb_ok; vm_compute; reflexivity]. }
    destruct AC as (f & AC). exists f. split; [exact AC|]. split; [reflexivity|]. cbn. discriminate. }
  destruct I10 as (f & I10). destruct (F3 1%nat ltac:(cbn; lia) eq_refl) as (l & Hl & E).
  assert (Hin : exists cf, In cf (conns (l_m (lm 0%nat))) /\ cf_gelem cf = 0%Z /\ cf_rank cf = 1%Z).
  { eexists. split; [apply CF; exists l, 0%nat, f, (at2 (elemface t) 1 f); split; [reflexivity|]; split; [auto|]; cbv zeta; rewrite E; split; [auto|]; split; [|reflexivity]; apply (SE 0%nat _ _ 0%nat); auto|]. split; reflexivity. }
  destruct Hin as (cf & Hin & E1 & E2). apply In_nth_error in Hin. destruct Hin as (k & Ek).
  set (VV := fun j => mks (INR j) 0 0 0). set (W := fun r k => match M_Dist.own 2 lm r k with Some (q, l) => VV (aat (l_eglob (lm q)) l) | None => szero end).
  assert (GH : forall r, (r < 2)%nat -> exists h, ghosts 2 lm S szero u r = Some h /\ forall k, (k < sm_nc (S r))%nat -> h k = W r k).
  { intros r Hr. unfold ghosts. match goal with |- context [all_of ?d ?n ?F] => destruct (all_of_ok d n F (W r)) as (h & Eh & H1 & _) end; [|exists h; auto].
    intros j Hj. destruct (local_sizes _ _ _ _ _ _ _ _ _ _ _ _ _ SR r Hr) as (_ & NC). destruct (nth_error_some _ (conns (l_m (lm r))) j ltac:(lia)) as (c & Ec). destruct (ghost_named _ _ _ _ _ _ _ _ _ _ _ _ _ r j c SR Hr Ec) as (i & Q1 & Q2 & _).
    destruct (slot_some _ _ _ _ _ _ _ _ _ _ _ _ _ i SR Q2) as (q & p & Q3 & Q4 & Q5).
    assert (EO : M_Dist.own 2 lm r j = Some (q, p)). { unfold M_Dist.own. rewrite Ec. cbn [bind]. rewrite Q1, Nat2Z.id. destruct (Z.ltb_spec (Z.of_nat i) 0); [lia|]. exact Q3. }
    unfold W. rewrite EO. cbn [bind fst snd]. destruct (SU q Q4) as (S1 & S2 & S3). destruct (Nat.ltb_spec p (sm_ne (S q))); [|lia]. rewrite aget_ok by lia. rewrite S2 by lia. reflexivity. }
  assert (FW : exists y, forward 2 lm S u = Some y /\ aat (y 0%nat) (sm_ne (S 0%nat) + k)%nat = W 0%nat k).
  { destruct (GH 0%nat ltac:(lia)) as (h0 & Eh0 & Ph0). destruct (GH 1%nat ltac:(lia)) as (h1 & Eh1 & _). unfold forward. destruct (all_of_ok (fun _ => szero) 2 (ghosts 2 lm S szero u) (fun r => if (r =? 0)%nat then h0 else h1)) as (h & -> & H1 & _).
    { intros r Hr. destruct r as [|[|r]]; [exact Eh0|exact Eh1|lia]. }
    cbn [bind]. eexists. split; [reflexivity|]. cbn beta. unfold set_ghosts. cbn [aat]. destruct (Nat.ltb_spec (sm_ne (S 0%nat) + k) (sm_ne (S 0%nat))); [lia|]. rewrite H1 by lia. cbn [Nat.eqb]. replace (sm_ne (S 0%nat) + k - sm_ne (S 0%nat))%nat with k by lia.
    apply Ph0. destruct (local_sizes _ _ _ _ _ _ _ _ _ _ _ _ _ SR 0%nat ltac:(lia)) as (_ & ->). apply nth_error_Some. congruence. }
  destruct FW as (y & EF & Ey). exists 0%nat, k, 0%nat, 1%nat, u, y. split; [lia|]. split; [exists cf; auto|]. split; [intros r Hr; apply (SU r Hr)|]. split.
  { intros r p j (Hr & Hp & <-). destruct (SU r Hr) as (_ & S2 & S3). apply S2. lia. }
  split; [exact EF|]. rewrite Ey. unfold W, M_Dist.own. rewrite Ek. cbn [bind]. rewrite E1. cbn [Z.ltb Z.compare Z.to_nat].
  assert (N0 : (0 < nelem (l_m (lm 0%nat)))%nat) by lia. unfold slot. cbn [slot_from]. destruct (Nat.ltb_spec 0 (nelem (l_m (lm 0%nat)))); [|lia].
  destruct (F1 0%nat N0) as (_ & D0 & _). assert (NZ : aat (l_eglob (lm 0%nat)) 0 <> 0%nat). { intros Q. rewrite Q in D0. discriminate D0. }
  unfold VV. intros Q. injection Q as Q. apply (INR_eq _ 0%nat) in Q. contradiction.
Qed.
Print Assumptions C101_scattered_refuted.

(** ** C102 *)
(** A case on several ranks: the mesh split in order, the centres of ghost cells received from their owners, and every boundary face has a section of its marker. For second
    order, one of the reconstructions without out-of-bounds reads. [W]: the discretization of the whole mesh, as one process sets it up. *)
Record on_ranks (g : gmesh) (hs : list (nat * nat)) (nr : nat) (je : nat -> nat) (dist : arr nat) (lm : nat -> lmesh) jc jr ji jx j0 (hsl : nat -> list (nat * nat)) (gh : nat -> nat -> v2) (S : nat -> smesh)
    (gh0 : nat -> v2) (W : smesh) (o : fpopts) : Prop := {
  or_split : split_in_order g hs nr je dist lm jc jr ji jx j0 hsl gh S;
  or_whole : built (g_m g) hs (g_X g) gh0 W;
  or_centres : forall r k q l, (r < nr)%nat -> M_Dist.own nr lm r k = Some (q, l) -> gh r k = aat (sm_rc (S q)) l;
  or_tags : forall bf, In bf (bfaces (g_m g)) -> exists t r, btg bf = t :: r /\ In t (map fb_tag (o_bc o));
  or_gas : 1 < o_gam o /\ 0 < o_Minf o /\ (o_invflux o = "HLLC"%string -> 5/4 <= o_gam o);
  or_lim : o_order2 o = true -> o_lim o = "NONE"%string \/ o_lim o = "VANALBADA"%string \/ o_lim o = "WENO"%string /\ 0 < o_limpar o }.

Section Ranks.
Context (g : gmesh) (hs : list (nat * nat)) (nr : nat) (je : nat -> nat) (dist : arr nat) (lm : nat -> lmesh) (jc : nat -> nat -> list nat) (jr : nat -> nat -> list Z) (ji : nat -> nat -> nat) (jx : nat -> nat -> v2) (j0 : nat -> nat -> nat -> Z)
  (hsl : nat -> list (nat * nat)) (gh : nat -> nat -> v2) (S : nat -> smesh) (gh0 : nat -> v2) (W : smesh) (o : fpopts) (jreal : xreal -> R).
Hypothesis T : on_ranks g hs nr je dist lm jc jr ji jx j0 hsl gh S gh0 W o.
Notation spr := (spread lm S).
Lemma rank_recs a k : (a < nr)%nat -> exists r', rec_of (l_m (lm a)) (l_X (lm a)) k = Some r'.
Proof.
  intros Ha. destruct T as [(_ & _ & [_ _ _ _ _ BU _]) _ _ _ _ _]. destruct k; cbn [rec_of]; eauto. destruct (BU a Ha) as (TT & _ & LX & _). pose proof (gm_valid _ _ (tl_good _ _ TT)) as Hv.
  destruct (venkat_ctor_ok (l_m (lm a)) (l_X (lm a))) as (cl & -> & _); [|cbn [bind]; eauto]. intros c v Hc Hin. rewrite LX. apply (Hv c Hc); auto.
Qed.
Lemma rank_grads a k gs : (a < nr)%nat -> grad_of W k = Some gs -> exists gs', grad_of (S a) k = Some gs' /\ same_gradients W (S a) gs gs'.
Proof.
  intros Ha. destruct T as [(_ & _ & [_ _ _ _ _ BU _]) _ _ _ _ _]. destruct k; cbn [grad_of]; intros E; try (injection E as <-; eexists; split; [reflexivity|exact Logic.I]).
  destruct (WLS_ctor W) as [V|] eqn:EV; [|discriminate]. injection E as <-. destruct (wls_ctor_ok (S a) (built_sm _ _ _ _ _ (BU a Ha))) as (V' & EV' & _). rewrite EV'. eexists. split; [reflexivity|]. cbn. auto.
Qed.
(** the discretization can be made on every rank, and they differ in the geometry only *)
Lemma rank_made n sp a : (a < nr)%nat -> make_spatial jreal (g_m g) (g_X g) W (extract_spatial_physics_config o) n = Some (Val sp) ->
  (nc_order2 n = true -> forall rs, create_reconstruction (nc_rec n) (nc_par n) = Some rs -> match rs with M_Ctl.RLinear | RVanAlbada => True | M_Ctl.RWENO p => 0 < p | _ => False end) ->
  exists sp', make_spatial jreal (l_m (lm a)) (l_X (lm a)) (S a) (extract_spatial_physics_config o) n = Some (Val sp') /\ sp_flux sp' = sp_flux sp /\ (forall f, sp_flow sp' f = sp_flow sp f) /\ same_gradients W (S a) (sp_grad sp) (sp_grad sp') /\
  (nc_order2 n = true -> sp_rec sp' = sp_rec sp /\ forall r, sp_rec sp = Some r -> smooth_scheme r).
Proof.
  intros Ha E H2. unfold make_spatial in E |- *. cbv zeta in *. cbn [create_flowSpatialDiscretization sc_grad sc_rec sc_flux sc_jac sc_cvisc sc_order2 extract_spatial_physics_config pc_bc pc_aoa pc_visc pc_cvisc] in *.
  destruct (grad_of W (create_gradientscheme (nc_grad n))) as [gs|] eqn:Eg; [|discriminate]. destruct (rank_grads a _ _ Ha Eg) as (gs' & Eg' & SG). rewrite Eg'. cbn [bind] in *.
  assert (RR : exists rs rs', match create_reconstruction (nc_rec n) (nc_par n) with None => Some None | Some k => r <- rec_of (g_m g) (g_X g) k ;; Some (Some r) end = Some rs /\ match create_reconstruction (nc_rec n) (nc_par n) with None => Some None | Some k => r <- rec_of (l_m (lm a)) (l_X (lm a)) k ;; Some (Some r) end = Some rs' /\
    (nc_order2 n = true -> rs' = rs /\ forall r, rs = Some r -> smooth_scheme r)).
  { destruct (create_reconstruction (nc_rec n) (nc_par n)) as [k|] eqn:Ek.
    - destruct (rec_of (g_m g) (g_X g) k) as [r|] eqn:Er; [|discriminate]. destruct (rank_recs a k Ha) as (r' & Er'). rewrite Er'. cbn [bind]. exists (Some r), (Some r'). split; auto. split; auto.
      intros O2. pose proof (H2 O2 k eq_refl) as K. destruct k; cbn [rec_of] in *; try contradiction; injection Er as <-; injection Er' as <-; (split; [reflexivity|]); intros r [= <-]; cbn; auto.
    - exists None, None. split; auto. split; auto. intros _. split; auto. discriminate. }
  destruct RR as (rs & rs' & R1 & R2 & R3). rewrite R1 in E. rewrite R2. cbn [bind] in *. set (U := compute_freestream_state _ _) in *.
  destruct (create_const_flowBCs U (o_bc o)) as [bcs| |] eqn:Eb; try discriminate. injection E as <-. eexists. split; [reflexivity|]. cbn [sp_flux sp_grad sp_rec]. split; [reflexivity|]. split; [reflexivity|]. split; [exact SG|exact R3].
Qed.
(** one evaluation by all ranks *)
Lemma ranks_eval n sp (spr' : nat -> spatial) w wk : make_spatial jreal (g_m g) (g_X g) W (extract_spatial_physics_config o) n = Some (Val sp) -> nc_flux n = o_invflux o -> nc_jac n = o_invfluxjac o ->
  (nc_order2 n = true -> forall rs, create_reconstruction (nc_rec n) (nc_par n) = Some rs -> match rs with M_Ctl.RLinear | RVanAlbada => True | M_Ctl.RWENO p => 0 < p | _ => False end) ->
  (forall a, (a < nr)%nat -> make_spatial jreal (l_m (lm a)) (l_X (lm a)) (S a) (extract_spatial_physics_config o) n = Some (Val (spr' a))) ->
  work_ok W w -> (forall a, (a < nr)%nat -> work_ok (S a) (wk a)) ->
  forall u0 u x, alen u0 = sm_ne W -> (forall a, (a < nr)%nat -> spr (aat u0) a (u a)) -> sound_state W sp w u0 -> spatial_eval W sp w u0 = Some x ->
  exists ro out, x = Val ro /\ rt_fin ro = true /\ alen (rt_r ro) = sm_ne W /\ alen (rt_dt ro) = sm_ne W /\ ranks_residual nr lm S (nc_order2 n) spr' wk u = Some out /\
  forall a, (a < nr)%nat -> exists d, ro_dt (out a) = Some d /\ alen (ro_res (out a)) = sm_ne (S a) /\ alen d = sm_ne (S a) /\
    forall l, (l < sm_ne (S a))%nat -> aat (ro_res (out a)) l = aat (rt_r ro) (aat (l_eglob (lm a)) l) /\ aat d l = aat (rt_dt ro) (aat (l_eglob (lm a)) l).
Proof.
  intros E Ef Ej H2 EA WO WA u0 u x L0 U SS EV. pose proof T as [SO BW CE TG (Hg & HM & HH) LM]. pose proof (in_order _ _ _ _ _ _ _ _ _ _ _ _ _ _ SO) as MO. destruct SO as (NR & EP & SR).
  destruct (make_for jreal (g_m g) (g_X g) W o n sp Hg HM E Ef Ej) as ((MG & _ & _ & _ & _ & MF & _ & _ & _ & MB & _) & O2 & _ & _).
  assert (SP : forall a, (a < nr)%nat -> sp_flux (spr' a) = sp_flux sp /\ (forall f, sp_flow (spr' a) f = sp_flow sp f) /\ same_gradients W (S a) (sp_grad sp) (sp_grad (spr' a)) /\ (nc_order2 n = true -> sp_rec (spr' a) = sp_rec sp /\ forall r, sp_rec sp = Some r -> smooth_scheme r)).
  { intros a Ha. destruct (rank_made n sp a Ha E H2) as (sp' & E' & Q). rewrite (EA a Ha) in E'. injection E' as <-. exact Q. }
  unfold spatial_eval, sound_state in *. destruct (sp_flux sp) as [f|] eqn:Eff; [|discriminate]. cbn [bind] in EV. set (fl := sp_flow sp f) in *.
  assert (TC : tags_covered g fl). { intros bf Hb. destruct (TG bf Hb) as (t & r & Et & It). destruct (proj2 (MB t) It) as (b & Q). exists t, r, b. auto. }
  assert (Hg' : 1 < gam (fl_gas fl)) by (cbn; rewrite MG; exact Hg).
  assert (Hh : fl_flux fl = HLLC -> 5/4 <= gam (fl_gas fl)).
  { intros Q. cbn. rewrite MG. apply HH. cbn [fl_flux fl sp_flow] in Q. subst f. pose proof (proj1 (MF HLLC) eq_refl) as EE. cbn in EE. repeat (destruct EE as [Q|EE]; [try discriminate; injection Q; congruence|]). destruct EE. }
  assert (FLW : forall a, (a < nr)%nat -> exists f0, sp_flux (spr' a) = Some f0 /\ sp_flow (spr' a) f0 = fl) by (intros a Ha; exists f; destruct (SP a Ha) as (Q1 & Q2 & _); split; [congruence|apply Q2]).
  assert (FIN : forall out0, (forall r : R, True) -> alen (ro_res out0) = sm_ne W -> (forall d, ro_dt out0 = Some d -> alen d = sm_ne W) -> (d <- ro_dt out0 ;; Some (Val (mkrout (ro_res out0) d true))) = Some x ->
    (exists out, ranks_residual nr lm S (nc_order2 n) spr' wk u = Some out /\ forall a, (a < nr)%nat -> agrees lm S out0 a (out a)) ->
    exists ro out, x = Val ro /\ rt_fin ro = true /\ alen (rt_r ro) = sm_ne W /\ alen (rt_dt ro) = sm_ne W /\ ranks_residual nr lm S (nc_order2 n) spr' wk u = Some out /\
    forall a, (a < nr)%nat -> exists d, ro_dt (out a) = Some d /\ alen (ro_res (out a)) = sm_ne (S a) /\ alen d = sm_ne (S a) /\
      forall l, (l < sm_ne (S a))%nat -> aat (ro_res (out a)) l = aat (rt_r ro) (aat (l_eglob (lm a)) l) /\ aat d l = aat (rt_dt ro) (aat (l_eglob (lm a)) l)).
  { intros out0 _ LR LD Q (out & EO & HO). destruct (ro_dt out0) as [d0|] eqn:Ed; [|discriminate]. cbn [bind] in Q. injection Q as <-. eexists _, out. split; [reflexivity|]. cbn [rt_fin rt_r rt_dt]. split; [reflexivity|]. split; [exact LR|]. split; [apply LD; auto|]. split; [exact EO|].
    intros a Ha. destruct (HO a Ha) as (e0 & d & Q1 & Q2 & Q3 & Q4 & Q5). rewrite Ed in Q1. injection Q1 as <-. exists d. auto. }
  pose proof WO as (K1 & K2 & K3 & K4). pose proof (built_sm _ _ _ _ _ BW) as OK. destruct (whole_sizes g hs dist nr lm jc jr ji jx j0 hsl gh S SR gh0 W BW) as (N1 & N2).
  destruct (cover_by_tag _ _ _ _ _ fl BW TC) as (bc & C & _). rewrite O2 in *. destruct (nc_order2 n) eqn:OO.
  - destruct (sp_rec sp) as [rs|] eqn:Er; [|discriminate]. cbn [bind] in EV. destruct (compute_residual2 W fl (sp_grad sp) rs _ _ u0 _ _ _ _ _ _) as [out0|] eqn:E0; [|discriminate]. cbn [bind] in EV.
    assert (RS : smooth_scheme rs). { destruct (SP 0%nat NR) as (_ & _ & _ & Q). apply (proj2 (Q eq_refl)). reflexivity. }
    assert (VS : match sp_grad sp with M_Resid.GLeastSquares V => alen V = sm_ne W | _ => True end).
    { destruct (SP 0%nat NR) as (_ & _ & SG & _). destruct (sp_grad sp), (sp_grad (spr' 0%nat)); cbn [same_gradients] in SG; try tauto. destruct (wls_ctor_ok W OK) as (V2 & Q & L2 & _). destruct SG as (Q' & _). congruence. }
    assert (z1 : alen u0 = (sm_ne W + sm_nc W)%nat) by lia. assert (z4 : alen (mkarr (sm_ne W) (fun _ : nat => szero)) = sm_ne W) by reflexivity.
    destruct (residual2_inv _ _ bc _ _ _ _ _ _ _ _ _ _ _ _ OK C z1 K1 K2 z4 E0) as (Lr & _).
    destruct (run_facts _ _ _ _ _ BW fl bc _ rs _ _ _ _ _ _ _ _ _ _ C z1 K1 K2 z4 K3 RS VS E0) as (_ & _ & _ & _ & _ & _ & _ & _ & _ & A7 & A8 & _).
    apply (FIN out0 (fun _ => Logic.I)); auto.
    + intros d Ed. pose proof (run_dt _ _ _ _ _ _ _ _ _ _ _ _ _ _ E0) as M. cbn [maybe_dt] in M. destruct (compute_max_timestep W fl (ro_left out0) (ro_right out0) (wk_dt w)) as [e|] eqn:Ee; [|discriminate]. cbn [bind] in M. injection M as M.
      destruct (timestep_inv _ _ _ _ _ _ OK A7 A8 K4 Ee) as (Q & _). congruence.
    + apply (ranks_second g hs dist nr lm jc jr ji jx j0 hsl gh S SR MO gh0 W BW CE fl TC Hg' Hh u0 u L0 U spr' wk (sp_grad sp) rs w out0); auto.
      * intros a Ha. destruct (SP a Ha) as (_ & _ & _ & Q). destruct (Q eq_refl) as (Q' & _). congruence.
      * intros a Ha. apply (SP a Ha).
      * apply (SS f rs out0 eq_refl eq_refl E0).
  - destruct (compute_residual1 W fl u0 _ _ _ _ _) as [out0|] eqn:E0; [|discriminate]. cbn [bind] in EV.
    destruct (residual1_ok W fl bc u0 (wk_l w) (wk_r w) (mkarr (sm_ne W) (fun _ => szero)) (wk_g w) (Some (wk_dt w)) OK C ltac:(lia) K1 K2 eq_refl) as (ul & ur & res & A1 & A2 & A3 & A4 & A5 & A6).
    rewrite E0 in A4. cbn [maybe_dt] in A4. destruct (compute_max_timestep W fl ul ur (wk_dt w)) as [e|] eqn:Ee; [|discriminate]. cbn [bind] in A4. injection A4 as ->. destruct (timestep_inv _ _ _ _ _ _ OK A1 A2 K4 Ee) as (Q & _).
    eapply (FIN _ (fun _ => Logic.I)); [| | exact EV|]; cbn [ro_res ro_dt]; auto. { intros d [= <-]. exact Q. }
    eapply (ranks_first g hs dist nr lm jc jr ji jx j0 hsl gh S SR MO gh0 W BW CE fl TC Hg' Hh u0 u L0 U spr' wk w); auto. 
Qed.
End Ranks.

Lemma start_spread g hs nr je dist lm jc jr ji jx j0 hsl gh S gh0 W o u0 u : on_ranks g hs nr je dist lm jc jr ji jx j0 hsl gh S gh0 W o -> at_free_stream W o u0 -> (forall a, (a < nr)%nat -> at_free_stream (S a) o (u a)) ->
  alen u0 = sm_ne W /\ forall a, (a < nr)%nat -> spread lm S (aat u0) a (u a).
Proof.
  intros [(NR & EP & SR) BW CE TG (Hg & _) LM] (L & F) FA. destruct (whole_sizes g hs dist nr lm jc jr ji jx j0 hsl gh S SR gh0 W BW) as (N1 & N2). split; [lia|]. intros a Ha. destruct (FA a Ha) as (La & Fa). split; [exact La|]. split.
  - intros l Hl. destruct (rank_area g hs dist nr lm jc jr ji jx j0 hsl gh S SR gh0 W BW NR a l Ha Hl) as (Q & _). eapply free_stream_unique; [exact Hg|apply Fa; lia|apply F; lia].
  - intros k cf Ec. destruct (ghost_named _ _ _ _ _ _ _ _ _ _ _ _ _ a k cf SR Ha Ec) as (i & E1 & Hi & _). destruct (local_sizes _ _ _ _ _ _ _ _ _ _ _ _ _ SR a Ha) as (_ & NC). assert (k < List.length (conns (l_m (lm a))))%nat by (apply nth_error_Some; congruence).
    rewrite E1, Nat2Z.id. eapply free_stream_unique; [exact Hg|apply Fa; lia|apply F; lia].
Qed.

(** *** One evaluation of residual and time steps, by all ranks together: the values of every cell are those one process computes *)
Theorem C102_residual : forall g hs nr je dist lm jc jr ji jx j0 hsl gh S gh0 W o jreal spm sps,
  on_ranks g hs nr je dist lm jc jr ji jx j0 hsl gh S gh0 W o -> main_spatial jreal (g_m g) (g_X g) W o = Some (Val spm) -> start_spatial jreal (g_m g) (g_X g) W o = Some (Val sps) ->
  exists spm' sps', (forall r, (r < nr)%nat -> main_spatial jreal (l_m (lm r)) (l_X (lm r)) (S r) o = Some (Val (spm' r)) /\ start_spatial jreal (l_m (lm r)) (l_X (lm r)) (S r) o = Some (Val (sps' r))) /\
  forall sp sp' two, (sp, sp', two) = (spm, spm', o_order2 o) \/ (sp, sp', two) = (sps, sps', false) ->
  forall w wk u0 u x, work_ok W w -> (forall r, (r < nr)%nat -> work_ok (S r) (wk r)) -> alen u0 = sm_ne W -> (forall r, (r < nr)%nat -> alen (u r) = (sm_ne (S r) + sm_nc (S r))%nat) ->
  (forall r l i, is_cell nr lm r l i -> aat (u r) l = aat u0 i) -> (forall r k i q, (r < nr)%nat -> is_ghost lm r k i q -> aat (u r) (sm_ne (S r) + k)%nat = aat u0 i) ->
  sound_state W sp w u0 -> spatial_eval W sp w u0 = Some x ->
  exists ro out, x = Val ro /\ ranks_residual nr lm S two sp' wk u = Some out /\
    forall r l i, is_cell nr lm r l i -> exists d, ro_dt (out r) = Some d /\ aat (ro_res (out r)) l = aat (rt_r ro) i /\ aat d l = aat (rt_dt ro) i.
Proof.
  intros g hs nr je dist lm jc jr ji jx j0 hsl gh S gh0 W o jreal spm sps T Em Es.
  assert (Lm : nc_order2 (extract_spatial_numerics_config o) = true -> forall rs, create_reconstruction (nc_rec (extract_spatial_numerics_config o)) (nc_par (extract_spatial_numerics_config o)) = Some rs -> match rs with M_Ctl.RLinear | RVanAlbada => True | M_Ctl.RWENO p => 0 < p | _ => False end).
  { cbn [extract_spatial_numerics_config nc_order2 nc_rec nc_par]. intros O2 rs Er. destruct (or_lim _ _ _ _ _ _ _ _ _ _ _ _ _ _ _ _ _ T O2) as [Q|[Q|(Q & Q')]]; rewrite Q in Er; cbn in Er; injection Er as <-; auto. }
  assert (HX : forall r, exists s, (r < nr)%nat -> main_spatial jreal (l_m (lm r)) (l_X (lm r)) (S r) o = Some (Val (fst s)) /\ start_spatial jreal (l_m (lm r)) (l_X (lm r)) (S r) o = Some (Val (snd s))).
  { intros r. destruct (lt_dec r nr) as [Hr|]; [|exists (spm, sps); lia]. destruct (rank_made _ _ _ _ _ _ _ _ _ _ _ _ _ _ _ _ _ jreal T _ _ r Hr Em Lm) as (a & Ea & _). destruct (rank_made _ _ _ _ _ _ _ _ _ _ _ _ _ _ _ _ _ jreal T _ _ r Hr Es ltac:(discriminate)) as (b & Eb & _). exists (a, b). auto. }
  destruct (finite_choice _ (spm, sps) HX nr) as (ss & HS). exists (fun r => fst (ss r)), (fun r => snd (ss r)). split; [intros r Hr; apply (HS r Hr Hr)|].
  intros sp sp' two Hp w wk u0 u x Hw Hwk L0 LU UI UG SO EV. pose proof T as [(NR & EP & SR) BW _ _ _ _].
  assert (U : forall a, (a < nr)%nat -> spread lm S (aat u0) a (u a)).
  { intros a Ha. destruct (local_sizes _ _ _ _ _ _ _ _ _ _ _ _ _ SR a Ha) as (N & _). split; [auto|]. split; [intros l Hl; apply UI; repeat split; auto; lia|]. intros k cf Ec. destruct (ghost_named _ _ _ _ _ _ _ _ _ _ _ _ _ a k cf SR Ha Ec) as (i & E1 & _ & E2 & _).
    rewrite E1, Nat2Z.id. apply (UG a k i (aat dist i) Ha). exists cf. auto. }
  assert (H : exists ro out, x = Val ro /\ rt_fin ro = true /\ alen (rt_r ro) = sm_ne W /\ alen (rt_dt ro) = sm_ne W /\ ranks_residual nr lm S two sp' wk u = Some out /\
    forall a, (a < nr)%nat -> exists d, ro_dt (out a) = Some d /\ alen (ro_res (out a)) = sm_ne (S a) /\ alen d = sm_ne (S a) /\ forall l, (l < sm_ne (S a))%nat -> aat (ro_res (out a)) l = aat (rt_r ro) (aat (l_eglob (lm a)) l) /\ aat d l = aat (rt_dt ro) (aat (l_eglob (lm a)) l)).
  { destruct Hp as [Q|Q]; injection Q as -> -> ->.
    - apply (ranks_eval _ _ _ _ _ _ _ _ _ _ _ _ _ _ _ _ _ jreal T (extract_spatial_numerics_config o) spm (fun r => fst (ss r)) w wk Em eq_refl eq_refl Lm (fun a Ha => proj1 (HS a Ha Ha)) Hw Hwk u0 u x L0 U SO EV).
    - apply (ranks_eval _ _ _ _ _ _ _ _ _ _ _ _ _ _ _ _ _ jreal T (firstorder_spatial_numerics_config o) sps (fun r => snd (ss r)) w wk Es eq_refl eq_refl ltac:(discriminate) (fun a Ha => proj2 (HS a Ha Ha)) Hw Hwk u0 u x L0 U SO EV). }
  destruct H as (ro & out & -> & _ & _ & _ & EO & HO). exists ro, out. split; auto. split; auto. intros r l i (Hr & Hl & <-). destruct (HO r Hr) as (d & Q1 & _ & _ & Q2). destruct (local_sizes _ _ _ _ _ _ _ _ _ _ _ _ _ SR r Hr) as (N & _). exists d. split; auto. apply Q2. lia.
Qed.
Print Assumptions C102_residual.

(** *** The whole explicit run, started from the free stream: starter and main solve, on [nr] ranks and on one process. No rank waits for ever; on every rank it ends in the same way after the same
    number of steps with the same recorded history, and every cell has the same final state *)
Theorem C102_explicit_run : forall g hs nr je dist lm jc jr ji jx j0 hsl gh S gh0 W o jreal spm sps wk glob Jf ksp at_throw u0,
  on_ranks g hs nr je dist lm jc jr ji jx j0 hsl gh S gh0 W o -> o_ptype o <> "IMPLICIT"%string ->
  main_spatial jreal (g_m g) (g_X g) W o = Some (Val spm) -> start_spatial jreal (g_m g) (g_X g) W o = Some (Val sps) -> (forall b, work_ok W (wk b)) -> at_free_stream W o u0 ->
  let slv := case_solve W spm sps wk glob Jf ksp at_throw in
  (o_starter o <> 0%Z -> sound_solve W sps (wk false) (start_conf o) u0 /\ so_end (run1 slv o u0) <> None) ->
  sound_solve W spm (wk true) (main_conf o) (start_u slv o u0) -> so_end (main_run slv o u0) <> None ->
  exists spm' sps', (forall r, (r < nr)%nat -> main_spatial jreal (l_m (lm r)) (l_X (lm r)) (S r) o = Some (Val (spm' r)) /\ start_spatial jreal (l_m (lm r)) (l_X (lm r)) (S r) o = Some (Val (sps' r))) /\
  forall wk' u, (forall b r, (r < nr)%nat -> work_ok (S r) (wk' b r)) -> (forall r, (r < nr)%nat -> at_free_stream (S r) o (u r)) ->
  let r0 := main_run slv o u0 in
  exists q, ranks_run nr lm S o spm' sps' wk' u = Some q /\ (so_end r0 = Some (inl 0%Z) \/ so_end r0 = Some (inr Tolerance_error)) /\ alen (so_u r0) = sm_ne W /\
  (forall r, (r < nr)%nat -> so_end (q r) = so_end r0 /\ so_td (q r) = so_td r0 /\ alen (so_u (q r)) = (sm_ne (S r) + sm_nc (S r))%nat /\
     (forall l i, is_cell nr lm r l i -> aat (so_u (q r)) l = aat (so_u r0) i) /\ (forall k i p, is_ghost lm r k i p -> aat (so_u (q r)) (sm_ne (S r) + k)%nat = aat (so_u r0) i)) /\
  (forall i, (i < nelem (g_m g))%nat -> exists r l, is_cell nr lm r l i /\ aat (so_u (q r)) l = aat (so_u r0) i).
Proof.
  intros g hs nr je dist lm jc jr ji jx j0 hsl gh S gh0 W o jreal spm sps wk glob Jf ksp at_throw u0 T HI Em Es Hw Fu slv S1 S2 N2.
  assert (Lm : nc_order2 (extract_spatial_numerics_config o) = true -> forall rs, create_reconstruction (nc_rec (extract_spatial_numerics_config o)) (nc_par (extract_spatial_numerics_config o)) = Some rs -> match rs with M_Ctl.RLinear | RVanAlbada => True | M_Ctl.RWENO p => 0 < p | _ => False end).
  { cbn [extract_spatial_numerics_config nc_order2 nc_rec nc_par]. intros O2 rs Er. destruct (or_lim _ _ _ _ _ _ _ _ _ _ _ _ _ _ _ _ _ T O2) as [Q|[Q|(Q & Q')]]; rewrite Q in Er; cbn in Er; injection Er as <-; auto. }
  assert (HX : forall r, exists s, (r < nr)%nat -> main_spatial jreal (l_m (lm r)) (l_X (lm r)) (S r) o = Some (Val (fst s)) /\ start_spatial jreal (l_m (lm r)) (l_X (lm r)) (S r) o = Some (Val (snd s))).
  { intros r. destruct (lt_dec r nr) as [Hr|]; [|exists (spm, sps); lia]. destruct (rank_made _ _ _ _ _ _ _ _ _ _ _ _ _ _ _ _ _ jreal T _ _ r Hr Em Lm) as (a & Ea & _). destruct (rank_made _ _ _ _ _ _ _ _ _ _ _ _ _ _ _ _ _ jreal T _ _ r Hr Es ltac:(discriminate)) as (b & Eb & _). exists (a, b). auto. }
  destruct (finite_choice _ (spm, sps) HX nr) as (ss & HS). exists (fun r => fst (ss r)), (fun r => snd (ss r)). split; [intros r Hr; apply (HS r Hr Hr)|].
  intros wk' u Hw' Fu' r0. subst r0. pose proof T as [SO BW CE _ _ _]. pose proof (in_order _ _ _ _ _ _ _ _ _ _ _ _ _ _ SO) as MO. destruct SO as (NR & EP & SR). destruct (start_spread _ _ _ _ _ _ _ _ _ _ _ _ _ _ _ _ _ u0 u T Fu Fu') as (L0 & U0).
  assert (EI : String.eqb (o_ptype o) "IMPLICIT" = false) by (apply String.eqb_neq; exact HI).
  assert (ST : exists u1, (if (o_starter o =? 0)%Z then Some u else x <- ranks_starter nr lm S o (fun r => snd (ss r)) (wk' false) u ;; Some (fun r => so_u (x r))) = Some u1 /\ alen (start_u slv o u0) = sm_ne W /\ forall a, (a < nr)%nat -> spread lm S (aat (start_u slv o u0)) a (u1 a)).
  { unfold start_u, run1 in *. rewrite EI in *. destruct (Z.eqb_spec (o_starter o) 0) as [Q|Q]; [exists u; auto|]. destruct (S1 Q) as (A1 & A2).
    destruct (spread_solve g hs dist nr lm jc jr ji jx j0 hsl gh S SR MO gh0 W BW NR false (fun r => snd (ss r)) (wk' false) (start_conf o) (spatial_eval W sps (wk false)) (sound_state W sps (wk false))
      (ranks_eval _ _ _ _ _ _ _ _ _ _ _ _ _ _ _ _ _ jreal T (firstorder_spatial_numerics_config o) sps (fun r => snd (ss r)) (wk false) (wk' false) Es eq_refl eq_refl ltac:(discriminate) (fun a Ha => proj2 (HS a Ha Ha)) (Hw false) (Hw' false))
      false (o_lognres o) (the_update o) glob Jf ksp (sp_gas spm) at_throw (fun main => spatial_eval W (if main then spm else sps) (wk main)) u0 u eq_refl L0 U0 A1 A2) as (_ & q & Eq & Lq & Hq).
    unfold ranks_starter. change (mksconf (o_fcfl0 o) (o_fcfl1 o) (o_ftol o) (o_fmaxit o)) with (start_conf o). rewrite Eq. cbn [bind]. eexists. split; [reflexivity|]. split; [exact Lq|]. intros a Ha. apply (Hq a Ha). }
  destruct ST as (u1 & E1 & L1 & U1). unfold main_run, run2 in *. rewrite EI in *.
  destruct (spread_solve g hs dist nr lm jc jr ji jx j0 hsl gh S SR MO gh0 W BW NR (o_order2 o) (fun r => fst (ss r)) (wk' true) (main_conf o) (spatial_eval W spm (wk true)) (sound_state W spm (wk true))
    (ranks_eval _ _ _ _ _ _ _ _ _ _ _ _ _ _ _ _ _ jreal T (extract_spatial_numerics_config o) spm (fun r => fst (ss r)) (wk true) (wk' true) Em eq_refl eq_refl Lm (fun a Ha => proj1 (HS a Ha Ha)) (Hw true) (Hw' true))
    true (o_lognres o) (the_update o) glob Jf ksp (sp_gas spm) at_throw (fun main => spatial_eval W (if main then spm else sps) (wk main)) (start_u slv o u0) u1 eq_refl L1 U1 S2 N2) as (EN & q & Eq & Lq & Hq).
  exists q. split. { unfold ranks_run. rewrite E1. cbn [bind]. exact Eq. } split; [exact EN|]. split; [exact Lq|].
  assert (CELL : forall r, (r < nr)%nat -> so_end (q r) = so_end (slv false true (main_conf o) (o_lognres o) (the_update o) (start_u slv o u0)) /\ so_td (q r) = so_td (slv false true (main_conf o) (o_lognres o) (the_update o) (start_u slv o u0)) /\ alen (so_u (q r)) = (sm_ne (S r) + sm_nc (S r))%nat /\
     (forall l i, is_cell nr lm r l i -> aat (so_u (q r)) l = aat (so_u (slv false true (main_conf o) (o_lognres o) (the_update o) (start_u slv o u0))) i) /\ (forall k i p, is_ghost lm r k i p -> aat (so_u (q r)) (sm_ne (S r) + k)%nat = aat (so_u (slv false true (main_conf o) (o_lognres o) (the_update o) (start_u slv o u0))) i)).
  { intros r Hr. destruct (Hq r Hr) as (B1 & B2 & _ & B4 & B5 & B6). split; [exact B1|]. split; [exact B2|]. split; [exact B4|]. destruct (local_sizes _ _ _ _ _ _ _ _ _ _ _ _ _ SR r Hr) as (N & _). split.
    - intros l i (_ & Hl & <-). apply B5. lia.
    - intros k i p (cf & Ec & Q & _). rewrite (B6 k cf Ec), Q, Nat2Z.id. reflexivity. }
  split; [exact CELL|]. intros i Hi. destruct (block_at g hs dist nr lm jc jr ji jx j0 hsl gh S SR MO i Hi) as (r & l & _ & Q1 & Q2 & Q3). exists r, l. assert (IC : is_cell nr lm r l i) by (repeat split; auto). split; [exact IC|]. apply (CELL r Q1). exact IC.
Qed.
Print Assumptions C102_explicit_run.

(** *** Any mesh whose interfaces can be seen, on any number of ranks, can be set up like this *)
Lemma ranks_set_up g hs nr je dist o : global_ok g hs -> (0 < nr)%nat -> trivial_partition (nelem (g_m g)) nr je = Some dist ->
  (forall c, In c (cells (g_m g)) -> (List.length c = 3 \/ List.length c = 4)%nat) -> distinct_ends (g_m g) (g_X g) ->
  (forall r i f j, (r < nr)%nat -> interface g dist r i f j -> seen g hs dist r i f) ->
  (forall bf, In bf (bfaces (g_m g)) -> exists t r, btg bf = t :: r /\ In t (map fb_tag (o_bc o))) -> 1 < o_gam o /\ 0 < o_Minf o /\ (o_invflux o = "HLLC"%string -> 5/4 <= o_gam o) ->
  (o_order2 o = true -> o_lim o = "NONE"%string \/ o_lim o = "VANALBADA"%string \/ o_lim o = "WENO"%string /\ 0 < o_limpar o) ->
  exists lm jc jr ji jx j0 hsl gh S gh0 W, on_ranks g hs nr je dist lm jc jr ji jx j0 hsl gh S gh0 W o.
Proof.
  intros G NR EP H34 D SE TG GS LM. destruct (C14_trivial_partition (nelem (g_m g)) nr je NR) as (d & E' & Ld & Hd & _). rewrite EP in E'. injection E' as <-.
  destruct (C64_runs_exist g hs dist nr G Ld Hd H34 D SE (fun _ => szero)) as (lm & jc & jr & ji & jx & j0 & hsl & gh & S & u & SR & _ & EX).
  destruct (C86_setup_total (g_m g) hs (g_X g) (fun _ => vzero) (fun _ _ => 0%Z) (fun _ => mkface 0 0 0 0) (fun _ _ => 0%nat) (fun _ => []) (fun _ => mkfm vzero 0) (fun _ => 0) (fun _ => vzero) (fun _ => vzero) (gl_tiled _ _ G) H34 (gl_X _ _ G)) as (W & _ & BW).
  exists lm, jc, jr, ji, jx, j0, hsl, gh, S, (fun _ => vzero), W. assert (SO : split_in_order g hs nr je dist lm jc jr ji jx j0 hsl gh S) by (split; auto). split; auto.
  intros r k q l Hr EO. pose proof (in_order _ _ _ _ _ _ _ _ _ _ _ _ _ _ SO) as MO. pose proof SR as [_ _ _ RM _ _ _].
  assert (exists cf, nth_error (conns (l_m (lm r))) k = Some cf) as (cf & Ec). { unfold M_Dist.own in EO. destruct (nth_error (conns (l_m (lm r))) k) as [cf|]; [eauto|discriminate]. }
  destruct (peer_ok g hs dist nr lm jc jr ji jx j0 hsl gh S SR r k cf Hr Ec) as (a' & k' & cf' & _ & Cy & Ha' & Ec'). destruct (EX r k a' k' cf' Cy Ec') as (-> & _).
  destruct (own_ghost g hs dist nr lm jc jr ji jx j0 hsl gh S SR MO r k cf Hr Ec) as (q' & l' & EO' & Q1 & _ & Q3 & Q4). rewrite EO in EO'. injection EO' as <- <-.
  destruct (copies_geom g hs dist nr lm G Ld jc jr ji jx j0 RM r k a' k' cf cf' Cy Ec Ec') as (_ & _ & _ & I2 & I3 & _).
  destruct (cell_once g hs dist nr lm jc jr ji jx j0 hsl gh S SR q l a' (cf_elem cf') Q1 Q3 Ha' I2) as (-> & ->); auto. rewrite Q4. rewrite I3. auto.
Qed.
(** *** The ring of seven triangles *)
Definition ringX6 : arr v2 := mkarr 6 (aat ring_fX).
Lemma ring_any t Rg dist r i f j : interface (mkgm ring t ringX6 Rg) dist r i f j -> seen (mkgm ring t ringX6 Rg) ring_h dist r i f.
Proof.
  assert (RB : forall r v, rank_bnd (mkgm ring t ringX6 Rg) ring_h dist r v -> (3 <= v)%nat).
  { intros r0 v (q & bf & h & Q1 & Q2 & _ & Q4). cbn [g_m] in Q1. destruct q as [|[|[|q]]]; cbn in Q1; try (destruct q; discriminate); inversion Q1; subst; cbn in Q4; lia. }
  intros (A & I1 & I2). cbn [g_m] in *. intros (S1 & S2). apply RB in S1, S2. pose proof A as (Hi & Hf & Hj & _). cbn in Hi, Hj. apply acrossb_ok in A.
  do 7 (destruct i as [|i]; [cbn in Hf; do 3 (destruct f as [|f]; [cbn in S1, S2; try lia; do 7 (destruct j as [|j]; [vm_compute in A; try discriminate A; vm_compute in S1; vm_compute in S2; lia|]); lia|]); lia|]). lia.
Qed.
Lemma ring_ends : distinct_ends ring ringX6.
Proof. intros i f Hi Hf. cbn in Hi. do 7 (destruct i as [|i]; [cbn in Hf; do 3 (destruct f as [|f]; [cbn; intros E; injection E; lra|]); lia|]). lia. Qed.
Definition ringL (Rg : arr (list Z)) : pmesh := mkpm (mklm ring ringX6 Rg (mkarr 7 (fun i => i)) [0;1;2;3;4;5]%nat) None None None.
Lemma ring_itself Rg : same_mesh ring_f ring_fX (mkarr 7 (fun i => i)) (pm_l (ringL Rg)).
Proof.
  split; [reflexivity|]. split. { intros i Hi. cbn in Hi. do 7 (destruct i as [|i]; [reflexivity|]). lia. } split; [reflexivity|]. split. { repeat constructor. } split; [|split; [split; [reflexivity|]|split; [|reflexivity]]].
  - intros x. split.
    + intros Hx. cbn in Hx. assert (Q : exists i, nth_error [0;0;0;1;3;4]%nat x = Some i) by (repeat (destruct Hx as [<-|Hx]; [eexists; reflexivity|]); contradiction).
      repeat (destruct Hx as [<-|Hx]); try contradiction;
      first [exists [0;1;2]%nat; split; [cbn; tauto|cbn; tauto]|exists [3;4;1]%nat; split; [cbn; tauto|cbn; tauto]|exists [4;5;2]%nat; split; [cbn; tauto|cbn; tauto]].
    + intros (c & Hc & Hx). cbn in Hc. repeat (destruct Hc as [<-|Hc]; [cbn in Hx |- *; intuition auto|]). contradiction.
  - intros v Hv. cbn in Hv. do 6 (destruct v as [|v]; [reflexivity|]). lia.
  - unfold ring_f, ringL. cbn [pm_l l_m bfaces ring b0 b1 btg]. repeat (apply Forall2_cons; [unfold same_points; cbn; auto|]). apply Forall2_nil.
Qed.
Lemma free_start S o : 1 < o_gam o -> 0 < o_Minf o -> exists u, at_free_stream S o u.
Proof. intros Hg HM. exists (mkarr (sm_ne S + sm_nc S) (fun _ => compute_freestream_state (gas_of (fun _ => 0) (extract_spatial_physics_config o)) (o_alpha o))). split; [reflexivity|]. intros i _. cbn [aat]. apply (computed_free_stream (fun _ => 0) o Hg HM). Qed.
(** Whatever memory contained: the mesh is split over two ranks, three cells and four; so the hypotheses of C101 and of C102_explicit_run hold, and both ranks end like the one process with the values of their cells. *)
Theorem C102_example : forall je, exists t dist lm jc jr ji jx j0 hsl gh S gh0 W, let g := mkgm ring t ringX6 (mkarr 7 (fun _ => [1%Z])) in
  on_ranks g ring_h 2 je dist lm jc jr ji jx j0 hsl gh S gh0 W ring_opts /\ nelem (l_m (lm 0%nat)) = 3%nat /\ nelem (l_m (lm 1%nat)) = 4%nat /\
  exists spm sps spm' sps' u0 u, main_spatial (fun _ => 0) ring ringX6 W ring_opts = Some (Val spm) /\ at_free_stream W ring_opts u0 /\ (forall r, (r < 2)%nat -> main_spatial (fun _ => 0) (l_m (lm r)) (l_X (lm r)) (S r) ring_opts = Some (Val (spm' r)) /\ at_free_stream (S r) ring_opts (u r)) /\
  let r0 := main_run (case_solve W spm sps (ch_work W) (fun i => i) (fun _ _ => None) ch_ksp (fun u => u)) ring_opts u0 in
  exists q, ranks_run 2 lm S ring_opts spm' sps' (fun b r => ch_work (S r) b) u = Some q /\ forall r, (r < 2)%nat -> so_end (q r) = Some (inr Tolerance_error) /\
    (forall l, (l < nelem (l_m (lm r)))%nat -> aat (so_u (q r)) l = aat (so_u r0) (3 * r + l)%nat).
Proof.
  intros je. destruct (global_of ring ring_h ring_tiled eq_refl ringX6 (mkarr 7 (fun _ => [1%Z])) eq_refl eq_refl) as (t & G). set (g := mkgm ring t ringX6 (mkarr 7 (fun _ => [1%Z]))) in *.
  assert (H34 : forall c, In c (cells ring) -> (List.length c = 3 \/ List.length c = 4)%nat).
  { intros c Hc. left. unfold ring in Hc. cbn [cells In] in Hc. repeat (destruct Hc as [<-|Hc]; [reflexivity|]). contradiction. }
  destruct (ring_two je) as (dist & Ed & D).
  destruct (ranks_set_up g ring_h 2 je dist ring_opts G ltac:(lia) Ed H34 ring_ends) as (lm & jc & jr & ji & jx & j0 & hsl & gh & S & gh0 & W & T).
  { intros r i f j _. apply ring_any. } { intros bf [<-|[<-|[<-|[]]]]; do 2 eexists; (split; [reflexivity|cbn; auto]). } { cbn. split; [lra|]. split; [lra|]. intros _. lra. } { auto. }
  exists t, dist, lm, jc, jr, ji, jx, j0, hsl, gh, S, gh0, W. cbv zeta. split; [exact T|].
  pose proof T as [(NR & EP & SR) BW _ _ _ _]. pose proof SR as [_ Ld _ RM _ _ _].
  assert (EG : forall r, (r < 2)%nat -> nelem (l_m (lm r)) = (3 + r)%nat /\ forall l, (l < 3 + r)%nat -> aat (l_eglob (lm r)) l = (3 * r + l)%nat).
  { intros r Hr. destruct (C15_restriction g ring_h dist r G Ld (jc r) (jr r) (ji r) (jx r) (j0 r)) as (lm1 & R1 & G1 & M1 & _). rewrite (RM r Hr) in R1. injection R1 as <-.
    assert (Q : alist (l_eglob (lm r)) = map (fun l => 3 * r + l)%nat (seq 0 (3 + r))). { rewrite G1. unfold cells_of. change (seq 0 (nelem (g_m g))) with [0;1;2;3;4;5;6]%nat. cbn [filter]. rewrite !D by lia. destruct r as [|[|r]]; [reflexivity|reflexivity|lia]. }
    assert (N : nelem (l_m (lm r)) = (3 + r)%nat). { unfold nelem. rewrite <- (map_length (map (back (lm r)))), M1, map_length, Q, map_length, seq_length. reflexivity. }
    split; [exact N|]. intros l Hl. assert (LE : alen (l_eglob (lm r)) = (3 + r)%nat). { apply (f_equal (@List.length nat)) in Q. unfold alist in Q. rewrite !map_length, !seq_length in Q. exact Q. }
    rewrite <- (P_MeshUtil.nth_alist _ (l_eglob (lm r)) l 0%nat) by lia. rewrite Q. destruct r as [|[|r]]; [| |lia]; do 4 (destruct l as [|l]; [first [reflexivity|lia]|]); lia. }
  split; [apply (EG 0%nat); lia|]. split; [apply (EG 1%nat); lia|].
  destruct (ring_discretizations (ringL (mkarr 7 (fun _ => [1%Z]))) (mkarr 7 (fun i => i)) gh0 W ring_h (ring_itself _) ltac:(apply Permutation_refl) BW) as (spm & sps & Em & Es & H1).
  destruct (free_start W ring_opts ltac:(cbn; lra) ltac:(cbn; lra)) as (u0 & Fu0). assert (WO : forall S b, work_ok S (ch_work S b)) by (intros; repeat split).
  destruct (finite_choice (fun r u => (r < 2)%nat -> at_free_stream (S r) ring_opts u) u0 (fun r => match free_start (S r) ring_opts ltac:(cbn; lra) ltac:(cbn; lra) with ex_intro _ u H => ex_intro _ u (fun _ => H) end) 2) as (u & Fu).
  destruct (H1 (ch_work W) (fun i => i) (fun _ _ => None) ch_ksp (fun u => u) u0 (WO W) Fu0) as (SO & EN).
  destruct (C102_explicit_run _ _ _ _ _ _ _ _ _ _ _ _ _ _ _ _ _ (fun _ => 0) spm sps (ch_work W) (fun i => i) (fun _ _ => None) ch_ksp (fun u => u) u0 T ltac:(discriminate) Em Es (WO W) Fu0 ltac:(intros Q; destruct (Q eq_refl)) SO ltac:(rewrite EN; discriminate)) as (spm' & sps' & E' & H).
  destruct (H (fun b r => ch_work (S r) b) u (fun b r _ => WO (S r) b) (fun r Hr => Fu r Hr Hr)) as (q & Eq & _ & _ & HQ & _).
  exists spm, sps, spm', sps', u0, u. split; [exact Em|]. split; [exact Fu0|]. split; [intros r Hr; split; [apply (E' r Hr)|apply (Fu r Hr Hr)]|]. exists q. split; [exact Eq|]. intros r Hr. destruct (HQ r Hr) as (Q1 & _ & _ & Q3 & _). rewrite Q1. split; [exact EN|].
  intros l Hl. apply Q3. destruct (EG r Hr) as (N & K). repeat split; auto. apply K. lia.
Qed.
Print Assumptions C102_example.
