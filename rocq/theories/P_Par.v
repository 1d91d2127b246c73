(** C64, C66: partitioned runs. *)
From Coq Require Import Reals List Arith ZArith Lia Lra Bool Permutation.
From Verif Require Import Base BaseR BaseSum M_Gas M_Flux M_Visc M_BC M_BCConf M_Mesh M_Geom M_Part M_Space S_Space S_Gas S_Mesh M_Resid S_Resid S_Par
  Pf_Host Pf_Topo Pf_Incid Pf_Full Pf_Geom Pf_Space Pf_Grad Pf_Resid Pf_Resid2 Pf_Part Pf_Restrict Pf_Part2 Pf_Linalg P_Geom P_Grad P_Flux P_Visc P_Resid P_Part Pf_Par ChkMesh.
Import ListNotations.
Open Scope R_scope.

Lemma seq_shift_by b n : map (fun k => (b + k)%nat) (seq 0 n) = seq b n.
Proof.
  assert (H : forall z, map (fun k => (b + k)%nat) (seq z n) = seq (b + z) n).
  { induction n as [|n IH]; intros z; cbn [seq map]; auto. f_equal. rewrite IH. f_equal. lia. }
  rewrite H. f_equal. lia.
Qed.
Lemma nodup_app_intro {A} (l1 l2 : list A) : NoDup l1 -> NoDup l2 -> (forall x, In x l1 -> ~ In x l2) -> NoDup (l1 ++ l2).
Proof.
  induction 1 as [|x l Hx N IH]; intros H2 H; cbn; auto. constructor.
  - rewrite in_app_iff. intros [Q|Q]; auto. apply (H x); auto. left; auto.
  - apply IH; auto. intros y Hy. apply H. right; auto.
Qed.

(** every boundary face of the whole mesh has a tag with a boundary condition *)
Definition tags_covered (g : gmesh) (fl : flow) : Prop :=
  forall bf, In bf (bfaces (g_m g)) -> exists t r b, btg bf = t :: r /\ mfind (fl_bcs fl) t = Some b.

(** ** C66 *)
(** For every mesh, partition, flux, viscous or inviscid, boundary conditions and state: the first-order residual
    of every cell computed on the rank owning it is the one computed on the whole mesh, if ghost
    cells hold the centres and states of the cells they stand for. *)
Theorem C66_partition_independent : forall g hs dist rank, global_ok g hs -> alen dist = nelem (g_m g) ->
  forall jc jr ji jx j0 lm, restrictMesh g dist rank jc jr ji jx j0 = Some (Val lm) ->
  forall gh S hs' gh' S', built (g_m g) hs (g_X g) gh S -> built (l_m lm) hs' (l_X lm) gh' S' ->
  distinct_ends (g_m g) (g_X g) ->
  forall fl (u u' : arr st), tags_covered g fl -> 1 < gam (fl_gas fl) -> (fl_flux fl = HLLC -> 5/4 <= gam (fl_gas fl)) ->
  (forall i, (i < nelem (g_m g))%nat -> physical (gam (fl_gas fl)) (aat u i)) ->
  alen u = nelem (g_m g) -> alen u' = (nelem (l_m lm) + nconnface (l_m lm))%nat ->
  (forall l, (l < nelem (l_m lm))%nat -> aat u' l = aat u (aat (l_eglob lm) l)) ->
  (forall k cf, nth_error (conns (l_m lm)) k = Some cf ->
     gh' k = aat (sm_rc S) (Z.to_nat (cf_gelem cf)) /\ aat u' (nelem (l_m lm) + k)%nat = aat u (Z.to_nat (cf_gelem cf))) ->
  forall ul0 ur0 res G ul0' ur0' res' G', alen ul0 = sm_nf_all S -> alen ur0 = sm_nf_all S -> alen res = nelem (g_m g) ->
  alen ul0' = sm_nf_all S' -> alen ur0' = sm_nf_all S' -> alen res' = nelem (l_m lm) ->
  (forall l, (l < nelem (l_m lm))%nat -> aat res' l = aat res (aat (l_eglob lm) l)) ->
  exists out out', compute_residual1 S fl u ul0 ur0 res G None = Some out /\ compute_residual1 S' fl u' ul0' ur0' res' G' None = Some out' /\
  forall l, (l < nelem (l_m lm))%nat -> aat (ro_res out') l = aat (ro_res out) (aat (l_eglob lm) l).
Proof.
  intros g hs dist rank G Hd jc jr ji jx j0 lm RM gh S hs' gh' S' B B' D fl u u' TC Hg Hh PU Lu Lu' U1 U2 ul0 ur0 res GG ul0' ur0' res' GG' L1 L2 L3 L1' L2' L3' HR.
  destruct (restr_facts g hs dist rank lm G Hd jc jr ji jx j0 RM) as (F1 & _ & _ & _ & _ & F6 & _).
  destruct (built_ok _ _ _ _ _ B) as (p & e & ni & s & il & _ & OK & E1 & _ & _ & E4 & _).
  destruct (built_ok _ _ _ _ _ B') as (p' & e' & ni' & s' & il' & _ & OK' & E1' & _ & _ & E4' & _).
  assert (NC : nconnface (g_m g) = 0%nat) by (unfold nconnface; rewrite (gl_serial _ _ G); reflexivity).
  assert (T' : tiled (l_m lm) hs') by apply B'.
  destruct (cover_by_tag _ _ _ _ _ fl B TC) as (bc & C & BC).
  destruct (cover_by_tag _ _ _ _ _ fl B') as (bc' & C' & BC').
  { intros bf Hbf. apply In_nth_error in Hbf. destruct Hbf as (q & Eq). destruct (gm_hosts _ _ (tl_good _ _ T')) as (LH & _).
    destruct (nth_error_some _ hs' q) as ((l & f) & Eh). { assert (q < length (bfaces (l_m lm)))%nat by (apply nth_error_Some; congruence). unfold nbface in LH. lia. }
    destruct (F6 hs' q bf l f T' Eq Eh) as (k & gb & P1 & _ & P3). rewrite P3. apply TC. eapply nth_error_In; eauto. }
  destruct (C63_first_order _ _ _ _ _ B fl bc u ul0 ur0 res GG C ltac:(lia) L1 L2 ltac:(lia)) as (out & R1 & R2 & _).
  destruct (C63_first_order _ _ _ _ _ B' fl bc' u' ul0' ur0' res' GG' C' ltac:(lia) L1' L2' ltac:(lia)) as (out' & R1' & R2' & _).
  exists out, out'. split; auto. split; auto. intros l Hl. destruct (F1 l Hl) as (A1 & _). apply st_ext. intros v. rewrite R2, R2' by lia. rewrite HR by auto. f_equal.
  apply (same_outflow g hs lm (restr_sub g hs dist rank lm G Hd jc jr ji jx j0 RM) gh S S' hs' gh' B B'); auto.
  - intros k cf Ek. apply U2; auto.
  - intros bf Hbf. destruct (TC bf Hbf) as (t & r & b & Eb & _). congruence.
  - intros k cf Ek. apply U2; auto.
Qed.
Print Assumptions C66_partition_independent.

(** ** C64 *)
Section Ranks.
Variables (g : gmesh) (hs : list (nat * nat)) (dist : arr nat) (nr : nat) (lm : nat -> lmesh).

(** The mesh [g] is split over [nr] ranks, every interface is found by both sides, and every rank has set up its discretisation. *)
Record split_run (jc : nat -> nat -> list nat) (jr : nat -> nat -> list Z) (ji : nat -> nat -> nat) (jx : nat -> nat -> v2) (j0 : nat -> nat -> nat -> Z)
    (hsl : nat -> list (nat * nat)) (gh : nat -> nat -> v2) (S : nat -> smesh) : Prop := {
  sr_global : global_ok g hs;
  sr_len : alen dist = nelem (g_m g);
  sr_ranks : forall i, (i < nelem (g_m g))%nat -> (aat dist i < nr)%nat;
  sr_meshes : forall r, (r < nr)%nat -> restrictMesh g dist r (jc r) (jr r) (ji r) (jx r) (j0 r) = Some (Val (lm r));
  sr_seen : forall r i f j, (r < nr)%nat -> interface g dist r i f j -> seen g hs dist r i f;
  sr_built : forall r, (r < nr)%nat -> built (l_m (lm r)) (hsl r) (l_X (lm r)) (gh r) (S r);
  sr_distinct : distinct_ends (g_m g) (g_X g) }.

(** What is exchanged: centres, states and gradients of ghost cells, and face states, come from the other copy. *)
Definition exchanged (S : nat -> smesh) (second : bool) (gh : nat -> nat -> v2) (u : nat -> nat -> st) (gr : nat -> nat -> grad) (l r : nat -> nat -> st) : Prop :=
  forall a k a' k' cf', copies nr lm (a, k) (a', k') -> nth_error (conns (l_m (lm a'))) k' = Some cf' ->
    gh a k = aat (sm_rc (S a')) (cf_elem cf') /\ u a (sm_ne (S a) + k)%nat = u a' (cf_elem cf') /\
    (second = true -> gr a (sm_ne (S a) + k)%nat = gr a' (cf_elem cf')) /\
    r a (sm_nb (S a) + sm_ni (S a) + k)%nat = l a' (sm_nb (S a') + sm_ni (S a') + k')%nat.

Theorem C64_copies_cancel : forall jc jr ji jx j0 hsl gh S, split_run jc jr ji jx j0 hsl gh S ->
  forall fl second (u : nat -> nat -> st) (gr : nat -> nat -> grad) (ub l r : nat -> nat -> st),
  1 < gam (fl_gas fl) -> (fl_flux fl = HLLC -> 5/4 <= gam (fl_gas fl)) ->
  exchanged S second gh u gr l r ->
  (forall a k, (a < nr)%nat -> (sm_nb (S a) + sm_ni (S a) <= k < sm_nf_all (S a))%nat -> physical (gam (fl_gas fl)) (l a k)) ->
  forall v, rsum (fun a => rsum (fun k => cget (through (S a) fl second (u a) (gr a) (ub a) (l a) (r a) k) v) (seq (sm_nb (S a) + sm_ni (S a)) (sm_nc (S a)))) (seq 0 nr) = 0.
Proof.
  intros jc jr ji jx j0 hsl gh S [G Hd Hr RM SE BU D] fl second u gr ub l r Hg Hh EX PL v.
  set (phi := fun x : nat * nat => cget (through (S (fst x)) fl second (u (fst x)) (gr (fst x)) (ub (fst x)) (l (fst x)) (r (fst x)) (sm_nb (S (fst x)) + sm_ni (S (fst x)) + snd x)) v).
  set (L := flat_map (fun a => map (pair a) (seq 0 (sm_nc (S a)))) (seq 0 nr)).
  assert (NC : forall a, (a < nr)%nat -> sm_nc (S a) = length (conns (l_m (lm a)))).
  { intros a Ha. destruct (built_ok _ _ _ _ _ (BU a Ha)) as (p & e & ni & s & il & _ & _ & _ & _ & _ & E4 & _). exact E4. }
  assert (IL : forall a k, In (a, k) L <-> (a < nr)%nat /\ (k < sm_nc (S a))%nat).
  { intros a k. unfold L. rewrite in_flat_map. split.
    - intros (b & Hb & Hin). apply in_map_iff in Hin. destruct Hin as (k' & E & Hk). injection E as -> ->. rewrite in_seq in *. lia.
    - intros (Ha & Hk). exists a. rewrite in_seq. split; [lia|]. apply in_map. apply in_seq. lia. }
  transitivity (rsum phi L).
  { unfold L. rewrite rsum_flat_map. apply rsum_ext. intros a Ha. rewrite rsum_map. unfold phi. cbn [fst snd].
    replace (seq (sm_nb (S a) + sm_ni (S a)) (sm_nc (S a))) with (map (fun k => (sm_nb (S a) + sm_ni (S a) + k)%nat) (seq 0 (sm_nc (S a)))).
    - rewrite rsum_map. reflexivity.
    - apply seq_shift_by. }
  apply (rel_cancel (copies nr lm) phi (length L) L); auto.
  - unfold L. generalize (seq 0 nr) (seq_NoDup nr 0). intros q Hq. induction Hq as [|a q Ha Hq IH]; cbn; [constructor|].
    apply nodup_app_intro; auto.
    + apply nodup_map_in. apply seq_NoDup. intros x y _ _ E. congruence.
    + intros (b & k) H1 H2. apply in_map_iff in H1. destruct H1 as (k1 & E & _). injection E as -> ->.
      apply in_flat_map in H2. destruct H2 as (b' & Hb' & H2). apply in_map_iff in H2. destruct H2 as (k2 & E & _). injection E as -> ->. auto.
  - intros (a & k) Hin. apply IL in Hin. destruct Hin as (Ha & Hk). rewrite NC in Hk by auto.
    destruct (nth_error_some _ _ k Hk) as (cf & Ec). destruct (copies_exist g hs dist nr lm G Hd Hr jc jr ji jx j0 RM SE a k cf Ha Ec) as ((a' & k') & Cy).
    exists (a', k'). split; auto. apply IL. destruct Cy as (c & c' & C1 & C2 & C3 & C4 & _). cbn [fst snd] in *. split; auto. rewrite NC by auto. apply nth_error_Some. congruence.
  - intros x y. apply copies_sym.
  - apply (copies_unique g hs dist nr lm G Hd jc jr ji jx j0 RM).
  - intros (a & k) (a' & k') Cy. unfold phi. cbn [fst snd].
    assert (Cy' := Cy). destruct Cy' as (cf & cf' & C1 & C2 & C3 & C4 & _). cbn [fst snd] in *.
    destruct (copies_geom g hs dist nr lm G Hd jc jr ji jx j0 RM a k a' k' cf cf' Cy C3 C4) as (X1 & X2 & I1 & I2 & _ & XD). specialize (XD D).
    destruct (EX a k a' k' cf' Cy C4) as (Y1 & Y2 & Y3 & Y4). destruct (EX a' k' a k cf (copies_sym nr lm _ _ Cy) C3) as (Z1 & Z2 & Z3 & Z4).
    destruct (built_conn _ _ _ _ _ k cf (BU a C1) C3) as (Hk & EF). destruct (built_conn _ _ _ _ _ k' cf' (BU a' C2) C4) as (Hk' & EF').
    destruct (built_ok _ _ _ _ _ (BU a C1)) as (p & e & ni & s & il & _ & OK & E1 & _ & _ & E4 & _ & E6 & _ & _ & EG & _).
    destruct (built_ok _ _ _ _ _ (BU a' C2)) as (p' & e' & ni' & s' & il' & _ & OK' & E1' & _ & _ & E4' & _ & E6' & _ & _ & EG' & _).
    pose proof (so_met _ OK (sm_nb (S a) + sm_ni (S a) + k) ltac:(unfold sm_nf_all; lia)) as MT.
    pose proof (so_met _ OK' (sm_nb (S a') + sm_ni (S a') + k') ltac:(unfold sm_nf_all; lia)) as MT'.
    rewrite EF, E6 in MT. rewrite EF', E6' in MT'. cbn [f_a f_b] in MT, MT'. rewrite X1, X2 in MT'. rewrite (metric_rev _ _ XD) in MT'. rewrite <- MT in MT'.
    pose proof (metric_unit _ _ XD) as UV. rewrite <- MT in UV.
    unfold through, left_value, right_value. rewrite EF, EF', MT'. cbn [f_left f_right fm_n fm_len].
    destruct (Nat.ltb_spec (sm_nb (S a) + sm_ni (S a) + k) (sm_nb (S a))); [lia|]. destruct (Nat.ltb_spec (sm_nb (S a') + sm_ni (S a') + k') (sm_nb (S a'))); [lia|].
    rewrite Y2, Z2, Y4, Z4. rewrite E1, E1', EG, EG', Y1, Z1 by lia.
    replace (if second then gr a (nelem (l_m (lm a)) + k)%nat else grad0) with (if second then gr a' (cf_elem cf') else grad0) by (destruct second; auto; rewrite <- Y3, E1; auto).
    replace (if second then gr a' (nelem (l_m (lm a')) + k')%nat else grad0) with (if second then gr a (cf_elem cf) else grad0) by (destruct second; auto; rewrite <- Z3, E1'; auto).
    rewrite face_law_rev; auto.
    + destruct v; cbn; ring.
    + apply PL; auto. unfold sm_nf_all. lia.
    + apply PL; auto. unfold sm_nf_all. lia.
    + unfold unit_vec. unfold dot2 in UV. lra.
Qed.

(** sum over the outer faces of one rank *)
Lemma outer_split S h : rsum h (outer_faces S) = rsum h (seq 0 (sm_nb S)) + rsum h (seq (sm_nb S + sm_ni S) (sm_nc S)).
Proof. unfold outer_faces. apply rsum_app. Qed.

(** The residuals of all cells of all ranks add up to minus the fluxes through the physical boundary. First order: *)
Theorem C64_first_order : forall jc jr ji jx j0 hsl gh S, split_run jc jr ji jx j0 hsl gh S ->
  forall fl bc (u ul0 ur0 res : nat -> arr st) (G : nat -> arr grad),
  1 < gam (fl_gas fl) -> (fl_flux fl = HLLC -> 5/4 <= gam (fl_gas fl)) ->
  (forall a, (a < nr)%nat -> bcs_cover (S a) fl (bc a) /\ alen (u a) = (sm_ne (S a) + sm_nc (S a))%nat /\ alen (ul0 a) = sm_nf_all (S a) /\ alen (ur0 a) = sm_nf_all (S a) /\ alen (res a) = sm_ne (S a)) ->
  (forall a i, (a < nr)%nat -> (i < sm_ne (S a))%nat -> physical (gam (fl_gas fl)) (aat (u a) i)) ->
  (forall a k a' k' cf', copies nr lm (a, k) (a', k') -> nth_error (conns (l_m (lm a'))) k' = Some cf' ->
     gh a k = aat (sm_rc (S a')) (cf_elem cf') /\ aat (u a) (sm_ne (S a) + k)%nat = aat (u a') (cf_elem cf')) ->
  exists out, (forall a, (a < nr)%nat -> compute_residual1 (S a) fl (u a) (ul0 a) (ur0 a) (res a) (G a) None = Some (out a)) /\
  let ub a k := ghost_state (fl_gas fl) (bc a k) (left_value (S a) (aat (u a)) k) (fm_n (aat (sm_M (S a)) k)) in
  let f a := through (S a) fl false (aat (u a)) (fun _ => grad0) (ub a) (left_value (S a) (aat (u a))) (right_value (S a) (aat (u a)) (ub a)) in
  forall v, rsum (fun a => rsum (fun i => cget (aat (ro_res (out a)) i) v) (all_cells (S a))) (seq 0 nr) =
            rsum (fun a => rsum (fun i => cget (aat (res a) i) v) (all_cells (S a))) (seq 0 nr)
            - rsum (fun a => rsum (fun k => cget (f a k) v) (seq 0 (sm_nb (S a)))) (seq 0 nr).
Proof.
  intros jc jr ji jx j0 hsl gh S SR fl bc u ul0 ur0 res GG Hg Hh SZ PU EX. pose proof SR as [G Hd Hr RM SE BU D].
  set (run := fun a => compute_residual1 (S a) fl (u a) (ul0 a) (ur0 a) (res a) (GG a) None).
  set (out := fun a => match run a with Some o => o | None => mkro (res a) (res a) (res a) (GG a) None end).
  assert (RO : forall a, (a < nr)%nat -> run a = Some (out a)).
  { intros a Ha. destruct (SZ a Ha) as (C & L1 & L2 & L3 & L4). destruct (C63_first_order _ _ _ _ _ (BU a Ha) fl (bc a) (u a) (ul0 a) (ur0 a) (res a) (GG a) C L1 L2 L3 L4) as (o & E & _).
    unfold out. fold (run a) in E. rewrite E. reflexivity. }
  exists out. split; [exact RO|]. cbv zeta. intros v.
  pose proof (C64_copies_cancel jc jr ji jx j0 hsl gh S SR fl false (fun a => aat (u a)) (fun _ _ => grad0)
     (fun a k => ghost_state (fl_gas fl) (bc a k) (left_value (S a) (aat (u a)) k) (fm_n (aat (sm_M (S a)) k)))
     (fun a => left_value (S a) (aat (u a))) (fun a => right_value (S a) (aat (u a)) (fun k => ghost_state (fl_gas fl) (bc a k) (left_value (S a) (aat (u a)) k) (fm_n (aat (sm_M (S a)) k)))) Hg Hh) as CC.
  cbv beta in CC. rewrite <- rsum_minus. transitivity (rsum (fun a => (rsum (fun i => cget (aat (res a) i) v) (all_cells (S a)) -
     rsum (fun k => cget (through (S a) fl false (aat (u a)) (fun _ => grad0) (fun k0 => ghost_state (fl_gas fl) (bc a k0) (left_value (S a) (aat (u a)) k0) (fm_n (aat (sm_M (S a)) k0))) (left_value (S a) (aat (u a))) (right_value (S a) (aat (u a)) (fun k0 => ghost_state (fl_gas fl) (bc a k0) (left_value (S a) (aat (u a)) k0) (fm_n (aat (sm_M (S a)) k0)))) k) v) (seq 0 (sm_nb (S a))))
     - rsum (fun k => cget (through (S a) fl false (aat (u a)) (fun _ => grad0) (fun k0 => ghost_state (fl_gas fl) (bc a k0) (left_value (S a) (aat (u a)) k0) (fm_n (aat (sm_M (S a)) k0))) (left_value (S a) (aat (u a))) (right_value (S a) (aat (u a)) (fun k0 => ghost_state (fl_gas fl) (bc a k0) (left_value (S a) (aat (u a)) k0) (fm_n (aat (sm_M (S a)) k0)))) k) v) (seq (sm_nb (S a) + sm_ni (S a)) (sm_nc (S a)))) (seq 0 nr)).
  - apply rsum_ext. intros a Ha. apply in_seq in Ha. assert (Ha' : (a < nr)%nat) by lia. destruct (SZ a Ha') as (C & L1 & L2 & L3 & L4).
    destruct (C63_first_order _ _ _ _ _ (BU a Ha') fl (bc a) (u a) (ul0 a) (ur0 a) (res a) (GG a) C L1 L2 L3 L4) as (o & E & _ & T & _).
    fold (run a) in E. rewrite RO in E by auto. injection E as E. rewrite <- E in T. rewrite T, outer_split. lra.
  - rewrite rsum_minus. rewrite CC; [lra| |].
    + intros a k a' k' cf' Cy Ec. destruct (EX a k a' k' cf' Cy Ec) as (Y1 & Y2). split; auto. split; auto. split; [discriminate|].
      assert (Cy' := Cy). destruct Cy' as (cf & cg & C1 & C2 & C3 & C4 & _). cbn [fst snd] in *.
      destruct (built_conn _ _ _ _ _ k cf (BU a C1) C3) as (Hk & EF). destruct (built_conn _ _ _ _ _ k' cf' (BU a' C2) Ec) as (Hk' & EF').
      unfold left_value, right_value. rewrite EF, EF'. cbn [f_left f_right]. destruct (Nat.ltb_spec (sm_nb (S a) + sm_ni (S a) + k) (sm_nb (S a))); [lia|]. exact Y2.
    + intros a k Ha Hk. unfold left_value. apply PU; auto. apply (so_left _ (built_sm _ _ _ _ _ (BU a Ha))). lia.
Qed.

(** Second order, for every gradient and reconstruction scheme, whenever the computation completes on every rank and what each rank
    received ([gg], [rf]) is what the owner of the other copy computed: *)
Theorem C64_second_order : forall jc jr ji jx j0 hsl gh S, split_run jc jr ji jx j0 hsl gh S ->
  forall fl bc gs rs (gg : nat -> nat -> grad) (rf : nat -> nat -> st) (u ul0 ur0 res : nat -> arr st) (G0 : nat -> arr grad) jp dt (out : nat -> resout),
  1 < gam (fl_gas fl) -> (fl_flux fl = HLLC -> 5/4 <= gam (fl_gas fl)) ->
  (forall a, (a < nr)%nat -> bcs_cover (S a) fl (bc a) /\ alen (u a) = (sm_ne (S a) + sm_nc (S a))%nat /\ alen (ul0 a) = sm_nf_all (S a) /\ alen (ur0 a) = sm_nf_all (S a) /\ alen (res a) = sm_ne (S a)) ->
  (forall a, (a < nr)%nat -> compute_residual2 (S a) fl (gs a) rs (gg a) (rf a) (u a) (ul0 a) (ur0 a) (res a) (G0 a) (jp a) (dt a) = Some (out a)) ->
  (forall a k, (a < nr)%nat -> (sm_nb (S a) + sm_ni (S a) <= k < sm_nf_all (S a))%nat -> physical (gam (fl_gas fl)) (aat (ro_left (out a)) k)) ->
  (forall a k a' k' cf', copies nr lm (a, k) (a', k') -> nth_error (conns (l_m (lm a'))) k' = Some cf' ->
     gh a k = aat (sm_rc (S a')) (cf_elem cf') /\ aat (u a) (sm_ne (S a) + k)%nat = aat (u a') (cf_elem cf') /\
     gg a k = aat (ro_grad (out a')) (cf_elem cf') /\ rf a k = aat (ro_left (out a')) (sm_nb (S a') + sm_ni (S a') + k')%nat) ->
  let ub a k := ghost_state (fl_gas fl) (bc a k) (left_value (S a) (aat (u a)) k) (fm_n (aat (sm_M (S a)) k)) in
  let f a := through (S a) fl true (aat (u a)) (aat (ro_grad (out a))) (ub a) (aat (ro_left (out a))) (aat (ro_right (out a))) in
  forall v, rsum (fun a => rsum (fun i => cget (aat (ro_res (out a)) i) v) (all_cells (S a))) (seq 0 nr) =
            rsum (fun a => rsum (fun i => cget (aat (res a) i) v) (all_cells (S a))) (seq 0 nr)
            - rsum (fun a => rsum (fun k => cget (f a k) v) (seq 0 (sm_nb (S a)))) (seq 0 nr).
Proof.
  intros jc jr ji jx j0 hsl gh S SR fl bc gs rs gg rf u ul0 ur0 res G0 jp dt out Hg Hh SZ RO PL EX. pose proof SR as [G Hd Hr RM SE BU D]. cbv zeta. intros v.
  set (f := fun a => through (S a) fl true (aat (u a)) (aat (ro_grad (out a))) (fun k => ghost_state (fl_gas fl) (bc a k) (left_value (S a) (aat (u a)) k) (fm_n (aat (sm_M (S a)) k))) (aat (ro_left (out a))) (aat (ro_right (out a)))).
  assert (CC : rsum (fun a => rsum (fun k => cget (f a k) v) (seq (sm_nb (S a) + sm_ni (S a)) (sm_nc (S a)))) (seq 0 nr) = 0).
  { apply (C64_copies_cancel jc jr ji jx j0 hsl gh S SR fl true (fun a => aat (u a)) (fun a => aat (ro_grad (out a)))
     (fun a k => ghost_state (fl_gas fl) (bc a k) (left_value (S a) (aat (u a)) k) (fm_n (aat (sm_M (S a)) k))) (fun a => aat (ro_left (out a))) (fun a => aat (ro_right (out a))) Hg Hh); auto.
    intros a k a' k' cf' Cy Ec. destruct (EX a k a' k' cf' Cy Ec) as (Y1 & Y2 & Y3 & Y4). split; auto. split; auto.
    assert (Cy' := Cy). destruct Cy' as (cf & cg & C1 & C2 & _). cbn [fst snd] in *. destruct (received _ _ _ _ _ _ _ _ _ _ _ _ _ _ (RO a C1)) as (Q1 & Q2).
    split.
    - intros _. rewrite Q2 by lia. replace (sm_ne (S a) + k - sm_ne (S a))%nat with k by lia. exact Y3.
    - rewrite Q1 by lia. replace (sm_nb (S a) + sm_ni (S a) + k - sm_nb (S a) - sm_ni (S a))%nat with k by lia. exact Y4. }
  rewrite <- rsum_minus. transitivity (rsum (fun a => (rsum (fun i => cget (aat (res a) i) v) (all_cells (S a)) - rsum (fun k => cget (f a k) v) (seq 0 (sm_nb (S a)))) - rsum (fun k => cget (f a k) v) (seq (sm_nb (S a) + sm_ni (S a)) (sm_nc (S a)))) (seq 0 nr)).
  - apply rsum_ext. intros a Ha. apply in_seq in Ha. assert (Ha' : (a < nr)%nat) by lia. destruct (SZ a Ha') as (C & L1 & L2 & L3 & L4).
    destruct (C63_second_order _ _ _ _ _ (BU a Ha') fl (bc a) (gs a) rs (gg a) (rf a) (u a) (ul0 a) (ur0 a) (res a) (G0 a) (jp a) (dt a) (out a) C L1 L2 L3 L4 (RO a Ha')) as (_ & T).
    cbv zeta in T. fold (f a) in T. rewrite T, outer_split. lra.
  - rewrite rsum_minus, CC. lra.
Qed.
End Ranks.
Print Assumptions C64_copies_cancel.
Print Assumptions C64_first_order.
Print Assumptions C64_second_order.

Lemma finite_choice {A} (P : nat -> A -> Prop) (d : A) : (forall r, exists x, P r x) -> forall n, exists f, forall r, (r < n)%nat -> P r (f r).
Proof.
  intros H. induction n as [|n (f & IH)]. exists (fun _ => d). intros; lia.
  destruct (H n) as (x & Hx). exists (fun r => if (r =? n)%nat then x else f r). intros r Hr. destruct (Nat.eqb_spec r n) as [->|]; auto. apply IH. lia.
Qed.

(** ** The hypotheses are met by every split of every mesh whose interfaces are found *)
Theorem C64_runs_exist : forall g hs dist nr, global_ok g hs -> alen dist = nelem (g_m g) -> (forall i, (i < nelem (g_m g))%nat -> (aat dist i < nr)%nat) ->
  (forall c, In c (cells (g_m g)) -> (length c = 3 \/ length c = 4)%nat) -> distinct_ends (g_m g) (g_X g) ->
  (forall r i f j, (r < nr)%nat -> interface g dist r i f j -> seen g hs dist r i f) ->
  forall (U : nat -> st), exists lm jc jr ji jx j0 hsl gh S (u : nat -> arr st), split_run g hs dist nr lm jc jr ji jx j0 hsl gh S /\
  (forall a, (a < nr)%nat -> alen (u a) = (sm_ne (S a) + sm_nc (S a))%nat /\
     (forall i, (i < sm_ne (S a))%nat -> aat (u a) i = U (aat (l_eglob (lm a)) i)) /\ sm_ne (S a) = nelem (l_m (lm a))) /\
  (forall a k a' k' cf', copies nr lm (a, k) (a', k') -> nth_error (conns (l_m (lm a'))) k' = Some cf' ->
     gh a k = aat (sm_rc (S a')) (cf_elem cf') /\ aat (u a) (sm_ne (S a) + k)%nat = aat (u a') (cf_elem cf')).
Proof.
  intros g hs dist nr G Hd Hr H34 D SE U.
  destruct (C86_setup_total (g_m g) hs (g_X g) (fun _ => vzero) (fun _ _ => 0%Z) (fun _ => mkface 0 0 0 0) (fun _ _ => 0%nat) (fun _ => []) (fun _ => mkfm vzero 0) (fun _ => 0) (fun _ => vzero) (fun _ => vzero) (gl_tiled _ _ G) H34 (gl_X _ _ G)) as (Sg & _ & BG).
  set (run := fun r => restrictMesh g dist r (fun _ => []) (fun _ => []) (fun _ => 0%nat) (fun _ => vzero) (fun _ _ => 0%Z)).
  set (dm := mklm (g_m g) (g_X g) (g_regs g) dist []).
  set (lm := fun r => match run r with Some (Val x) => x | _ => dm end).
  assert (RM : forall r, (r < nr)%nat -> run r = Some (Val (lm r))).
  { intros r Hr'. unfold lm. destruct (C15_restriction g hs dist r G Hd (fun _ => []) (fun _ => []) (fun _ => 0%nat) (fun _ => vzero) (fun _ _ => 0%Z)) as (x & E & _).
    fold (run r) in E. rewrite E. reflexivity. }
  set (nb := fun r k => match nth_error (conns (l_m (lm r))) k with Some cf => Z.to_nat (cf_gelem cf) | None => 0%nat end).
  set (gh := fun r k => aat (sm_rc Sg) (nb r k)).
  set (hsl := fun r => lhs g hs dist r).
  assert (TL : forall r, (r < nr)%nat -> tiled (l_m (lm r)) (hsl r)).
  { intros r Hr'. destruct (restrict_ok g hs G dist r Hd (fun _ => []) (fun _ => []) (fun _ => 0%nat) (fun _ => vzero) (fun _ _ => 0%Z)) as (E & B & lm1 & HE & HB1 & HB2 & R1 & M & _).
    fold (run r) in R1. rewrite RM in R1 by auto. injection R1 as <-. rewrite M. apply (local_tiled g hs G dist r Hd E HE B HB1 HB2). intros i f j. apply SE; auto. }
  assert (SS : forall r, exists S, (r < nr)%nat -> built (l_m (lm r)) (hsl r) (l_X (lm r)) (gh r) S).
  { intros r. destruct (lt_dec r nr) as [Hr'|]; [|exists Sg; lia].
    destruct (restr_facts g hs dist r (lm r) G Hd _ _ _ _ _ (RM r Hr')) as (F1 & _ & _ & _ & _ & _ & _ & F8).
    destruct (C86_setup_total (l_m (lm r)) (hsl r) (l_X (lm r)) (gh r) (fun _ _ => 0%Z) (fun _ => mkface 0 0 0 0) (fun _ _ => 0%nat) (fun _ => []) (fun _ => mkfm vzero 0) (fun _ => 0) (fun _ => vzero) (fun _ => vzero) (TL r Hr')) as (S & _ & B).
    - intros c Hc. apply In_nth_error in Hc. destruct Hc as (l & El). assert (Hl : (l < nelem (l_m (lm r)))%nat) by (apply nth_error_Some; congruence).
      destruct (F1 l Hl) as (A1 & _ & A3 & _). unfold cell at 1 in A3. rewrite (nth_error_nth _ _ [] El) in A3. rewrite A3. apply H34. unfold cell. apply nth_In. exact A1.
    - exact F8.
    - exists S. auto. }
  destruct (finite_choice _ Sg SS nr) as (S & BU).
  set (u := fun r => mkarr (sm_ne (S r) + sm_nc (S r)) (fun i => if (i <? sm_ne (S r))%nat then U (aat (l_eglob (lm r)) i) else U (nb r (i - sm_ne (S r))%nat))).
  exists lm, (fun _ _ => []), (fun _ _ => []), (fun _ _ => 0%nat), (fun _ _ => vzero), (fun _ _ _ => 0%Z), hsl, gh, S, u.
  assert (SR : split_run g hs dist nr lm (fun _ _ => []) (fun _ _ => []) (fun _ _ => 0%nat) (fun _ _ => vzero) (fun _ _ _ => 0%Z) hsl gh S) by (split; auto).
  split; auto. split.
  - intros a Ha. split; [reflexivity|]. split. { intros i Hi. unfold u. cbn [aat]. destruct (Nat.ltb_spec i (sm_ne (S a))); [auto|lia]. }
    destruct (built_ok _ _ _ _ _ (BU a Ha Ha)) as (p & e & ni & s & il & _ & _ & E1 & _). exact E1.
  - intros a k a' k' cf' Cy Ec. assert (Cy' := Cy). destruct Cy' as (cf & cg & C1 & C2 & C3 & C4 & _). cbn [fst snd] in *.
    destruct (copies_geom g hs dist nr lm G Hd (fun _ _ => []) (fun _ _ => []) (fun _ _ => 0%nat) (fun _ _ => vzero) (fun _ _ _ => 0%Z) RM a k a' k' cf cf' Cy C3 Ec) as (_ & _ & _ & I2 & I3 & _).
    destruct (built_ok _ _ _ _ _ (BU a' C2 C2)) as (p & e & ni & s & il & _ & _ & E1 & _).
    assert (Hn : nb a k = Z.to_nat (cf_gelem cf)) by (unfold nb; rewrite C3; reflexivity). split.
    + rewrite (local_centre g hs (lm a') (restr_sub g hs dist a' (lm a') G Hd _ _ _ _ _ (RM a' C2)) (fun _ => vzero) Sg (S a') (hsl a') (gh a') BG (BU a' C2 C2) (cf_elem cf') I2).
      unfold gh. rewrite Hn, I3. reflexivity.
    + unfold u. cbn [aat]. destruct (Nat.ltb_spec (sm_ne (S a) + k) (sm_ne (S a))); [lia|]. destruct (Nat.ltb_spec (cf_elem cf') (sm_ne (S a'))); [|lia].
      replace (sm_ne (S a) + k - sm_ne (S a))%nat with k by lia. rewrite Hn, I3. reflexivity.
Qed.
Print Assumptions C64_runs_exist.

(** Example: the ring of seven triangles of P_Part.v with coordinates, split over two ranks (the inner triangle and the rest). *)
Definition ringX : arr v2 := mkarr 6 (fun k => nth k [mkv 0 (-1); mkv 1 1; mkv (-1) 1; mkv 3 (-3); mkv 0 5; mkv (-3) (-3)] vzero).
Lemma ring_seen t Rg r i f j : (r < 2)%nat -> interface (mkgm ring t ringX Rg) ring_d r i f j -> seen (mkgm ring t ringX Rg) ring_h ring_d r i f.
Proof.
  assert (RB : forall r v, rank_bnd (mkgm ring t ringX Rg) ring_h ring_d r v -> (3 <= v)%nat).
  { intros r0 v (q & bf & h & Q1 & Q2 & _ & Q4). cbn [g_m] in Q1. destruct q as [|[|[|q]]]; cbn in Q1; try (destruct q; discriminate); inversion Q1; subst; cbn in Q4; lia. }
  intros Hr. destruct r as [|[|r]]; [| |lia].
  - intros (A & I1 & I2). cbn [g_m] in *. unfold ring_d in I2. cbn in I2. destruct (Nat.eqb_spec j 0) as [->|]; [|congruence].
    intros (S1 & _). apply RB in S1. apply acrossb_ok in A.
    assert (Hi : (i < 7)%nat). { apply acrossb_ok in A. destruct A as (A & _). exact A. }
    assert (Hf : (f < 3)%nat). { apply acrossb_ok in A. destruct A as (_ & A & _). cbn [ring cells cell] in A. do 7 (destruct i as [|i]; [exact A|]). lia. }
    do 7 (destruct i as [|i]; [do 3 (destruct f as [|f]; [vm_compute in A; try discriminate A; cbn in S1; lia|]); lia|]). lia.
  - intros ((A & Hf & _) & I1 & _). cbn [g_m] in *. unfold ring_d in I1. cbn in I1. destruct (Nat.eqb_spec i 0); [subst|discriminate].
    intros (S1 & _). apply RB in S1. cbn in Hf. destruct f as [|[|[|f]]]; cbn in S1; lia.
Qed.
Lemma ringX_distinct : distinct_ends ring ringX.
Proof.
  intros i f Hi Hf. unfold nelem in Hi. cbn in Hi. assert (Hf3 : (f < 3)%nat) by (do 7 (destruct i as [|i]; [exact Hf|]); lia).
  do 7 (destruct i as [|i]; [do 3 (destruct f as [|f]; [cbn; intros E; inversion E; lra|]); lia|]). lia.
Qed.
Definition ringfl : flow := mkflow air HLLC HLLC true false [(1%Z, BFar uA); (2%Z, BExtrap); (3%Z, BSlip)].
(** the states differ from cell to cell, are physical, and the two ranks share three faces *)
Example C64_ex : exists g lm jc jr ji jx j0 hsl gh S (u : nat -> arr st), split_run g ring_h ring_d 2 lm jc jr ji jx j0 hsl gh S /\ g_m g = ring /\
  (forall a i, (a < 2)%nat -> (i < sm_ne (S a))%nat -> physical (gam air) (aat (u a) i)) /\
  (forall a k a' k' cf', copies 2 lm (a, k) (a', k') -> nth_error (conns (l_m (lm a'))) k' = Some cf' ->
     gh a k = aat (sm_rc (S a')) (cf_elem cf') /\ aat (u a) (sm_ne (S a) + k)%nat = aat (u a') (cf_elem cf')) /\
  1 < gam air /\ 5/4 <= gam air /\
  (exists a i b j, aat (u a) i <> aat (u b) j) /\ exists k y, copies 2 lm (1%nat, k) y.
Proof.
  destruct (global_of ring ring_h ring_tiled eq_refl ringX (mkarr 7 (fun _ => [])) eq_refl eq_refl) as (t & G).
  assert (H34 : forall c, In c (cells ring) -> (length c = 3 \/ length c = 4)%nat).
  { intros c Hc. left. unfold ring in Hc. cbn [cells In] in Hc. repeat (destruct Hc as [<-|Hc]; [reflexivity|]). contradiction. }
  assert (RR : forall i, (i < 7)%nat -> (aat ring_d i < 2)%nat) by (intros i _; unfold ring_d; cbn; destruct (i =? 0)%nat; lia).
  set (U := fun i => if (i =? 0)%nat then uA else uB).
  destruct (C64_runs_exist _ ring_h ring_d 2 G eq_refl RR H34 ringX_distinct (ring_seen t _) U) as (lm & jc & jr & ji & jx & j0 & hsl & gh & S & u & SR & SU & EX).
  exists (mkgm ring t ringX (mkarr 7 (fun _ => []))), lm, jc, jr, ji, jx, j0, hsl, gh, S, u. split; auto. split; [reflexivity|].
  assert (PP : forall i, physical (gam air) (U i)) by (intros i; unfold U; destruct (i =? 0)%nat; apply ex_physical).
  pose proof SR as [_ Hd _ RM SE BU _].
  destruct (restr_facts _ ring_h ring_d 1 (lm 1%nat) G Hd _ _ _ _ _ (RM 1%nat ltac:(lia))) as (F1 & F2 & F3 & F4 & F5 & _).
  destruct (restr_facts _ ring_h ring_d 0 (lm 0%nat) G Hd _ _ _ _ _ (RM 0%nat ltac:(lia))) as (F1' & F2' & F3' & _).
  split; [|split; [exact EX|split; [cbn; lra|split; [cbn; lra|split]]]].
  - intros a i Ha Hi. destruct (SU a Ha) as (_ & Q & _). rewrite Q by auto. apply PP.
  - destruct (F3 0%nat ltac:(cbn; lia) eq_refl) as (l & Hl & E). destruct (F3' 1%nat ltac:(cbn; lia) eq_refl) as (l' & Hl' & E').
    destruct (SU 1%nat ltac:(lia)) as (_ & Q & N). destruct (SU 0%nat ltac:(lia)) as (_ & Q' & N').
    exists 1%nat, l, 0%nat, l'. rewrite Q, Q' by lia. rewrite E, E'. unfold U. cbn [Nat.eqb]. unfold uA, uB. intros C. inversion C; lra.
  - destruct (C17_connectivity_faces _ ring_h ring_d 1 G Hd (jc 1%nat) (jr 1%nat) (ji 1%nat) (jx 1%nat) (j0 1%nat)) as (lm' & R' & _ & CF & _).
    rewrite (RM 1%nat ltac:(lia)) in R'. injection R' as <-.
    assert (I01 : interface (mkgm ring t ringX (mkarr 7 (fun _ => []))) ring_d 1 0 0 1). { split; [apply acrossb_ok; vm_compute; reflexivity|]. split; [reflexivity|]. cbn. discriminate. }
    destruct (F3 0%nat ltac:(cbn; lia) eq_refl) as (l & Hl & E).
    assert (Hin : exists cf, In cf (conns (l_m (lm 1%nat)))).
    { eexists. apply CF. exists l, 1%nat, 0%nat, (at2 (elemface t) 0 0). split; [reflexivity|]. split; [auto|]. cbv zeta. rewrite E. split; [auto|]. split; [|reflexivity]. apply (SE 1%nat _ _ 1%nat); auto. }
    destruct Hin as (cf & Hin). apply In_nth_error in Hin. destruct Hin as (k & Ek). exists k.
    apply (copies_exist _ ring_h ring_d 2 lm G Hd RR jc jr ji jx j0 RM SE 1%nat k cf); auto.
Qed.
(** the hypotheses of C66 on the same mesh: any rank *)
Example C66_ex : exists g lm jc jr ji jx j0 S hs' gh' S' u u', global_ok g ring_h /\ restrictMesh g ring_d 0 jc jr ji jx j0 = Some (Val lm) /\
  built (g_m g) ring_h (g_X g) (fun _ => vzero) S /\ built (l_m lm) hs' (l_X lm) gh' S' /\ distinct_ends (g_m g) (g_X g) /\ tags_covered g ringfl /\
  (forall i, (i < nelem (g_m g))%nat -> physical (gam air) (aat u i)) /\ alen u = nelem (g_m g) /\ alen u' = (nelem (l_m lm) + nconnface (l_m lm))%nat /\
  (forall l, (l < nelem (l_m lm))%nat -> aat u' l = aat u (aat (l_eglob lm) l)) /\
  (forall k cf, nth_error (conns (l_m lm)) k = Some cf ->
     gh' k = aat (sm_rc S) (Z.to_nat (cf_gelem cf)) /\ aat u' (nelem (l_m lm) + k)%nat = aat u (Z.to_nat (cf_gelem cf))) /\ (0 < nelem (l_m lm))%nat.
Proof.
  destruct (global_of ring ring_h ring_tiled eq_refl ringX (mkarr 7 (fun _ => [])) eq_refl eq_refl) as (t & G). set (g := mkgm ring t ringX (mkarr 7 (fun _ => []))) in *.
  assert (H34 : forall c, In c (cells ring) -> (length c = 3 \/ length c = 4)%nat).
  { intros c Hc. left. unfold ring in Hc. cbn [cells In] in Hc. repeat (destruct Hc as [<-|Hc]; [reflexivity|]). contradiction. }
  destruct (C86_setup_total ring ring_h ringX (fun _ => vzero) (fun _ _ => 0%Z) (fun _ => mkface 0 0 0 0) (fun _ _ => 0%nat) (fun _ => []) (fun _ => mkfm vzero 0) (fun _ => 0) (fun _ => vzero) (fun _ => vzero) ring_tiled H34 eq_refl) as (S & _ & B).
  destruct (C15_restriction g ring_h ring_d 0 G eq_refl (fun _ => []) (fun _ => []) (fun _ => 0%nat) (fun _ => vzero) (fun _ _ => 0%Z)) as (lm & RM & _).
  destruct (C17_connectivity_faces g ring_h ring_d 0 G eq_refl (fun _ => []) (fun _ => []) (fun _ => 0%nat) (fun _ => vzero) (fun _ _ => 0%Z)) as (lm' & RM' & _ & _ & TL).
  rewrite RM in RM'. injection RM' as <-. destruct TL as (hs' & T'). { intros i f j. apply (ring_seen t _ 0%nat); lia. }
  destruct (restr_facts g ring_h ring_d 0 lm G eq_refl _ _ _ _ _ RM) as (F1 & _ & F3 & _ & _ & _ & _ & F8).
  set (nb := fun k => match nth_error (conns (l_m lm)) k with Some cf => Z.to_nat (cf_gelem cf) | None => 0%nat end).
  destruct (C86_setup_total (l_m lm) hs' (l_X lm) (fun k => aat (sm_rc S) (nb k)) (fun _ _ => 0%Z) (fun _ => mkface 0 0 0 0) (fun _ _ => 0%nat) (fun _ => []) (fun _ => mkfm vzero 0) (fun _ => 0) (fun _ => vzero) (fun _ => vzero) T') as (S' & _ & B').
  { intros c Hc. apply In_nth_error in Hc. destruct Hc as (l & El). assert (Hl : (l < nelem (l_m lm))%nat) by (apply nth_error_Some; congruence).
    destruct (F1 l Hl) as (A1 & _ & A3 & _). unfold cell at 1 in A3. rewrite (nth_error_nth _ _ [] El) in A3. rewrite A3. apply H34. unfold cell. apply nth_In. exact A1. }
  { exact F8. }
  set (U := fun i => if (i =? 0)%nat then uA else uB).
  exists g, lm, (fun _ => []), (fun _ => []), (fun _ => 0%nat), (fun _ => vzero), (fun _ _ => 0%Z), S, hs', (fun k => aat (sm_rc S) (nb k)), S', (mkarr 7 U),
    (mkarr (nelem (l_m lm) + nconnface (l_m lm)) (fun i => if (i <? nelem (l_m lm))%nat then U (aat (l_eglob lm) i) else U (nb (i - nelem (l_m lm))%nat))).
  split; auto. split; auto. split; [exact B|]. split; auto. split; [exact ringX_distinct|]. split; [|split; [|split; [reflexivity|split; [reflexivity|split; [|split]]]]].
  - intros bf Hb. cbn in Hb. destruct Hb as [<-|[<-|[<-|[]]]]; do 3 eexists; split; reflexivity.
  - intros i _. cbn [aat]. unfold U. destruct (i =? 0)%nat; apply ex_physical.
  - intros l Hl. cbn [aat]. destruct (Nat.ltb_spec l (nelem (l_m lm))); [auto|lia].
  - intros k cf Ek. assert (Hn : nb k = Z.to_nat (cf_gelem cf)) by (unfold nb; rewrite Ek; reflexivity). rewrite Hn. split; auto. cbn [aat].
    destruct (Nat.ltb_spec (nelem (l_m lm) + k) (nelem (l_m lm))); [lia|]. replace (nelem (l_m lm) + k - nelem (l_m lm))%nat with k by lia. rewrite Hn. auto.
  - destruct (F3 1%nat ltac:(cbn; lia) eq_refl) as (l & Hl & _). lia.
Qed.
