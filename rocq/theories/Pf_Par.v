(** Proofs for C64 and C66: the net flux out of a cell as a sum over the cell's own edges, and the
    comparison of a rank's mesh with the whole mesh. *)
From Coq Require Import Reals List Arith ZArith Lia Lra Bool Permutation.
From Verif Require Import Base BaseR BaseSum M_Gas M_Flux M_Visc M_BC M_BCConf M_Mesh M_Geom M_Part M_Space S_Space S_Gas S_Mesh M_Resid S_Resid
  Pf_Esuel Pf_Host Pf_Topo Pf_Incid Pf_Faces Pf_Full Pf_Geom Pf_Space Pf_Grad Pf_Resid Pf_Part Pf_Restrict Pf_Part2 Pf_Linalg S_Par Pf_Resid2 P_Geom P_Flux P_Visc P_Resid P_Part.
Import ListNotations.
Open Scope R_scope.

(** ** Sums over the faces of one cell *)
Lemma nodup_map_in {A C} (f : A -> C) l : NoDup l -> (forall a b, In a l -> In b l -> f a = f b -> a = b) -> NoDup (map f l).
Proof.
  induction 1 as [|x l Hx N IH]; intros H; cbn; constructor.
  - rewrite in_map_iff. intros (y & E & Hy). apply Hx. rewrite <- (H y x); auto. right; auto. left; auto.
  - apply IH. intros a b Ha Hb. apply H; right; auto.
Qed.
Lemma sum_by_faces S (g : nat -> R) i : sm_ok S -> (i < sm_ne S)%nat ->
  (forall k, (k < sm_nf_all S)%nat -> f_left (aat (sm_F S) k) <> i -> f_right (aat (sm_F S) k) <> i -> g k = 0) ->
  rsum g (all_faces S) = rsum (fun f => g (at2 (sm_EF S) i f)) (seq 0 (aat (sm_nf S) i)).
Proof.
  intros OK Hi H.
  set (t := fun k => ((f_left (aat (sm_F S) k) =? i) || (f_right (aat (sm_F S) k) =? i))%nat).
  transitivity (rsum g (filter t (all_faces S))).
  - unfold all_faces. rewrite rsum_filter. apply rsum_ext. intros k Hk. apply in_seq in Hk. destruct (t k) eqn:E; auto.
    unfold t in E. apply orb_false_iff in E. destruct E as (E1 & E2). apply Nat.eqb_neq in E1, E2. apply H; auto; lia.
  - rewrite <- (rsum_map (at2 (sm_EF S) i) g). apply rsum_perm. apply NoDup_Permutation.
    + apply NoDup_filter, seq_NoDup.
    + apply nodup_map_in. apply seq_NoDup. intros a b Ha Hb E. apply in_seq in Ha, Hb. apply (so_inj _ OK i); auto; lia.
    + intros k. rewrite filter_In, in_map_iff. unfold all_faces. rewrite in_seq. split.
      * intros (Hk & Ht). unfold t in Ht. apply orb_true_iff in Ht. rewrite !Nat.eqb_eq in Ht.
        destruct (so_sur _ OK k i ltac:(lia) Hi Ht) as (f & Hf & E). exists f. split; auto. apply in_seq. lia.
      * intros (f & <- & Hf). apply in_seq in Hf. destruct (so_ef _ OK i f Hi ltac:(lia)) as (Hk & [(A & _) | (A & _)]).
        -- split; [lia|]. unfold t. rewrite A, Nat.eqb_refl. reflexivity.
        -- split; [lia|]. unfold t. rewrite A, Nat.eqb_refl. apply orb_true_r.
Qed.

(** contribution of edge [f] of cell [i] to [outflow] *)
Definition out_edge (S : smesh) (phi : nat -> st) (i f : nat) (v : ix) : R :=
  let k := at2 (sm_EF S) i f in
  (if (f_left (aat (sm_F S) k) =? i)%nat then cget (phi k) v else 0) - (if (f_right (aat (sm_F S) k) =? i)%nat then cget (phi k) v else 0).

Lemma outflow_edges S phi i v : sm_ok S -> (i < sm_ne S)%nat -> outflow S phi i v = rsum (fun f => out_edge S phi i f v) (seq 0 (aat (sm_nf S) i)).
Proof.
  intros OK Hi. unfold outflow. rewrite (sum_by_faces S _ i OK Hi). reflexivity.
  intros k Hk A B. destruct (Nat.eqb_spec (f_left (aat (sm_F S) k)) i); [congruence|]. destruct (Nat.eqb_spec (f_right (aat (sm_F S) k)) i); [congruence|]. lra.
Qed.

(** ** What lies beyond an edge *)
Section Cases.
Variables (m : umesh) (hs : list (nat * nat)) (X : arr v2) (ghost : nat -> v2) (S : smesh).
Hypothesis B : built m hs X ghost S.

Lemma edge_cases i f : (i < nelem m)%nat -> (f < length (cell (cells m) i))%nat ->
  let k := at2 (sm_EF S) i f in let fc := aat (sm_F S) k in (k < sm_nf_all S)%nat /\
  (((k < sm_nb S)%nat /\ nth_error hs k = Some (i, f) /\ f_left fc = i /\ (f_a fc, f_b fc) = edge (cell (cells m) i) f) \/
   ((sm_nb S <= k < sm_nb S + sm_ni S)%nat /\ f_left fc = i /\ across (cells m) i f (f_right fc) /\ (f_a fc, f_b fc) = edge (cell (cells m) i) f) \/
   ((sm_nb S <= k < sm_nb S + sm_ni S)%nat /\ f_right fc = i /\ across (cells m) i f (f_left fc) /\ (f_b fc, f_a fc) = edge (cell (cells m) i) f) \/
   (exists q cf, k = (sm_nb S + sm_ni S + q)%nat /\ (q < sm_nc S)%nat /\ nth_error (conns m) q = Some cf /\ cf_elem cf = i /\ cf_face cf = f /\ f_left fc = i /\ (f_a fc, f_b fc) = edge (cell (cells m) i) f)).
Proof.
  intros Hi Hf. pose proof B as (T & _). destruct (built_ok _ _ _ _ _ B) as (p & e & ni & s & il & TO & OK & E1 & E2 & E3 & E4 & E5 & E6 & _ & _ & _ & En & GD & EE & ES & _).
  cbv zeta. set (k := at2 (sm_EF S) i f). set (fc := aat (sm_F S) k).
  destruct (GD i f Hi Hf) as (Hk & Hse & Hw). rewrite <- EE, <- E5, <- ES in *. fold k in Hk, Hse, Hw. fold fc in Hse, Hw. rewrite (so_F _ OK) in Hk.
  destruct (cell_valid _ _ i (gm_valid _ _ (tl_good _ _ T)) Hi) as (N3 & Nd & _).
  split; auto. destruct (lt_dec k (sm_nb S)) as [K1|K1]; [|destruct (lt_dec k (sm_nb S + sm_ni S)) as [K2|K2]].
  - left. assert (Hkb : (k < nbface m)%nat) by lia. destruct (nth_error_some _ (bfaces m) k Hkb) as (bf & Eb).
    assert (LH : length hs = nbface m) by apply (gm_hosts _ _ (tl_good _ _ T)).
    destruct (nth_error_some _ hs k ltac:(lia)) as (h & Eh).
    destruct (built_bnd _ _ _ _ _ k bf h B Eb Eh) as (_ & EF). fold fc in EF. rewrite EF in Hse, Hw. rewrite EF. cbn [f_left f_right f_a f_b] in *.
    destruct Hw as [(W & _) | (W & _)]; [|lia]. pose proof (tl_bor _ _ T k bf h Eb Eh) as Eg. rewrite W in Eg.
    destruct (gm_hosts _ _ (tl_good _ _ T)) as (_ & HH). destruct (HH k bf h Eb Eh) as (_ & _ & _ & Hs & _). rewrite W in Hs.
    assert (snd h = f). { apply (edge_unique (cell (cells m) i)); auto. rewrite <- Eg. exact Hse. }
    split; auto. split; [rewrite Eh; f_equal; destruct h; cbn in *; congruence|]. split; auto. rewrite Eg. congruence.
  - right. pose proof (so_int _ OK k ltac:(lia)) as (J1 & J2). fold fc in J1, J2.
    destruct (to_ranges _ _ _ _ _ _ _ TO) as (bl & cl & F & Lb & Lc & _ & _ & _ & Si). pose proof (to_ni _ _ _ _ _ _ _ TO) as NI.
    assert (Hin : In fc il).
    { assert (K : nth_error (alist (intfac s)) k = Some fc).
      { unfold alist. rewrite nth_error_map. pose proof (so_F _ OK) as LF. rewrite E5 in LF. rewrite (nth_error_nth' _ 0%nat) by (rewrite seq_length; lia). rewrite seq_nth by lia. cbn. unfold fc. rewrite E5. reflexivity. }
      rewrite F, nth_error_app2 in K by lia. rewrite nth_error_app1 in K by lia. eapply nth_error_In; eauto. }
    apply Si in Hin. destruct Hin as (f' & Ac & _ & Ef). destruct Hw as [(W & _) | (W & _)].
    + left. rewrite W in *. assert (f' = f). { apply (edge_unique (cell (cells m) i)); auto. apply Ac. rewrite <- Ef. exact Hse. } subst f'. split; [lia|]. auto.
    + right; left. rewrite W in *. assert (Ac' := Ac). destruct Ac' as (A1 & A2 & A3 & A4 & h & Hh & Sh).
      assert (H : same_edge (edge (cell (cells m) (f_left fc)) f') (edge (cell (cells m) i) f)) by (rewrite <- Ef; exact Hse).
      pose proof (tl_or _ _ T (f_left fc) f' i f A1 Hi ltac:(lia) A2 Hf H) as O. split; [lia|]. split; auto. split.
      * split; [exact Hi|]. split; auto. split; auto. split; [lia|]. exists f'. split; auto. destruct H as [H|H].
        -- left; auto.
        -- right. rewrite H. destruct (edge (cell (cells m) i) f); reflexivity.
      * rewrite O. rewrite <- Ef. reflexivity.
  - right; right; right. set (q := (k - sm_nb S - sm_ni S)%nat). assert (Hq : (q < sm_nc S)%nat) by (unfold sm_nf_all in *; lia).
    destruct (nth_error_some _ (conns m) q) as (cf & Ec). { unfold nconnface in E4. lia. }
    destruct (built_conn _ _ _ _ _ q cf B Ec) as (_ & EF). replace (sm_nb S + sm_ni S + q)%nat with k in EF by lia. fold fc in EF.
    rewrite EF in Hse, Hw. cbn [f_left f_right f_a f_b] in *. destruct Hw as [(W & _) | (W & _)]; [|lia].
    destruct (gm_conns _ _ (tl_good _ _ T) cf (nth_error_In _ _ Ec)) as (_ & Hcf). rewrite W in *.
    assert (cf_face cf = f) by (rewrite <- pair_eta in Hse; apply (edge_unique (cell (cells m) i)); auto).
    exists q, cf. split; [lia|]. split; auto. split; auto. split; auto. split; auto. rewrite EF. cbn [f_left f_right f_a f_b]. split; auto. rewrite <- pair_eta. congruence.
Qed.
End Cases.

(** ** The two directions of an edge *)
Lemma metric_rev a b : a <> b -> face_metric b a = mkfm (vneg (fm_n (face_metric a b))) (fm_len (face_metric a b)).
Proof.
  intros H. unfold face_metric. cbn [fm_n fm_len].
  replace ((vy a - vy b) ^ 2 + (-1 * (vx a - vx b)) ^ 2) with ((vy b - vy a) ^ 2 + (-1 * (vx b - vx a)) ^ 2) by ring.
  assert (P : 0 < sqrt ((vy b - vy a) ^ 2 + (-1 * (vx b - vx a)) ^ 2)).
  { pose proof (norm2_pos _ (vsub_ne a b H)) as P. rewrite <- metric_len in P. exact P. }
  set (L := sqrt _) in *. clearbody L. f_equal. unfold vneg; cbn. f_equal; field; lra.
Qed.

(** flux through the directed segment from [a] to [b], per face, with the inner cell on its left side *)
Definition seg_flux (fl : flow) (a b rl rr : v2) (ul ur : st) : st :=
  sscal (fm_len (face_metric a b)) (face_law fl false (fm_n (face_metric a b)) rl rr ul ur grad0 grad0 ul ur).

Lemma face_law_rev fl so n rl rr cl cr gl gr l r : 1 < gam (fl_gas fl) -> (fl_flux fl = HLLC -> 5/4 <= gam (fl_gas fl)) ->
  physical (gam (fl_gas fl)) l -> physical (gam (fl_gas fl)) r -> unit_vec n ->
  face_law fl so (vneg n) rr rl cr cl gr gl r l = sneg (face_law fl so n rl rr cl cr gl gr l r).
Proof.
  intros Hg Hh Pl Pr U. unfold face_law. rewrite (C35_flux_conservative (fl_flux fl) (fl_gas fl) l r n Hg Hh Pl Pr U).
  destruct (fl_visc fl).
  - rewrite C50_conservative. apply st_eq; cbn; ring.
  - apply st_eq; cbn; ring.
Qed.

Lemma seg_flux_rev fl a b rl rr ul ur : a <> b -> 1 < gam (fl_gas fl) -> (fl_flux fl = HLLC -> 5/4 <= gam (fl_gas fl)) ->
  physical (gam (fl_gas fl)) ul -> physical (gam (fl_gas fl)) ur ->
  seg_flux fl b a rr rl ur ul = sneg (seg_flux fl a b rl rr ul ur).
Proof.
  intros H Hg Hh Pl Pr. unfold seg_flux. rewrite (metric_rev a b H). cbn [fm_n fm_len]. rewrite face_law_rev; auto.
  - apply st_eq; cbn; ring.
  - pose proof (metric_unit a b H) as U. unfold unit_vec. unfold dot2 in U. lra.
Qed.

Section Value.
Variables (m : umesh) (hs : list (nat * nat)) (X : arr v2) (ghost : nat -> v2) (S : smesh).
Hypothesis B : built m hs X ghost S.
Hypothesis D : distinct_ends m X.
Variables (fl : flow) (bc : nat -> flowbc) (u : arr st).
Hypothesis Hg : 1 < gam (fl_gas fl).
Hypothesis Hh : fl_flux fl = HLLC -> 5/4 <= gam (fl_gas fl).
Hypothesis PU : forall i, (i < nelem m)%nat -> physical (gam (fl_gas fl)) (aat u i).
Notation fluxes := (thru1 S fl bc u).

(** the flux through an edge, seen from the cell, in terms of what lies beyond it *)
Lemma out_value i f v : (i < nelem m)%nat -> (f < length (cell (cells m) i))%nat ->
  (exists q, nth_error hs q = Some (i, f) /\ out_edge S fluxes i f v = cget (seg_flux fl (aat X (fst (edge (cell (cells m) i) f))) (aat X (snd (edge (cell (cells m) i) f))) (aat (sm_rc S) i) (vsub (vscal 2 (face_mid (aat X (fst (edge (cell (cells m) i) f))) (aat X (snd (edge (cell (cells m) i) f))))) (aat (sm_rc S) i))
        (aat u i) (ghost_state (fl_gas fl) (bc q) (aat u i) (fm_n (face_metric (aat X (fst (edge (cell (cells m) i) f))) (aat X (snd (edge (cell (cells m) i) f))))))) v) \/
  (exists j, across (cells m) i f j /\ out_edge S fluxes i f v = cget (seg_flux fl (aat X (fst (edge (cell (cells m) i) f))) (aat X (snd (edge (cell (cells m) i) f))) (aat (sm_rc S) i) (aat (sm_rc S) j) (aat u i) (aat u j)) v) \/
  (exists q cf, nth_error (conns m) q = Some cf /\ cf_elem cf = i /\ cf_face cf = f /\ out_edge S fluxes i f v = cget (seg_flux fl (aat X (fst (edge (cell (cells m) i) f))) (aat X (snd (edge (cell (cells m) i) f))) (aat (sm_rc S) i) (ghost q) (aat u i) (aat u (nelem m + q)%nat)) v).
Proof.
  intros Hi Hf. destruct (built_ok _ _ _ _ _ B) as (p & e & ni & s & il & TO & OK & E1 & E2 & E3 & E4 & E5 & E6 & _ & _ & EG & _).
  pose proof (edge_cases m hs X ghost S B i f Hi Hf) as (Hk & EC). unfold out_edge. set (k := at2 (sm_EF S) i f) in *. cbv zeta in *.
  pose proof (lr_ne S k OK Hk) as LR. pose proof (so_met _ OK k Hk) as MT. rewrite E6 in MT.
  destruct EC as [(K & Eh & L & Ed)|[(K & L & Ac & Ed)|[(K & L & Ac & Ed)|(q & cf & K & Hq & Ec & C1 & C2 & L & Ed)]]].
  - left. exists k. split; auto. rewrite L, Nat.eqb_refl. destruct (Nat.eqb_spec (f_right (aat (sm_F S) k)) i); [congruence|]. rewrite Rminus_0_r. f_equal.
    rewrite <- Ed in *. cbn [fst snd]. unfold thru1, through, seg_flux, bghost, left_value, right_value. destruct (Nat.ltb_spec k (sm_nb S)); [|lia].
    rewrite MT, L. rewrite (so_bp _ OK k K), (so_mid _ OK k Hk), L, E6. reflexivity.
  - right; left. exists (f_right (aat (sm_F S) k)). split; auto. rewrite L, Nat.eqb_refl. destruct (Nat.eqb_spec (f_right (aat (sm_F S) k)) i); [congruence|]. rewrite Rminus_0_r. f_equal.
    rewrite <- Ed in *. cbn [fst snd]. unfold thru1, through, seg_flux, bghost, left_value, right_value. destruct (Nat.ltb_spec k (sm_nb S)); [lia|].
    rewrite MT, L. reflexivity.
  - right; left. exists (f_left (aat (sm_F S) k)). split; auto. rewrite L, Nat.eqb_refl. destruct (Nat.eqb_spec (f_left (aat (sm_F S) k)) i); [congruence|].
    assert (Hl : (f_left (aat (sm_F S) k) < nelem m)%nat) by apply Ac. pose proof (D i f Hi Hf) as DD.
    rewrite <- Ed in *. cbn [fst snd] in *.
    rewrite (seg_flux_rev fl (aat X (f_a (aat (sm_F S) k))) (aat X (f_b (aat (sm_F S) k))) (aat (sm_rc S) (f_left (aat (sm_F S) k))) (aat (sm_rc S) i) (aat u (f_left (aat (sm_F S) k))) (aat u i)) by (auto; congruence).
    unfold thru1, through, seg_flux, bghost, left_value, right_value. destruct (Nat.ltb_spec k (sm_nb S)); [lia|].
    rewrite MT, L. destruct v; cbn; ring.
  - right; right. exists q, cf. split; auto. split; auto. split; auto. rewrite L, Nat.eqb_refl. destruct (Nat.eqb_spec (f_right (aat (sm_F S) k)) i); [congruence|]. rewrite Rminus_0_r. f_equal.
    rewrite <- Ed in *. cbn [fst snd]. unfold thru1, through, seg_flux, bghost, left_value, right_value. destruct (Nat.ltb_spec k (sm_nb S)); [lia|].
    rewrite MT, L, (so_con _ OK k) by lia. replace (k - sm_nb S - sm_ni S)%nat with q by lia. rewrite E1, EG by lia. reflexivity.
Qed.
End Value.

(** ** A rank's mesh against the whole mesh *)
Section Local.
Variables (g : gmesh) (hs : list (nat * nat)) (dist : arr nat) (rank : nat) (lm : lmesh).
Hypothesis G : global_ok g hs.
Hypothesis Hd : alen dist = nelem (g_m g).
Variables (jc : nat -> list nat) (jr : nat -> list Z) (ji : nat -> nat) (jx : nat -> v2) (j0 : nat -> nat -> Z).
Hypothesis RM : restrictMesh g dist rank jc jr ji jx j0 = Some (Val lm).
Notation cs := (cells (g_m g)).
Notation el l := (aat (l_eglob lm) l).

(** what the restriction gives, in terms of the global mesh only *)
Lemma restr_facts :
  (forall l, (l < nelem (l_m lm))%nat -> (el l < nelem (g_m g))%nat /\ aat dist (el l) = rank /\
     length (cell (cells (l_m lm)) l) = length (cell cs (el l)) /\
     (forall f, (f < length (cell cs (el l)))%nat ->
        aat (l_X lm) (fst (edge (cell (cells (l_m lm)) l) f)) = aat (g_X g) (fst (edge (cell cs (el l)) f)) /\
        aat (l_X lm) (snd (edge (cell (cells (l_m lm)) l) f)) = aat (g_X g) (snd (edge (cell cs (el l)) f))) /\
     vsum (aat (l_X lm)) (cell (cells (l_m lm)) l) = vsum (aat (g_X g)) (cell cs (el l))) /\
  (forall l k, (l < nelem (l_m lm))%nat -> (k < nelem (l_m lm))%nat -> el l = el k -> l = k) /\
  (forall i, (i < nelem (g_m g))%nat -> aat dist i = rank -> exists l, (l < nelem (l_m lm))%nat /\ el l = i) /\
  (forall l f k, across (cells (l_m lm)) l f k -> across cs (el l) f (el k)) /\
  (forall cf, In cf (conns (l_m lm)) -> exists j, interface g dist rank (el (cf_elem cf)) (cf_face cf) j /\
      cf_gelem cf = Z.of_nat j /\ cf_rank cf = Z.of_nat (aat dist j) /\ cf_gface cf = Z.of_nat (at2 (elemface (g_t g)) (el (cf_elem cf)) (cf_face cf)) /\ (cf_elem cf < nelem (l_m lm))%nat) /\
  (forall hs' q bf l f, tiled (l_m lm) hs' -> nth_error (bfaces (l_m lm)) q = Some bf -> nth_error hs' q = Some (l, f) ->
      exists p gb, nth_error (bfaces (g_m g)) p = Some gb /\ nth_error hs p = Some (el l, f) /\ btg bf = btg gb) /\
  alen (l_eglob lm) = nelem (l_m lm) /\ alen (l_X lm) = npoin (l_m lm).
Proof.
  destruct (restrict_ok g hs G dist rank Hd jc jr ji jx j0) as (E & B & lm1 & HE & HB1 & HB2 & R1 & M & LX & Rg & L & P). rewrite RM in R1. injection R1 as <-.
  assert (LL : alen (l_eglob lm) = length (own g dist rank)) by (rewrite <- alist_length, L; auto).
  assert (AL : forall l, (l < length (own g dist rank))%nat -> el l = gc g dist rank l).
  { intros l Hl. unfold gc. rewrite <- L. unfold alist. rewrite (map_nth_in _ _ (aat (l_eglob lm)) (seq 0 (alen (l_eglob lm))) l 0%nat 0%nat) by (rewrite seq_length; lia). rewrite seq_nth by lia. auto. }
  assert (LLX : alen (l_X lm) = length (pts g dist rank)) by (rewrite <- alist_length, LX, map_length; auto).
  assert (AX : forall v, In v (pts g dist rank) -> aat (l_X lm) (idx (pts g dist rank) v) = aat (g_X g) v).
  { intros v Hv. destruct (idx_ok _ _ Hv) as (I1 & I2). set (t := idx _ v) in *.
    assert (Q : nth t (alist (l_X lm)) vzero = nth t (map (aat (g_X g)) (pts g dist rank)) vzero) by (rewrite LX; auto).
    unfold alist in Q. rewrite (map_nth_in _ _ (aat (l_X lm)) (seq 0 (alen (l_X lm))) t vzero 0%nat) in Q by (rewrite seq_length; lia).
    rewrite (map_nth_in _ _ (aat (g_X g)) (pts g dist rank) t vzero 0%nat) in Q by auto. rewrite seq_nth in Q by lia. rewrite I2 in Q. exact Q. }
  assert (NL : nelem (l_m lm) = length (own g dist rank)) by (rewrite M; unfold nelem; cbn [cells]; apply lcells_len).
  rewrite NL. rewrite M. cbn [cells conns bfaces npoin].
  split; [|split; [|split; [|split; [|split; [|split; [|split]]]]]].
  - intros l Hl. rewrite AL by auto. split; [apply gc_lt; auto|]. split; [apply gc_rank; auto|]. split; [apply lcell_len; auto|]. split.
    + intros f Hf. rewrite ledge by auto. cbn [fst snd]. destruct (edge_pts g dist rank l f Hl Hf). split; apply AX; auto.
    + rewrite lcell by auto. unfold vsum. rewrite !rsum_map. f_equal; apply rsum_ext; intros x Hx; rewrite AX; auto; eapply cell_pts; eauto.
  - intros l k Hl Hk. rewrite !AL by auto. apply gc_inj; auto.
  - intros i Hi Hr. destruct (gc_onto g dist rank i Hi Hr) as (I1 & I2). exists (idx (own g dist rank) i). rewrite AL by auto. auto.
  - intros l f k A. destruct (across_lt g dist rank l f k A) as (A1 & A2 & A3). rewrite !AL by auto. apply lacross; auto.
  - intros cf Hcf. apply (rec_iff g hs G dist rank Hd E HE B HB1 HB2) in Hcf. destruct Hcf as (l & f & j & Hl & I & S & ->). cbn [cf_elem cf_face cf_gelem cf_rank cf_gface].
    rewrite AL by auto. exists j. auto.
  - intros hs' q bf l f T Eb Eh.
    assert (Eb' : nth_error (bfaces (mkmesh (length (pts g dist rank)) (lcells g dist rank) (maxnfael (g_m g)) (lbl g hs dist rank) (cfaces g dist rank E B))) q = Some bf) by (exact Eb).
    pose proof (tl_bor _ _ T q bf (l, f) Eb' Eh) as TB. cbn [cells fst snd] in TB. destruct (gm_hosts _ _ (tl_good _ _ T)) as (_ & HH). destruct (HH q bf (l, f) Eb' Eh) as (_ & _ & H1 & H2 & _). cbn [cells fst snd] in H1, H2.
    apply nth_error_In in Eb. unfold lbl in Eb. apply in_map_iff in Eb. destruct Eb as ((gb & h) & <- & Hx). cbn [fst] in *.
    pose proof (lhosted g hs G dist rank gb h Hx) as (_ & L2 & L3 & L4). pose proof (lbor g hs G dist rank gb h Hx) as L5.
    destruct (ob_host g hs G dist rank gb h Hx) as (O1 & O2 & O3 & O4 & O5). cbv zeta in *.
    cbn [rename_bf b0 b1 btg] in TB |- *.
    assert (l = idx (own g dist rank) (fst h)).
    { apply L4. rewrite lcells_len in H1. destruct (Pf_Restrict.edge_in _ _ H2) as (J1 & J2). rewrite <- TB in J1, J2. cbn [fst snd] in J1, J2. split; auto. rewrite lcells_len; auto. }
    subst l. rewrite lcells_len in H1. rewrite AL by auto. rewrite O2.
    assert (f = snd h). { destruct (cell_valid _ _ _ (lvalid g hs G dist rank) (eq_ind_r (fun n => (idx (own g dist rank) (fst h) < n)%nat) H1 (lcells_len g dist rank))) as (V1 & V2 & _).
      apply (edge_unique (cell (lcells g dist rank) (idx (own g dist rank) (fst h)))); auto. left. rewrite <- TB, <- L5. reflexivity. }
    subst f. apply ob_in in Hx. destruct Hx as ((p & P1 & P2) & _). exists p, gb. split; auto. split; auto. rewrite <- pair_eta. auto.
  - auto.
  - auto.
Qed.
End Local.

Lemma host_no_across m hs q i f j : tiled m hs -> nth_error hs q = Some (i, f) -> ~ across (cells m) i f j.
Proof.
  intros T Eh (A1 & A2 & A3 & A4 & h & A5 & A6). destruct (gm_hosts _ _ (tl_good _ _ T)) as (LH & HH).
  destruct (nth_error_some _ (bfaces m) q) as (bf & Eb). { assert (q < length hs)%nat by (apply nth_error_Some; congruence). unfold nbface in LH. lia. }
  destruct (HH q bf (i, f) Eb Eh) as (_ & _ & _ & _ & H3 & H4). cbn [fst snd] in *. apply A4. apply H4.
  pose proof (tl_bor _ _ T q bf (i, f) Eb Eh) as TB. cbn [fst snd] in TB. rewrite <- TB in A6.
  destruct (Pf_Restrict.edge_in _ _ A5) as (J1 & J2). split; auto.
  destruct A6 as [A6|A6]; rewrite <- TB in *; inversion A6 as [[Q1 Q2]]; rewrite Q1, Q2; auto.
Qed.
Lemma serial_no_conn g hs cf : global_ok g hs -> In cf (conns (g_m g)) -> False.
Proof. intros G H. rewrite (gl_serial _ _ G) in H. exact H. Qed.
Lemma nodup_nth_error {A} (l : list A) p q x : NoDup l -> nth_error l p = Some x -> nth_error l q = Some x -> p = q.
Proof. intros N Hp Hq. apply (proj1 (NoDup_nth_error l) N). apply nth_error_Some. congruence. congruence. Qed.

(** The mesh [lm] is made of cells of the whole mesh [g], with their geometry, faces, neighbours and boundary tags. Faces of [lm] that are neither boundary faces nor
    shared by two of its cells name the cell of [g] beyond them. [hs]: the cell faces of [g] that are boundary faces. *)
Definition sub_mesh (g : gmesh) (hs : list (nat * nat)) (lm : lmesh) : Prop := let el l := aat (l_eglob lm) l in
  conns (g_m g) = [] /\
  (forall l, (l < nelem (l_m lm))%nat -> (el l < nelem (g_m g))%nat /\
     length (cell (cells (l_m lm)) l) = length (cell (cells (g_m g)) (el l)) /\
     (forall f, (f < length (cell (cells (g_m g)) (el l)))%nat ->
        aat (l_X lm) (fst (edge (cell (cells (l_m lm)) l) f)) = aat (g_X g) (fst (edge (cell (cells (g_m g)) (el l)) f)) /\
        aat (l_X lm) (snd (edge (cell (cells (l_m lm)) l) f)) = aat (g_X g) (snd (edge (cell (cells (g_m g)) (el l)) f))) /\
     vsum (aat (l_X lm)) (cell (cells (l_m lm)) l) = vsum (aat (g_X g)) (cell (cells (g_m g)) (el l))) /\
  (forall l f k, across (cells (l_m lm)) l f k -> across (cells (g_m g)) (el l) f (el k)) /\
  (forall cf, In cf (conns (l_m lm)) -> exists j, across (cells (g_m g)) (el (cf_elem cf)) (cf_face cf) j /\ cf_gelem cf = Z.of_nat j /\ (cf_elem cf < nelem (l_m lm))%nat) /\
  (forall hs' q bf l f, tiled (l_m lm) hs' -> nth_error (bfaces (l_m lm)) q = Some bf -> nth_error hs' q = Some (l, f) ->
      exists p gb, nth_error (bfaces (g_m g)) p = Some gb /\ nth_error hs p = Some (el l, f) /\ btg bf = btg gb).
Lemma restr_sub g hs dist rank lm : global_ok g hs -> alen dist = nelem (g_m g) -> forall jc jr ji jx j0, restrictMesh g dist rank jc jr ji jx j0 = Some (Val lm) -> sub_mesh g hs lm.
Proof.
  intros G Hd jc jr ji jx j0 RM. destruct (restr_facts g hs dist rank lm G Hd jc jr ji jx j0 RM) as (F1 & F2 & F3 & F4 & F5 & F6 & _). split; [apply G|]. split; [|split; [auto|split; [|auto]]].
  - intros l Hl. destruct (F1 l Hl) as (A1 & A2 & A3). auto.
  - intros cf Hc. destruct (F5 cf Hc) as (j & (I1 & _) & I2 & _ & _ & I3). exists j. auto.
Qed.
Lemma no_conn g cf : conns (g_m g) = [] -> In cf (conns (g_m g)) -> False.
Proof. intros ->. auto. Qed.

Section Same.
Variables (g : gmesh) (hs : list (nat * nat)) (lm : lmesh).
Hypothesis SM : sub_mesh g hs lm.
Variables (gh : nat -> v2) (S S' : smesh) (hs' : list (nat * nat)) (gh' : nat -> v2).
Hypothesis B : built (g_m g) hs (g_X g) gh S.
Hypothesis B' : built (l_m lm) hs' (l_X lm) gh' S'.
Hypothesis HG : forall k cf, nth_error (conns (l_m lm)) k = Some cf -> gh' k = aat (sm_rc S) (Z.to_nat (cf_gelem cf)).
Hypothesis D : distinct_ends (g_m g) (g_X g).
Variables (fl : flow) (bc bc' : nat -> flowbc) (u u' : arr st).
Hypothesis Hg : 1 < gam (fl_gas fl).
Hypothesis Hh : fl_flux fl = HLLC -> 5/4 <= gam (fl_gas fl).
Hypothesis PU : forall i, (i < nelem (g_m g))%nat -> physical (gam (fl_gas fl)) (aat u i).
Hypothesis BC : forall q bf t r, nth_error (bfaces (g_m g)) q = Some bf -> btg bf = t :: r -> mfind (fl_bcs fl) t = Some (bc q).
Hypothesis BT : forall bf, In bf (bfaces (g_m g)) -> btg bf <> [].
Hypothesis BC' : forall q bf t r, nth_error (bfaces (l_m lm)) q = Some bf -> btg bf = t :: r -> mfind (fl_bcs fl) t = Some (bc' q).
Hypothesis U1 : forall l, (l < nelem (l_m lm))%nat -> aat u' l = aat u (aat (l_eglob lm) l).
Hypothesis U2 : forall k cf, nth_error (conns (l_m lm)) k = Some cf -> aat u' (nelem (l_m lm) + k)%nat = aat u (Z.to_nat (cf_gelem cf)).

Lemma local_distinct : distinct_ends (l_m lm) (l_X lm).
Proof.
  destruct SM as (SER & F1 & F4 & F5 & F6).
  intros l f Hl Hf. destruct (F1 l Hl) as (A1 & A3 & A4 & _). rewrite A3 in Hf. destruct (A4 f Hf) as (X1 & X2). rewrite X1, X2. apply D; auto.
Qed.

Lemma local_centre l : (l < nelem (l_m lm))%nat -> aat (sm_rc S') l = aat (sm_rc S) (aat (l_eglob lm) l).
Proof.
  intros Hl. destruct SM as (SER & F1 & F4 & F5 & F6). destruct (F1 l Hl) as (A1 & A3 & A4 & A5).
  destruct (built_ok _ _ _ _ _ B) as (p & e & ni & s & il & _ & _ & _ & _ & _ & _ & _ & _ & _ & EC & _).
  destruct (built_ok _ _ _ _ _ B') as (p' & e' & ni' & s' & il' & _ & _ & _ & _ & _ & _ & _ & _ & _ & EC' & _).
  rewrite EC, EC' by auto. cbv zeta. rewrite A5, A3. reflexivity.
Qed.

Lemma same_edges l f v : (l < nelem (l_m lm))%nat -> (f < length (cell (cells (l_m lm)) l))%nat ->
  out_edge S' (thru1 S' fl bc' u') l f v = out_edge S (thru1 S fl bc u) (aat (l_eglob lm) l) f v.
Proof.
  intros Hl Hf. destruct SM as (SER & F1 & F4 & F5 & F6).
  destruct (F1 l Hl) as (A1 & A3 & A4 & A5). assert (Hf' := Hf). rewrite A3 in Hf'. destruct (A4 f Hf') as (X1 & X2).
  assert (PU' : forall i, (i < nelem (l_m lm))%nat -> physical (gam (fl_gas fl)) (aat u' i)). { intros i Hi. rewrite U1 by auto. apply PU. apply F1; auto. }
  pose proof B as (T & _). pose proof B' as (T' & _).
  pose proof (out_value _ _ _ _ _ B' local_distinct fl bc' u' Hg Hh PU' l f v Hl Hf) as V'.
  pose proof (out_value _ _ _ _ _ B D fl bc u Hg Hh PU _ f v A1 Hf') as V.
  rewrite X1, X2, (local_centre l Hl), (U1 l Hl) in V'.
  destruct V' as [(q & Q1 & Q2)|[(j & J1 & J2)|(q & cf & Q1 & Q2 & Q3 & Q4)]].
  - destruct (nth_error_some _ (bfaces (l_m lm)) q) as (bf & Eb).
    { assert (q < length hs')%nat by (apply nth_error_Some; congruence). destruct (gm_hosts _ _ (tl_good _ _ T')) as (LH & _). unfold nbface in LH. lia. }
    destruct (F6 hs' q bf l f T' Eb Q1) as (p & gb & P1 & P2 & P3).
    destruct V as [(p' & R1 & R2)|[(j & J1 & J2)|(p' & cf & R1 & _)]].
    + pose proof (tl_nodup _ _ T) as ND. apply nodup_app in ND. destruct ND as (ND & _). pose proof (nodup_nth_error _ _ _ _ ND P2 R1). subst p'.
      rewrite Q2, R2. assert (bc' q = bc p); [|congruence].
      destruct (btg gb) as [|t r] eqn:Et; [exfalso; eapply BT; [eapply nth_error_In; exact P1|exact Et]|].
      pose proof (BC p gb t r P1 Et). pose proof (BC' q bf t r Eb P3). congruence.
    + exfalso. eapply host_no_across; [exact T|exact P2|exact J1].
    + exfalso. eapply (no_conn g); [exact SER|eapply nth_error_In; exact R1].
  - pose proof (F4 l f j J1) as Ac. assert (Hj : (j < nelem (l_m lm))%nat) by apply J1.
    destruct V as [(p' & R1 & R2)|[(j' & R1 & R2)|(p' & cf & R1 & _)]].
    + exfalso. eapply host_no_across; [exact T|exact R1|exact Ac].
    + pose proof (gm_conf _ _ (tl_good _ _ T) _ _ _ _ R1 Ac). subst j'. rewrite J2, R2. rewrite (local_centre j Hj), (U1 j Hj). reflexivity.
    + exfalso. eapply (no_conn g); [exact SER|eapply nth_error_In; exact R1].
  - destruct (F5 cf (nth_error_In _ _ Q1)) as (j & I1 & I2 & _). rewrite Q2, Q3 in I1.
    destruct V as [(p' & R1 & R2)|[(j' & R1 & R2)|(p' & cf' & R1 & _)]].
    + exfalso. eapply host_no_across; [exact T|exact R1|exact I1].
    + pose proof (gm_conf _ _ (tl_good _ _ T) _ _ _ _ R1 I1). subst j'. rewrite Q4, R2. rewrite (HG q cf Q1), (U2 q cf Q1), I2, Nat2Z.id. reflexivity.
    + exfalso. eapply (no_conn g); [exact SER|eapply nth_error_In; exact R1].
Qed.

Lemma same_outflow l v : (l < nelem (l_m lm))%nat -> outflow S' (thru1 S' fl bc' u') l v = outflow S (thru1 S fl bc u) (aat (l_eglob lm) l) v.
Proof.
  intros Hl. destruct SM as (SER & F1 & F4 & F5 & F6). destruct (F1 l Hl) as (A1 & A3 & _).
  destruct (built_ok _ _ _ _ _ B) as (p & e & ni & s & il & _ & OK & E1 & _ & _ & _ & _ & _ & _ & _ & _ & En & _).
  destruct (built_ok _ _ _ _ _ B') as (p' & e' & ni' & s' & il' & _ & OK' & E1' & _ & _ & _ & _ & _ & _ & _ & _ & En' & _).
  rewrite (outflow_edges S' _ l v OK') by lia. rewrite (outflow_edges S _ _ v OK) by lia. rewrite En, En', A3 by auto.
  apply rsum_ext. intros f Hf. apply in_seq in Hf. apply same_edges; auto. lia.
Qed.
End Same.

(** ** Sums over pairs *)
Lemma rel_cancel {A} (P : A -> A -> Prop) (f : A -> R) : forall n (L : list A), (length L <= n)%nat -> NoDup L ->
  (forall x, In x L -> exists y, In y L /\ P x y) -> (forall x y, P x y -> P y x) -> (forall x y z, P x y -> P x z -> y = z) ->
  (forall x y, P x y -> f y = - f x) -> rsum f L = 0.
Proof.
  induction n as [|n IH]; intros [|x L] HL ND HE HS HU HF; cbn [length] in HL; try reflexivity; try lia.
  inversion ND as [|? ? Hx ND']; subst. destruct (HE x (or_introl eq_refl)) as (y & Hy & Pxy). cbn [rsum].
  destruct Hy as [<-|Hy].
  - pose proof (HF _ _ Pxy) as F. rewrite (IH L); auto; [lra|lia|].
    intros z Hz. destruct (HE z (or_intror Hz)) as (w & [<-|Hw] & Pz); [|eauto]. exfalso. apply HS in Pz. pose proof (HU _ _ _ Pz Pxy). subst. auto.
  - destruct (in_split _ _ Hy) as (l1 & l2 & ->). pose proof (HF _ _ Pxy) as F. apply NoDup_remove in ND'. destruct ND' as (ND1 & ND2).
    rewrite rsum_app. cbn [rsum]. rewrite F. assert (Q : rsum f (l1 ++ l2) = 0).
    { apply IH; auto. rewrite app_length in *. cbn in HL. lia. intros z Hz.
      assert (Hz' : In z (l1 ++ y :: l2)) by (rewrite in_app_iff in *; cbn; tauto).
      destruct (HE z (or_intror Hz')) as (w & Hw & Pz). exists w. split; auto. destruct Hw as [<-|Hw]; [|apply in_app_or in Hw; destruct Hw as [Hw|[<-|Hw]]]; [|apply in_or_app; auto| |apply in_or_app; auto].
      - exfalso. apply HS in Pz. pose proof (HU _ _ _ Pz Pxy). subst. exact (ND2 Hz).
      - exfalso. apply HS in Pz. apply HS in Pxy. pose proof (HU _ _ _ Pz Pxy). subst. apply Hx. apply in_or_app. cbn. tauto. }
    rewrite rsum_app in Q. lra.
Qed.

(** ** The two copies of an interface face *)
Section Two.
Variables (g : gmesh) (hs : list (nat * nat)).
Hypothesis G : global_ok g hs.
Notation cs := (cells (g_m g)).

Lemma gface_sides i f j : across cs i f j -> let fc := aat (intfac (g_t g)) (at2 (elemface (g_t g)) i f) in
  same_edge (f_a fc, f_b fc) (edge (cell cs i) f) /\ ((f_left fc = i /\ f_right fc = j) \/ (f_right fc = i /\ f_left fc = j)).
Proof.
  intros A. destruct (gl_topo _ _ G) as (p & e & ni & il & T). assert (A' := A). destruct A' as (A1 & A2 & A3 & _).
  destruct (to_good _ _ _ _ _ _ _ T i f A1 A2) as (_ & Se & W). destruct (to_nbr _ _ _ _ _ _ _ T) as (_ & _ & N).
  destruct (N i f A1 A2) as (z & Z1 & Z2). apply (Z2 j A3) in A. subst z. split; auto.
  destruct W as [(W1 & W2) | (W1 & W2)]; rewrite Z1 in W2; apply Nat2Z.inj in W2; auto.
Qed.

Lemma edge_swap i f j f' : across cs i f j -> (f' < length (cell cs j))%nat -> same_edge (edge (cell cs i) f) (edge (cell cs j) f') ->
  edge (cell cs j) f' = (snd (edge (cell cs i) f), fst (edge (cell cs i) f)).
Proof. intros (A1 & A2 & A3 & A4 & _) Hf' Se. apply (tl_or _ _ (gl_tiled _ _ G) i f j f'); auto. Qed.

Lemma same_edge_two (x a b : nat * nat) : same_edge x a -> same_edge x b -> same_edge a b.
Proof. unfold same_edge. destruct x, a, b; cbn. intros [E|E] [F|F]; inversion E; inversion F; subst; auto. Qed.

Lemma two_sides dist r r' i f j i' f' j' : interface g dist r i f j -> interface g dist r' i' f' j' -> aat dist j = r' ->
  at2 (elemface (g_t g)) i f = at2 (elemface (g_t g)) i' f' ->
  i' = j /\ j' = i /\ edge (cell cs i') f' = (snd (edge (cell cs i) f), fst (edge (cell cs i) f)).
Proof.
  intros (A & I1 & I2) (A' & I1' & I2') Hr Q. destruct (gface_sides i f j A) as (S1 & W). destruct (gface_sides i' f' j' A') as (S1' & W').
  rewrite <- Q in S1', W'. assert (i' = j /\ j' = i) as (-> & ->).
  { destruct W as [(W1 & W2) | (W1 & W2)], W' as [(W1' & W2') | (W1' & W2')]; split; congruence. }
  split; auto. split; auto. apply edge_swap; auto. apply A'. eapply same_edge_two; eauto.
Qed.
Lemma one_side dist r i f j i' f' j' : interface g dist r i f j -> interface g dist r i' f' j' ->
  at2 (elemface (g_t g)) i f = at2 (elemface (g_t g)) i' f' -> i' = i /\ f' = f.
Proof.
  intros (A & I1 & I2) (A' & I1' & I2') Q. destruct (gface_sides i f j A) as (S1 & W). destruct (gface_sides i' f' j' A') as (S1' & W').
  rewrite <- Q in S1', W'. assert (i' = i). { destruct W as [(W1 & W2) | (W1 & W2)], W' as [(W1' & W2') | (W1' & W2')]; congruence. }
  subst i'. split; auto. destruct (cell_valid _ _ i (gm_valid _ _ (tl_good _ _ (gl_tiled _ _ G))) (proj1 A)) as (N3 & Nd & _).
  apply (edge_unique (cell cs i)); auto. apply A'. apply A. eapply same_edge_two; eauto.
Qed.
End Two.

Lemma received S fl gs rs gg rf u ul0 ur0 res G0 jp dt out : compute_residual2 S fl gs rs gg rf u ul0 ur0 res G0 jp dt = Some out ->
  (forall k, (sm_nb S + sm_ni S <= k)%nat -> aat (ro_right out) k = rf (k - sm_nb S - sm_ni S)%nat) /\
  (forall i, (sm_ne S <= i)%nat -> aat (ro_grad out) i = gg (i - sm_ne S)%nat).
Proof.
  intros E. unfold compute_residual2 in E. do 6 step_bind E. destruct x4 as (ul3 & ur3). do 7 step_bind E. injection E as <-. cbn [ro_right ro_grad]. split.
  - intros k Hk. unfold recv_faces. cbn [aat]. destruct (Nat.leb_spec (sm_nb S + sm_ni S) k); [reflexivity|lia].
  - intros i Hi. unfold ghost_gradients. destruct (is_weno rs); cbn [aat]; destruct (Nat.ltb_spec i (sm_ne S)); try lia; reflexivity.
Qed.

Section Pairs.
Variables (g : gmesh) (hs : list (nat * nat)) (dist : arr nat) (nr : nat) (lm : nat -> lmesh).
Hypothesis G : global_ok g hs.
Hypothesis Hd : alen dist = nelem (g_m g).
Hypothesis Hr : forall i, (i < nelem (g_m g))%nat -> (aat dist i < nr)%nat.
Variables (jc : nat -> nat -> list nat) (jr : nat -> nat -> list Z) (ji : nat -> nat -> nat) (jx : nat -> nat -> v2) (j0 : nat -> nat -> nat -> Z).
Hypothesis RM : forall r, (r < nr)%nat -> restrictMesh g dist r (jc r) (jr r) (ji r) (jx r) (j0 r) = Some (Val (lm r)).
Hypothesis SE : forall r i f j, (r < nr)%nat -> interface g dist r i f j -> seen g hs dist r i f.

Notation copies := (copies nr lm).

Lemma copies_sym x y : copies x y -> copies y x.
Proof. intros (cf & cf' & A & B & C & D & E & F & H). exists cf', cf. repeat split; auto. Qed.

Lemma copies_exist r k cf : (r < nr)%nat -> nth_error (conns (l_m (lm r))) k = Some cf -> exists y, copies (r, k) y.
Proof.
  intros Hr' Ec. destruct (restr_facts g hs dist r (lm r) G Hd _ _ _ _ _ (RM r Hr')) as (_ & _ & _ & _ & F5 & _).
  destruct (F5 cf (nth_error_In _ _ Ec)) as (j & I & I2 & I3 & I4 & _). assert (Hj : (aat dist j < nr)%nat) by (apply Hr; apply I).
  destruct (C17_matching g hs dist r (aat dist j) G Hd _ _ _ _ _ _ _ _ _ _ (lm r) (lm (aat dist j)) (RM r Hr') (RM _ Hj)) with (cf := cf) as (cf' & C1 & C2 & C3 & _).
  - intros i f j'. apply SE; auto.
  - eapply nth_error_In; eauto.
  - auto.
  - apply In_nth_error in C1. destruct C1 as (k' & C1). exists (aat dist j, k'). exists cf, cf'. cbn [fst snd]. repeat split; auto.
Qed.

Lemma copies_unique x y z : copies x y -> copies x z -> y = z.
Proof.
  intros (cf & cf' & A1 & A2 & A3 & A4 & A5 & A6 & A7) (cg & cg' & B1 & B2 & B3 & B4 & B5 & B6 & B7).
  destruct x as (r & k), y as (r' & k'), z as (r2 & k2). cbn [fst snd] in *. rewrite A3 in B3. injection B3 as <-.
  assert (r2 = r') by (rewrite A5 in B5; apply Nat2Z.inj in B5; auto). subst r2. f_equal.
  destruct (restr_facts g hs dist r' (lm r') G Hd _ _ _ _ _ (RM r' A2)) as (_ & F2 & _ & _ & F5 & _).
  destruct (F5 cf' (nth_error_In _ _ A4)) as (j & I & I2 & I3 & I4 & I5). destruct (F5 cg' (nth_error_In _ _ B4)) as (j2 & J & J2 & J3 & J4 & J5).
  destruct (one_side g hs G dist r' _ _ _ _ _ _ I J) as (Q1 & Q2). { apply Nat2Z.inj. rewrite <- I4, <- J4, <- A7, <- B7. reflexivity. }
  apply F2 in Q1; auto.
  destruct (C17_connectivity_faces g hs dist r' G Hd (jc r') (jr r') (ji r') (jx r') (j0 r')) as (lm' & R' & ND & _). rewrite (RM r' A2) in R'. injection R' as <-.
  apply (nodup_nth_error _ k' k2 (cf_elem cf', cf_face cf') ND).
  - rewrite nth_error_map, A4. reflexivity.
  - rewrite nth_error_map, B4. cbn. congruence.
Qed.

(** geometry of the two copies *)
Lemma copies_geom r k r' k' cf cf' : copies (r, k) (r', k') -> nth_error (conns (l_m (lm r))) k = Some cf -> nth_error (conns (l_m (lm r'))) k' = Some cf' ->
  let e := edge (cell (cells (l_m (lm r))) (cf_elem cf)) (cf_face cf) in let e' := edge (cell (cells (l_m (lm r'))) (cf_elem cf')) (cf_face cf') in
  aat (l_X (lm r')) (fst e') = aat (l_X (lm r)) (snd e) /\ aat (l_X (lm r')) (snd e') = aat (l_X (lm r)) (fst e) /\
  (cf_elem cf < nelem (l_m (lm r)))%nat /\ (cf_elem cf' < nelem (l_m (lm r')))%nat /\
  aat (l_eglob (lm r')) (cf_elem cf') = Z.to_nat (cf_gelem cf) /\
  (distinct_ends (g_m g) (g_X g) -> aat (l_X (lm r)) (fst e) <> aat (l_X (lm r)) (snd e)).
Proof.
  intros (c & c' & A1 & A2 & A3 & A4 & A5 & A6 & A7) E E'. cbn [fst snd] in *. rewrite E in A3. injection A3 as <-. rewrite E' in A4. injection A4 as <-.
  destruct (restr_facts g hs dist r (lm r) G Hd _ _ _ _ _ (RM r A1)) as (F1 & _ & _ & _ & F5 & _).
  destruct (restr_facts g hs dist r' (lm r') G Hd _ _ _ _ _ (RM r' A2)) as (F1' & _ & _ & _ & F5' & _).
  destruct (F5 cf (nth_error_In _ _ E)) as (j & I & I2 & I3 & I4 & I5). destruct (F5' cf' (nth_error_In _ _ E')) as (j' & J & J2 & J3 & J4 & J5).
  destruct (two_sides g hs G dist r r' _ _ _ _ _ _ I J) as (Q1 & Q2 & Q3).
  { apply Nat2Z.inj. rewrite <- I3, <- A5. reflexivity. } { apply Nat2Z.inj. rewrite <- I4, <- J4. auto. }
  destruct (F1 _ I5) as (_ & _ & _ & X1 & _). destruct (F1' _ J5) as (_ & _ & _ & X1' & _).
  destruct (X1 (cf_face cf) ltac:(apply I)) as (Y1 & Y2). destruct (X1' (cf_face cf') ltac:(apply J)) as (Y1' & Y2'). cbv zeta.
  rewrite Y1, Y2, Y1', Y2', Q3. cbn [fst snd]. split; auto. split; auto. split; auto. split; auto. split. rewrite Q1, I2, Nat2Z.id. auto.
  intros D. apply D. apply I. apply I.
Qed.
End Pairs.
