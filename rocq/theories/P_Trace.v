(** Properties C19, C20: exchange of trace values between ranks. *)
From Coq Require Import List Arith ZArith Bool Lia Reals.
From Verif Require Import Base M_Mesh M_Async Pf_Async M_Trace Pf_Trace BaseR S_Mesh Pf_Esuel Pf_Host Pf_Faces Pf_Topo Pf_Incid Pf_Full M_Part Pf_Part Pf_Restrict Pf_Part2 P_Part.
Import ListNotations.
Open Scope nat_scope.

Section C19.
Context (T : Type) (t0 : T) (nvars : nat) (ranks : list Z) (rms : Z -> rmesh) (jm : Z -> nat -> nat).
Context (user : nat -> Z -> arr T * arr T -> arr T * arr T) (eager : Z -> Z -> nat -> bool) (rounds : nat).

(** an execution of all ranks: the constructor of the trace vector, then rounds-1 updates with arbitrary work between them *)
Definition trace_exec (n : nat) (s : sys (tmsg T) (option (tvec T))) : Prop :=
  exec (t_nbs rms jm) (t_out T t0 nvars rms user) (t_upd T t0 nvars rms user) eager rounds ranks
       (start (t_init T t0 nvars rms jm)) n s.
(** rank [r] can move in state [s] *)
Definition can_move (r : Z) (s : sys (tmsg T) (option (tvec T))) : Prop :=
  exists s', step (t_nbs rms jm) (t_out T t0 nvars rms user) (t_upd T t0 nvars rms user) eager rounds r s = Some s'.
End C19.

(** What is required of the meshes: the connectivity faces pair up (C17) and the local face numbering has room for them;
    the program keeps the sizes of the arrays it is given. *)
Definition trace_meshes (ranks : list Z) (rms : Z -> rmesh) : Prop :=
  paired ranks (fun r => rm_cf (rms r)) /\
  forall r, In r ranks -> rm_fstart (rms r) + length (rm_cf (rms r)) <= rm_naface (rms r).
Definition keeps_size {T} (user : nat -> Z -> arr T * arr T -> arr T * arr T) : Prop :=
  forall k r a b, alen (fst (user k r (a, b))) = alen a /\ alen (snd (user k r (a, b))) = alen b.

(** C19. Take any two reachable states, possibly of different executions with different message buffering: in [a] rank d is about to do or
    doing update k, in [b] rank r has finished it. The right value of r on each shared face is the left value that d had. *)
Theorem C19_trace_exchange : forall T (t0 : T) nvars ranks rms jm user eager eager' rounds n n' a b,
  trace_meshes ranks rms -> keeps_size user ->
  trace_exec T t0 nvars ranks rms jm user eager rounds n a -> trace_exec T t0 nvars ranks rms jm user eager' rounds n' b ->
  forall k r d, In r ranks -> In d ranks -> l_round (loc_of a d) = S k -> l_round (loc_of b r) = S (S k) ->
  exists ta tb, l_mem (loc_of a d) = Some ta /\ l_mem (loc_of b r) = Some tb /\
    let sent := fst (user k d (tv_left ta, tv_right ta)) in
    alen sent = rm_naface (rms d) * nvars /\ alen (tv_right tb) = rm_naface (rms r) * nvars /\
    forall i j ci cj v, nth_error (rm_cf (rms r)) i = Some ci -> nth_error (rm_cf (rms d)) j = Some cj ->
      cf_rank ci = d -> cf_rank cj = r -> cf_gface cj = cf_gface ci -> v < nvars ->
      aget (tv_right tb) ((rm_fstart (rms r) + i) * nvars + v) = aget sent ((rm_fstart (rms d) + j) * nvars + v) /\
      aget sent ((rm_fstart (rms d) + j) * nvars + v) <> None.
Proof.
  intros T t0 nvars ranks rms jm user eager eager' rounds n n' a b (PR & Fit) U Ea Eb k r d Hr Hd Ra Rb.
  assert (ND : forall q, NoDup (t_nbs rms jm q)) by (intros; apply (nbs_nodup (fun r => rm_cf (rms r)) rms jm (fun _ => eq_refl))).
  assert (Ma := exec_mem _ _ _ _ _ _ _ _ ND _ _ _ d Ea). assert (Mb := exec_mem _ _ _ _ _ _ _ _ ND _ _ _ r Eb). rewrite Ra in Ma. rewrite Rb in Mb.
  destruct (runS_ok ranks (fun r => rm_cf (rms r)) PR T t0 nvars rms jm user (fun _ => eq_refl) Fit U k) as (H1 & st & H2 & H3).
  destruct (H1 d Hd) as (ta & Ta & Tok & _). destruct (H3 r Hr) as (tb & Tb & Tbk & _ & D & _ & _).
  assert (Es : st d = ta) by (rewrite (H2 d Hd) in Ta; congruence).
  exists ta, tb. split; [congruence|]. split; [congruence|]. cbv zeta. destruct (U k d (tv_left ta) (tv_right ta)) as (U1 & _).
  assert (L1 : alen (fst (user k d (tv_left ta, tv_right ta))) = rm_naface (rms d) * nvars) by (rewrite U1; apply Tok).
  split; auto. split; [apply Tbk|]. intros i j ci cj v Ci Cj Di Dj G Hv.
  assert (Hi : i < length (rm_cf (rms r))) by (apply nth_error_Some; congruence). assert (Hj : j < length (rm_cf (rms d))) by (apply nth_error_Some; congruence).
  assert (Ni : cfn (rm_cf (rms r)) i = ci) by (apply nth_error_nth; auto). assert (Nj : cfn (rm_cf (rms d)) j = cj) by (apply nth_error_nth; auto).
  assert (F1 := Fit r Hr). assert (F2 := Fit d Hd). rewrite !aget_ok; [|nia|rewrite (tk_right _ _ _ _ _ _ _ Tbk); nia].
  split; [|discriminate]. f_equal. rewrite (D i j d v); auto; try congruence.
  rewrite Es. unfold t_user. destruct (user k d (tv_left ta, tv_right ta)). reflexivity.
Qed.
Print Assumptions C19_trace_exchange.

(** C19: nothing else of the right array is touched, the left array is unchanged and no rank ever runs into undefined behaviour or an MPI error. *)
Theorem C19_frame : forall T (t0 : T) nvars ranks rms jm user eager eager' rounds n n' a b,
  trace_meshes ranks rms -> keeps_size user ->
  trace_exec T t0 nvars ranks rms jm user eager rounds n a -> trace_exec T t0 nvars ranks rms jm user eager' rounds n' b ->
  (forall r, In r ranks -> l_mem (loc_of a r) <> None) /\
  forall k r, In r ranks -> l_round (loc_of a r) = S k -> l_round (loc_of b r) = S (S k) ->
  exists ta tb, l_mem (loc_of a r) = Some ta /\ l_mem (loc_of b r) = Some tb /\
    let u := user k r (tv_left ta, tv_right ta) in tv_left tb = fst u /\
    forall p, p < rm_fstart (rms r) * nvars \/ (rm_fstart (rms r) + length (rm_cf (rms r))) * nvars <= p -> aat (tv_right tb) p = aat (snd u) p.
Proof.
  intros T t0 nvars ranks rms jm user eager eager' rounds n n' a b (PR & Fit) U Ea Eb.
  assert (ND : forall q, NoDup (t_nbs rms jm q)) by (intros; apply (nbs_nodup (fun r => rm_cf (rms r)) rms jm (fun _ => eq_refl))).
  split.
  - intros r Hr. rewrite (exec_mem _ _ _ _ _ _ _ _ ND _ _ _ r Ea). destruct (l_round (loc_of a r)) as [|k].
    + cbn. destruct (init_ok (fun r => rm_cf (rms r)) T t0 nvars rms jm (fun _ => eq_refl) r) as (tv & -> & _). discriminate.
    + destruct (runS_ok ranks (fun r => rm_cf (rms r)) PR T t0 nvars rms jm user (fun _ => eq_refl) Fit U k) as (H1 & _). destruct (H1 r Hr) as (tv & -> & _). discriminate.
  - intros k r Hr Ra Rb. assert (Ma := exec_mem _ _ _ _ _ _ _ _ ND _ _ _ r Ea). assert (Mb := exec_mem _ _ _ _ _ _ _ _ ND _ _ _ r Eb). rewrite Ra in Ma. rewrite Rb in Mb.
    destruct (runS_ok ranks (fun r => rm_cf (rms r)) PR T t0 nvars rms jm user (fun _ => eq_refl) Fit U k) as (_ & st & H2 & H3).
    destruct (H3 r Hr) as (tb & Tb & _ & _ & _ & D1 & D2). exists (st r), tb. rewrite (H2 r Hr) in Ma. split; auto. split; [congruence|]. cbv zeta.
    unfold t_user in D1, D2. destruct (user k r (tv_left (st r), tv_right (st r))) as (l, rt). cbn in *. auto.
Qed.
Print Assumptions C19_frame.

(** C20: as long as some rank has exchanges left, some rank can move; executions cannot go on for ever; and when nothing moves any
    more every rank has completed all its exchanges. *)
Theorem C20_no_deadlock : forall T (t0 : T) nvars ranks rms jm user eager rounds n s,
  trace_meshes ranks rms -> NoDup ranks -> trace_exec T t0 nvars ranks rms jm user eager rounds n s ->
  ((exists r, In r ranks /\ l_round (loc_of s r) < rounds) -> exists r, In r ranks /\ can_move T t0 nvars rms jm user eager rounds r s) /\
  n <= budget (t_nbs rms jm) rounds ranks /\
  ((forall r, In r ranks -> ~ can_move T t0 nvars rms jm user eager rounds r s) -> forall r, In r ranks -> l_round (loc_of s r) = rounds).
Proof.
  intros T t0 nvars ranks rms jm user eager rounds n s (PR & Fit) NR E.
  assert (ND : forall q, NoDup (t_nbs rms jm q)) by (intros; apply (nbs_nodup (fun r => rm_cf (rms r)) rms jm (fun _ => eq_refl))).
  assert (Sy : forall r d, In r ranks -> In d (t_nbs rms jm r) -> In d ranks /\ In r (t_nbs rms jm d)) by (intros r d; apply (nbs_sym ranks (fun r => rm_cf (rms r)) PR rms jm (fun _ => eq_refl))).
  assert (I := exec_inv _ _ _ _ _ _ _ _ ND _ _ _ E). split; [|split].
  - intros H. destruct (progress _ _ _ _ _ eager _ _ ND ranks Sy s I H) as (r & s' & Hr & St). exists r. split; auto. exists s'. exact St.
  - apply (exec_bound _ _ _ _ _ _ _ _ ND ranks n s NR E).
  - intros H r Hr. apply (exec_stuck _ _ _ _ _ _ _ _ ND ranks Sy n s E); auto. intros q s' Hq St. apply (H q Hq). exists s'. exact St.
Qed.
Print Assumptions C20_no_deadlock.

(** C20: independence of the schedule: two executions that both ran to the end leave every rank with the same memory. *)
Theorem C20_schedule_independent : forall T (t0 : T) nvars ranks rms jm user eager eager' rounds n n' a b,
  trace_exec T t0 nvars ranks rms jm user eager rounds n a -> trace_exec T t0 nvars ranks rms jm user eager' rounds n' b ->
  forall r, l_round (loc_of a r) = l_round (loc_of b r) -> l_mem (loc_of a r) = l_mem (loc_of b r).
Proof.
  intros T t0 nvars ranks rms jm user eager eager' rounds n n' a b Ea Eb r E.
  assert (ND : forall q, NoDup (t_nbs rms jm q)) by (intros; apply (nbs_nodup (fun r => rm_cf (rms r)) rms jm (fun _ => eq_refl))).
  rewrite (exec_mem _ _ _ _ _ _ _ _ ND _ _ _ r Ea), (exec_mem _ _ _ _ _ _ _ _ ND _ _ _ r Eb), E. auto.
Qed.
Print Assumptions C20_schedule_independent.

(** The meshes made by the partitioner pair up when every interface is seen from both sides (see C17; C17_interfaces_refuted shows that
    this can fail). *)
Theorem C19_partition_pairs : forall g hs dist N, global_ok g hs -> alen dist = nelem (g_m g) -> (forall i, i < nelem (g_m g) -> aat dist i < N) ->
  (forall r i f j, interface g dist r i f j -> seen g hs dist r i f) ->
  forall lms jc jr ji jx j0, (forall r, r < N -> restrictMesh g dist r (jc r) (jr r) (ji r) (jx r) (j0 r) = Some (Val (lms r))) ->
  paired (map Z.of_nat (seq 0 N)) (fun z => conns (l_m (lms (Z.to_nat z)))).
Proof.
  intros g hs dist N G Hd HN HS lms jc jr ji jx j0 R.
  assert (RK : forall z, In z (map Z.of_nat (seq 0 N)) <-> exists r, z = Z.of_nat r /\ r < N). { intros z. rewrite in_map_iff. split; [intros (r & <- & H); apply in_seq in H; exists r; split; auto; lia|intros (r & -> & H); exists r; split; auto; apply in_seq; lia]. }
  split.
  - intros z Hz. apply RK in Hz. destruct Hz as (r & -> & Hr). rewrite Nat2Z.id.
    destruct (C17_connectivity_faces g hs dist r G Hd (jc r) (jr r) (ji r) (jx r) (j0 r)) as (lm & R' & ND & IN & _). rewrite R in R' by auto. injection R' as <-.
    destruct (C15_restriction g hs dist r G Hd (jc r) (jr r) (ji r) (jx r) (j0 r)) as (lm' & R' & LG & CL & _). rewrite R in R' by auto. injection R' as <-.
    destruct (gl_topo _ _ G) as (p & e & ni & il & TP). pose proof (gl_tiled _ _ G) as TT. pose proof (tl_good _ _ TT) as GM.
    assert (NE : nelem (l_m (lms r)) = alen (l_eglob (lms r))). { unfold nelem. rewrite <- (map_length (map (back (lms r)))), CL, map_length. apply alist_length. }
    assert (EI : forall i i', i < nelem (l_m (lms r)) -> i' < nelem (l_m (lms r)) -> aat (l_eglob (lms r)) i = aat (l_eglob (lms r)) i' -> i = i').
    { assert (NDl : NoDup (alist (l_eglob (lms r)))). { rewrite LG. apply NoDup_filter, seq_NoDup. } intros i i' Hi Hi' E.
      apply (proj1 (NoDup_nth_error _) NDl); [rewrite alist_length; lia|]. unfold alist. rewrite !nth_error_map, !nth_error_seq by lia. cbn. congruence. }
    assert (INJ : forall c c', In c (conns (l_m (lms r))) -> In c' (conns (l_m (lms r))) -> cf_gface c = cf_gface c' -> (cf_elem c, cf_face c) = (cf_elem c', cf_face c')).
    { intros c c' Hc Hc' E. apply IN in Hc. destruct Hc as (i & j & f & q & -> & Hi & (A & I1 & I2) & _ & ->). apply IN in Hc'. destruct Hc' as (i' & j' & f' & q' & -> & Hi' & (A' & I1' & I2') & _ & ->). cbn in E |- *. apply Nat2Z.inj in E.
      pose proof (to_good _ _ _ _ _ _ _ TP _ f (proj1 A) (proj1 (proj2 A))) as (_ & S1 & _). pose proof (to_good _ _ _ _ _ _ _ TP _ f' (proj1 A') (proj1 (proj2 A'))) as (_ & S2 & _). rewrite E in S1.
      pose proof (same_edge_trans _ _ _ (same_edge_sym _ _ S1) S2) as S3.
      destruct (Nat.eq_dec (aat (l_eglob (lms r)) i) (aat (l_eglob (lms r)) i')) as [Eq|Ne].
      - assert (i = i') by (apply EI; auto). subst i'. f_equal. destruct (cell_valid _ _ _ (gm_valid _ _ GM) (proj1 A)) as (V1 & V2 & _). eapply edge_unique; eauto; [apply A|apply A'].
      - exfalso. assert (X : across (cells (g_m g)) (aat (l_eglob (lms r)) i) f (aat (l_eglob (lms r)) i')).
        { destruct A as (A1 & A2 & _). destruct A' as (A1' & A2' & _). split; auto. split; auto. split; auto. split; auto. exists f'. split; auto. }
        assert (j = aat (l_eglob (lms r)) i') by (eapply (gm_conf _ _ GM); eauto). subst j. congruence. }
    clear - ND INJ. induction (conns (l_m (lms r))) as [|c l IH]; cbn in *; [constructor|]. inversion ND; subst. constructor.
    + intros H. apply in_map_iff in H. destruct H as (c' & E & Hc'). injection E as E1 E2. apply H1. apply in_map_iff. exists c'. split; auto.
    + apply IH; auto.
  - intros z cf Hz Hc. apply RK in Hz. destruct Hz as (r & -> & Hr). rewrite Nat2Z.id in Hc.
    destruct (C17_connectivity_faces g hs dist r G Hd (jc r) (jr r) (ji r) (jx r) (j0 r)) as (lm & R' & _ & IN & _). rewrite R in R' by auto. injection R' as <-.
    assert (Hc0 := Hc). apply IN in Hc0. destruct Hc0 as (i & j & f & q & Ec & Hi & (A & I1 & I2) & _).
    assert (Hj : j < nelem (g_m g)) by apply A. assert (Er : cf_rank cf = Z.of_nat (aat dist j)) by (rewrite Ec; auto). split.
    + apply RK. exists (aat dist j). auto.
    + rewrite Er, Nat2Z.id. destruct (C17_matching g hs dist r (aat dist j) G Hd _ _ _ _ _ _ _ _ _ _ _ _ (R r Hr) (R _ (HN j Hj)) (HS _) cf Hc Er) as (c' & C1 & C2 & C3 & _). eauto.
Qed.
Print Assumptions C19_partition_pairs.

(** If two ranks disagree about the faces they share, as in C17_interfaces_refuted, the exchange of the constructor already fails: the longer
    list does not fit the receive buffer; a rank that does not know its neighbour leaves the neighbour waiting for ever. *)
Theorem C19_unpaired_truncation : forall T (t0 : T) nvars ranks rms jm user eager rounds n s r d,
  trace_exec T t0 nvars ranks rms jm user eager rounds n s ->
  0 < length (sharing (rm_cf (rms r)) d) < length (sharing (rm_cf (rms d)) r) -> 1 <= l_round (loc_of s r) -> l_mem (loc_of s r) = None.
Proof.
  intros T t0 nvars ranks rms jm user eager rounds n s r d E HL HR.
  assert (Ecf : forall r, rm_cf (rms r) = rm_cf (rms r)) by auto.
  assert (ND : forall q, NoDup (t_nbs rms jm q)) by (intros; apply (nbs_nodup (fun r => rm_cf (rms r)) rms jm (fun _ => eq_refl))).
  rewrite (exec_mem _ _ _ _ _ _ _ _ ND _ _ _ r E). destruct (l_round (loc_of s r)) as [|k]; [lia|]. clear HR E.
  assert (R1 : run (tmsg T) (option (tvec T)) (t_nbs rms jm) (t_out T t0 nvars rms user) (t_upd T t0 nvars rms user) (t_init T t0 nvars rms jm) 1 r = None).
  { cbn [run]. destruct (init_ok (fun r => rm_cf (rms r)) T t0 nvars rms jm (fun _ => eq_refl) r) as (tv & -> & K). unfold t_upd. cbn [bind].
    destruct (int_msgs _ _) as [G|] eqn:EG; [|reflexivity]. cbn [bind]. unfold tv_match. rewrite (tk_nbd _ _ _ _ _ _ _ K). assert (C := tk_comm _ _ _ _ _ _ _ K). rewrite (tk_nbd _ _ _ _ _ _ _ K) in C.
    assert (Hd : In d (t_nbs rms jm r)). { apply (nbs_in (fun r => rm_cf (rms r)) rms jm (fun _ => eq_refl)). destruct (sharing (rm_cf (rms r)) d); cbn in HL; [lia|discriminate]. }
    assert (Hr : In r (t_nbs rms jm d)). { apply (nbs_in (fun r => rm_cf (rms r)) rms jm (fun _ => eq_refl)). destruct (sharing (rm_cf (rms d)) r); cbn in HL; [lia|discriminate]. }
    assert (IM : forall (f : Z -> tmsg T) l G, int_msgs T (map f l) = Some G -> forall k x, nth_error l k = Some x -> exists g, f x = MInt g /\ nth_error G k = Some g).
    { clear. induction l as [|a l IH]; intros G H k x Hk; [destruct k; discriminate|]. cbn in H. destruct (f a) as [g| |] eqn:Fa; try discriminate. destruct (int_msgs T (map f l)) as [G'|] eqn:E; [|discriminate]. cbn in H. injection H as <-.
      destruct k as [|k]; cbn in *; [injection Hk as <-; eauto|]. eapply IH; eauto. }
    apply In_nth_error in Hd. destruct Hd as (k0 & K0). destruct (IM _ _ _ EG k0 d K0) as (g & Eg & Ng).
    assert (Lg : length g = length (sharing (rm_cf (rms d)) r)).
    { unfold t_out in Eg. destruct (init_ok (fun r => rm_cf (rms r)) T t0 nvars rms jm (fun _ => eq_refl) d) as (tvd & Ed & Kd). rewrite Ed in Eg.
      rewrite (gfaces_ok (rm_cf (rms d)) (tv_nbd tvd) (tv_map tvd) (tv_shared tvd) _ r) in Eg; [injection Eg as <-; apply map_length|apply Kd|]. rewrite (tk_nbd _ _ _ _ _ _ _ Kd). apply pos_ok; auto. }
    assert (Hk0 : k0 < length (t_nbs rms jm r)) by (apply nth_error_Some; congruence).
    (* the loop fails at k0, so it fails *)
    match goal with |- context [floop ?n ?bb ?ss] => assert (F : forall m, k0 < m -> floop m bb ss = None) end.
    { induction m as [|m IH]; [lia|]. intros Hm. cbn. destruct (Nat.eq_dec m k0) as [->|]; [|rewrite IH by lia; reflexivity].
      destruct (floop k0 _ _); [|reflexivity]. cbn [bind]. rewrite Ng. cbn [bind]. destruct (aget (tv_shared tv) k0) as [l|] eqn:El; [|reflexivity]. cbn [bind]. apply aget_inv in El. destruct El as (_ & ->). rewrite (co_sh _ _ _ _ C k0 d K0).
      unfold recv_buf. cbn [alen aconst]. rewrite (proj2 (Nat.leb_gt _ _)) by lia. reflexivity. }
    rewrite F by auto. reflexivity. }
  induction k as [|k IH]; [exact R1|]. remember (S k) as k1. cbn [run]. rewrite IH. reflexivity.
Qed.
Print Assumptions C19_unpaired_truncation.

Theorem C20_unpaired_deadlock : forall T (t0 : T) nvars ranks rms jm user eager rounds n s r d,
  trace_exec T t0 nvars ranks rms jm user eager rounds n s ->
  sharing (rm_cf (rms r)) d <> [] -> sharing (rm_cf (rms d)) r = [] -> l_round (loc_of s r) = 0.
Proof.
  intros T t0 nvars ranks rms jm user eager rounds n s r d E H1 H2.
  assert (ND : forall q, NoDup (t_nbs rms jm q)) by (intros; apply (nbs_nodup (fun r => rm_cf (rms r)) rms jm (fun _ => eq_refl))).
  assert (I := exec_inv _ _ _ _ _ _ _ _ ND _ _ _ E).
  apply (nbs_in (fun r => rm_cf (rms r)) rms jm (fun _ => eq_refl)) in H1.
  assert (N : ~ In r (t_nbs rms jm d)). { intros H. apply (nbs_in (fun r => rm_cf (rms r)) rms jm (fun _ => eq_refl)) in H. auto. }
  assert (Ii : forall l x, In x l -> ind l x = 1) by (intros l x Hx; unfold ind; destruct (in_dec Z.eq_dec x l); tauto).
  assert (Io : forall l x, ~ In x l -> ind l x = 0) by (intros l x Hx; unfold ind; destruct (in_dec Z.eq_dec x l); tauto).
  assert (L := i_le _ _ _ _ _ _ _ _ I d r). rewrite (i_sent _ _ _ _ _ _ _ _ I) in L. unfold cnt in L. rewrite (Ii _ _ H1), (Io _ _ N) in L.
  assert (Hs : ~ In r (spre (tmsg T) (t_nbs rms jm d) (l_phase (loc_of s d)))). { intros H. apply N. destruct (l_phase (loc_of s d)); cbn in H; auto. rewrite <- (firstn_skipn i). apply in_or_app. auto. }
  rewrite (Io _ _ Hs) in L. lia.
Qed.
Print Assumptions C20_unpaired_deadlock.

(** ** Examples *)
(** Two ranks sharing two faces with different numbering; rank 5 also shares a face with rank 2. *)
Definition ex_rms (z : Z) : rmesh :=
  if (z =? 1)%Z then mkrm [mkcf 0 0 5 7 40; mkcf 1 2 5 8 41] 3 9
  else if (z =? 5)%Z then mkrm [mkcf 4 0 1 3 41; mkcf 4 1 2 9 50; mkcf 2 2 1 0 40] 2 8
  else mkrm [mkcf 0 1 5 6 50] 1 4.
Example C19_ex : trace_meshes [1; 5; 2]%Z ex_rms /\ NoDup [1; 5; 2]%Z.
Proof.
  split; [split; [split|]|].
  - intros r [<-|[<-|[<-|[]]]]; vm_compute; repeat constructor; intros H; repeat destruct H as [H|H]; try discriminate; auto.
  - intros r c [<-|[<-|[<-|[]]]] Hc; vm_compute in Hc; repeat destruct Hc as [<-|Hc]; try destruct Hc; vm_compute; (split; [tauto|]);
      first [eexists; split; [left; reflexivity|split; reflexivity]|eexists; split; [right; left; reflexivity|split; reflexivity]|eexists; split; [right; right; left; reflexivity|split; reflexivity]].
  - intros r [<-|[<-|[<-|[]]]]; vm_compute; lia.
  - repeat constructor; cbn; intros H; repeat destruct H as [H|H]; try discriminate; auto.
Qed.
Example C19_ex_user : @keeps_size R (fun k r x => (mkarr (alen (fst x)) (fun i => IZR (Z.of_nat (i + k))), snd x)).
Proof. intros k r a b. cbn. auto. Qed.
(** an execution exists up to the end of every number of updates *)
Example C19_ex_exec : exists n s, trace_exec nat 0 2 [1; 5; 2]%Z ex_rms (fun _ _ => 0) (fun k r x => (mkarr (alen (fst x)) (fun i => i + k), snd x)) (fun _ _ _ => false) 3 n s /\ forall r, In r [1; 5; 2]%Z -> l_round (loc_of s r) = 3.
Proof.
  assert (G : forall m n s, trace_exec nat 0 2 [1; 5; 2]%Z ex_rms (fun _ _ => 0) (fun k r x => (mkarr (alen (fst x)) (fun i => i + k), snd x)) (fun _ _ _ => false) 3 n s -> budget (t_nbs ex_rms (fun _ _ => 0)) 3 [1;5;2]%Z - n <= m ->
    exists n s, trace_exec nat 0 2 [1; 5; 2]%Z ex_rms (fun _ _ => 0) (fun k r x => (mkarr (alen (fst x)) (fun i => i + k), snd x)) (fun _ _ _ => false) 3 n s /\ forall r, In r [1; 5; 2]%Z -> l_round (loc_of s r) = 3).
  { destruct C19_ex as (TM & NR). induction m as [|m IH]; intros n s E Hm.
    - exists n, s. split; auto. destruct (C20_no_deadlock _ _ _ _ _ _ _ _ _ _ _ TM NR E) as (P1 & P2 & P3). apply P3. intros r Hr (s' & St). assert (E' := execS _ _ _ _ _ _ _ _ _ _ _ _ _ E Hr St). destruct (C20_no_deadlock _ _ _ _ _ _ _ _ _ _ _ TM NR E') as (_ & P4 & _). lia.
    - destruct (C20_no_deadlock _ _ _ _ _ _ _ _ _ _ _ TM NR E) as (P1 & P2 & P3).
      destruct (existsb (fun r => l_round (loc_of s r) <? 3) [1;5;2]%Z) eqn:X.
      + apply existsb_exists in X. destruct X as (r & Hr & Hl). apply Nat.ltb_lt in Hl. destruct P1 as (q & Hq & s' & St); [eauto|].
        apply (IH (S n) s'); [eapply execS; eauto|lia].
      + exists n, s. split; auto. intros r Hr. assert (I := exec_inv _ _ _ _ _ _ _ _ (fun q => nbs_nodup (fun r => rm_cf (ex_rms r)) ex_rms (fun _ _ => 0) (fun _ => eq_refl) q) _ _ _ E). assert (K := i_rnd _ _ _ _ _ _ _ _ I r).
        destruct (Nat.ltb_spec (l_round (loc_of s r)) 3); [|lia]. exfalso. rewrite <- not_true_iff_false in X. apply X. apply existsb_exists. exists r. split; auto. apply Nat.ltb_lt. auto. }
  apply (G (budget (t_nbs ex_rms (fun _ _ => 0)) 3 [1;5;2]%Z) 0 (start (t_init nat 0 2 ex_rms (fun _ _ => 0)))); [constructor|lia].
Qed.
(** the lists of the four-triangle mesh of C17_interfaces_refuted: rank 1 shares three faces, rank 0 knows two of them *)
Example C19_unpaired_ex : let rms := fun z => if (z =? 0)%Z then mkrm [mkcf 1 0 1 1 6; mkcf 2 0 1 1 7] 4 9 else mkrm [mkcf 0 0 0 0 5; mkcf 0 1 0 2 6; mkcf 0 2 0 3 7] 0 3 in
  0 < length (sharing (rm_cf (rms 0%Z)) 1) < length (sharing (rm_cf (rms 1%Z)) 0).
Proof. vm_compute. lia. Qed.
