(** Proofs for C100: a mesh and the same mesh with its cells in another order; residual, time steps and forward Euler steps on both. *)
From Coq Require Import Reals List Arith ZArith Lia Lra Bool Permutation.
From Verif Require Import Base BaseR BaseSum M_Gas M_Flux M_Visc M_BC M_BCConf M_Mesh M_Geom M_Part M_Space M_Grad M_Recon S_Space S_Gas S_Mesh S_Geom S_Recon M_Resid S_Resid M_Ode
  Pf_Esuel Pf_Host Pf_Topo Pf_Incid Pf_Faces Pf_Full Pf_Geom Pf_Space Pf_Grad Pf_Recon Pf_Resid Pf_Reorder Pf_Part Pf_Restrict Pf_Part2 Pf_Resid2 P_Geom P_Flux P_Visc P_Recon P_Resid Pf_Par P_Par Pf_Par2 P_Par2 Pf_Ode Pf_Ode2.
Import ListNotations.
Open Scope R_scope.

(** the same two points, in either order *)
Definition same_ends (b b' : bfrec) : Prop := (b0 b' = b0 b /\ b1 b' = b1 b) \/ (b0 b' = b1 b /\ b1 b' = b0 b).
(** [m'] is [m] with its cells in another order: cell i of [m'] is cell [s i] of [m]. Points, boundary faces and their tags are the same; boundary faces may run the other way. *)
Definition renumbered (m : umesh) (X : arr v2) (s : arr nat) (m' : umesh) (X' : arr v2) : Prop :=
  is_perm (nelem m) s /\ nelem m' = nelem m /\ (forall i, (i < nelem m)%nat -> cell (cells m') i = cell (cells m) (aat s i)) /\
  npoin m' = npoin m /\ (forall v, (v < npoin m)%nat -> aat X' v = aat X v) /\
  Forall2 (fun b b' => same_ends b b' /\ btg b' = btg b) (bfaces m) (bfaces m') /\ conns m = [] /\ conns m' = [].

Lemma forall2_nth {A B} (P : A -> B -> Prop) l l' : Forall2 P l l' -> forall k b, nth_error l' k = Some b -> exists a, nth_error l k = Some a /\ P a b.
Proof. induction 1; intros [|k] b E; cbn in E; try discriminate. { injection E as <-. exists x. auto. } apply IHForall2; auto. Qed.

Definition as_part (m' : umesh) (X' : arr v2) (s : arr nat) (g : gmesh) : lmesh := mklm m' X' (g_regs g) s [].
Lemma renumbered_sub m hs X t regs s m' X' : tiled m hs -> renumbered m X s m' X' ->
  sub_mesh (mkgm m t X regs) hs (as_part m' X' s (mkgm m t X regs)).
Proof.
  intros T (P & NE & CL & NP & XE & BF & C0 & C1). pose proof (tl_good _ _ T) as GM. pose proof (gm_valid _ _ GM) as VC.
  unfold sub_mesh, as_part. cbn [g_m g_X l_m l_X l_eglob]. split; [exact C0|].
  assert (ED : forall i f, (i < nelem m)%nat -> (f < length (cell (cells m) i))%nat -> (fst (edge (cell (cells m) i) f) < npoin m)%nat /\ (snd (edge (cell (cells m) i) f) < npoin m)%nat).
  { intros i f Hi Hf. destruct (VC (cell (cells m) i)) as (_ & _ & V). apply nth_In; auto. destruct (Pf_Restrict.edge_in _ _ Hf). auto. }
  assert (Acr : forall l f k, across (cells m') l f k -> across (cells m) (aat s l) f (aat s k)).
  { intros l f k (A1 & A2 & A3 & A4 & h & A5 & A6). unfold nelem in *. rewrite NE in A1, A3. rewrite !CL in * by auto. pose proof (perm_bound _ _ _ P A1). pose proof (perm_bound _ _ _ P A3).
    split; auto. split; auto. split; auto. split. { intros Q. apply A4. eapply perm_inj; eauto. } exists h. auto. }
  split; [|split; [exact Acr|split]].
  - intros l Hl. rewrite NE in Hl. pose proof (perm_bound _ _ _ P Hl) as Hs. split; auto. rewrite CL by auto. split; auto. split.
    + intros f Hf. destruct (ED _ f Hs Hf). auto.
    + apply vsum_ext. intros v Hv. apply XE. destruct (VC (cell (cells m) (aat s l))) as (_ & _ & V). apply nth_In; auto. auto.
  - rewrite C1. contradiction.
  - intros hs' q bf l f T' Eb Eh. destruct (forall2_nth _ _ _ BF q bf Eb) as (gb & Eg & Se & Et). exists q, gb. split; auto. split; auto.
    destruct (gm_hosts _ _ (tl_good _ _ T')) as (_ & H'). destruct (H' q bf (l, f) Eb Eh) as (_ & _ & (L1 & L2 & L3 & _)). cbn [fst snd] in *.
    destruct (gm_hosts _ _ GM) as (LH & H). assert (Hq : (q < nbface m)%nat) by (apply nth_error_Some; congruence).
    destruct (nth_error_some _ hs q ltac:(lia)) as ((i & h) & Ei). destruct (H q gb (i, h) Eg Ei) as (_ & _ & (I1 & I2 & I3 & I4)). cbn [fst snd] in *.
    unfold nelem in *. rewrite NE in L1. pose proof (perm_bound _ _ _ P L1) as Hs. rewrite CL in L2, L3 by auto.
    assert (S3 : same_edge (b0 gb, b1 gb) (edge (cell (cells m) (aat s l)) f)).
    { clear -L3 Se. destruct Se as [(Q1 & Q2)|(Q1 & Q2)]; rewrite Q1, Q2 in L3; auto. unfold same_edge in *. destruct (edge _ _) as (x & y). cbn in *. destruct L3 as [Q|Q]; injection Q as -> ->; auto. }
    assert (Ic : aat s l = i). { apply I4. unfold has_both. split; auto. destruct (Pf_Restrict.edge_in _ _ L2) as (Q1 & Q2). unfold same_edge in S3. destruct (edge _ _) as (x & y). cbn in *. destruct S3 as [Q|Q]; injection Q as -> ->; auto. }
    rewrite Ic in *. destruct (VC (cell (cells m) i)) as (V1 & V2 & _). apply nth_In; auto.
    assert (f = h). { apply (edge_unique (cell (cells m) i)); auto. eapply same_edge_two; eauto. }
    congruence.
Qed.

(** ** The residual on both meshes *)
Section Eval.
Variables (m : umesh) (hs : list (nat * nat)) (X : arr v2) (gh : nat -> v2) (S : smesh).
Variables (m' : umesh) (hs' : list (nat * nat)) (X' : arr v2) (gh' : nat -> v2) (S' : smesh) (s : arr nat).
Hypothesis B : built m hs X gh S.
Hypothesis B' : built m' hs' X' gh' S'.
Hypothesis RN : renumbered m X s m' X'.
Hypothesis D : distinct_ends m X.
Variable fl : flow.
Hypothesis TC : forall bf, In bf (bfaces m) -> exists t r b, btg bf = t :: r /\ mfind (fl_bcs fl) t = Some b.
Hypothesis Hg : 1 < gam (fl_gas fl).
Hypothesis Hh : fl_flux fl = HLLC -> 5/4 <= gam (fl_gas fl).

Definition noconn : fconn := mkfc (mkarr 0 (fun _ => mkface 0 0 0 0)) (mk2 0 0 (fun _ _ => 0%nat)) (mk2 0 0 (fun _ _ => 0%Z)) (mkarr 0 (fun _ => @nil Z)).
Notation gg := (mkgm m noconn X (mkarr 0 (fun _ => @nil Z))).
Notation ll := (as_part m' X' s gg).
Lemma SM : sub_mesh gg hs ll.
Proof. apply renumbered_sub; auto. apply B. Qed.
Lemma sizes : sm_ne S = nelem m /\ sm_nc S = 0%nat /\ sm_ne S' = nelem m /\ sm_nc S' = 0%nat /\ nelem m' = nelem m /\ conns m' = [] /\
  (forall i, (i < nelem m)%nat -> (aat s i < nelem m)%nat /\ aat (sm_A S') i = aat (sm_A S) (aat s i)).
Proof.
  destruct RN as (P & NE & CL & NP & XE & BF & C0 & C1). destruct (counts gg hs ll SM gh S S' hs' gh' B B') as (N1 & N2 & N3 & N4 & N5 & N6). cbn [g_m l_m as_part l_eglob] in *.
  split; auto. split; auto. split; [congruence|]. split; [rewrite N4; unfold nconnface; rewrite C1; reflexivity|]. split; auto. split; auto.
  intros i Hi. split; [apply perm_bound; auto|]. apply N6. lia.
Qed.
Lemma covers2 : exists bc bc', bcs_cover S fl bc /\ bcs_cover S' fl bc' /\
  (forall q bf t r, nth_error (bfaces m) q = Some bf -> btg bf = t :: r -> mfind (fl_bcs fl) t = Some (bc q)) /\
  (forall q bf t r, nth_error (bfaces m') q = Some bf -> btg bf = t :: r -> mfind (fl_bcs fl) t = Some (bc' q)) /\
  (forall bf, In bf (bfaces m) -> btg bf <> []).
Proof.
  destruct RN as (P & NE & CL & NP & XE & BF & C0 & C1). destruct (cover_by_tag _ _ _ _ _ fl B TC) as (bc & C & BC). destruct (cover_by_tag _ _ _ _ _ fl B') as (bc' & C' & BC').
  - intros bf Hb. apply In_nth_error in Hb. destruct Hb as (q & Eq). destruct (forall2_nth _ _ _ BF q bf Eq) as (gb & Eg & _ & Et). rewrite Et. apply TC. eapply nth_error_In; eauto.
  - exists bc, bc'. split; auto. split; auto. split; auto. split; auto. intros bf Hb. destruct (TC bf Hb) as (t & r & b & Q & _). congruence.
Qed.

Section At.
Variables (u u' : arr st).
Hypothesis Lu : alen u = nelem m.
Hypothesis Lu' : alen u' = nelem m.
Hypothesis U : forall i, (i < nelem m)%nat -> aat u' i = aat u (aat s i).

Lemma states2 : Pf_Par2.agree ll (aat u) (aat u').
Proof. destruct sizes as (_ & _ & _ & _ & NE & C1 & _). split; cbn [l_m as_part l_eglob]. - intros l Hl. apply U. lia. - intros q cf. rewrite C1. destruct q; discriminate. Qed.

Lemma eval1 ul0 ur0 G dt ul0' ur0' G' dt' out : (forall i, (i < nelem m)%nat -> physical (gam (fl_gas fl)) (aat u i)) ->
  alen ul0 = sm_nf_all S -> alen ur0 = sm_nf_all S -> alen dt = nelem m -> alen ul0' = sm_nf_all S' -> alen ur0' = sm_nf_all S' -> alen dt' = nelem m ->
  compute_residual1 S fl u ul0 ur0 (mkarr (sm_ne S) (fun _ => szero)) G (Some dt) = Some out ->
  exists d d' out', ro_dt out = Some d /\ alen (ro_res out) = nelem m /\ alen d = nelem m /\
    compute_residual1 S' fl u' ul0' ur0' (mkarr (sm_ne S') (fun _ => szero)) G' (Some dt') = Some out' /\ ro_dt out' = Some d' /\ alen (ro_res out') = nelem m /\ alen d' = nelem m /\
    forall i, (i < nelem m)%nat -> aat (ro_res out') i = aat (ro_res out) (aat s i) /\ aat d' i = aat d (aat s i).
Proof.
  intros PU L1 L2 L3 L1' L2' L3' E. destruct sizes as (N1 & N2 & N3 & N4 & N5 & N6 & N7). destruct covers2 as (bc & bc' & C & C' & BC & BC' & BT).
  pose proof (built_sm _ _ _ _ _ B) as OK. pose proof (built_sm _ _ _ _ _ B') as OK'.
  destruct (residual1_ok S fl bc u ul0 ur0 (mkarr (sm_ne S) (fun _ => szero)) G (Some dt) OK C ltac:(lia) L1 L2 eq_refl) as (ul & ur & res & A1 & A2 & A3 & A4 & A5 & A6).
  destruct (residual1_ok S' fl bc' u' ul0' ur0' (mkarr (sm_ne S') (fun _ => szero)) G' (Some dt') OK' C' ltac:(lia) L1' L2' eq_refl) as (ul' & ur' & res' & A1' & A2' & A3' & A4' & A5' & A6').
  rewrite E in A4. cbn [maybe_dt] in A4. destruct (compute_max_timestep S fl ul ur dt) as [d|] eqn:Ed; [|discriminate]. cbn [bind] in A4. injection A4 as ->.
  destruct (timestep_inv S fl ul ur dt d OK A1 A2 ltac:(lia) Ed) as (Ld & Pd).
  assert (V : forall SS (a b : arr st) uu ub i k, sm_ok SS -> (i < sm_ne SS)%nat -> (forall k, (k < sm_nf_all SS)%nat -> aat a k = left_value SS (aat uu) k /\ aat b k = right_value SS (aat uu) ub k) ->
    bounds SS i k -> own_side SS (aat a) (aat b) i k = aat uu i).
  { intros SS a b uu ub i k OKS Hi HV (Hk & W). unfold own_side. destruct (HV k Hk) as (V1 & V2). destruct (Nat.eqb_spec (f_left (aat (sm_F SS) k)) i) as [Q|Q].
    - rewrite V1. unfold left_value. congruence.
    - destruct W as [W|W]; [congruence|]. rewrite V2. unfold right_value. destruct (Nat.ltb_spec k (sm_nb SS)) as [K|K]; [|congruence]. pose proof (so_phy _ OKS k K). lia. }
  assert (RA : forall l, (l < nelem m)%nat -> rate S' fl ul' ur' l = rate S fl ul ur (aat s l)).
  { intros l Hl. destruct (N7 l Hl) as (Hs & HA). destruct (counts gg hs ll SM gh S S' hs' gh' B B') as (_ & _ & _ & _ & _ & M6). cbn [g_m l_m as_part l_eglob] in M6. destruct (M6 l ltac:(lia)) as (_ & M7 & _).
    rewrite (rate_seen S' OK') by lia. rewrite (rate_seen S OK) by lia. rewrite M7. apply rsum_ext. intros f Hf. apply in_seq in Hf. cbv zeta.
    destruct (same_view gg hs ll SM gh S S' hs' gh' B B' D fl bc bc' BC BT BC' l f ltac:(cbn [l_m as_part]; lia) ltac:(lia)) as ((Bd' & Bd) & (_ & V2 & V3 & _) & _). cbv zeta in *. cbn [l_eglob as_part] in Bd, V2, V3.
    rewrite (V S' ul' ur' u' _ l _ OK' ltac:(lia) A3' Bd'), (V S ul ur u _ (aat s l) _ OK ltac:(lia) A3 Bd), HA, V2, V3, U by auto. reflexivity. }
  destruct (timestep_ok S' fl ul' ur' OK' A1' A2' dt' ltac:(lia)) as (d' & Ed' & Ld' & Pd').
  { intros l Hl. rewrite RA by lia. apply Pd. destruct (N7 l ltac:(lia)). lia. }
  cbn [maybe_dt] in A4'. rewrite Ed' in A4'. cbn [bind] in A4'. eexists d, d', _. cbn [ro_dt ro_res] in *. split; [reflexivity|]. split; [lia|]. split; [lia|]. split; [exact A4'|]. cbn [ro_dt ro_res]. split; [reflexivity|].
  split; [lia|]. split; [lia|]. intros i Hi. destruct (N7 i Hi) as (Hs & HA). split.
  - apply st_ext. intros v. rewrite A6, A6' by lia. cbn [aat]. f_equal. apply (same_outflow gg hs ll SM gh S S' hs' gh' B B'); cbn [l_m as_part l_eglob g_m]; auto; try lia.
    + intros q cf. rewrite N6. destruct q; discriminate.
    + intros l Hl. apply U. lia.
    + intros q cf. rewrite N6. destruct q; discriminate.
  - rewrite Pd' by lia. destruct (Pd (aat s i) ltac:(lia)) as (_ & ->). rewrite RA, HA by auto. reflexivity.
Qed.

Lemma eval2 gs gs' rs G1 F1 G1' F1' ul0 ur0 G0 jp dt ul0' ur0' G0' jp' dt' out : smooth_scheme rs -> same_gradients S S' gs gs' ->
  alen ul0 = sm_nf_all S -> alen ur0 = sm_nf_all S -> alen G0 = nelem m -> alen dt = nelem m -> alen ul0' = sm_nf_all S' -> alen ur0' = sm_nf_all S' -> alen G0' = nelem m -> alen dt' = nelem m ->
  compute_residual2 S fl gs rs G1 F1 u ul0 ur0 (mkarr (sm_ne S) (fun _ => szero)) G0 jp (Some dt) = Some out ->
  (forall k, (k < sm_nf_all S)%nat -> physical (gam (fl_gas fl)) (aat (ro_left out) k) /\ physical (gam (fl_gas fl)) (aat (ro_right out) k)) ->
  exists d d' out', ro_dt out = Some d /\ alen (ro_res out) = nelem m /\ alen d = nelem m /\
    compute_residual2 S' fl gs' rs G1' F1' u' ul0' ur0' (mkarr (sm_ne S') (fun _ => szero)) G0' jp' (Some dt') = Some out' /\ ro_dt out' = Some d' /\ alen (ro_res out') = nelem m /\ alen d' = nelem m /\
    forall i, (i < nelem m)%nat -> aat (ro_res out') i = aat (ro_res out) (aat s i) /\ aat d' i = aat d (aat s i).
Proof.
  intros RS SG L1 L2 L3 L4 L1' L2' L3' L4' E PH. destruct sizes as (N1 & N2 & N3 & N4 & N5 & N6 & N7). destruct covers2 as (bc & bc' & C & C' & BC & BC' & BT).
  pose proof (built_sm _ _ _ _ _ B) as OK. pose proof (built_sm _ _ _ _ _ B') as OK'.
  assert (z1 : alen u = (sm_ne S + sm_nc S)%nat) by lia. assert (y1 : alen u' = (sm_ne S' + sm_nc S')%nat) by lia.
  assert (z5 : alen G0 = (sm_ne S + sm_nc S)%nat) by lia. assert (y5 : alen G0' = (sm_ne S' + sm_nc S')%nat) by lia.
  assert (z4 : alen (mkarr (sm_ne S) (fun _ => szero)) = sm_ne S) by reflexivity. assert (y4 : alen (mkarr (sm_ne S') (fun _ => szero)) = sm_ne S') by reflexivity.
  assert (V0 : match gs with GLeastSquares V => alen V = sm_ne S | _ => True end /\ match gs' with GLeastSquares V => alen V = sm_ne S' | _ => True end).
  { destruct gs, gs'; cbn [same_gradients] in SG; try tauto. destruct SG as (Q & Q'). destruct (wls_ctor_ok S OK) as (V2 & E2 & LL2 & _). destruct (wls_ctor_ok S' OK') as (V3 & E3 & LL3 & _). split; congruence. }
  assert (SC : scheme_runs S' gs' rs) by (split; [apply V0|destruct rs; auto]).
  destruct (C63_second_order_runs _ _ _ _ _ B' fl bc' gs' rs G1' F1' u' ul0' ur0' _ G0' jp' C' SC y1 L1' L2' y4 y5) as (o & E').
  destruct (run_facts _ _ _ _ _ B fl bc _ rs _ _ _ _ _ _ _ _ _ _ C z1 L1 L2 z4 z5 RS (proj1 V0) E) as (_ & _ & _ & _ & _ & _ & _ & _ & _ & A7 & A8 & _).
  destruct (run_facts _ _ _ _ _ B' fl bc' _ rs _ _ _ _ _ _ _ _ _ _ C' y1 L1' L2' y4 y5 RS (proj2 V0) E') as (_ & _ & _ & _ & _ & _ & _ & _ & _ & B7 & B8 & _).
  pose proof (run_dt _ _ _ _ _ _ _ _ _ _ _ _ _ _ E) as M. cbn [maybe_dt] in M. destruct (compute_max_timestep S fl (ro_left out) (ro_right out) dt) as [d|] eqn:Ed; [|discriminate]. cbn [bind] in M. injection M as M.
  destruct (timestep_inv S fl _ _ dt d OK A7 A8 ltac:(lia) Ed) as (Ld & Pd).
  assert (RA : forall l, (l < nelem m)%nat -> rate S' fl (ro_left o) (ro_right o) l = rate S fl (ro_left out) (ro_right out) (aat s l)).
  { intros l Hl. refine (rate_same gg hs ll SM gh S S' hs' gh' B B' _ D fl bc bc' BC BT BC' _ _ rs _ _ _ _ _ _ _ _ _ _ _ _ _ _ _ _ _ _ _ _ C C' z1 L1 L2 z4 z5 y1 L1' L2' y4 y5 RS SG E E' states2 _ l _); try (intros q cf; cbn [l_m as_part]; rewrite N6; destruct q; discriminate).
    cbn [l_m as_part]. lia. }
  destruct (timestep_ok S' fl (ro_left o) (ro_right o) OK' B7 B8 dt' ltac:(lia)) as (d' & Ed' & Ld' & Pd').
  { intros l Hl. rewrite RA by lia. apply Pd. destruct (N7 l ltac:(lia)). lia. }
  pose proof (run_with_dt _ _ _ _ _ _ _ _ _ _ _ _ (Some dt') (Some d') _ E') as E2. cbn [maybe_dt] in E2. rewrite Ed' in E2. specialize (E2 eq_refl).
  destruct (residual2_inv _ _ bc _ _ _ _ _ _ _ _ _ _ _ _ OK C z1 L1 L2 z4 E) as (Lr & P). destruct (residual2_inv _ _ bc' _ _ _ _ _ _ _ _ _ _ _ _ OK' C' y1 L1' L2' y4 E') as (Lr' & P').
  exists d, d'. eexists. split; [auto|]. split; [lia|]. split; [lia|]. split; [exact E2|]. cbn [ro_dt ro_res]. split; [reflexivity|]. split; [lia|]. split; [lia|].
  intros i Hi. destruct (N7 i Hi) as (Hs & HA). split.
  - apply st_ext. intros v. rewrite P, P' by lia. cbn [aat]. f_equal.
    refine (outflow_same2 gg hs ll SM gh S S' hs' gh' B B' _ D fl bc bc' BC BT BC' _ _ rs _ _ _ _ _ _ _ _ _ _ _ _ _ _ _ _ _ _ _ _ C C' z1 L1 L2 z4 z5 y1 L1' L2' y4 y5 RS SG E E' states2 _ _ i v _ Hg Hh PH); try (intros q cf; cbn [l_m as_part]; rewrite N6; destruct q; discriminate).
    cbn [l_m as_part]. lia.
  - rewrite Pd' by lia. destruct (Pd (aat s i) ltac:(lia)) as (_ & ->). rewrite RA, HA by auto. reflexivity.
Qed.
End At.
End Eval.

(** ** The forward Euler solver on both meshes *)
Section Solve.
Variables (n : nat) (s : arr nat) (A A' : arr R) (c : sconf) (Rf Rf' : arr st -> option (exc rout)) (ok : arr st -> Prop).
Hypothesis P : is_perm n s.
Hypothesis LA : alen A = n.
Hypothesis LA' : alen A' = n.
Hypothesis AA : forall i, (i < n)%nat -> aat A' i = aat A (aat s i).
(** the same states, in the other order *)
Definition moved {T} (a a' : arr T) : Prop := alen a = n /\ alen a' = n /\ forall i, (i < n)%nat -> aat a' i = aat a (aat s i).
Definition moved_out (r r' : rout) : Prop := moved (rt_r r) (rt_r r') /\ moved (rt_dt r) (rt_dt r') /\ rt_fin r' = rt_fin r.
Hypothesis EV : forall u u' x, moved u u' -> ok u -> Rf u = Some x -> match x with Exn => Rf' u' = Some Exn | Val ro => exists ro', Rf' u' = Some (Val ro') /\ moved_out ro ro' end.
Definition moved_mon (x x' : mon) : Prop := moved (m_u x) (m_u x') /\
  (m_step x', m_resi x', m_old x', m_init x', m_cfl x', m_lin x', m_log x') = (m_step x, m_resi x, m_old x, m_init x, m_cfl x, m_lin x, m_log x).

Lemma moved_norm r r' : moved r r' -> res_norm n A' r' = res_norm n A r.
Proof.
  intros (_ & _ & M). unfold res_norm. f_equal.
  transitivity (rsum (fun i => (fun j => s3 (aat r j) * s3 (aat r j) * aat A j) (aat s i)) (seq 0 n)).
  - apply rsum_ext. intros i Hi. apply in_seq in Hi. rewrite M, AA by lia. reflexivity.
  - rewrite <- (rsum_map (aat s) (fun j => s3 (aat r j) * s3 (aat r j) * aat A j)). apply rsum_perm. pose proof P as P'. unfold is_perm, alist in P'. rewrite (perm_len _ _ P) in P'. exact P'.
Qed.
Lemma moved_fe u u' ro ro' : moved u u' -> moved_out ro ro' -> exists v v', fe_update n A c u ro = Some v /\ fe_update n A' c u' ro' = Some v' /\ moved v v'.
Proof.
  intros (U1 & U2 & U3) ((R1 & R2 & R3) & (D1 & D2 & D3) & _).
  destruct (fe_update_ok n A c u ro) as (v & E & Lv & Pv & _); try lia. destruct (fe_update_ok n A' c u' ro') as (v' & E' & Lv' & Pv' & _); try lia.
  exists v, v'. split; auto. split; auto. split; [lia|]. split; [lia|]. intros i Hi. pose proof (perm_bound _ _ _ P Hi). rewrite Pv', Pv by auto. rewrite U3, R3, D3, AA by auto. reflexivity.
Qed.
Lemma moved_body up down x x' r : moved_mon x x' -> ok (m_u x) -> steady_body n A c Rf up down (fe_upd n A c) x = Some r ->
  exists r', steady_body n A' c Rf' up down (fe_upd n A' c) x' = Some r' /\ match r, r' with SErr e, SErr e' => e' = e | SNext y, SNext y' => moved_mon y y' | _, _ => False end.
Proof.
  intros (M & Q) Ho E. injection Q as Q1 Q2 Q3 Q4 Q5 Q6 Q7. unfold steady_body in *. destruct (Rf (m_u x)) as [z|] eqn:Er; [|discriminate]. pose proof (EV _ _ _ M Ho Er) as H. destruct z as [ro|].
  - destruct H as (ro' & -> & MO). cbv zeta in *. destruct (moved_fe _ _ _ _ M MO) as (v & v' & E1 & E2 & Mv). unfold fe_upd in *. rewrite E1 in E. rewrite E2. cbn [bind] in *. destruct MO as (MR & MD & ->).
    destruct (rt_fin ro); injection E as <-; eexists; (split; [reflexivity|]); cbn; auto. split; cbn [m_u m_step m_resi m_old m_init m_cfl m_lin m_log]; auto. rewrite (moved_norm _ _ MR), Q1, Q2, Q3, Q4, Q5, Q6, Q7. reflexivity.
  - rewrite H. injection E as <-. exists (SErr Other_error). auto.
Qed.
Lemma moved_loop up down fuel : forall x x' r, moved_mon x x' -> (forall k y, (k < fuel)%nat -> steady_loop c (steady_body n A c Rf up down (fe_upd n A c)) k x = Some (SNext y) -> ok (m_u y)) ->
  steady_loop c (steady_body n A c Rf up down (fe_upd n A c)) fuel x = Some r ->
  exists r', steady_loop c (steady_body n A' c Rf' up down (fe_upd n A' c)) fuel x' = Some r' /\ match r, r' with SErr e, SErr e' => e' = e | SNext y, SNext y' => moved_mon y y' | _, _ => False end.
Proof.
  induction fuel as [|k IH]; intros x x' r M O E; cbn [steady_loop] in *.
  - injection E as <-. exists (SNext x'). auto.
  - assert (CE : steady_cont c x' = steady_cont c x). { destruct M as (_ & Q). injection Q as Q1 Q2 Q3 Q4 Q5 Q6 Q7. unfold steady_cont. congruence. }
    rewrite CE. destruct (steady_cont c x) eqn:EC; [|injection E as <-; exists (SNext x'); auto].
    destruct (steady_body n A c Rf up down (fe_upd n A c) x) as [z|] eqn:Eb; [|discriminate].
    destruct (moved_body up down x x' z M) as (z' & -> & Mz); auto. { apply (O 0%nat); [lia|reflexivity]. }
    destruct z as [y|e], z' as [y'|e']; try contradiction.
    + apply (IH y y' r); auto. intros j w Hj Ew. apply (O (Datatypes.S j)); [lia|]. cbn [steady_loop]. rewrite EC, Eb. exact Ew.
    + injection E as <-. exists (SErr e'). auto.
Qed.
End Solve.
