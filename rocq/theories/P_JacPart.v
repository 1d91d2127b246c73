(** C103: the implicit matrix does not depend on the partition, nor on the side from which a face is seen. *)
From Coq Require Import Reals Lra List Arith Lia ZArith Bool Permutation FunctionalExtensionality.
From Verif Require Import Base BaseR BaseSum M_Gas M_Flux M_Visc M_BC M_BCConf M_Mesh M_Geom M_Part M_Space S_Space S_Gas S_Geom S_Mesh M_Resid S_Resid
  Pf_Esuel Pf_Host Pf_Topo Pf_Incid Pf_Faces Pf_Full Pf_Geom Pf_Space Pf_Grad Pf_Resid Pf_Part Pf_Restrict Pf_Part2 Pf_Linalg S_Par Pf_Resid2 P_Geom P_Flux P_Visc P_Resid P_Part
  S_Deriv S_Deriv2 Pf_Deriv Pf_FluxJac Pf_HLLC Pf_HllcJac Pf_Jac Pf_JacSwap Pf_Par P_Par Pf_JacPart M_Case M_Start M_Dist Pf_Dist P_Renum2 P_Dist ChkMesh.
Import ListNotations.
Open Scope R_scope.

(** ** Specification *)
(** The code switches between formulas on the sign of a speed. That speed is not zero, or the two states are the same.
    (The LLF and HLL Jacobians as coded do not differentiate the speeds; the other two fluxes have no Jacobian.) *)
Definition off_tie (f : fluxname) (ga : R) (ul ur : st) (n : v2) : Prop :=
  ul = ur \/
  match f with
  | AUSM => mach_plus (normal_velocity ul n / S_Gas.sound ga ul) - mach_plus (- (normal_velocity ur n / S_Gas.sound ga ur)) <> 0
  | ROE => let c := roe_sound ga ul ur in let W := roe_normal ul ur n in W - c <> 0 /\ W <> 0 /\ W + c <> 0
  | HLLC => SMf ga n ul ur <> 0
  | _ => True
  end.
(** the gas and the flux are such that the Jacobian is defined *)
Definition jac_gas (fl : flow) : Prop := has_jac (fl_jflux fl) /\ 1 < gam (fl_gas fl) /\ (fl_jflux fl = HLLC -> 5/4 <= gam (fl_gas fl)).
(** no boundary with a tag of the mesh has a condition without Jacobian (InFlow) *)
Definition no_inflow (g : gmesh) (fl : flow) : Prop := forall bf t r p q, In bf (bfaces (g_m g)) -> btg bf = t :: r -> mfind (fl_bcs fl) t <> Some (BInflow p q).

(** ** One face from its two sides *)
Theorem C103_face : forall fl ul ur n, jac_gas fl -> unit_vec n -> physical (gam (fl_gas fl)) ul -> physical (gam (fl_gas fl)) ur -> off_tie (fl_jflux fl) (gam (fl_gas fl)) ul ur n ->
  exists J J', get_jacobian (fl_jflux fl) (fl_gas fl) ul ur n = Some J /\ get_jacobian (fl_jflux fl) (fl_gas fl) ur ul (vneg n) = Some J' /\ dfdl J' = dfdr J /\ dfdr J' = dfdl J.
Proof.
  intros fl ul ur n (HJ & Hg & H5) Hn Pl Pr OT. exists (jac_of (fl_jflux fl) (fl_gas fl) ul ur n), (jac_of (fl_jflux fl) (fl_gas fl) ur ul (vneg n)).
  split; [apply jac_some; auto|]. split; [apply jac_some; auto|]. unfold jac_of. unfold off_tie in OT. destruct (fl_jflux fl); try contradiction; cbn [get_jacobian].
  - apply llf_mirror.
  - destruct OT as [->|OT]; [apply ausm_mirror_same; auto|apply ausm_mirror; auto].
  - destruct OT as [->|(O1 & O2 & O3)]; [apply roe_mirror_eq; auto|apply roe_mirror; auto].
  - apply hll_mirror; auto.
  - destruct OT as [->|OT]; [apply hllc_mirror_same; auto|apply hllc_mirror; auto].
Qed.
Print Assumptions C103_face.

Lemma rev_of fl a b rl rr (l r : st * st) : jac_gas fl -> a <> b -> physical (gam (fl_gas fl)) (fst l) -> physical (gam (fl_gas fl)) (fst r) ->
  off_tie (fl_jflux fl) (gam (fl_gas fl)) (fst l) (fst r) (fm_n (face_metric a b)) -> lin_in fl b a rr rl r l = sneg (lin_in fl a b rl rr l r).
Proof.
  intros JG H Pl Pr OT. apply lin_rev; auto.
  assert (UN : unit_vec (fm_n (face_metric a b))) by (pose proof (metric_unit a b H) as Q; unfold unit_vec, dot2 in *; rewrite <- Q; ring).
  destruct (C103_face fl _ _ _ JG UN Pl Pr OT) as (J & J' & E1 & E2 & M1 & M2). unfold jac_of. rewrite E1, E2. split; auto.
Qed.

(** ** A matrix is determined by what it does to vectors *)
Definition unitv (q : nat) (w : ix) (j : nat) : st := if (j =? q)%nat then mkst (fun c => if ix_eqb c w then 1 else 0) else szero.
Lemma app_block N A p v q w : (q < N)%nat -> app N (unitv q w) A p v = mget (A p q) v w.
Proof.
  intros Hq. unfold app. rewrite <- (rsum_single (fun j => mget (A p j) v w) N q Hq). apply rsum_ext. intros j _. unfold unitv. destruct (j =? q)%nat; destruct v, w; unfold szero, sdot, mrow, mget; cbn; ring.
Qed.
Lemma blocks_equal (A A' : bmat) p q : (forall N, (q < N)%nat -> exists M, (N <= M)%nat /\ forall d v, app M d A p v = app M d A' p v) -> A p q = A' p q.
Proof.
  intros H. destruct (H (Datatypes.S q) ltac:(lia)) as (M & HM & E). apply mget_eq. intros v w. rewrite <- (app_block M A p v q w), <- (app_block M A' p v q w) by lia. apply E.
Qed.

(** ** All ranks *)
Lemma filter_every A (p : A -> bool) l : (forall y, In y l -> p y = true) -> filter p l = l.
Proof. induction l as [|y l IH]; intros H; cbn; auto. rewrite H by (left; auto). f_equal. apply IH. intros z Hz. apply H. right; auto. Qed.
Section Ranks.
Variables (g : gmesh) (hs : list (nat * nat)) (dist : arr nat) (nr : nat) (lm : nat -> lmesh).
Variables (jc : nat -> nat -> list nat) (jr : nat -> nat -> list Z) (ji : nat -> nat -> nat) (jx : nat -> nat -> v2) (j0 : nat -> nat -> nat -> Z)
  (hsl : nat -> list (nat * nat)) (gh : nat -> nat -> v2) (S : nat -> smesh) (gh0 : nat -> v2) (W : smesh).
Hypothesis SR : split_run g hs dist nr lm jc jr ji jx j0 hsl gh S.
Hypothesis BW : built (g_m g) hs (g_X g) gh0 W.
Hypothesis HG : forall r k cf, (r < nr)%nat -> nth_error (conns (l_m (lm r))) k = Some cf -> gh r k = aat (sm_rc W) (Z.to_nat (cf_gelem cf)).
Variables (fl : flow) (V : nat -> st) (x : nat -> arr st).
Hypothesis TC : tags_covered g fl.
Hypothesis NI : no_inflow g fl.
Hypothesis JG : jac_gas fl.
Hypothesis PV : forall i, (i < nelem (g_m g))%nat -> physical (gam (fl_gas fl)) (V i).
Hypothesis OT : forall i f j, across (cells (g_m g)) i f j ->
  off_tie (fl_jflux fl) (gam (fl_gas fl)) (V i) (V j) (fm_n (face_metric (aat (g_X g) (fst (edge (cell (cells (g_m g)) i) f))) (aat (g_X g) (snd (edge (cell (cells (g_m g)) i) f))))).
Hypothesis XL : forall r, (r < nr)%nat -> alen (x r) = (sm_ne (S r) + sm_nc (S r))%nat.
Hypothesis XO : forall r l, (r < nr)%nat -> (l < nelem (l_m (lm r)))%nat -> aat (x r) l = V (aat (l_eglob (lm r)) l).
Hypothesis XG : forall r k cf, (r < nr)%nat -> nth_error (conns (l_m (lm r))) k = Some cf -> aat (x r) (nelem (l_m (lm r)) + k)%nat = V (Z.to_nat (cf_gelem cf)).

Lemma not_inflow b G u n : (forall p q, b <> BInflow p q) -> ghost_jac G b u n <> None.
Proof. intros H. destruct b; cbn; try discriminate. exfalso. eapply H; reflexivity. Qed.

Lemma whole_rows N bc A0 : (nelem (g_m g) <= N)%nat -> bcs_cover W fl bc ->
  (forall q bf t r, nth_error (bfaces (g_m g)) q = Some bf -> btg bf = t :: r -> mfind (fl_bcs fl) t = Some (bc q)) ->
  exists A, assemble_jacobian W fl (mkarr (nelem (g_m g)) V) (fun i => i) None A0 = Some A /\
  (forall d i v, (i < nelem (g_m g))%nat -> app N d A i v = app N d A0 i v + outflow W (thruL (st * st) (lin_in fl) (lin_bd fl) W (g_X g) bc (fun j => (V j, dof W (fun i => i) None d j))) i v) /\
  (forall p q, (nelem (g_m g) <= p)%nat -> A p q = A0 p q).
Proof.
  intros HN C BC. pose proof SR as [G Hd Hr RM SE BU D]. destruct (built_ok _ _ _ _ _ BW) as (p & e & ni & s & il & TT & OK & E1 & E2 & E3 & E4 & _).
  assert (NC : nconnface (g_m g) = 0%nat) by (unfold nconnface; rewrite (gl_serial _ _ G); reflexivity).
  assert (HB : forall k, (k < sm_nb W)%nat -> forall p q, bc k <> BInflow p q).
  { intros k Hk p0 q0 Eb. destruct (nth_error_some _ (bfaces (g_m g)) k) as (bf & Ef). { unfold nbface in *. lia. }
    destruct (TC bf (nth_error_In _ _ Ef)) as (t & r & b & Et & Em). rewrite (BC k bf t r Ef Et) in Em. injection Em as <-. eapply (NI bf t r p0 q0); eauto. eapply nth_error_In; eauto. rewrite (BC k bf t r Ef Et). congruence. }
  destruct (rows_ok _ _ _ _ _ BW fl bc V (fun i => i) None N C (proj1 JG) (fun k Hk => not_inflow _ _ _ _ (HB k Hk)) ltac:(intros; lia) ltac:(auto) ltac:(intros; lia) A0) as (A & EA & R1 & R2).
  exists A. split. { replace (nelem (g_m g)) with (sm_ne W + sm_nc W)%nat by lia. exact EA. } split.
  - intros d i v Hi. apply R1. lia.
  - intros q1 q2 Hq. apply R2. intros i Hi. lia.
Qed.

(** rank [r] adds to the rows of its cells what the whole mesh has there *)
Lemma rank_rows N bc A0 r : (nelem (g_m g) <= N)%nat -> (r < nr)%nat ->
  (forall q bf t r, nth_error (bfaces (g_m g)) q = Some bf -> btg bf = t :: r -> mfind (fl_bcs fl) t = Some (bc q)) ->
  exists A, assemble_jacobian (S r) fl (x r) (arow nr (lm r)) (acol nr (lm r)) A0 = Some A /\
  (forall d i v, (i < nelem (g_m g))%nat -> aat dist i = r ->
     app N d A i v = app N d A0 i v + outflow W (thruL (st * st) (lin_in fl) (lin_bd fl) W (g_X g) bc (fun j => (V j, dof W (fun i => i) None d j))) i v) /\
  (forall i q, (i < nelem (g_m g))%nat /\ aat dist i <> r \/ (nelem (g_m g) <= i)%nat -> A i q = A0 i q).
Proof.
  intros HN Hr BC. pose proof SR as [G Hd Hrk RM SE BU D]. specialize (RM r Hr). specialize (BU r Hr).
  destruct (restr_facts g hs dist r (lm r) G Hd _ _ _ _ _ RM) as (F1 & F2 & F3 & F4 & F5 & F6 & F7 & F8).
  destruct (built_ok _ _ _ _ _ BU) as (p & e & ni & s & il & TT & OK & E1 & E2 & E3 & E4 & _). destruct (built_ok _ _ _ _ _ BW) as (p0 & e0 & ni0 & s0 & il0 & _ & _ & E1' & _).
  assert (T' : tiled (l_m (lm r)) (hsl r)) by apply BU.
  destruct (cover_by_tag _ _ _ _ _ fl BU) as (bc' & C' & BC').
  { intros bf Hbf. apply In_nth_error in Hbf. destruct Hbf as (q & Eq). destruct (gm_hosts _ _ (tl_good _ _ T')) as (LH & _).
    destruct (nth_error_some _ (hsl r) q) as ((l & f) & Eh). { assert (q < length (bfaces (l_m (lm r))))%nat by (apply nth_error_Some; congruence). unfold nbface in LH. lia. }
    destruct (F6 (hsl r) q bf l f T' Eq Eh) as (k & gb & P1 & _ & P3). rewrite P3. apply TC. eapply nth_error_In; eauto. }
  assert (AR : forall l, (l < nelem (l_m (lm r)))%nat -> arow nr (lm r) l = aat (l_eglob (lm r)) l).
  { intros l Hl. unfold arow. destruct (Nat.ltb_spec 1 nr) as [|N1]; auto. destruct (C15_restriction g hs dist r G Hd (jc r) (jr r) (ji r) (jx r) (j0 r)) as (lm1 & R1 & G1 & _). rewrite RM in R1. injection R1 as <-.
    assert (Q : cells_of dist (nelem (g_m g)) r = seq 0 (nelem (g_m g))). { unfold cells_of. apply filter_every. intros i Hi. apply in_seq in Hi. apply Nat.eqb_eq. pose proof (Hrk i ltac:(lia)). lia. }
    rewrite Q in G1. pose proof (Pf_Space.nth_alist (l_eglob (lm r)) l ltac:(lia)) as Q1. rewrite G1 in Q1. apply (nth_error_nth _ _ 0%nat) in Q1. rewrite seq_nth in Q1; auto.
    apply (f_equal (@length nat)) in G1. rewrite alist_length, seq_length in G1. lia. }
  assert (CG : forall k, (k < sm_nc (S r))%nat -> exists cf, nth_error (conns (l_m (lm r))) k = Some cf /\ (Z.to_nat (cf_gelem cf) < nelem (g_m g))%nat /\ (1 < nr)%nat).
  { intros k Hk. destruct (nth_error_some _ (conns (l_m (lm r))) k) as (cf & Ec). { unfold nconnface in *. lia. } exists cf. split; auto. destruct (F5 cf (nth_error_In _ _ Ec)) as (j & (Ac & I1 & I2) & Ej & _). rewrite Ej, Nat2Z.id. 
    assert (Hj : (j < nelem (g_m g))%nat) by apply Ac. split; auto. pose proof (Hrk j Hj). lia. }
  assert (HB : forall k, (k < sm_nb (S r))%nat -> forall p q, bc' k <> BInflow p q).
  { intros k Hk p1 q1 Eb. destruct (nth_error_some _ (bfaces (l_m (lm r))) k) as (bf & Ef). { unfold nbface in *. lia. }
    destruct (nth_error_some _ (hsl r) k) as ((l & f) & Eh). { destruct (gm_hosts _ _ (tl_good _ _ T')) as (LH & _). unfold nbface in *. lia. }
    destruct (F6 (hsl r) k bf l f T' Ef Eh) as (k0 & gb & P1 & _ & P3). destruct (TC gb (nth_error_In _ _ P1)) as (t & r0 & b & Et & Em).
    pose proof (BC' k bf t r0 Ef ltac:(congruence)) as Q. eapply (NI gb t r0 p1 q1); eauto. eapply nth_error_In; eauto. rewrite Q, Eb. reflexivity. }
  assert (EX : x r = mkarr (sm_ne (S r) + sm_nc (S r)) (aat (x r))). { pose proof (XL r Hr) as Q. destruct (x r). cbn in *. congruence. }
  destruct (rows_ok _ _ _ _ _ BU fl bc' (aat (x r)) (arow nr (lm r)) (acol nr (lm r)) N C' (proj1 JG) (fun k Hk => not_inflow _ _ _ _ (HB k Hk))) with (A0 := A0) as (A & EA & R1 & R2).
  { intros i Hi. rewrite AR by lia. destruct (F1 i ltac:(lia)). lia. }
  { intros i j Hi Hj. rewrite !AR by lia. apply F2; lia. }
  { intros k Hk. destruct (CG k Hk) as (cf & Ec & Q1 & Q2). unfold acol. destruct (Nat.ltb_spec 1 nr); [|lia]. eexists. split; [reflexivity|]. cbv beta. rewrite Ec. lia. }
  rewrite <- EX in EA. exists A. split; auto. split.
  - intros d i v Hi Ei. destruct (F3 i Hi Ei) as (l & Hl & El). rewrite <- El, <- (AR l Hl), R1 by lia. rewrite (AR l Hl) at 3. f_equal.
    apply (same_outflow_law (st * st) (lin_in fl) (lin_bd fl) g hs (lm r) (restr_sub g hs dist r (lm r) G Hd _ _ _ _ _ RM) gh0 W (S r) (hsl r) (gh r) BW BU) with (bcs := fl_bcs fl); auto.
    + intros bf Hbf. destruct (TC bf Hbf) as (t & r0 & b & Eb & _). congruence.
    + intros l0 Hl0. rewrite XO by auto. f_equal. unfold dof. destruct (F1 l0 Hl0) as (Q & _). destruct (Nat.ltb_spec l0 (sm_ne (S r))); [|lia]. destruct (Nat.ltb_spec (aat (l_eglob (lm r)) l0) (sm_ne W)); [|lia]. rewrite AR; auto.
    + intros k cf Ek. rewrite (XG r k cf Hr Ek). f_equal. unfold dof. assert (K : (k < sm_nc (S r))%nat). { rewrite E4. unfold nconnface. apply nth_error_Some. congruence. }
      destruct (CG k K) as (cf' & Ec & Q1 & Q2). rewrite Ek in Ec. injection Ec as <-. destruct (Nat.ltb_spec (nelem (l_m (lm r)) + k) (sm_ne (S r))); [lia|]. destruct (Nat.ltb_spec (Z.to_nat (cf_gelem cf)) (sm_ne W)); [|lia].
      unfold acol. destruct (Nat.ltb_spec 1 nr); [|lia]. replace (nelem (l_m (lm r)) + k - sm_ne (S r))%nat with k by lia. rewrite Ek. reflexivity.
    + intros i0 f j Ac. assert (Hi0 : (i0 < nelem (g_m g))%nat) by apply Ac. assert (Hj : (j < nelem (g_m g))%nat) by apply Ac. assert (Hf : (f < length (cell (cells (g_m g)) i0))%nat) by apply Ac.
      apply rev_of; auto; cbn [fst]; auto.
  - intros i q Hi. apply R2. intros l Hl. rewrite AR by lia. destruct (F1 l ltac:(lia)) as (Q1 & Q2 & _). intros <-. destruct Hi as [(_ & Hi)|Hi]; [auto|lia].
Qed.

Theorem all_ranks_rows N bc A0 : (nelem (g_m g) <= N)%nat ->
  (forall q bf t r, nth_error (bfaces (g_m g)) q = Some bf -> btg bf = t :: r -> mfind (fl_bcs fl) t = Some (bc q)) ->
  exists A, assemble_ranks nr lm S fl x A0 = Some A /\
  (forall d i v, (i < nelem (g_m g))%nat ->
     app N d A i v = app N d A0 i v + outflow W (thruL (st * st) (lin_in fl) (lin_bd fl) W (g_X g) bc (fun j => (V j, dof W (fun i => i) None d j))) i v) /\
  (forall i q, (nelem (g_m g) <= i)%nat -> A i q = A0 i q).
Proof.
  intros HN BC. unfold assemble_ranks.
  destruct (floop_inv _ (fun r A => (forall d i v, (i < nelem (g_m g))%nat -> (aat dist i < r)%nat ->
      app N d A i v = app N d A0 i v + outflow W (thruL (st * st) (lin_in fl) (lin_bd fl) W (g_X g) bc (fun j => (V j, dof W (fun i => i) None d j))) i v) /\
    (forall i q, (i < nelem (g_m g))%nat /\ (r <= aat dist i)%nat \/ (nelem (g_m g) <= i)%nat -> A i q = A0 i q)) nr
    (fun r A => assemble_jacobian (S r) fl (x r) (arow nr (lm r)) (acol nr (lm r)) A) A0) as (A & EA & I1 & I2).
  - split; [intros; lia|reflexivity].
  - intros r A Hr (I1 & I2). destruct (rank_rows N bc A r HN Hr BC) as (A' & EA & R1 & R2). exists A'. split; auto. split.
    + intros d i v Hi Hd. destruct (Nat.eq_dec (aat dist i) r) as [E|E].
      * rewrite R1 by auto. f_equal. unfold app. apply rsum_ext. intros q _. rewrite I2; auto. left. lia.
      * rewrite <- I1 by lia. unfold app. apply rsum_ext. intros q _. rewrite R2; auto.
    + intros i q Hi. rewrite R2 by (destruct Hi; [left; lia|auto]). apply I2. destruct Hi; [left; lia|auto].
  - exists A. split; auto. split; [|intros i q Hi; apply I2; auto]. intros d i v Hi. apply I1; auto. apply SR; auto.
Qed.
End Ranks.

(** For every mesh, partition over any number of ranks, flux with a Jacobian, inviscid or viscous, boundary conditions with Jacobians,
    and physical state without ties: the matrix that all ranks assemble is, block by block, the matrix that one process assembles. *)
Theorem C103_matrix : forall g hs dist nr lm jc jr ji jx j0 hsl gh S gh0 W,
  split_run g hs dist nr lm jc jr ji jx j0 hsl gh S -> built (g_m g) hs (g_X g) gh0 W ->
  (forall r k cf, (r < nr)%nat -> nth_error (conns (l_m (lm r))) k = Some cf -> gh r k = aat (sm_rc W) (Z.to_nat (cf_gelem cf))) ->
  forall fl (V : nat -> st) (x : nat -> arr st), tags_covered g fl -> no_inflow g fl -> jac_gas fl ->
  (forall i, (i < nelem (g_m g))%nat -> physical (gam (fl_gas fl)) (V i)) ->
  (forall i f j, across (cells (g_m g)) i f j -> let e := edge (cell (cells (g_m g)) i) f in
     off_tie (fl_jflux fl) (gam (fl_gas fl)) (V i) (V j) (fm_n (face_metric (aat (g_X g) (fst e)) (aat (g_X g) (snd e))))) ->
  (forall r, (r < nr)%nat -> alen (x r) = (sm_ne (S r) + sm_nc (S r))%nat) ->
  (forall r l, (r < nr)%nat -> (l < nelem (l_m (lm r)))%nat -> aat (x r) l = V (aat (l_eglob (lm r)) l)) ->
  (forall r k cf, (r < nr)%nat -> nth_error (conns (l_m (lm r))) k = Some cf -> aat (x r) (nelem (l_m (lm r)) + k)%nat = V (Z.to_nat (cf_gelem cf))) ->
  forall A0, exists A A', assemble_ranks nr lm S fl x A0 = Some A /\
    assemble_jacobian W fl (mkarr (nelem (g_m g)) V) (fun i => i) None A0 = Some A' /\ forall p q, A p q = A' p q.
Proof.
  intros g hs dist nr lm jc jr ji jx j0 hsl gh S gh0 W SR BW HG fl V x TC NI JG PV OT XL XO XG A0.
  destruct (cover_by_tag _ _ _ _ _ fl BW TC) as (bc & C & BC).
  pose proof (fun N HN => all_ranks_rows g hs dist nr lm jc jr ji jx j0 hsl gh S gh0 W SR BW HG fl V x TC NI JG PV OT XL XO XG N bc A0 HN BC) as H.
  pose proof (fun N HN => whole_rows g hs dist nr lm jc jr ji jx j0 hsl gh S gh0 W SR BW fl V TC NI JG N bc A0 HN C BC) as H'.
  destruct (H _ (le_n _)) as (A & EA & _ & UA). destruct (H' _ (le_n _)) as (A' & EA' & _ & UA'). exists A, A'. split; auto. split; auto. intros p q.
  destruct (Nat.lt_ge_cases p (nelem (g_m g))) as [Hp|Hp]; [|rewrite UA, UA' by auto; reflexivity].
  apply blocks_equal. intros N HN. exists (N + nelem (g_m g))%nat. split; [lia|]. intros d v.
  destruct (H (N + nelem (g_m g))%nat ltac:(lia)) as (B & EB & QB & _). rewrite EA in EB. injection EB as <-.
  destruct (H' (N + nelem (g_m g))%nat ltac:(lia)) as (B' & EB' & QB' & _). rewrite EA' in EB'. injection EB' as <-.
  rewrite QB, QB' by auto. reflexivity.
Qed.
Print Assumptions C103_matrix.

(** *** Ties *)
(** With the AUSM Jacobian, gas at rest normal to the face and rho c different on the two sides, a face has one Jacobian seen from one side
    and another seen from the other (the sign of the interface Mach number is taken as plus at zero). *)
Theorem C103_tie_refuted : exists fl ul ur n J J', jac_gas fl /\ unit_vec n /\ physical (gam (fl_gas fl)) ul /\ physical (gam (fl_gas fl)) ur /\
  get_jacobian (fl_jflux fl) (fl_gas fl) ul ur n = Some J /\ get_jacobian (fl_jflux fl) (fl_gas fl) ur ul (vneg n) = Some J' /\ dfdr J' <> dfdl J.
Proof.
  assert (P1 : physical (gam air) (mks 1 0 0 (25/14))) by (split; cbn; unfold pressure; cbn; lra). assert (P2 : physical (gam air) (mks 4 0 0 (25/14))) by (split; cbn; unfold pressure; cbn; lra).
  exists (mkflow air AUSM AUSM false false []), (mks 1 0 0 (25/14)), (mks 4 0 0 (25/14)), (mkv 1 0). do 2 eexists. split; [split; [exact Logic.I|split; [cbn; lra|discriminate]]|]. split; [unfold unit_vec; cbn; ring|]. split; [exact P1|]. split; [exact P2|].
  split; [reflexivity|]. split; [reflexivity|]. cbn [fl_gas]. intros E. apply (f_equal (fun M => mget M I0 I1)) in E.
  destruct (ausm_rest air (mks 1 0 0 (25/14)) (mks 4 0 0 (25/14)) (mkv 1 0)) as (Q1 & Q2); auto; try (cbn; lra); try (unfold normal_velocity; cbn; lra).
  assert (S1 : S_Gas.sound (gam air) (mks 1 0 0 (25/14)) = 1). { unfold S_Gas.sound, pressure. cbn. replace (_ / 1) with (1 * 1) by field. apply sqrt_square. lra. }
  assert (S2 : S_Gas.sound (gam air) (mks 4 0 0 (25/14)) = 1/2). { unfold S_Gas.sound, pressure. cbn. replace (_ / 4) with (1/2 * (1/2)) by field. apply sqrt_square. lra. }
  rewrite Q1, Q2, S1, S2 in E. cbn in E. lra.
Qed.
Print Assumptions C103_tie_refuted.

(** *** Example *)
(** The ring of seven triangles on two ranks, AUSM Jacobian with constant viscosity, one state in the inner triangle and another around it;
    both flow in the direction (2, 1), along which no side of the inner triangle lies. *)
Definition exA : st := mks 1 (1/2) (1/4) 3.
Definition exB : st := mks 2 2 1 5.
Definition exV (i : nat) : st := if (i =? 0)%nat then exA else exB.
Definition exfl : flow := mkflow air AUSM AUSM true true [(1%Z, BFar exB); (2%Z, BExtrap); (3%Z, BSlip)].
Lemma mp_pos m : 0 < m -> 1/4 < mach_plus m.
Proof. intros H. unfold mach_plus. repeat destruct (Rle_dec _ _); nra. Qed.
Lemma mp_neg m : m < 0 -> mach_plus m < 1/4.
Proof. intros H. unfold mach_plus. repeat destruct (Rle_dec _ _); nra. Qed.
Lemma one_way ga ul ur n : 1 < ga -> physical ga ul -> physical ga ur -> 0 < normal_velocity ul n * normal_velocity ur n -> off_tie AUSM ga ul ur n.
Proof.
  intros Hg Hl Hr P. right. pose proof (sound_pos' ga ul Hg Hl) as Cl. pose proof (sound_pos' ga ur Hg Hr) as Cr.
  set (a := normal_velocity ul n) in *. set (b := normal_velocity ur n) in *. set (c := S_Gas.sound ga ul) in *. set (d := S_Gas.sound ga ur) in *.
  assert (Ic : 0 < / c) by (apply Rinv_0_lt_compat; auto). assert (Id : 0 < / d) by (apply Rinv_0_lt_compat; auto).
  destruct (Rlt_le_dec 0 a) as [A|A].
  - assert (B : 0 < b). { destruct (Rlt_le_dec 0 b); auto. exfalso. assert (0 <= a * - b) by (apply Rmult_le_pos; lra). lra. } pose proof (mp_pos (a / c) (Rmult_lt_0_compat _ _ A Ic)). pose proof (mp_neg (- (b / d))) as Q2. assert (0 < b / d) by (apply Rmult_lt_0_compat; auto). specialize (Q2 ltac:(lra)). lra.
  - assert (A' : a < 0). { destruct A; auto. subst. rewrite H in P. lra. } assert (B : b < 0). { destruct (Rlt_le_dec b 0); auto. exfalso. assert (0 <= - a * b) by (apply Rmult_le_pos; lra). lra. } assert (0 < - a / c) by (apply Rmult_lt_0_compat; lra). assert (0 < - b / d) by (apply Rmult_lt_0_compat; lra). pose proof (mp_neg (a / c)) as Q1. pose proof (mp_pos (- (b / d))) as Q2. unfold Rdiv in *. specialize (Q1 ltac:(lra)). specialize (Q2 ltac:(lra)). lra.
Qed.

Lemma ex_phys i : physical (gam air) (exV i).
Proof. unfold exV. destruct (i =? 0)%nat; split; cbn; unfold pressure; cbn; lra. Qed.
Lemma ex_side a b : a <> b -> 2 * (vy b - vy a) - (vx b - vx a) <> 0 -> forall i j, off_tie AUSM (gam air) (exV i) (exV j) (fm_n (face_metric a b)).
Proof.
  intros D H i j. apply one_way; [cbn; lra|apply ex_phys|apply ex_phys|]. pose proof (metric_scaled a b D) as E. set (n := fm_n (face_metric a b)) in *. set (l := fm_len (face_metric a b)) in *.
  clearbody l n.   unfold vscal, S_Geom.rot_right, vsub in E. cbn in E. injection E as E1 E2. set (s := 2 * vx n + vy n).
  assert (NZ : s <> 0). { intros Q. apply H. transitivity (l * s); [unfold s; transitivity (2 * (l * vx n) + l * vy n); [rewrite E1, E2; ring|ring]|rewrite Q; ring]. }
  assert (NV : forall k, exists c, 0 < c /\ normal_velocity (exV k) n = c * s). { intros k. unfold exV. destruct (k =? 0)%nat; [exists (1/4)|exists (1/2)]; (split; [lra|]); unfold normal_velocity, s; cbn; field. }
  destruct (NV i) as (c & Pc & ->). destruct (NV j) as (d & Pd & ->). assert (0 < s * s) by nra. assert (0 < c * d) by (apply Rmult_lt_0_compat; auto). replace (c * s * (d * s)) with (c * d * (s * s)) by ring. apply Rmult_lt_0_compat; auto.
Qed.
Local Ltac ends := repeat match goal with |- context[edge ?c ?f] => let v := eval vm_compute in (edge c f) in change (edge c f) with v end.
Lemma ex_off i f j : across (cells ring) i f j -> let e := edge (cell (cells ring) i) f in off_tie AUSM (gam air) (exV i) (exV j) (fm_n (face_metric (aat ringX6 (fst e)) (aat ringX6 (snd e)))).
Proof.
  intros A e. assert (Hi : (i < 7)%nat) by apply A. assert (Hj : (j < 7)%nat) by apply A. assert (Hf : (f < length (cell (cells ring) i))%nat) by apply A. pose proof (ring_ends i f Hi Hf) as D.
  destruct (Nat.eq_dec i 0) as [I0|I0]; [|destruct (Nat.eq_dec j 0) as [J0|J0]].
  - subst i. apply ex_side; auto. unfold e. cbn in Hf. do 3 (destruct f as [|f]; [ends; cbn; lra|]). lia.
  - subst j. apply ex_side; auto. unfold e. apply acrossb_ok in A. clear D e.
    do 7 (destruct i as [|i]; [cbn in Hf; do 3 (destruct f as [|f]; [vm_compute in A; try discriminate A; ends; cbn; lra|]); lia|]). lia.
  - left. unfold exV. destruct (Nat.eqb_spec i 0), (Nat.eqb_spec j 0); try lia. reflexivity.
Qed.
Theorem C103_example : forall je : nat -> nat, exists t dist lm jc jr ji jx j0 hsl gh S gh0 W x, let g := mkgm ring t ringX6 (mkarr 7 (fun _ => [1%Z])) in
  trivial_partition 7 2 je = Some dist /\ split_run g ring_h dist 2 lm jc jr ji jx j0 hsl gh S /\ built ring ring_h ringX6 gh0 W /\ nelem (l_m (lm 0%nat)) = 3%nat /\ exV 0 <> exV 1 /\
  (forall r l, (r < 2)%nat -> (l < nelem (l_m (lm r)))%nat -> aat (x r) l = exV (aat (l_eglob (lm r)) l)) /\
  exists A, assemble_ranks 2 lm S exfl x (fun _ _ => mat0) = Some A /\ assemble_jacobian W exfl (mkarr 7 exV) (fun i => i) None (fun _ _ => mat0) = Some A.
Proof.
  intros je. destruct (C102_example je) as (t & dist & lm & jc & jr & ji & jx & j0 & hsl & gh & S & gh0 & W & T & N3 & _). cbv zeta in T. set (g := mkgm ring t ringX6 (mkarr 7 (fun _ => [1%Z]))) in *.
  pose proof T as [SO BW CE _ _ _]. pose proof (in_order _ _ _ _ _ _ _ _ _ _ _ _ _ _ SO) as MO. destruct SO as (NR & EP & SR).
  set (nb := fun r k => match nth_error (conns (l_m (lm r))) k with Some cf => Z.to_nat (cf_gelem cf) | None => 0%nat end).
  set (x := fun r => mkarr (sm_ne (S r) + sm_nc (S r)) (fun i => if (i <? nelem (l_m (lm r)))%nat then exV (aat (l_eglob (lm r)) i) else exV (nb r (i - nelem (l_m (lm r)))%nat))).
  exists t, dist, lm, jc, jr, ji, jx, j0, hsl, gh, S, gh0, W, x. cbv zeta. split; [exact EP|]. split; [exact SR|]. split; [exact BW|]. split; [exact N3|]. split. { intros Q. injection Q. lra. }
  assert (XO : forall r l, (r < 2)%nat -> (l < nelem (l_m (lm r)))%nat -> aat (x r) l = exV (aat (l_eglob (lm r)) l)). { intros r l _ Hl. cbn. destruct (Nat.ltb_spec l (nelem (l_m (lm r)))); [auto|lia]. }
  split; [exact XO|].
  destruct (C103_matrix g ring_h dist 2 lm jc jr ji jx j0 hsl gh S gh0 W SR BW) with (fl := exfl) (V := exV) (x := x) (A0 := fun _ _ : nat => mat0) as (A & A' & E1 & E2 & E3); auto.
  - intros r k cf Hr Ec. apply (ghost_rc g ring_h dist 2 lm jc jr ji jx j0 hsl gh S SR MO gh0 W BW CE r Hr k cf Ec).
  - intros bf Hb. cbn in Hb. destruct Hb as [<-|[<-|[<-|[]]]]; do 3 eexists; split; reflexivity.
  - intros bf t0 r p q Hb Et. cbn in Hb. destruct Hb as [<-|[<-|[<-|[]]]]; cbn in Et; injection Et as <- <-; discriminate.
  - split; [exact Logic.I|]. split; [cbn; lra|discriminate].
  - intros i _. apply ex_phys.
  - intros i f j Ac. apply ex_off. exact Ac.
  - intros r k cf Hr Ec. cbn [x aat]. destruct (Nat.ltb_spec (nelem (l_m (lm r)) + k) (nelem (l_m (lm r)))); [lia|]. replace (nelem (l_m (lm r)) + k - nelem (l_m (lm r)))%nat with k by lia. unfold nb. rewrite Ec. reflexivity.
  - exists A. split; [exact E1|]. refine (eq_trans E2 _). f_equal. apply functional_extensionality. intros p. apply functional_extensionality. intros q. symmetry. apply E3.
Qed.
Print Assumptions C103_example.
