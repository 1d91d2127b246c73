(** Proofs for C106: the matrix and the backward Euler solver on a mesh with its cells in two orders. *)
From Coq Require Import Reals List Arith ZArith Lia Lra Bool Permutation.
From Verif Require Import Base BaseR BaseSum M_Gas M_Flux M_Visc M_BC M_BCConf M_Mesh M_Geom M_Part M_Space M_Grad M_Recon S_Space S_Gas S_Mesh S_Geom S_Recon M_Resid S_Resid M_Ode
  Pf_Esuel Pf_Host Pf_Topo Pf_Incid Pf_Faces Pf_Full Pf_Geom Pf_Space Pf_Grad Pf_Recon Pf_Resid Pf_Reorder Pf_Part Pf_Restrict Pf_Part2 Pf_Resid2 P_Geom P_Flux P_Visc P_Recon P_Resid Pf_Par P_Par Pf_Par2 P_Par2 Pf_Ode Pf_Ode2 M_Ctl M_Case Pf_FluxJac Pf_JacPart P_JacPart Pf_Renum.
Import ListNotations.
Open Scope R_scope.

(** ** The matrix on both meshes *)
Section Matrix.
Variables (m : umesh) (hs : list (nat * nat)) (X : arr v2) (gh : nat -> v2) (S : smesh).
Variables (m' : umesh) (hs' : list (nat * nat)) (X' : arr v2) (gh' : nat -> v2) (S' : smesh) (s : arr nat).
Hypothesis B : built m hs X gh S.
Hypothesis B' : built m' hs' X' gh' S'.
Hypothesis RN : renumbered m X s m' X'.
Hypothesis D : distinct_ends m X.
Variable fl : flow.
Hypothesis TC : forall bf, In bf (bfaces m) -> exists t r b, btg bf = t :: r /\ mfind (fl_bcs fl) t = Some b.
Hypothesis NI : forall bf t r p q, In bf (bfaces m) -> btg bf = t :: r -> mfind (fl_bcs fl) t <> Some (BInflow p q).
Hypothesis JG : jac_gas fl.
Variables (u u' : arr st).
Hypothesis Lu : alen u = nelem m.
Hypothesis Lu' : alen u' = nelem m.
Hypothesis U : forall i, (i < nelem m)%nat -> aat u' i = aat u (aat s i).
Hypothesis PV : forall i, (i < nelem m)%nat -> physical (gam (fl_gas fl)) (aat u i).
Hypothesis OT : forall i f j, across (cells m) i f j ->
  off_tie (fl_jflux fl) (gam (fl_gas fl)) (aat u i) (aat u j) (fm_n (face_metric (aat X (fst (edge (cell (cells m) i) f))) (aat X (snd (edge (cell (cells m) i) f))))).
Notation gg := (mkgm m noconn X (mkarr 0 (fun _ => @nil Z))).
Notation ll := (as_part m' X' s gg).

Lemma matrix2 : exists A A', assemble_jacobian S fl u (fun i => i) None (fun _ _ => mat0) = Some A /\ assemble_jacobian S' fl u' (fun i => i) None (fun _ _ => mat0) = Some A' /\
  forall i j, (i < nelem m)%nat -> (j < nelem m)%nat -> A' i j = A (aat s i) (aat s j).
Proof.
  destruct (sizes m hs X gh S m' hs' X' gh' S' s B B' RN) as (N1 & N2 & N3 & N4 & N5 & C1 & NP).
  destruct (covers2 m hs X gh S m' hs' X' gh' S' s B B' RN fl TC) as (bc & bc' & C & C' & BC & BC' & BT). pose proof RN as (P & _ & _ & _ & _ & BF & _ & _).
  pose proof (built_ok _ _ _ _ _ B) as (a1 & a2 & a3 & a4 & a5 & _ & _ & _ & E2 & _). pose proof (built_ok _ _ _ _ _ B') as (b1 & b2 & b3 & b4 & b5 & _ & _ & _ & E2' & _).
  assert (HB : forall k, (k < sm_nb S)%nat -> forall p q, bc k <> BInflow p q).
  { intros k Hk p q Eb. destruct (nth_error_some _ (bfaces m) k) as (bf & Ef). { unfold nbface in *. lia. }
    destruct (TC bf (nth_error_In _ _ Ef)) as (t & r & b & Et & _). apply (NI bf t r p q (nth_error_In _ _ Ef) Et). rewrite (BC k bf t r Ef Et). congruence. }
  assert (HB' : forall k, (k < sm_nb S')%nat -> forall p q, bc' k <> BInflow p q).
  { intros k Hk p q Eb. destruct (nth_error_some _ (bfaces m') k) as (bf & Ef). { unfold nbface in *. lia. }
    destruct (forall2_nth _ _ _ BF k bf Ef) as (gb & Eg & _ & Et'). destruct (TC gb (nth_error_In _ _ Eg)) as (t & r & b & Et & _). apply (NI gb t r p q (nth_error_In _ _ Eg) Et). rewrite (BC' k bf t r Ef ltac:(congruence)). congruence. }
  assert (Eu : u = mkarr (sm_ne S + sm_nc S) (aat u)) by (rewrite N1, N2, Nat.add_0_r, <- Lu; destruct u; reflexivity).
  assert (Eu' : u' = mkarr (sm_ne S' + sm_nc S') (aat u')) by (rewrite N3, N4, Nat.add_0_r, <- Lu'; destruct u'; reflexivity).
  destruct (rows_ok _ _ _ _ _ B fl bc (aat u) (fun i => i) None (nelem m) C (proj1 JG) (fun k Hk => not_inflow _ _ _ _ (HB k Hk)) ltac:(intros; lia) ltac:(auto) ltac:(intros; lia) (fun _ _ => mat0)) as (A & EA & RA & _). rewrite <- Eu in EA.
  destruct (rows_ok _ _ _ _ _ B' fl bc' (aat u') (fun i => i) None (nelem m) C' (proj1 JG) (fun k Hk => not_inflow _ _ _ _ (HB' k Hk)) ltac:(intros; lia) ltac:(auto) ltac:(intros; lia) (fun _ _ => mat0)) as (A' & EA' & RA' & _). rewrite <- Eu' in EA'.
  exists A, A'. split; [exact EA|]. split; [exact EA'|]. intros i j Hi Hj. destruct (NP i Hi) as (Hsi & _). destruct (NP j Hj) as (Hsj & _). apply mget_eq. intros v w.
  rewrite <- (app_block (nelem m) A' i v j w Hj), <- (app_block (nelem m) A (aat s i) v (aat s j) w Hsj), RA, RA' by lia. rewrite !app_block by auto. f_equal.
  apply (same_outflow_law (st * st) (lin_in fl) (lin_bd fl) gg hs ll (SM m hs X gh S m' X' s B RN) gh S S' hs' gh' B B') with (bcs := fl_bcs fl); cbn [g_m g_X l_m l_X l_eglob as_part]; auto; try lia.
  - intros k cf. rewrite C1. destruct k; discriminate.
  - intros l Hl. rewrite U by lia. f_equal. unfold dof. destruct (NP l ltac:(lia)) as (Hs & _). destruct (Nat.ltb_spec l (sm_ne S')); [|lia]. destruct (Nat.ltb_spec (aat s l) (sm_ne S)); [|lia]. unfold unitv.
    destruct (Nat.eqb_spec l j) as [->|Q]; [rewrite Nat.eqb_refl; reflexivity|]. destruct (Nat.eqb_spec (aat s l) (aat s j)) as [Q'|]; [|reflexivity]. exfalso. apply Q. apply (perm_inj _ _ _ _ P); auto; lia.
  - intros k cf. rewrite C1. destruct k; discriminate.
  - intros i0 f j1 Ac. assert (Hi0 : (i0 < nelem m)%nat) by apply Ac. assert (Hj1 : (j1 < nelem m)%nat) by apply Ac. assert (Hf : (f < length (cell (cells m) i0))%nat) by apply Ac.
    apply rev_of; auto; cbn [fst]; auto.
Qed.
End Matrix.

(** ** The backward Euler solver on both meshes *)
(** the two linear solvers give the same solution to the same system with its unknowns in two orders, in the same number of iterations *)
Definition same_solver (n : nat) (s : arr nat) (ksp ksp' : nat -> bmat -> arr R -> arr st -> arr st -> arr st * nat) : Prop :=
  forall k M M' d d' u u' b b', (forall i j, (i < n)%nat -> (j < n)%nat -> M' i j = M (aat s i) (aat s j)) -> moved n s d d' -> moved n s u u' -> moved n s b b' ->
  moved n s (fst (ksp k M d u b)) (fst (ksp' k M' d' u' b')) /\ snd (ksp' k M' d' u' b') = snd (ksp k M d u b).
Section Solve.
Variables (n : nat) (s : arr nat) (A A' : arr R) (c : sconf) (Rf Rf' : arr st -> option (exc rout)) (Jf Jf' : arr st -> option (exc bmat)) (ok : arr st -> Prop).
Variables (ksp ksp' : nat -> bmat -> arr R -> arr st -> arr st -> arr st * nat) (relax : st -> st -> R) (glob glob' : nat -> nat).
Hypothesis P : is_perm n s.
Hypothesis LA : alen A = n.
Hypothesis LA' : alen A' = n.
Hypothesis AA : forall i, (i < n)%nat -> aat A' i = aat A (aat s i).
Hypothesis GI : forall i, (i < n)%nat -> glob i = i /\ glob' i = i.
Hypothesis KS : same_solver n s ksp ksp'.
Hypothesis EV : forall u u' x, moved n s u u' -> ok u -> Rf u = Some x -> exists ro ro', x = Val ro /\ Rf' u' = Some (Val ro') /\ moved_out n s ro ro' /\ rt_fin ro = true.
Hypothesis EJ : forall u u', moved n s u u' -> ok u -> exists J J', Jf u = Some (Val J) /\ Jf' u' = Some (Val J') /\ forall i j, (i < n)%nat -> (j < n)%nat -> J' i j = J (aat s i) (aat s j).
Notation sbody := (steady_body n A c Rf 0.25 0.3 (be_upd n A glob Jf ksp relax)).
Notation sbody' := (steady_body n A' c Rf' 0.25 0.3 (be_upd n A' glob' Jf' ksp' relax)).

Lemma moved_be k cfl u u' ro ro' x : moved n s u u' -> ok u -> moved_out n s ro ro' -> be_upd n A glob Jf ksp relax k cfl u ro = Some x ->
  exists v v' it, x = Val (v, it) /\ be_upd n A' glob' Jf' ksp' relax k cfl u' ro' = Some (Val (v', it)) /\ moved n s v v'.
Proof.
  intros Mu Ho (MR & MD & _) E. destruct (EJ u u' Mu Ho) as (J & J' & EJ1 & EJ2 & EM). unfold be_upd in *. rewrite EJ1 in E. rewrite EJ2. pose proof Mu as (U1 & U2 & U3). pose proof MD as (D1 & D2 & D3).
  assert (GJ : forall i j, (i < n)%nat -> (j < n)%nat -> glob i = glob j -> i = j) by (intros i j Hi Hj; rewrite (proj1 (GI i Hi)), (proj1 (GI j Hj)); auto).
  assert (GJ' : forall i j, (i < n)%nat -> (j < n)%nat -> glob' i = glob' j -> i = j) by (intros i j Hi Hj; rewrite (proj2 (GI i Hi)), (proj2 (GI j Hj)); auto).
  destruct (pseudo_ok n A glob GJ cfl (rt_dt ro) J) as (d & M & Ed & L1 & P1 & _ & P3 & P4); try lia. destruct (pseudo_ok n A' glob' GJ' cfl (rt_dt ro') J') as (d' & M' & Ed' & L1' & P1' & _ & P3' & P4'); try lia.
  rewrite Ed in E. rewrite Ed'. cbn [bind] in *.
  assert (MM : forall i j, (i < n)%nat -> (j < n)%nat -> M' i j = M (aat s i) (aat s j)).
  { intros i j Hi Hj. pose proof (perm_bound _ _ _ P Hi) as Hs. destruct (Nat.eq_dec i j) as [<-|Q].
    - specialize (P3 _ Hs). rewrite (proj1 (GI _ Hs)) in P3. specialize (P3' _ Hi). rewrite (proj2 (GI _ Hi)) in P3'. rewrite P3, P3', EM, AA, D3 by auto. reflexivity.
    - rewrite P4', P4 by (left; try (intros Z; apply Q; apply (perm_inj _ _ _ _ P); auto); auto). apply EM; auto. }
  assert (Md : moved n s d d') by (split; [lia|]; split; [lia|]; intros i Hi; pose proof (perm_bound _ _ _ P Hi); rewrite P1', P1, AA, D3 by auto; reflexivity).
  destruct (KS k M M' d d' u u' (rt_r ro) (rt_r ro') MM Md Mu MR) as ((X1 & X2 & X3) & XI).
  destruct (ksp k M d u (rt_r ro)) as (du & it). destruct (ksp' k M' d' u' (rt_r ro')) as (du' & it'). cbn [fst snd] in *. subst it'.
  destruct (be_update_ok n relax u du) as (v & Ev & Lv & Pv & _); try lia. destruct (be_update_ok n relax u' du') as (v' & Ev' & Lv' & Pv' & _); try lia. rewrite Ev in E. rewrite Ev'. cbn [bind] in *. injection E as <-.
  exists v, v', it. split; auto. split; auto. split; [lia|]. split; [lia|]. intros i Hi. pose proof (perm_bound _ _ _ P Hi). rewrite Pv', Pv, U3, X3 by auto. reflexivity.
Qed.
Lemma imoved_body x x' r : moved_mon n s x x' -> ok (m_u x) -> sbody x = Some r -> exists y y', r = SNext y /\ sbody' x' = Some (SNext y') /\ moved_mon n s y y'.
Proof.
  intros (M & Q) Ho E. injection Q as Q1 Q2 Q3 Q4 Q5 Q6 Q7. unfold steady_body in *. destruct (Rf (m_u x)) as [z|] eqn:Er; [|discriminate]. destruct (EV _ _ _ M Ho Er) as (ro & ro' & -> & -> & MO & FI). cbv zeta in *.
  rewrite Q1, Q2, Q3, Q4, Q5, Q6, Q7.
  destruct (be_upd n A glob Jf ksp relax _ _ _ _) as [z|] eqn:Eb; [|discriminate]. destruct (moved_be _ _ _ _ _ _ _ M Ho MO Eb) as (v & v' & it & -> & -> & Mv). pose proof MO as (MR & MD & Ef). rewrite Ef. rewrite FI in *. injection E as <-.
  eexists. eexists. split; [reflexivity|]. split; [reflexivity|]. split; cbn [m_u m_step m_resi m_old m_init m_cfl m_lin m_log]; auto. rewrite (moved_norm n s A A' P LA LA' AA _ _ MR). reflexivity.
Qed.
Lemma imoved_loop fuel : forall x x' r, moved_mon n s x x' -> (forall k y, (k < fuel)%nat -> steady_loop c sbody k x = Some (SNext y) -> ok (m_u y)) ->
  steady_loop c sbody fuel x = Some r -> exists y y', r = SNext y /\ steady_loop c sbody' fuel x' = Some (SNext y') /\ moved_mon n s y y'.
Proof.
  induction fuel as [|k IH]; intros x x' r M O E; cbn [steady_loop] in *.
  - injection E as <-. eauto.
  - assert (CE : steady_cont c x' = steady_cont c x). { destruct M as (_ & Q). injection Q as Q1 Q2 Q3 Q4 Q5 Q6 Q7. unfold steady_cont. congruence. }
    rewrite CE. destruct (steady_cont c x) eqn:EC; [|injection E as <-; eauto].
    destruct (sbody x) as [z|] eqn:Eb; [|discriminate].
    destruct (imoved_body x x' z M) as (y & y' & -> & -> & My); auto. { apply (O 0%nat); [lia|reflexivity]. }
    apply (IH y y' r); auto. intros j w Hj Ew. apply (O (Datatypes.S j)); [lia|]. cbn [steady_loop]. rewrite EC, Eb. exact Ew.
Qed.
Lemma imoved_solve main lg up JF JF' G G' at_throw at_throw' RF RF' u u' : RF main = Rf -> RF' main = Rf' -> JF main = Jf -> JF' main = Jf' -> relax_of G up = relax -> relax_of G' up = relax -> moved n s u u' ->
  (forall k y, (k < Z.to_nat (maxiter c))%nat -> steady_loop c sbody k (mkmon u 0 1 1 1 0 0 []) = Some (SNext y) -> ok (m_u y)) ->
  let r := ode_solve n A RF glob JF ksp G at_throw true main c lg up u in
  let r' := ode_solve n A' RF' glob' JF' ksp' G' at_throw' true main c lg up u' in
  so_end r <> None -> so_end r <> Some (inr Other_error) /\ so_end r' = so_end r /\ so_td r' = so_td r /\ so_vecs r' = so_vecs r /\ moved n s (so_u r) (so_u r').
Proof.
  intros ER ER' EF EF' RX RX' Mu O r r'. subst r r'. unfold ode_solve, loop_of, be_solve. cbv zeta. rewrite ER, ER', EF, EF', RX, RX'. destruct (Z.leb_spec (maxiter c) 0) as [Q|Q].
  { cbn [so_end so_td so_vecs so_u m_u m_step m_log]. intros _. split; [discriminate|]. auto 6. }
  destruct (steady_loop c sbody (Z.to_nat (maxiter c)) (mkmon u 0 1 1 1 0 0 [])) as [z|] eqn:EL; [|intros H; exfalso; apply H; reflexivity].
  destruct (imoved_loop (Z.to_nat (maxiter c)) (mkmon u 0 1 1 1 0 0 []) (mkmon u' 0 1 1 1 0 0 []) z) as (y & y' & -> & -> & My & Q0); auto. { split; [exact Mu|reflexivity]. }
  injection Q0 as Q1 Q2 Q3 Q4 Q5 Q6 Q7. rewrite Q1, Q2, Q4.
  destruct (Nat.eqb_spec (m_step y) 0) as [K0|K0]; [intros H; exfalso; apply H; reflexivity|].
  destruct ((Z.of_nat (m_step y) <? maxiter c)%Z && rel_le (m_resi y) (m_init y) (tol c))%bool; [|destruct (maxiter c <=? Z.of_nat (m_step y))%Z]; cbn [so_end so_td so_vecs so_u m_u m_step m_log]; intros _; (split; [discriminate|]); rewrite ?Q1, ?Q7; auto 6.
Qed.
End Solve.
