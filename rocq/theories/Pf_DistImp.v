(** Proofs about M_DistImp.v *)
From Coq Require Import Reals Lra List String ZArith Bool Arith Lia Permutation FunctionalExtensionality.
From Verif Require Import Base BaseR BaseSum M_Gas M_Flux M_Visc M_BC M_BCConf M_Mesh M_Geom M_Part M_Space M_Grad M_Recon S_Space S_Gas S_Mesh S_Geom M_Resid S_Resid S_Par M_Ode
  Pf_Host Pf_Topo Pf_Incid Pf_Full Pf_Geom Pf_Space Pf_Grad Pf_Recon Pf_Resid Pf_Resid2 Pf_Part Pf_Restrict Pf_Part2 P_Geom P_Grad P_Resid P_Part Pf_Par P_Par Pf_Par2 P_Par2 Pf_Ode Pf_Ode2 M_Ctl M_Case M_Start M_Dist Pf_Dist M_DistImp.
Import ListNotations.
Open Scope R_scope.

Lemma slot_inv ne : forall k r b q l, slot_from ne k r b = Some (q, l) -> (r <= q < r + k)%nat /\ (l < ne q)%nat /\ b = (list_sum (map ne (seq r (q - r))) + l)%nat.
Proof.
  induction k as [|k IH]; intros r b q l E; cbn [slot_from] in E; [discriminate|]. destruct (Nat.ltb_spec b (ne r)) as [Q|Q].
  - injection E as <- <-. split; [lia|]. split; auto. replace (r - r)%nat with 0%nat by lia. reflexivity.
  - apply IH in E. destruct E as (E1 & E2 & E3). split; [lia|]. split; auto. replace (q - r)%nat with (Datatypes.S (q - (r + 1))) by lia. cbn [seq map list_sum fold_right].
    replace (Datatypes.S r) with (r + 1)%nat by lia. unfold list_sum in E3. lia.
Qed.

Section Loop.
Variables (g : gmesh) (hs : list (nat * nat)) (dist : arr nat) (nr : nat) (lm : nat -> lmesh).
Variables (jc : nat -> nat -> list nat) (jr : nat -> nat -> list Z) (ji : nat -> nat -> nat) (jx : nat -> nat -> v2) (j0 : nat -> nat -> nat -> Z).
Variables (hsl : nat -> list (nat * nat)) (gh : nat -> nat -> v2) (S : nat -> smesh).
Hypothesis SR : split_run g hs dist nr lm jc jr ji jx j0 hsl gh S.
Hypothesis MO : forall i j, (i <= j)%nat -> (j < nelem (g_m g))%nat -> (aat dist i <= aat dist j)%nat.
Variables (gh0 : nat -> v2) (W : smesh).
Hypothesis BW : built (g_m g) hs (g_X g) gh0 W.
Hypothesis NR : (0 < nr)%nat.
Notation el a l := (aat (l_eglob (lm a)) l).
Notation spr := (spread lm S).
Notation sprm := (spread_mon nr lm S W).

Lemma cell_first a l : (a < nr)%nat -> (l < sm_ne (S a))%nat -> el a l = (first lm a + l)%nat.
Proof.
  intros Ha Hl. destruct (local_sizes _ _ _ _ _ _ _ _ _ _ _ _ _ SR a Ha) as (N & _). pose proof (own_block _ _ _ _ _ _ _ _ _ _ _ _ _ SR MO a l Ha ltac:(lia)) as E.
  apply slot_inv in E. destruct E as (_ & _ & E). rewrite Nat.sub_0_r in E. exact E.
Qed.
Lemma gathered {T} (d : T) (x : nat -> arr T) (a0 : arr T) : (forall a l, (a < nr)%nat -> (l < sm_ne (S a))%nat -> aat (x a) l = aat a0 (el a l)) -> gather nr lm d x = blocks d (sm_ne W) a0.
Proof.
  intros H. apply functional_extensionality. intros b. unfold gather, blocks. destruct (whole_sizes g hs dist nr lm jc jr ji jx j0 hsl gh S SR gh0 W BW) as (N & _). rewrite N. destruct (Nat.ltb_spec b (nelem (g_m g))) as [Q|Q].
  - destruct (block_at _ _ _ _ _ _ _ _ _ _ _ _ _ SR MO b Q) as (q & l & -> & Q1 & Q2 & Q3). destruct (local_sizes _ _ _ _ _ _ _ _ _ _ _ _ _ SR q Q1) as (N' & _). rewrite H by lia. rewrite Q3. reflexivity.
  - destruct (slot _ nr b) as [(q & l)|] eqn:E; [|reflexivity]. exfalso. pose proof E as E'. apply slot_inv in E. destruct E as (Q1 & Q2 & Q3). rewrite Nat.sub_0_r in Q3.
    destruct (local_sizes _ _ _ _ _ _ _ _ _ _ _ _ _ SR q ltac:(lia)) as (N' & _). pose proof (cell_first q l ltac:(lia) ltac:(lia)) as E1. destruct (rank_area g hs dist nr lm jc jr ji jx j0 hsl gh S SR gh0 W BW NR q l ltac:(lia) ltac:(lia)) as (E2 & _).
    unfold first in E1. lia.
Qed.

Lemma ranks_pseudo cf (cfl : nat -> R) (d0 : arr R) (d : nat -> arr R) M : (forall a, (a < nr)%nat -> cfl a = cf) -> (sm_ne W <= alen d0)%nat -> (forall a, (a < nr)%nat -> alen (d a) = sm_ne (S a)) ->
  (forall a l, (a < nr)%nat -> (l < sm_ne (S a))%nat -> aat (d a) l = aat d0 (el a l)) ->
  exists e e0 M', add_pseudo_time (sm_ne W) (sm_A W) (fun i => i) cf d0 M = Some (e0, M') /\ ranks_pseudo_time nr lm S cfl d M = Some (e, M') /\
  (forall a l, (a < nr)%nat -> (l < sm_ne (S a))%nat -> aat (e a) l = aat e0 (el a l)).
Proof.
  intros HC L0 LD HD. pose proof SR as [G Hd Hr RM SE BU D]. pose proof (so_A _ (built_sm _ _ _ _ _ BW)) as LA.
  destruct (pseudo_ok (sm_ne W) (sm_A W) (fun i => i) (fun i j _ _ Q => Q) cf d0 M) as (e0 & M0 & E0 & _ & Q1 & _ & Q3 & Q4); try lia.
  assert (INJ : forall a l b k, (a < nr)%nat -> (l < sm_ne (S a))%nat -> (b < nr)%nat -> (k < sm_ne (S b))%nat -> el a l = el b k -> a = b /\ l = k).
  { intros a l b k Ha Hl Hb Hk E. destruct (local_sizes _ _ _ _ _ _ _ _ _ _ _ _ _ SR a Ha) as (Na & _). destruct (local_sizes _ _ _ _ _ _ _ _ _ _ _ _ _ SR b Hb) as (Nb & _). apply (cell_once _ _ _ _ _ _ _ _ _ _ _ _ _ SR); auto; lia. }
  set (v := fun i => aat (sm_A W) i / (cf * aat d0 i)) in *.
  destruct (floop_inv _ (fun k (s : (nat -> arr R) * bmat) => (forall a, (k <= a)%nat -> fst s a = d a) /\ (forall a l, (a < k)%nat -> (l < sm_ne (S a))%nat -> aat (fst s a) l = v (el a l)) /\
     (forall a l, (a < k)%nat -> (l < sm_ne (S a))%nat -> snd s (el a l) (el a l) = mplus (M (el a l) (el a l)) (mdiag (v (el a l)))) /\
     (forall p q, p <> q \/ (forall a l, (a < k)%nat -> (l < sm_ne (S a))%nat -> p <> el a l) -> snd s p q = M p q)) nr
    (fun r s => x <- add_pseudo_time (sm_ne (S r)) (sm_A (S r)) (aat (l_eglob (lm r))) (cfl r) (d r) (snd s) ;; Some (fun q => if (q =? r)%nat then fst x else fst s q, snd x)) (d, M)) as ((e & M1) & E1 & P1 & P2 & P3 & P4).
  - cbn [fst snd]. split; auto. split; [intros; lia|]. split; [intros; lia|]. auto.
  - intros k (e & N) Hk (I1 & I2 & I3 & I4). cbn [fst snd] in *. pose proof (so_A _ (built_sm _ _ _ _ _ (BU k Hk))) as LAk.
    destruct (pseudo_ok (sm_ne (S k)) (sm_A (S k)) (aat (l_eglob (lm k)))) with (cfl := cfl k) (dtm := d k) (M := N) as (e1 & N1 & Ek & _ & K1 & _ & K3 & K4).
    { intros i j Hi Hj E. apply (INJ k i k j Hk Hi Hk Hj E). } { rewrite LD; auto. } { lia. }
    rewrite Ek. cbn [bind]. eexists. split; [reflexivity|]. cbn [fst snd].
    assert (VK : forall l, (l < sm_ne (S k))%nat -> aat (sm_A (S k)) l / (cfl k * aat (d k) l) = v (el k l)). { intros l Hl. unfold v. rewrite HC, HD by auto. destruct (rank_area g hs dist nr lm jc jr ji jx j0 hsl gh S SR gh0 W BW NR k l Hk Hl) as (_ & ->). reflexivity. }
    split; [|split; [|split]].
    + intros a Ha. destruct (Nat.eqb_spec a k); [lia|]. apply I1. lia.
    + intros a l Ha Hl. destruct (Nat.eqb_spec a k) as [->|]; [rewrite K1, VK by auto; reflexivity|apply I2; auto; lia].
    + intros a l Ha Hl. destruct (Nat.eq_dec a k) as [->|NE].
      * rewrite K3, VK by auto. f_equal. apply I4. right. intros b j Hb Hj E. destruct (INJ k l b j) as (Q & _); auto; lia.
      * rewrite K4; [apply I3; auto; lia|]. right. intros i Hi E. destruct (INJ a l k i) as (Q & _); auto; lia.
    + intros p q H. rewrite K4; [apply I4|]. { destruct H as [H|H]; [auto|]. right. intros a l Ha Hl. apply H; auto; lia. } destruct H as [H|H]; [auto|]. right. intros i Hi. apply H; auto; lia.
  - exists e, e0, M1. cbn [fst snd] in *. assert (EM : M0 = M1).
    { apply functional_extensionality. intros p. apply functional_extensionality. intros q. destruct (Nat.eq_dec p q) as [<-|NE]; [|rewrite Q4, P4; auto].
      destruct (whole_sizes g hs dist nr lm jc jr ji jx j0 hsl gh S SR gh0 W BW) as (N & _). destruct (Nat.lt_ge_cases p (sm_ne W)) as [Hp|Hp].
      - destruct (block_at _ _ _ _ _ _ _ _ _ _ _ _ _ SR MO p ltac:(lia)) as (a & l & _ & A1 & A2 & <-). destruct (local_sizes _ _ _ _ _ _ _ _ _ _ _ _ _ SR a A1) as (N' & _). rewrite (Q3 _ Hp), P3 by lia. reflexivity.
      - rewrite Q4, P4; auto. { right. intros a l Ha Hl E. destruct (rank_area g hs dist nr lm jc jr ji jx j0 hsl gh S SR gh0 W BW NR a l Ha Hl). lia. } right. intros i Hi. lia. }
    subst M1. split; [exact E0|]. split; [exact E1|]. intros a l Ha Hl. rewrite P2 by auto. destruct (rank_area g hs dist nr lm jc jr ji jx j0 hsl gh S SR gh0 W BW NR a l Ha Hl) as (Q & _). rewrite Q1 by auto. reflexivity.
Qed.

Variables (second : bool) (sp : nat -> spatial) (wk : nat -> work) (c : sconf) (ls : lsolver) (relax : st -> st -> R).
Variables (Rf : arr st -> option (exc rout)) (Jf : arr st -> option (exc bmat)) (ok : arr st -> Prop).
Hypothesis EV : forall u0 u x, alen u0 = sm_ne W -> (forall a, (a < nr)%nat -> spr (aat u0) a (u a)) -> ok u0 -> Rf u0 = Some x ->
  exists ro out, x = Val ro /\ rt_fin ro = true /\ alen (rt_r ro) = sm_ne W /\ alen (rt_dt ro) = sm_ne W /\ ranks_residual nr lm S second sp wk u = Some out /\
  forall a, (a < nr)%nat -> exists d, ro_dt (out a) = Some d /\ alen (ro_res (out a)) = sm_ne (S a) /\ alen d = sm_ne (S a) /\
    forall l, (l < sm_ne (S a))%nat -> aat (ro_res (out a)) l = aat (rt_r ro) (el a l) /\ aat d l = aat (rt_dt ro) (el a l).
Hypothesis EJ : forall u0 u, alen u0 = sm_ne W -> (forall a, (a < nr)%nat -> spr (aat u0) a (u a)) -> ok u0 -> exists J, Jf u0 = Some (Val J) /\ ranks_jac nr lm S sp u = Some J.
Notation sbody := (steady_body (sm_ne W) (sm_A W) c Rf 0.25 0.3 (be_upd (sm_ne W) (sm_A W) (fun i => i) Jf (one_ksp (sm_ne W) ls) relax)).

Lemma imp_body_ok x0 x r : sprm x0 x -> ok (m_u x0) -> sbody x0 = Some r -> exists y0 y, r = SNext y0 /\ imp_body nr lm S second sp wk c ls relax x = Some y /\ sprm y0 y.
Proof.
  intros (L0 & M) Ho E. pose proof SR as [G Hd Hr RM SE BU D]. unfold steady_body in E. destruct (Rf (m_u x0)) as [z|] eqn:Er; [|discriminate].
  destruct (EV (m_u x0) (fun a => m_u (x a)) z L0 (fun a Ha => proj1 (M a Ha)) Ho Er) as (ro & out & -> & FI & LR & LD & EO & HO). cbv zeta in E.
  destruct (EJ (m_u x0) (fun a => m_u (x a)) L0 (fun a Ha => proj1 (M a Ha)) Ho) as (J & EJ0 & EJr).
  pose proof (so_A _ (built_sm _ _ _ _ _ BW)) as LA. unfold be_upd in E. rewrite EJ0 in E. set (cf := expResidualRamp _ _ _ _ _ _) in *.
  unfold imp_body. cbv zeta. rewrite EO. cbn [bind].
  destruct (reverse_ok _ _ _ _ _ _ _ _ _ _ _ _ _ SR MO (fun r => with_ghosts S r (ro_res (out r)))) as (rv & -> & HV).
  { intros q Hq. unfold with_ghosts. cbn [alen aat]. split; auto. intros k Hk. destruct (Nat.ltb_spec (sm_ne (S q) + k) (sm_ne (S q))); [lia|reflexivity]. }
  cbn [bind]. rewrite EJr. cbn [bind].
  assert (RV : forall a l, (a < nr)%nat -> (l < sm_ne (S a))%nat -> aat (rv a) l = aat (rt_r ro) (el a l)).
  { intros a l Ha Hl. destruct (HV a Ha) as (Q1 & Q2). rewrite Q2. unfold with_ghosts. cbn [aat]. destruct (Nat.ltb_spec l (sm_ne (S a))); [|lia]. destruct (HO a Ha) as (d & _ & _ & _ & P). apply P. auto. }
  destruct (finite_choice (fun a d => (a < nr)%nat -> ro_dt (out a) = Some d /\ alen d = sm_ne (S a) /\ forall l, (l < sm_ne (S a))%nat -> aat d l = aat (rt_dt ro) (el a l)) (mkarr 0 (fun _ => 0))) with (n := nr) as (dd & HDD).
  { intros a. destruct (lt_dec a nr) as [Ha|]; [|exists (mkarr 0 (fun _ => 0)); lia]. destruct (HO a Ha) as (d & Q1 & _ & Q2 & Q3). exists d. intros _. split; auto. split; auto. intros l Hl. apply Q3. auto. }
  destruct (all_of_ok (mkarr 0 (fun _ => 0)) nr (fun r => ro_dt (out r)) dd) as (d & -> & Hd1 & _). { intros a Ha. apply (HDD a Ha Ha). }
  cbn [bind]. assert (CF : forall a, (a < nr)%nat -> expResidualRamp (cflinit c) (cflfin c) (m_cfl (x a)) (m_old (x a) / m_resi (x a)) 0.25 0.3 = cf).
  { intros a Ha. destruct (M a Ha) as (_ & Q). injection Q as Q1 Q2 Q3 Q4 Q5 Q6 Q7. unfold cf. congruence. }
  destruct (ranks_pseudo cf (fun r => expResidualRamp (cflinit c) (cflfin c) (m_cfl (x r)) (m_old (x r) / m_resi (x r)) 0.25 0.3) (rt_dt ro) d J CF) as (e & e0 & M' & P0 & Pr & PE); try lia.
  { intros a Ha. rewrite Hd1 by auto. apply (HDD a Ha Ha). } { intros a l Ha Hl. rewrite Hd1 by auto. apply (HDD a Ha Ha); auto. }
  rewrite P0 in E. cbn [bind] in E. rewrite Pr. cbn [bind].
  rewrite (gathered 0 e e0 PE), (gathered szero rv (rt_r ro) RV), (gathered szero (fun a => m_u (x a)) (m_u x0)) by (intros a l Ha Hl; destruct (M a Ha) as ((_ & Q & _) & _); apply Q; auto).
  destruct (M 0%nat NR) as (_ & Q0). injection Q0 as Q0 _ _ _ _ _ _. rewrite Q0. unfold one_ksp in E. set (X := ls _ _ _ _ _) in *.
  destruct (be_update_ok (sm_ne W) relax (m_u x0) (mkarr (sm_ne W) (fst X))) as (v & Ev & Lv & Pv & _); [lia|cbn [alen]; lia|]. rewrite Ev in E. cbn [bind] in E. rewrite FI in E. injection E as <-. cbn [aat] in Pv.
  assert (UU : forall a, exists w, (a < nr)%nat -> be_update (sm_ne (S a)) relax (m_u (x a)) (mkarr (sm_ne (S a)) (fun l => fst X (first lm a + l)%nat)) = Some w /\ alen w = (sm_ne (S a) + sm_nc (S a))%nat /\ forall l, (l < sm_ne (S a))%nat -> aat w l = aat v (el a l)).
  { intros a. destruct (lt_dec a nr) as [Ha|]; [|exists v; lia]. destruct (M a Ha) as ((LU & PU & _) & _).
    destruct (be_update_ok (sm_ne (S a)) relax (m_u (x a)) (mkarr (sm_ne (S a)) (fun l => fst X (first lm a + l)%nat))) as (w & Ew & Lw & Pw & _); [lia|cbn [alen]; lia|]. cbn [aat] in Pw.
    exists w. intros _. split; auto. split; [lia|]. intros l Hl. destruct (rank_area g hs dist nr lm jc jr ji jx j0 hsl gh S SR gh0 W BW NR a l Ha Hl) as (Q1 & _). rewrite Pw, Pv by auto. rewrite PU by auto. rewrite <- (cell_first a l Ha Hl). reflexivity. }
  destruct (finite_choice _ v UU nr) as (w & HW).
  match goal with |- context [all_of ?d0 nr ?f] => destruct (all_of_ok d0 nr f w) as (u1 & -> & H1 & _) end. { intros a Ha. apply (HW a Ha Ha). }
  cbn [bind]. destruct (forward_ok _ _ _ _ _ _ _ _ _ _ _ _ _ SR MO u1 (aat v)) as (u2 & -> & H2). { intros a Ha. rewrite H1 by auto. apply (HW a Ha Ha). }
  cbn [bind]. eexists. eexists. split; [reflexivity|]. split; [reflexivity|]. split; cbn [m_u m_step m_resi m_old m_init m_cfl m_lin m_log]; [lia|]. intros a Ha. split; [apply H2; auto|].
  rewrite (energy_sum g hs dist nr lm jc jr ji jx j0 hsl gh S SR gh0 W BW NR (rt_r ro) rv) by (intros b l Hb Hl; apply RV; auto). fold (res_norm (sm_ne W) (sm_A W) (rt_r ro)).
  rewrite (CF a Ha). destruct (M a Ha) as (_ & Q). injection Q as Q1 Q2 Q3 Q4 Q5 Q6 Q7. rewrite Q1, Q2, Q4, Q6, Q7. reflexivity.
Qed.
Lemma imp_loop_ok fuel : forall x0 x r, sprm x0 x -> (forall k y, (k < fuel)%nat -> steady_loop c sbody k x0 = Some (SNext y) -> ok (m_u y)) ->
  steady_loop c sbody fuel x0 = Some r -> exists y0 y, r = SNext y0 /\ imp_loop nr lm S second sp wk c ls relax fuel x = Some y /\ sprm y0 y.
Proof.
  induction fuel as [|k IH]; intros x0 x r M O E; cbn [steady_loop imp_loop] in *.
  - injection E as <-. eauto.
  - pose proof (spread_cont nr lm S W c x0 x) as SC. destruct (steady_cont c x0) eqn:EC.
    + replace (forallb (fun r0 => steady_cont c (x r0)) (seq 0 nr)) with true.
      2:{ symmetry. apply forallb_forall. intros a Ha. apply in_seq in Ha. apply SC; auto. lia. }
      destruct (sbody x0) as [z|] eqn:Eb; [|discriminate].
      destruct (imp_body_ok x0 x z M) as (y0 & y & -> & -> & My); auto. { apply (O 0%nat); [lia|reflexivity]. }
      cbn [bind]. apply (IH y0 y r); auto. intros j w Hj Ew. apply (O (Datatypes.S j)); [lia|]. cbn [steady_loop]. rewrite EC, Eb. exact Ew.
    + injection E as <-. replace (forallb (fun r0 => steady_cont c (x r0)) (seq 0 nr)) with false.
      2:{ symmetry. replace nr with (1 + (nr - 1))%nat by lia. cbn [Nat.add seq forallb]. rewrite SC by auto. reflexivity. }
      replace (forallb (fun r0 => negb (steady_cont c (x r0))) (seq 0 nr)) with true. { eauto. }
      symmetry. apply forallb_forall. intros a Ha. apply in_seq in Ha. rewrite SC by (auto; lia). reflexivity.
Qed.
(** a whole solve *)
Lemma imp_solve_ok main lg up JF G at_throw RF u0 u : RF main = Rf -> JF main = Jf -> relax_of G up = relax -> alen u0 = sm_ne W -> (forall a, (a < nr)%nat -> spr (aat u0) a (u a)) ->
  (forall k y, (k < Z.to_nat (maxiter c))%nat -> steady_loop c sbody k (mkmon u0 0 1 1 1 0 0 []) = Some (SNext y) -> ok (m_u y)) ->
  let r := ode_solve (sm_ne W) (sm_A W) RF (fun i => i) JF (one_ksp (sm_ne W) ls) G at_throw true main c lg up u0 in
  so_end r <> None -> (exists e, so_end r = Some e /\ e <> inr Other_error /\ (forall z, e = inl z -> z = 0%Z)) /\
  exists q, imp_solve nr lm S second sp wk c ls relax lg u = Some q /\ alen (so_u r) = sm_ne W /\
  forall a, (a < nr)%nat -> so_end (q a) = so_end r /\ so_td (q a) = so_td r /\ so_vecs (q a) = so_vecs r /\ spr (aat (so_u r)) a (so_u (q a)).
Proof.
  intros ER EJF RX L0 U O r. subst r. unfold ode_solve, loop_of, be_solve, imp_solve. cbv zeta. rewrite ER, EJF, RX. destruct (Z.leb_spec (maxiter c) 0) as [Q|Q].
  { cbn [so_end so_td so_vecs so_u m_u m_step m_log]. intros _. split; [eexists; split; [reflexivity|]; split; [discriminate|congruence]|]. eexists. split; [reflexivity|]. cbn [so_end so_td so_vecs so_u m_u m_step m_log]. split; [auto|]. intros a Ha. split; [auto|]. split; [destruct lg; auto|]. split; auto. }
  destruct (steady_loop c sbody (Z.to_nat (maxiter c)) (mkmon u0 0 1 1 1 0 0 [])) as [z|] eqn:EL; [|intros H; exfalso; apply H; reflexivity].
  destruct (imp_loop_ok (Z.to_nat (maxiter c)) (mkmon u0 0 1 1 1 0 0 []) (fun a => mkmon (u a) 0 1 1 1 0 0 []) z) as (y0 & y & -> & -> & LY & MY); auto. { split; [exact L0|]. intros a Ha. split; [apply U; auto|reflexivity]. }
  cbn [bind]. destruct (Nat.eqb_spec (m_step y0) 0) as [K0|K0]; [intros H; exfalso; apply H; reflexivity|].
  destruct ((Z.of_nat (m_step y0) <? maxiter c)%Z && rel_le (m_resi y0) (m_init y0) (tol c))%bool eqn:K1; [|destruct (Z.leb_spec (maxiter c) (Z.of_nat (m_step y0))) as [K2|K2]];
   cbn [so_end so_td so_vecs so_u m_u m_step m_log]; intros _; (split; [eexists; split; [reflexivity|]; split; [discriminate|congruence]|]); eexists; (split; [reflexivity|]); (split; [exact LY|]); intros a Ha; destruct (MY a Ha) as (SY & Q0); injection Q0 as Q1 Q2 Q3 Q4 Q5 Q6 Q7; rewrite Q1, Q2, Q4;
   (destruct (Nat.eqb_spec (m_step y0) 0); [lia|]); rewrite K1; cbn [so_end so_td so_vecs so_u]; rewrite ?Q7; auto 6.
  - destruct (Z.leb_spec (maxiter c) (Z.of_nat (m_step y0))); [|lia]. auto 6.
  - destruct (Z.leb_spec (maxiter c) (Z.of_nat (m_step y0))); [lia|]. auto 6.
Qed.
End Loop.
