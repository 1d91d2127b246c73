(** Proofs for C101 and C102: the numbering of ghosted vectors, and the forward Euler loop of all ranks beside that of one process. *)
From Coq Require Import Reals List Arith ZArith Lia Lra Bool Permutation FunctionalExtensionality.
From Verif Require Import Base BaseR BaseSum M_Gas M_Flux M_Visc M_BC M_BCConf M_Mesh M_Geom M_Part M_Space M_Grad M_Recon S_Space S_Gas S_Mesh S_Geom S_Recon M_Resid S_Resid S_Par M_Ode M_Ctl M_Case M_Start M_Dist
  Pf_Host Pf_Topo Pf_Incid Pf_Full Pf_Geom Pf_Space Pf_Grad Pf_Recon Pf_Resid Pf_Resid2 Pf_Part Pf_Restrict Pf_Part2 P_Geom P_Grad P_Flux P_Visc P_Recon P_Resid P_Part Pf_Par P_Par Pf_Par2 P_Par2 Pf_Ode Pf_Ode2.
Import ListNotations.
Open Scope R_scope.

Lemma all_of_ok {T} (d : T) n f (g : nat -> T) : (forall r, (r < n)%nat -> f r = Some (g r)) ->
  exists h, all_of d n f = Some h /\ (forall r, (r < n)%nat -> h r = g r) /\ forall r, (n <= r)%nat -> h r = d.
Proof.
  intros H. unfold all_of. replace (forallb _ (seq 0 n)) with true.
  - eexists. split; [reflexivity|]. split; intros r Hr; destruct (Nat.ltb_spec r n); try lia; auto. rewrite H by auto. reflexivity.
  - symmetry. apply forallb_forall. intros r Hr. apply in_seq in Hr. rewrite H by lia. reflexivity.
Qed.

(** ** Block numbers *)
Lemma filter_none {A} (p : A -> bool) l : (forall x, In x l -> p x = false) -> filter p l = [].
Proof. induction l as [|x l IH]; cbn; intros H; auto. rewrite H by auto. apply IH. intros y Hy. apply H. auto. Qed.
Lemma slot_concat (L : nat -> list nat) (ne : nat -> nat) : (forall r, ne r = length (L r)) -> forall k r b x, nth_error (flat_map L (seq r k)) b = Some x ->
  exists q l, slot_from ne k r b = Some (q, l) /\ (r <= q < r + k)%nat /\ nth_error (L q) l = Some x.
Proof.
  intros HN. induction k as [|k IH]; intros r b x E; cbn [seq flat_map slot_from] in *. { destruct b; discriminate. }
  rewrite HN. destruct (Nat.ltb_spec b (length (L r))) as [Q|Q].
  - rewrite nth_error_app1 in E by auto. exists r, b. split; auto. split; [lia|auto].
  - rewrite nth_error_app2 in E by auto. rewrite Nat.add_1_r. destruct (IH _ _ _ E) as (q & l & E1 & E2 & E3). exists q, l. split; auto. split; [lia|auto].
Qed.
Lemma slot_ext ne ne' : forall k r b, (forall q, (r <= q < r + k)%nat -> ne q = ne' q) -> slot_from ne k r b = slot_from ne' k r b.
Proof.
  induction k as [|k IH]; intros r b H; cbn [slot_from]; auto. rewrite <- (H r) by lia. destruct (b <? ne r); auto. apply IH. intros q Hq. apply H. lia.
Qed.
Lemma flat_map_snoc (A B : nat -> list nat) l0 l1 c x : (forall r, In r (l0 ++ c :: l1) -> r <> c -> B r = []) -> NoDup (l0 ++ c :: l1) -> B c = [x] -> (forall r, In r l1 -> A r = []) ->
  flat_map (fun r => A r ++ B r) (l0 ++ c :: l1) = flat_map A (l0 ++ c :: l1) ++ [x].
Proof.
  intros HB ND HC HA. rewrite !flat_map_app. cbn [flat_map]. rewrite HC.
  assert (N0 : ~ In c l0 /\ ~ In c l1). { apply NoDup_remove_2 in ND. rewrite in_app_iff in ND. tauto. } destruct N0 as (N0 & N1).
  assert (E0 : flat_map (fun r => A r ++ B r) l0 = flat_map A l0).
  { assert (H0 : forall r, In r l0 -> B r = []). { intros r Hr. apply HB. apply in_or_app; auto. intros ->. auto. } clear -H0. induction l0 as [|r l IH]; cbn; auto. rewrite H0 by (left; auto). rewrite IH by (intros; apply H0; right; auto). rewrite app_nil_r. reflexivity. }
  assert (E1 : flat_map (fun r => A r ++ B r) l1 = [] /\ flat_map A l1 = []).
  { assert (H1 : forall r, In r l1 -> B r = [] /\ A r = []). { intros r Hr. split; auto. apply HB. apply in_or_app; right; right; auto. intros ->. auto. } clear -H1. induction l1 as [|r l IH]; cbn; auto. destruct (H1 r (or_introl eq_refl)) as (Q1 & Q2). destruct IH as (I1 & I2). { intros; apply H1; right; auto. } rewrite Q1, Q2, I1, I2. auto. }
  destruct E1 as (E1 & E2). rewrite E0, E1, E2, !app_nil_r, app_assoc. reflexivity.
Qed.
Lemma blocks_in_order (d : arr nat) nr N : (forall i, (i < N)%nat -> (aat d i < nr)%nat) -> (forall i j, (i <= j)%nat -> (j < N)%nat -> (aat d i <= aat d j)%nat) ->
  flat_map (fun r => cells_of d N r) (seq 0 nr) = seq 0 N.
Proof.
  induction N as [|N IH]; intros H M.
  - unfold cells_of. cbn [seq filter]. induction (seq 0 nr) as [|r l IHl]; cbn; auto.
  - set (c := aat d N). assert (Hc : (c < nr)%nat) by (apply H; lia).
    assert (SQ : seq 0 nr = seq 0 c ++ c :: seq (c + 1) (nr - c - 1)). { replace nr with (c + (1 + (nr - c - 1)))%nat at 1 by lia. rewrite seq_app. cbn [seq Nat.add]. rewrite Nat.add_1_r. reflexivity. }
    replace (seq 0 (S N)) with (seq 0 N ++ [N]) by (rewrite seq_S; reflexivity). rewrite <- IH. 2:{ intros; apply H; lia. } 2:{ intros; apply M; lia. }
    transitivity (flat_map (fun r => cells_of d N r ++ (if (c =? r)%nat then [N] else [])) (seq 0 nr)).
    { apply flat_map_ext. intros r. unfold cells_of. rewrite seq_S, filter_app. cbn [filter Nat.add]. reflexivity. }
    rewrite SQ. apply (flat_map_snoc (fun r => cells_of d N r) (fun r => if (c =? r)%nat then [N] else [])).
    + intros r _ Q. destruct (Nat.eqb_spec c r); congruence.
    + rewrite <- SQ. apply seq_NoDup.
    + rewrite Nat.eqb_refl. reflexivity.
    + intros r Hr. apply in_seq in Hr. unfold cells_of. apply filter_none. intros i Hi. apply in_seq in Hi. apply Nat.eqb_neq. pose proof (M i N ltac:(lia) ltac:(lia)) as Q. fold c in Q. lia.
Qed.

Section Parts.
Variables (g : gmesh) (hs : list (nat * nat)) (dist : arr nat) (nr : nat) (lm : nat -> lmesh).
Variables (jc : nat -> nat -> list nat) (jr : nat -> nat -> list Z) (ji : nat -> nat -> nat) (jx : nat -> nat -> v2) (j0 : nat -> nat -> nat -> Z).
Variables (hsl : nat -> list (nat * nat)) (gh : nat -> nat -> v2) (S : nat -> smesh).
Hypothesis SR : split_run g hs dist nr lm jc jr ji jx j0 hsl gh S.
Hypothesis MO : forall i j, (i <= j)%nat -> (j < nelem (g_m g))%nat -> (aat dist i <= aat dist j)%nat.
Notation el a l := (aat (l_eglob (lm a)) l).
Notation ne a := (nelem (l_m (lm a))).

Lemma eglob_cells r : (r < nr)%nat -> alist (l_eglob (lm r)) = cells_of dist (nelem (g_m g)) r /\ length (cells_of dist (nelem (g_m g)) r) = ne r.
Proof.
  pose proof SR as [G Hd Hr RM SE BU D]. intros Ha. destruct (C15_restriction g hs dist r G Hd (jc r) (jr r) (ji r) (jx r) (j0 r)) as (x & E & E1 & _). rewrite (RM r Ha) in E. injection E as <-. split; auto. rewrite <- E1.
  destruct (restr_facts g hs dist r (lm r) G Hd _ _ _ _ _ (RM r Ha)) as (_ & _ & _ & _ & _ & _ & F7 & _). unfold alist. rewrite map_length, seq_length. auto.
Qed.
Lemma block_at b : (b < nelem (g_m g))%nat -> exists q l, slot (fun a => ne a) nr b = Some (q, l) /\ (q < nr)%nat /\ (l < ne q)%nat /\ el q l = b.
Proof.
  pose proof SR as [G Hd Hr RM SE BU D]. intros Hb. pose proof (blocks_in_order dist nr (nelem (g_m g)) Hr MO) as E.
  assert (N : nth_error (flat_map (fun r => cells_of dist (nelem (g_m g)) r) (seq 0 nr)) b = Some b). { rewrite E. rewrite (nth_error_nth' _ 0%nat) by (rewrite seq_length; auto). rewrite seq_nth by auto. reflexivity. }
  destruct (slot_concat _ (fun r => length (cells_of dist (nelem (g_m g)) r)) (fun r => eq_refl) _ _ _ _ N) as (q & l & E1 & E2 & E3). cbn [Nat.add] in E2. destruct (eglob_cells q ltac:(lia)) as (Q1 & Q2).
  exists q, l. assert (Hl : (l < ne q)%nat). { rewrite <- Q2. apply nth_error_Some. congruence. } split; [|split; [lia|split; auto]].
  - unfold slot. rewrite <- E1. apply slot_ext. intros r Hr'. symmetry. apply eglob_cells. lia.
  - rewrite <- Q1 in E3. unfold alist in E3. rewrite nth_error_map in E3. destruct (restr_facts g hs dist q (lm q) G Hd _ _ _ _ _ (RM q ltac:(lia))) as (_ & _ & _ & _ & _ & _ & F7 & _).
    rewrite (nth_error_nth' _ 0%nat) in E3 by (rewrite seq_length; lia). rewrite seq_nth in E3 by lia. cbn in E3. congruence.
Qed.
(** a cell is on one rank only *)
Lemma cell_once q l q' l' : (q < nr)%nat -> (l < ne q)%nat -> (q' < nr)%nat -> (l' < ne q')%nat -> el q l = el q' l' -> q = q' /\ l = l'.
Proof.
  pose proof SR as [G Hd Hr RM SE BU D]. intros H1 H2 H3 H4 E. destruct (restr_facts g hs dist q (lm q) G Hd _ _ _ _ _ (RM q H1)) as (F1 & F2 & _). destruct (restr_facts g hs dist q' (lm q') G Hd _ _ _ _ _ (RM q' H3)) as (F1' & _).
  assert (q = q'). { destruct (F1 l H2) as (_ & <- & _). destruct (F1' l' H4) as (_ & <- & _). congruence. } subst q'. split; auto.
Qed.
Lemma own_block r l : (r < nr)%nat -> (l < ne r)%nat -> slot (fun a => ne a) nr (el r l) = Some (r, l).
Proof.
  pose proof SR as [G Hd Hr RM SE BU D]. intros H1 H2. destruct (restr_facts g hs dist r (lm r) G Hd _ _ _ _ _ (RM r H1)) as (F1 & _). destruct (F1 l H2) as (Hb & _).
  destruct (block_at _ Hb) as (q & k & -> & Q1 & Q2 & Q3). destruct (cell_once q k r l) as (-> & ->); auto.
Qed.
Lemma own_ghost r k cf : (r < nr)%nat -> nth_error (conns (l_m (lm r))) k = Some cf -> exists q l, M_Dist.own nr lm r k = Some (q, l) /\ (q < nr)%nat /\ cf_rank cf = Z.of_nat q /\ (l < ne q)%nat /\ el q l = Z.to_nat (cf_gelem cf).
Proof.
  pose proof SR as [G Hd Hr RM SE BU D]. intros H1 Ec. destruct (restr_facts g hs dist r (lm r) G Hd _ _ _ _ _ (RM r H1)) as (_ & _ & _ & _ & F5 & _).
  destruct (F5 cf (nth_error_In _ _ Ec)) as (j & IJ & E1 & E2 & _ & _). assert (Hj : (j < nelem (g_m g))%nat) by (destruct IJ as ((_ & _ & Hj & _) & _); exact Hj).
  destruct (block_at j Hj) as (q & l & E3 & Q1 & Q2 & Q3). exists q, l. unfold M_Dist.own. rewrite Ec. cbn [bind]. rewrite E1. destruct (Z.ltb_spec (Z.of_nat j) 0); [lia|]. rewrite Nat2Z.id. split; auto. split; auto. split; auto.
  rewrite E2. f_equal. destruct (restr_facts g hs dist q (lm q) G Hd _ _ _ _ _ (RM q Q1)) as (F1 & _). destruct (F1 l Q2) as (_ & <- & _). congruence.
Qed.
Lemma local_sizes r : (r < nr)%nat -> sm_ne (S r) = ne r /\ sm_nc (S r) = length (conns (l_m (lm r))).
Proof.
  pose proof SR as [G Hd Hr RM SE BU D]. intros H. destruct (built_ok _ _ _ _ _ (BU r H)) as (p & e & ni & s & il & _ & _ & E1 & _ & _ & E4 & _). auto.
Qed.

(** *** Exchanges *)
Lemma ghosts_ok {T} (d : T) x (V : nat -> T) a : (forall q, (q < nr)%nat -> (ne q <= alen (x q))%nat /\ forall l, (l < ne q)%nat -> aat (x q) l = V (el q l)) -> (a < nr)%nat ->
  exists h, ghosts nr lm S d x a = Some h /\ (forall k cf, nth_error (conns (l_m (lm a))) k = Some cf -> h k = V (Z.to_nat (cf_gelem cf))) /\ forall k, (sm_nc (S a) <= k)%nat -> h k = d.
Proof.
  intros HV Ha. destruct (local_sizes a Ha) as (_ & NC). unfold ghosts.
  destruct (all_of_ok d (sm_nc (S a)) (fun k => o <- M_Dist.own nr lm a k ;; if (snd o <? sm_ne (S (fst o)))%nat then aget (x (fst o)) (snd o) else None)
    (fun k => match nth_error (conns (l_m (lm a))) k with Some cf => V (Z.to_nat (cf_gelem cf)) | None => d end)) as (h & E & H1 & H2).
  - intros k Hk. destruct (nth_error_some _ (conns (l_m (lm a))) k ltac:(lia)) as (cf & Ec). rewrite Ec. destruct (own_ghost a k cf Ha Ec) as (q & l & -> & Q1 & _ & Q2 & Q3). cbn [bind fst snd].
    destruct (local_sizes q Q1) as (-> & _). destruct (Nat.ltb_spec l (ne q)); [|lia]. destruct (HV q Q1) as (L & P). rewrite aget_ok by lia. rewrite P, Q3 by auto. reflexivity.
  - exists h. split; [exact E|]. split; [|exact H2]. intros k cf Ec. assert (k < length (conns (l_m (lm a))))%nat by (apply nth_error_Some; congruence). rewrite H1 by lia. rewrite Ec. reflexivity.
Qed.
(** the array of rank [r] holds the values of its cells and of its ghost cells *)
Definition spread {T} (V : nat -> T) (r : nat) (a : arr T) : Prop := alen a = (sm_ne (S r) + sm_nc (S r))%nat /\ (forall l, (l < sm_ne (S r))%nat -> aat a l = V (el r l)) /\
  forall k cf, nth_error (conns (l_m (lm r))) k = Some cf -> aat a (sm_ne (S r) + k)%nat = V (Z.to_nat (cf_gelem cf)).
Lemma forward_ok x (V : nat -> st) : (forall q, (q < nr)%nat -> alen (x q) = (sm_ne (S q) + sm_nc (S q))%nat /\ forall l, (l < sm_ne (S q))%nat -> aat (x q) l = V (el q l)) ->
  exists y, forward nr lm S x = Some y /\ forall r, (r < nr)%nat -> spread V r (y r).
Proof.
  intros HV. assert (HV' : forall q, (q < nr)%nat -> (ne q <= alen (x q))%nat /\ forall l, (l < ne q)%nat -> aat (x q) l = V (el q l)).
  { intros q Hq. destruct (HV q Hq) as (L & P). destruct (local_sizes q Hq) as (E & _). split; [lia|]. intros l Hl. apply P. lia. }
  destruct (finite_choice (fun a h => (a < nr)%nat -> ghosts nr lm S szero x a = Some h /\ (forall k cf, nth_error (conns (l_m (lm a))) k = Some cf -> h k = V (Z.to_nat (cf_gelem cf))) /\ forall k, (sm_nc (S a) <= k)%nat -> h k = szero) (fun _ => szero)) with (n := nr) as (h & Hh).
  { intros a. destruct (lt_dec a nr) as [Ha|]; [|exists (fun _ => szero); lia]. destruct (ghosts_ok szero x V a HV' Ha) as (h & Q). exists h. auto. }
  unfold forward. destruct (all_of_ok (fun _ => szero) nr (ghosts nr lm S szero x) h) as (h' & -> & H1 & _). { intros r Hr. apply Hh; auto. }
  cbn [bind]. eexists. split; [reflexivity|]. intros r Hr. cbn beta. destruct (HV r Hr) as (L & P). destruct (Hh r Hr Hr) as (_ & Q & _). unfold spread, set_ghosts. cbn [alen aat]. split; [auto|]. split.
  - intros l Hl. destruct (Nat.ltb_spec l (sm_ne (S r))); [auto|lia].
  - intros k cf Ec. destruct (Nat.ltb_spec (sm_ne (S r) + k) (sm_ne (S r))); [lia|]. rewrite H1 by auto. replace (sm_ne (S r) + k - sm_ne (S r))%nat with k by lia. apply Q. auto.
Qed.
Lemma reverse_ok x : (forall q, (q < nr)%nat -> alen (x q) = (sm_ne (S q) + sm_nc (S q))%nat /\ forall k, (k < sm_nc (S q))%nat -> aat (x q) (sm_ne (S q) + k)%nat = szero) ->
  exists y, reverse nr lm S x = Some y /\ forall r, (r < nr)%nat -> alen (y r) = alen (x r) /\ forall i, aat (y r) i = aat (x r) i.
Proof.
  intros HX.
  assert (H : forall r, exists y, (r < nr)%nat -> floop nr (fun q a => floop (sm_nc (S q)) (fun k a =>
      o <- M_Dist.own nr lm q k ;; if (fst o =? r)%nat then v <- aget (x q) (sm_ne (S q) + k) ;; w <- aget a (snd o) ;; aset a (snd o) (sadd w v) else Some a) a) (x r) = Some y /\
      alen y = alen (x r) /\ forall i, aat y i = aat (x r) i).
  { intros r. destruct (lt_dec r nr) as [Hr|]; [|exists (x r); lia].
    destruct (floop_inv (arr st) (fun _ a => alen a = alen (x r) /\ forall i, aat a i = aat (x r) i) nr (fun q a => floop (sm_nc (S q)) (fun k a =>
      o <- M_Dist.own nr lm q k ;; if (fst o =? r)%nat then v <- aget (x q) (sm_ne (S q) + k) ;; w <- aget a (snd o) ;; aset a (snd o) (sadd w v) else Some a) a) (x r)) as (y & E & Q); [auto| |exists y; auto].
    intros q a Hq IA. destruct (local_sizes q Hq) as (E1 & E2). destruct (HX q Hq) as (L & Z).
    destruct (floop_inv (arr st) (fun _ a => alen a = alen (x r) /\ forall i, aat a i = aat (x r) i) (sm_nc (S q)) (fun k a =>
      o <- M_Dist.own nr lm q k ;; if (fst o =? r)%nat then v <- aget (x q) (sm_ne (S q) + k) ;; w <- aget a (snd o) ;; aset a (snd o) (sadd w v) else Some a) a) as (b & E & Q); [auto| |exists b; auto].
    intros k b Hk (LB & PB). destruct (nth_error_some _ (conns (l_m (lm q))) k ltac:(lia)) as (cf & Ec). destruct (own_ghost q k cf Hq Ec) as (q' & l & -> & Q1 & _ & Q2 & _). cbn [bind fst snd].
    destruct (Nat.eqb_spec q' r) as [->|]; [|exists b; auto]. destruct (local_sizes r Hr) as (E3 & _). destruct (HX r Hr) as (L' & _).
    rewrite aget_ok by lia. cbn [bind]. rewrite aget_ok by lia. cbn [bind]. rewrite aset_ok by lia. eexists. split; [reflexivity|]. cbn [alen aat]. split; [auto|]. intros i.
    rewrite Z by auto. unfold upd. destruct (Nat.eqb_spec i l) as [->|]; auto. rewrite PB. apply st_ext. intros v. destruct (aat (x r) l), v; cbn; ring. }
  destruct (finite_choice _ (mkarr 0 (fun _ => szero)) H nr) as (y & Hy). unfold reverse.
  match goal with |- context [all_of ?d nr ?f] => destruct (all_of_ok d nr f y) as (y' & -> & H1 & _) end.
  - intros r Hr. apply (Hy r Hr Hr).
  - exists y'. split; auto. intros r Hr. rewrite H1 by auto. apply (Hy r Hr Hr).
Qed.
Lemma peer_ok a k cf : (a < nr)%nat -> nth_error (conns (l_m (lm a))) k = Some cf -> exists a' k' cf', peer nr lm a k = Some (a', k') /\ copies nr lm (a, k) (a', k') /\ (a' < nr)%nat /\ nth_error (conns (l_m (lm a'))) k' = Some cf'.
Proof.
  pose proof SR as [G Hd Hr RM SE BU D]. intros Ha Ec. destruct (copies_exist g hs dist nr lm G Hd Hr jc jr ji jx j0 RM SE a k cf Ha Ec) as ((a' & k') & Cy).
  assert (Cy' := Cy). destruct Cy' as (c1 & cf' & C1 & C2 & C3 & C4 & C5 & C6 & C7). cbn [fst snd] in *. rewrite Ec in C3. injection C3 as <-. 
  unfold peer. rewrite Ec. cbn [bind]. rewrite C5. destruct (Z.ltb_spec (Z.of_nat a') 0); [lia|]. destruct (Z.leb_spec (Z.of_nat nr) (Z.of_nat a')); [lia|]. cbn [orb]. rewrite Nat2Z.id.
  set (q := fun i => match nth_error (conns (l_m (lm a'))) i with Some c => ((cf_rank c =? Z.of_nat a)%Z && (cf_gface c =? cf_gface cf)%Z) | None => false end).
  destruct (ofind_spec (length (conns (l_m (lm a')))) (fun i => c <- nth_error (conns (l_m (lm a'))) i ;; Some ((cf_rank c =? Z.of_nat a)%Z && (cf_gface c =? cf_gface cf)%Z)) q) as [(i & Hi & Qi & _ & ->)|(NO & _)].
  - intros i Hi. unfold q. destruct (nth_error_some _ (conns (l_m (lm a'))) i Hi) as (c & ->). reflexivity.
  - cbn [bind]. unfold q in Qi. destruct (nth_error (conns (l_m (lm a'))) i) as [c|] eqn:Ei; [|discriminate]. apply andb_prop in Qi. destruct Qi as (Q1 & Q2). apply Z.eqb_eq in Q1, Q2.
    exists a', i, c. split; auto. split; [|auto]. exists cf, c. cbn [fst snd]. auto 10.
  - exfalso. assert (Hk : (k' < length (conns (l_m (lm a'))))%nat) by (apply nth_error_Some; congruence). specialize (NO k' Hk). unfold q in NO. rewrite C4 in NO. rewrite C6, C7, !Z.eqb_refl in NO. discriminate.
Qed.
End Parts.

(** ** One evaluation of the residual *)
Lemma convert_inv f lo hi a b : convert f lo hi a = Some b -> alen b = alen a /\ forall k, ~ (lo <= k < hi)%nat -> aat b k = aat a k.
Proof.
  unfold convert, frange. set (n := (hi - lo)%nat). assert (Hn : (n = 0 \/ lo + n = hi)%nat) by lia. 
  assert (H : forall j b, floop j (fun k => (fun k (a : arr st) => x <- aget a k ;; aset a k (f x)) (lo + k)%nat) a = Some b -> alen b = alen a /\ forall k, ~ (lo <= k < lo + j)%nat -> aat b k = aat a k).
  { induction j as [|j IH]; intros c E; cbn [floop] in E. { injection E as <-. auto. }
    destruct (floop j _ a) as [c0|]; [|discriminate]. cbn [bind] in E. destruct (IH c0 eq_refl) as (L & P). destruct (aget c0 (lo + j)) as [x|] eqn:Q; [|discriminate]. cbn [bind] in E. apply aset_inv in E. destruct E as (_ & ->).
    cbn [alen aat]. split; auto. intros k Hk. unfold upd. destruct (Nat.eqb_spec k (lo + j)); [lia|]. apply P. lia. }
  intros E. destruct (H n b E) as (L & P). split; auto. intros k Hk. apply P. lia.
Qed.
Lemma phases S fl gs rs gg rf u ul0 ur0 res G0 jp dt out : compute_residual2 S fl gs rs gg rf u ul0 ur0 res G0 jp dt = Some out ->
  exists p q, grad_part S fl gs u ul0 ur0 G0 jp = Some p /\ face_part S fl rs gg p = Some q /\ flux_part S fl rs gg rf u res dt p q = Some out /\
  alen (gp_g p) = alen (ro_grad out) /\ (forall i, (i < sm_ne S)%nat -> aat (gp_g p) i = aat (ro_grad out) i) /\
  alen (fp_l q) = alen (ro_left out) /\ forall k, (sm_nb S + sm_ni S <= k)%nat -> aat (fp_l q) k = aat (ro_left out) k.
Proof.
  intros E. unfold compute_residual2 in E. unfold grad_part. cbv zeta in *. do 4 (step_bind E; cbn [bind]). step_bind E. cbn [bind]. eexists. 
  match type of E with bind ?e _ = _ => destruct e as [(ul3 & ur3)|] eqn:EF; [|discriminate] end. cbn [bind] in E. step_bind E. exists (mkfp x4 ur3 (if is_weno rs then ghost_gradients S gg x3 else x3)). split; [reflexivity|].
  unfold face_part, flux_part. cbn [gp_l gp_r gp_b gp_p gp_g fp_l fp_r fp_g]. cbv zeta. rewrite EF. cbn [bind]. rewrite Q4. split; [reflexivity|].
  do 3 (step_bind E; cbn [bind]). step_bind E. cbn [bind]. step_bind E. cbn [bind]. step_bind E. cbn [bind]. injection E as <-. cbn [ro_grad ro_left]. split; [reflexivity|].
  destruct (convert_inv _ _ _ _ _ Q5) as (L5 & P5). destruct (convert_inv _ _ _ _ _ Q7) as (L7 & P7).
  split; [destruct (is_weno rs); reflexivity|]. split. { intros i Hi. destruct (is_weno rs); unfold ghost_gradients; cbn [aat]; destruct (Nat.ltb_spec i (sm_ne S)); auto; lia. }
  split; [congruence|]. intros k Hk. rewrite P7, P5 by lia. reflexivity.
Qed.

Section Eval.
Variables (g : gmesh) (hs : list (nat * nat)) (dist : arr nat) (nr : nat) (lm : nat -> lmesh).
Variables (jc : nat -> nat -> list nat) (jr : nat -> nat -> list Z) (ji : nat -> nat -> nat) (jx : nat -> nat -> v2) (j0 : nat -> nat -> nat -> Z).
Variables (hsl : nat -> list (nat * nat)) (gh : nat -> nat -> v2) (S : nat -> smesh).
Hypothesis SR : split_run g hs dist nr lm jc jr ji jx j0 hsl gh S.
Hypothesis MO : forall i j, (i <= j)%nat -> (j < nelem (g_m g))%nat -> (aat dist i <= aat dist j)%nat.
Variables (gh0 : nat -> v2) (W : smesh).
Hypothesis BW : built (g_m g) hs (g_X g) gh0 W.
Hypothesis CE : forall a k q l, (a < nr)%nat -> M_Dist.own nr lm a k = Some (q, l) -> gh a k = aat (sm_rc (S q)) l.
Notation el a l := (aat (l_eglob (lm a)) l).
Notation ne a := (nelem (l_m (lm a))).
Notation spr := (spread lm S).

Lemma whole_sizes : sm_ne W = nelem (g_m g) /\ sm_nc W = 0%nat.
Proof.
  pose proof SR as [G Hd Hr RM SE BU D]. destruct (built_ok _ _ _ _ _ BW) as (p & e & ni & s & il & _ & _ & E1 & _ & _ & E4 & _). split; auto. rewrite E4. pose proof (gl_serial _ _ G) as Q. unfold nconnface. rewrite Q. reflexivity.
Qed.
Lemma ghost_rc a : (a < nr)%nat -> forall k cf, nth_error (conns (l_m (lm a))) k = Some cf -> gh a k = aat (sm_rc W) (Z.to_nat (cf_gelem cf)).
Proof.
  pose proof SR as [G Hd Hr RM SE BU D]. intros Ha k cf Ec. destruct (own_ghost _ _ _ _ _ _ _ _ _ _ _ _ _ SR MO a k cf Ha Ec) as (q & l & E & Q1 & _ & Q2 & Q3). rewrite (CE a k q l Ha E).
  rewrite (local_centre g hs (lm q) (restr_sub g hs dist q (lm q) G Hd _ _ _ _ _ (RM q Q1)) gh0 W (S q) (hsl q) (gh q) BW (BU q Q1) l Q2), Q3. reflexivity.
Qed.
Lemma exchanged_u (V : nat -> st) (u : nat -> arr st) : (forall a, (a < nr)%nat -> spr V a (u a)) -> forall a k a' k' cf', copies nr lm (a, k) (a', k') -> nth_error (conns (l_m (lm a'))) k' = Some cf' ->
  gh a k = aat (sm_rc (S a')) (cf_elem cf') /\ aat (u a) (sm_ne (S a) + k)%nat = aat (u a') (cf_elem cf').
Proof.
  pose proof SR as [G Hd Hr RM SE BU D]. intros H a k a' k' cf' Cy Ec'. assert (Cy' := Cy). destruct Cy' as (cf & c2 & C1 & C2 & C3 & C4 & _). cbn [fst snd] in *. rewrite Ec' in C4. injection C4 as <-.
  destruct (copies_geom g hs dist nr lm G Hd jc jr ji jx j0 RM a k a' k' cf cf' Cy C3 Ec') as (_ & _ & I1 & I2 & I3 & _). split.
  - rewrite (ghost_rc a C1 k cf C3). rewrite (local_centre g hs (lm a') (restr_sub g hs dist a' (lm a') G Hd _ _ _ _ _ (RM a' C2)) gh0 W (S a') (hsl a') (gh a') BW (BU a' C2) _ I2), I3. reflexivity.
  - destruct (H a C1) as (_ & _ & P). destruct (H a' C2) as (_ & P' & _). destruct (local_sizes _ _ _ _ _ _ _ _ _ _ _ _ _ SR a' C2) as (Q & _). rewrite (P k cf C3), P' by lia. congruence.
Qed.

Variable (fl : flow).
Hypothesis TC : tags_covered g fl.
Hypothesis Hg : 1 < gam (fl_gas fl).
Hypothesis Hh : fl_flux fl = HLLC -> 5/4 <= gam (fl_gas fl).
Variables (u0 : arr st) (u : nat -> arr st).
Hypothesis L0 : alen u0 = sm_ne W.
Hypothesis U : forall a, (a < nr)%nat -> spr (aat u0) a (u a).
Notation zr n := (mkarr n (fun _ => szero)).
(** the results of rank [a] beside those of the run on one process *)
Definition agrees (out0 : resout) (a : nat) (out : resout) : Prop := exists d0 d, ro_dt out0 = Some d0 /\ ro_dt out = Some d /\ alen (ro_res out) = sm_ne (S a) /\ alen d = sm_ne (S a) /\
  forall l, (l < sm_ne (S a))%nat -> aat (ro_res out) l = aat (ro_res out0) (el a l) /\ aat d l = aat d0 (el a l).

Lemma rank_eval1 a ul0 ur0 G dt ul0' ur0' G' dt' out0 : (a < nr)%nat -> (forall i, (i < sm_ne W)%nat -> physical (gam (fl_gas fl)) (aat u0 i)) ->
  alen ul0 = sm_nf_all W -> alen ur0 = sm_nf_all W -> alen dt = sm_ne W -> alen ul0' = sm_nf_all (S a) -> alen ur0' = sm_nf_all (S a) -> alen dt' = sm_ne (S a) ->
  compute_residual1 W fl u0 ul0 ur0 (zr (sm_ne W)) G (Some dt) = Some out0 ->
  exists out, compute_residual1 (S a) fl (u a) ul0' ur0' (zr (sm_ne (S a))) G' (Some dt') = Some out /\ agrees out0 a out.
Proof.
  intros Ha PU L1 L2 L3 L1' L2' L3' E. pose proof SR as [GO Hd Hr RM SE BU D]. destruct whole_sizes as (N1 & N2). destruct (U a Ha) as (LU & UI & UG).
  destruct (covers g hs dist nr lm jc jr ji jx j0 hsl gh S SR gh0 W BW fl TC) as (bc & bcs & C & BC & BT & CC). destruct (CC a Ha) as (C' & BC'). set (bc' := bcs a) in *.
  pose proof (built_sm _ _ _ _ _ BW) as OK. pose proof (built_sm _ _ _ _ _ (BU a Ha)) as OK'. pose proof (restr_sub g hs dist a (lm a) GO Hd _ _ _ _ _ (RM a Ha)) as SM.
  destruct (counts g hs (lm a) SM gh0 W (S a) (hsl a) (gh a) BW (BU a Ha)) as (_ & _ & M3 & M4 & M5 & M6).
  destruct (residual1_ok W fl bc u0 ul0 ur0 (zr (sm_ne W)) G (Some dt) OK C ltac:(lia) L1 L2 eq_refl) as (ul & ur & res & A1 & A2 & A3 & A4 & A5 & A6).
  destruct (residual1_ok (S a) fl bc' (u a) ul0' ur0' (zr (sm_ne (S a))) G' (Some dt') OK' C' ltac:(lia) L1' L2' eq_refl) as (ul' & ur' & res' & A1' & A2' & A3' & A4' & A5' & A6').
  rewrite E in A4. cbn [maybe_dt] in A4. destruct (compute_max_timestep W fl ul ur dt) as [d|] eqn:Ed; [|discriminate]. cbn [bind] in A4. injection A4 as ->.
  destruct (timestep_inv W fl ul ur dt d OK A1 A2 ltac:(lia) Ed) as (Ld & Pd).
  assert (V : forall SS (a b : arr st) uu ub i k, sm_ok SS -> (i < sm_ne SS)%nat -> (forall k, (k < sm_nf_all SS)%nat -> aat a k = left_value SS (aat uu) k /\ aat b k = right_value SS (aat uu) ub k) ->
    bounds SS i k -> own_side SS (aat a) (aat b) i k = aat uu i).
  { intros SS b1 b2 uu ub i k OKS Hi HV (Hk & HW). unfold own_side. destruct (HV k Hk) as (V1 & V2). destruct (Nat.eqb_spec (f_left (aat (sm_F SS) k)) i) as [Q|Q].
    - rewrite V1. unfold left_value. congruence.
    - destruct HW as [HW|HW]; [congruence|]. rewrite V2. unfold right_value. destruct (Nat.ltb_spec k (sm_nb SS)) as [K|K]; [|congruence]. pose proof (so_phy _ OKS k K). lia. }
  assert (RA : forall l, (l < ne a)%nat -> rate (S a) fl ul' ur' l = rate W fl ul ur (el a l)).
  { intros l Hl. destruct (M6 l Hl) as (Hs & M7 & HA).
    rewrite (rate_seen (S a) OK') by lia. rewrite (rate_seen W OK) by lia. rewrite M7. apply rsum_ext. intros f Hf. apply in_seq in Hf. cbv zeta.
    destruct (same_view g hs (lm a) SM gh0 W (S a) (hsl a) (gh a) BW (BU a Ha) D fl bc bc' BC BT BC' l f Hl ltac:(lia)) as ((Bd' & Bd) & (_ & V2 & V3 & _) & _). cbv zeta in *.
    rewrite (V (S a) ul' ur' (u a) _ l _ OK' ltac:(lia) A3' Bd'), (V W ul ur u0 _ (el a l) _ OK ltac:(lia) A3 Bd), HA, V2, V3, UI by lia. reflexivity. }
  destruct (timestep_ok (S a) fl ul' ur' OK' A1' A2' dt' ltac:(lia)) as (d' & Ed' & Ld' & Pd').
  { intros l Hl. rewrite RA by lia. apply Pd. destruct (M6 l ltac:(lia)). lia. }
  cbn [maybe_dt] in A4'. rewrite Ed' in A4'. cbn [bind] in A4'. eexists. split; [exact A4'|]. exists d, d'. cbn [ro_dt ro_res] in *. split; [reflexivity|]. split; [reflexivity|]. split; [lia|]. split; [lia|].
  intros l Hl. destruct (M6 l ltac:(lia)) as (Hs & _ & HA). split.
  - apply st_ext. intros v. rewrite A6, A6' by lia. cbn [aat]. f_equal. apply (same_outflow g hs (lm a) SM gh0 W (S a) (hsl a) (gh a) BW (BU a Ha)); auto; try lia.
    + apply ghost_rc. auto.
    + intros i Hi. apply PU. lia.
    + intros i Hi. apply UI. lia.
    + intros k cf Ec. rewrite <- M3. apply UG. auto.
  - rewrite Pd' by lia. destruct (Pd (el a l) ltac:(lia)) as (_ & ->). rewrite RA, HA by lia. reflexivity.
Qed.

Variables (second : bool) (sp : nat -> spatial) (wk : nat -> work) (gs0 : gradscheme) (rs : recscheme) (w0 : work) (out0 : resout).
Hypothesis FL : forall a, (a < nr)%nat -> exists f, sp_flux (sp a) = Some f /\ sp_flow (sp a) f = fl.
Hypothesis WK : forall a, (a < nr)%nat -> alen (wk_l (wk a)) = sm_nf_all (S a) /\ alen (wk_r (wk a)) = sm_nf_all (S a) /\ alen (wk_g (wk a)) = (sm_ne (S a) + sm_nc (S a))%nat /\ alen (wk_dt (wk a)) = sm_ne (S a).
Hypothesis WK0 : alen (wk_l w0) = sm_nf_all W /\ alen (wk_r w0) = sm_nf_all W /\ alen (wk_g w0) = (sm_ne W + sm_nc W)%nat /\ alen (wk_dt w0) = sm_ne W.

Lemma ranks_first : (forall i, (i < sm_ne W)%nat -> physical (gam (fl_gas fl)) (aat u0 i)) ->
  compute_residual1 W fl u0 (wk_l w0) (wk_r w0) (zr (sm_ne W)) (wk_g w0) (Some (wk_dt w0)) = Some out0 ->
  exists out, ranks_residual nr lm S false sp wk u = Some out /\ forall a, (a < nr)%nat -> agrees out0 a (out a).
Proof.
  intros PU E. destruct WK0 as (K1 & K2 & K3 & K4).
  assert (H : forall a, exists o, (a < nr)%nat -> (f <- sp_flux (sp a) ;; compute_residual1 (S a) (sp_flow (sp a) f) (u a) (wk_l (wk a)) (wk_r (wk a)) (zero_res S a) (wk_g (wk a)) (Some (wk_dt (wk a)))) = Some o /\ agrees out0 a o).
  { intros a. destruct (lt_dec a nr) as [Ha|]; [|exists out0; lia]. destruct (FL a Ha) as (f & -> & Ef). cbn [bind]. rewrite Ef. destruct (WK a Ha) as (J1 & J2 & J3 & J4).
    destruct (rank_eval1 a (wk_l w0) (wk_r w0) (wk_g w0) (wk_dt w0) (wk_l (wk a)) (wk_r (wk a)) (wk_g (wk a)) (wk_dt (wk a)) out0) as (o & Q); auto. exists o. auto. }
  destruct (finite_choice _ out0 H nr) as (out & HO). unfold ranks_residual.
  match goal with |- context [all_of ?d nr ?f] => destruct (all_of_ok d nr f out) as (h & -> & H1 & _) end. { intros r Hr. apply (HO r Hr Hr). }
  exists h. split; auto. intros a Ha. rewrite H1 by auto. apply (HO a Ha Ha).
Qed.

Hypothesis RS : smooth_scheme rs.
Hypothesis REC : forall a, (a < nr)%nat -> sp_rec (sp a) = Some rs.
Hypothesis SG : forall a, (a < nr)%nat -> same_gradients W (S a) gs0 (sp_grad (sp a)).
Lemma ranks_second : compute_residual2 W fl gs0 rs (fun _ => grad0) (fun _ => szero) u0 (wk_l w0) (wk_r w0) (zr (sm_ne W)) (wk_g w0) (wk_p w0) (Some (wk_dt w0)) = Some out0 ->
  (forall k, (k < sm_nf_all W)%nat -> physical (gam (fl_gas fl)) (aat (ro_left out0) k) /\ physical (gam (fl_gas fl)) (aat (ro_right out0) k)) ->
  exists out, ranks_residual nr lm S true sp wk u = Some out /\ forall a, (a < nr)%nat -> agrees out0 a (out a).
Proof.
  intros E PH. pose proof SR as [GO Hd Hr RM SE BU D]. destruct WK0 as (K1 & K2 & K3 & K4). destruct whole_sizes as (N1 & N2).
  set (x0 := mkside gs0 (fun _ => grad0) (fun _ => szero) u0 (wk_l w0) (wk_r w0) (zr (sm_ne W)) (wk_g w0) (wk_p w0) (Some (wk_dt w0))).
  set (gg := sent_grad lm out0). set (rf := sent_face lm W out0).
  set (y := fun a => mkside (sp_grad (sp a)) (gg a) (rf a) (u a) (wk_l (wk a)) (wk_r (wk a)) (zr (sm_ne (S a))) (wk_g (wk a)) (wk_p (wk a)) (Some (wk_dt (wk a)))).
  assert (Z0 : sized W x0). { split; cbn [x0 si_u si_ul si_ur si_res si_G si_dt]; auto; try lia. intros d [= <-]. auto. }
  assert (Z : forall a, (a < nr)%nat -> sized (S a) (y a)). { intros a Ha. destruct (WK a Ha) as (J1 & J2 & J3 & J4). split; cbn [y si_u si_ul si_ur si_res si_G si_dt]; auto. apply (U a Ha). intros d [= <-]. auto. }
  assert (R0 : run_side W fl rs x0 = Some out0) by exact E.
  assert (UI : forall a l, (a < nr)%nat -> (l < ne a)%nat -> aat (si_u (y a)) l = aat (si_u x0) (el a l)).
  { intros a l Ha Hl. destruct (local_sizes _ _ _ _ _ _ _ _ _ _ _ _ _ SR a Ha) as (Q & _). destruct (U a Ha) as (_ & P & _). apply P. lia. }
  assert (XU := exchanged_u (aat u0) u U).
  destruct (exchange_core g hs dist nr lm jc jr ji jx j0 hsl gh S SR gh0 W BW fl rs x0 out0 y TC RS Z0 Z SG R0 UI XU) as (out & RR & XE). { intros a Ha. right. discriminate. }
  fold gg rf in RR, XE. change (forall a, (a < nr)%nat -> run_side (S a) fl rs (y a) = Some (out a)) in RR.
  assert (GR := C66_gradients g hs dist nr lm jc jr ji jx j0 hsl gh S SR gh0 W BW fl rs x0 y out0 out TC RS Z0 Z SG R0 RR UI XU).
  (* the three phases *)
  assert (PP : forall a, exists pq, (a < nr)%nat -> grad_part (S a) fl (sp_grad (sp a)) (u a) (wk_l (wk a)) (wk_r (wk a)) (wk_g (wk a)) (wk_p (wk a)) = Some (fst pq) /\ face_part (S a) fl rs (gg a) (fst pq) = Some (snd pq) /\
     flux_part (S a) fl rs (gg a) (rf a) (u a) (zr (sm_ne (S a))) (Some (wk_dt (wk a))) (fst pq) (snd pq) = Some (out a) /\
     alen (gp_g (fst pq)) = alen (ro_grad (out a)) /\ (forall i, (i < sm_ne (S a))%nat -> aat (gp_g (fst pq)) i = aat (ro_grad (out a)) i) /\
     alen (fp_l (snd pq)) = alen (ro_left (out a)) /\ forall k, (sm_nb (S a) + sm_ni (S a) <= k)%nat -> aat (fp_l (snd pq)) k = aat (ro_left (out a)) k).
  { intros a. destruct (lt_dec a nr) as [Ha|]; [|exists (no_gp, no_fp); lia]. destruct (phases _ _ _ _ _ _ _ _ _ _ _ _ _ _ (RR a Ha)) as (p & q & Q). exists (p, q). intros _. exact Q. }
  destruct (finite_choice _ (no_gp, no_fp) PP nr) as (pq & HP). clear PP.
  destruct (covers g hs dist nr lm jc jr ji jx j0 hsl gh S SR gh0 W BW fl TC) as (bc & bcs & C & BC & BT & CC).
  assert (LL : forall a, (a < nr)%nat -> alen (ro_grad (out a)) = (sm_ne (S a) + sm_nc (S a))%nat /\ alen (ro_left (out a)) = sm_nf_all (S a)).
  { intros a Ha. destruct (CC a Ha) as (C' & _). destruct (Z a Ha) as [y1 y2 y3 y4 y5 y6]. pose proof (built_sm _ _ _ _ _ (BU a Ha)) as OA.
    assert (VS : match sp_grad (sp a) with M_Resid.GLeastSquares V => alen V = sm_ne (S a) | _ => True end).
    { specialize (SG a Ha). destruct gs0, (sp_grad (sp a)); cbn [same_gradients] in SG; try tauto. destruct (wls_ctor_ok (S a) OA) as (V2 & Q & L2 & _). destruct SG as (_ & Q'). congruence. }
    destruct (run_facts _ _ _ _ _ (BU a Ha) fl (bcs a) _ rs _ _ _ _ _ _ _ _ _ _ C' y1 y2 y3 y4 y5 RS VS (RR a Ha)) as (_ & _ & _ & _ & _ & _ & _ & _ & A6 & A7 & _). auto. }
  unfold ranks_residual.
  match goal with |- context [all_of no_gp nr ?f] => destruct (all_of_ok no_gp nr f (fun a => fst (pq a))) as (p & -> & Hp & _) end.
  { intros a Ha. destruct (FL a Ha) as (f & -> & Ef). cbn [bind]. rewrite Ef. apply (HP a Ha Ha). }
  cbn [bind].
  match goal with |- context [all_of ?d nr ?f] => destruct (all_of_ok d nr f gg) as (gg' & -> & Hgg & _) end.
  { intros a Ha. destruct (ghosts_ok _ _ _ _ _ _ _ _ _ _ _ _ _ SR MO grad0 (fun r => gp_g (p r)) (aat (ro_grad out0)) a) as (h & -> & H1 & H2); auto.
    - intros q Hq. destruct (local_sizes _ _ _ _ _ _ _ _ _ _ _ _ _ SR q Hq) as (Q & _). rewrite Hp by auto. destruct (HP q Hq Hq) as (_ & _ & _ & Q1 & Q2 & _). destruct (LL q Hq) as (Q3 & _). split; [lia|]. intros l Hl. rewrite Q2 by lia. apply GR; auto.
    - f_equal. apply functional_extensionality. intros k. unfold gg, sent_grad. destruct (nth_error (conns (l_m (lm a))) k) as [cf|] eqn:Ec; [apply H1; auto|]. apply H2. destruct (local_sizes _ _ _ _ _ _ _ _ _ _ _ _ _ SR a Ha) as (_ & ->). apply nth_error_None. auto. }
  cbn [bind].
  match goal with |- context [all_of no_fp nr ?f] => destruct (all_of_ok no_fp nr f (fun a => snd (pq a))) as (q & -> & Hq & _) end.
  { intros a Ha. destruct (FL a Ha) as (f & -> & Ef). cbn [bind]. rewrite REC, Ef, Hgg, Hp by auto. cbn [bind]. apply (HP a Ha Ha). }
  cbn [bind].
  match goal with |- context [all_of ?d nr ?f] => destruct (all_of_ok d nr f rf) as (rf' & -> & Hrf & _) end.
  { intros a Ha. destruct (local_sizes _ _ _ _ _ _ _ _ _ _ _ _ _ SR a Ha) as (_ & NC). unfold shared.
    match goal with |- context [all_of ?d ?n ?f] => destruct (all_of_ok d n f (rf a)) as (h & -> & H1 & H2) end.
    - intros k Hk. destruct (nth_error_some _ (conns (l_m (lm a))) k ltac:(lia)) as (cf & Ec). destruct (peer_ok _ _ _ _ _ _ _ _ _ _ _ _ _ SR a k cf Ha Ec) as (a' & k' & cf' & -> & Cy & Ha' & Ec'). cbn [bind fst snd].
      destruct (XE a k a' k' cf' Cy Ec') as (_ & Q). change (rf a k = aat (ro_left (out a')) (sm_nb (S a') + sm_ni (S a') + k')%nat) in Q. rewrite Q, Hq by auto. destruct (HP a' Ha' Ha') as (_ & _ & _ & _ & _ & Q1 & Q2). destruct (LL a' Ha') as (_ & Q3).
      destruct (local_sizes _ _ _ _ _ _ _ _ _ _ _ _ _ SR a' Ha') as (_ & NC'). assert (k' < length (conns (l_m (lm a'))))%nat by (apply nth_error_Some; congruence).
      rewrite aget_ok. { f_equal. apply Q2. lia. } rewrite Q1, Q3. unfold sm_nf_all. lia.
    - f_equal. apply functional_extensionality. intros k. destruct (lt_dec k (sm_nc (S a))) as [Hk|Hk]; [apply H1; auto|]. rewrite H2 by lia. unfold rf, sent_face. destruct (nth_error (conns (l_m (lm a))) k) as [cf|] eqn:Ec; auto.
      assert (k < length (conns (l_m (lm a))))%nat by (apply nth_error_Some; congruence). lia. }
  cbn [bind].
  match goal with |- context [all_of no_out nr ?f] => destruct (all_of_ok no_out nr f out) as (o & -> & Ho & _) end.
  { intros a Ha. destruct (FL a Ha) as (f & -> & Ef). cbn [bind]. rewrite REC, Ef, Hgg, Hrf, Hp, Hq by auto. cbn [bind]. apply (HP a Ha Ha). }
  exists o. split; [reflexivity|]. intros a Ha. rewrite Ho by auto. clear o Ho.
  assert (XG : forall a k a' k' cf', copies nr lm (a, k) (a', k') -> nth_error (conns (l_m (lm a'))) k' = Some cf' -> si_gg (y a) k = aat (ro_grad (out a')) (cf_elem cf')) by (intros b k a' k' cf' Cy Ec'; apply (proj1 (XE b k a' k' cf' Cy Ec'))).
  assert (XF : forall a k a' k' cf', copies nr lm (a, k) (a', k') -> nth_error (conns (l_m (lm a'))) k' = Some cf' -> si_rf (y a) k = aat (ro_left (out a')) (sm_nb (S a') + sm_ni (S a') + k')%nat) by (intros b k a' k' cf' Cy Ec'; apply (proj2 (XE b k a' k' cf' Cy Ec'))).
  assert (RES := C66_second_order g hs dist nr lm jc jr ji jx j0 hsl gh S SR gh0 W BW fl rs x0 y out0 out TC RS Z0 Z SG R0 RR UI XU XG XF Hg Hh PH ltac:(reflexivity)).
  assert (DT := C66_time_steps g hs dist nr lm jc jr ji jx j0 hsl gh S SR gh0 W BW fl rs x0 y out0 out TC RS Z0 Z SG R0 RR UI XU XG).
  destruct (local_sizes _ _ _ _ _ _ _ _ _ _ _ _ _ SR a Ha) as (NE & _). destruct (CC a Ha) as (C' & _). pose proof (built_sm _ _ _ _ _ (BU a Ha)) as OA. pose proof (built_sm _ _ _ _ _ BW) as OW. destruct (Z a Ha) as [y1 y2 y3 y4 y5 y6].
  destruct (residual2_inv _ _ (bcs a) _ _ _ _ _ _ _ _ _ _ _ _ OA C' y1 y2 y3 y4 (RR a Ha)) as (Lr & _).
  pose proof (run_dt _ _ _ _ _ _ _ _ _ _ _ _ _ _ (RR a Ha)) as M. cbn [y si_dt maybe_dt] in M. destruct (compute_max_timestep (S a) fl (ro_left (out a)) (ro_right (out a)) (wk_dt (wk a))) as [d|] eqn:Ed; [|discriminate]. cbn [bind] in M. injection M as M.
  pose proof (run_dt _ _ _ _ _ _ _ _ _ _ _ _ _ _ E) as M0. cbn [maybe_dt] in M0. destruct (compute_max_timestep W fl (ro_left out0) (ro_right out0) (wk_dt w0)) as [d0|] eqn:Ed0; [|discriminate]. cbn [bind] in M0. injection M0 as M0.
  exists d0, d. split; [auto|]. split; [auto|]. split; [lia|]. destruct (WK a Ha) as (_ & _ & _ & J4). destruct (LL a Ha) as (_ & J5).
  assert (J6 : alen (ro_right (out a)) = sm_nf_all (S a)).
  { assert (VS : match sp_grad (sp a) with M_Resid.GLeastSquares V => alen V = sm_ne (S a) | _ => True end).
    { specialize (SG a Ha). destruct gs0, (sp_grad (sp a)); cbn [same_gradients] in SG; try tauto. destruct (wls_ctor_ok (S a) OA) as (V2 & Q & L2 & _). destruct SG as (_ & Q'). congruence. }
    destruct (run_facts _ _ _ _ _ (BU a Ha) fl (bcs a) _ rs _ _ _ _ _ _ _ _ _ _ C' y1 y2 y3 y4 y5 RS VS (RR a Ha)) as (_ & _ & _ & _ & _ & _ & _ & _ & _ & _ & A8 & _). auto. }
  destruct (timestep_inv _ _ _ _ _ _ OA J5 J6 J4 Ed) as (Ld & _). split; [lia|]. intros l Hl. split; [apply RES; auto; lia|].
  destruct (DT a l (wk_dt w0) (wk_dt (wk a)) Ha ltac:(lia) eq_refl eq_refl) as (e & e' & E1 & E2 & E3). congruence.
Qed.
End Eval.

(** ** The forward Euler loop *)
Section Loop.
Variables (g : gmesh) (hs : list (nat * nat)) (dist : arr nat) (nr : nat) (lm : nat -> lmesh).
Variables (jc : nat -> nat -> list nat) (jr : nat -> nat -> list Z) (ji : nat -> nat -> nat) (jx : nat -> nat -> v2) (j0 : nat -> nat -> nat -> Z).
Variables (hsl : nat -> list (nat * nat)) (gh : nat -> nat -> v2) (S : nat -> smesh).
Hypothesis SR : split_run g hs dist nr lm jc jr ji jx j0 hsl gh S.
Hypothesis MO : forall i j, (i <= j)%nat -> (j < nelem (g_m g))%nat -> (aat dist i <= aat dist j)%nat.
Variables (gh0 : nat -> v2) (W : smesh).
Hypothesis BW : built (g_m g) hs (g_X g) gh0 W.
Hypothesis NR : (0 < nr)%nat.
Notation el a l := (aat (l_eglob (lm a)) l).
Notation spr := (spread lm S).
Variables (second : bool) (sp : nat -> spatial) (wk : nat -> work) (c : sconf) (Rf : arr st -> option (exc rout)) (ok : arr st -> Prop).
Hypothesis EV : forall u0 u x, alen u0 = sm_ne W -> (forall a, (a < nr)%nat -> spr (aat u0) a (u a)) -> ok u0 -> Rf u0 = Some x ->
  exists ro out, x = Val ro /\ rt_fin ro = true /\ alen (rt_r ro) = sm_ne W /\ alen (rt_dt ro) = sm_ne W /\ ranks_residual nr lm S second sp wk u = Some out /\
  forall a, (a < nr)%nat -> exists d, ro_dt (out a) = Some d /\ alen (ro_res (out a)) = sm_ne (S a) /\ alen d = sm_ne (S a) /\
    forall l, (l < sm_ne (S a))%nat -> aat (ro_res (out a)) l = aat (rt_r ro) (el a l) /\ aat d l = aat (rt_dt ro) (el a l).
Definition spread_mon (x0 : mon) (x : nat -> mon) : Prop := alen (m_u x0) = sm_ne W /\ forall a, (a < nr)%nat -> spr (aat (m_u x0)) a (m_u (x a)) /\
  (m_step (x a), m_resi (x a), m_old (x a), m_init (x a), m_cfl (x a), m_lin (x a), m_log (x a)) = (m_step x0, m_resi x0, m_old x0, m_init x0, m_cfl x0, m_lin x0, m_log x0).

Lemma rank_area a l : (a < nr)%nat -> (l < sm_ne (S a))%nat -> (el a l < sm_ne W)%nat /\ aat (sm_A (S a)) l = aat (sm_A W) (el a l).
Proof.
  pose proof SR as [G Hd Hr RM SE BU D]. intros Ha Hl. destruct (counts g hs (lm a) (restr_sub g hs dist a (lm a) G Hd _ _ _ _ _ (RM a Ha)) gh0 W (S a) (hsl a) (gh a) BW (BU a Ha)) as (_ & _ & M3 & _ & _ & M6).
  destruct (M6 l ltac:(lia)) as (Q1 & _ & Q2). auto.
Qed.
Lemma energy_sum (r0 : arr st) (rv : nat -> arr st) : (forall a l, (a < nr)%nat -> (l < sm_ne (S a))%nat -> aat (rv a) l = aat r0 (el a l)) ->
  rsum (fun a => local_energy S a (rv a)) (seq 0 nr) = rsum (fun i => s3 (aat r0 i) * s3 (aat r0 i) * aat (sm_A W) i) (seq 0 (sm_ne W)).
Proof.
  pose proof SR as [G Hd Hr RM SE BU D]. intros H. set (F := fun i => s3 (aat r0 i) * s3 (aat r0 i) * aat (sm_A W) i).
  transitivity (rsum (fun a => rsum F (alist (l_eglob (lm a)))) (seq 0 nr)).
  - apply rsum_ext. intros a Ha. apply in_seq in Ha. unfold local_energy, alist. rewrite rsum_map. destruct (local_sizes _ _ _ _ _ _ _ _ _ _ _ _ _ SR a ltac:(lia)) as (NE & _).
    destruct (restr_facts g hs dist a (lm a) G Hd _ _ _ _ _ (RM a ltac:(lia))) as (_ & _ & _ & _ & _ & _ & F7 & _). rewrite F7, NE. apply rsum_ext. intros l Hl. apply in_seq in Hl. unfold F.
    destruct (rank_area a l ltac:(lia) ltac:(lia)) as (_ & ->). rewrite H by lia. reflexivity.
  - rewrite <- rsum_flat_map. destruct (whole_sizes g hs dist nr lm jc jr ji jx j0 hsl gh S SR gh0 W BW) as (-> & _). apply rsum_perm. apply (C15_union g hs dist nr G Hd Hr lm jc jr ji jx j0 RM).
Qed.

Lemma spread_body x0 x r : spread_mon x0 x -> ok (m_u x0) -> steady_body (sm_ne W) (sm_A W) c Rf 0.3 0.25 (fe_upd (sm_ne W) (sm_A W) c) x0 = Some r ->
  exists y0 y, r = SNext y0 /\ ranks_body nr lm S second sp wk c x = Some y /\ spread_mon y0 y.
Proof.
  intros (L0 & M) Ho E. pose proof SR as [G Hd Hr RM SE BU D]. unfold steady_body in E. destruct (Rf (m_u x0)) as [z|] eqn:Er; [|discriminate].
  destruct (EV (m_u x0) (fun a => m_u (x a)) z L0 (fun a Ha => proj1 (M a Ha)) Ho Er) as (ro & out & -> & FI & LR & LD & EO & HO). cbv zeta in E.
  pose proof (so_A _ (built_sm _ _ _ _ _ BW)) as LA. destruct (fe_update_ok (sm_ne W) (sm_A W) c (m_u x0) ro) as (v & Ev & Lv & Pv & _); try lia. unfold fe_upd in E. rewrite Ev in E. cbn [bind] in E. rewrite FI in E. injection E as <-.
  eexists. unfold ranks_body. rewrite EO. cbn [bind].
  destruct (reverse_ok _ _ _ _ _ _ _ _ _ _ _ _ _ SR MO (fun r => with_ghosts S r (ro_res (out r)))) as (rv & -> & HV).
  { intros q Hq. unfold with_ghosts. cbn [alen aat]. split; auto. intros k Hk. destruct (Nat.ltb_spec (sm_ne (S q) + k) (sm_ne (S q))); [lia|reflexivity]. }
  cbn [bind].
  assert (RV : forall a, (a < nr)%nat -> alen (rv a) = (sm_ne (S a) + sm_nc (S a))%nat /\ forall l, (l < sm_ne (S a))%nat -> aat (rv a) l = aat (rt_r ro) (el a l)).
  { intros a Ha. destruct (HV a Ha) as (Q1 & Q2). rewrite Q1. split; [reflexivity|]. intros l Hl. rewrite Q2. unfold with_ghosts. cbn [aat]. destruct (Nat.ltb_spec l (sm_ne (S a))); [|lia]. destruct (HO a Ha) as (d & _ & _ & _ & P). apply P. auto. }
  assert (UU : forall a, exists w, (a < nr)%nat -> (d <- ro_dt (out a) ;; fe_update (sm_ne (S a)) (sm_A (S a)) c (m_u (x a)) (mkrout (rv a) d true)) = Some w /\ alen w = (sm_ne (S a) + sm_nc (S a))%nat /\ forall l, (l < sm_ne (S a))%nat -> aat w l = aat v (el a l)).
  { intros a. destruct (lt_dec a nr) as [Ha|]; [|exists v; lia]. destruct (HO a Ha) as (d & -> & _ & LDa & P). cbn [bind]. destruct (RV a Ha) as (LV & PV). destruct (M a Ha) as ((LU & PU & _) & _). pose proof (so_A _ (built_sm _ _ _ _ _ (BU a Ha))) as LAa.
    destruct (fe_update_ok (sm_ne (S a)) (sm_A (S a)) c (m_u (x a)) (mkrout (rv a) d true)) as (w & Ew & Lw & Pw & _); cbn [rt_r rt_dt] in *; try lia.
    exists w. intros _. split; auto. split; [lia|]. intros l Hl. destruct (rank_area a l Ha Hl) as (Q1 & Q2). destruct (P l Hl) as (_ & Q3). rewrite Pw, Pv by auto. rewrite PU, PV, Q2, Q3 by auto. reflexivity. }
  destruct (finite_choice _ v UU nr) as (w & HW).
  match goal with |- context [all_of ?d nr ?f] => destruct (all_of_ok d nr f w) as (u1 & -> & H1 & _) end. { intros a Ha. apply (HW a Ha Ha). }
  cbn [bind]. destruct (forward_ok _ _ _ _ _ _ _ _ _ _ _ _ _ SR MO u1 (aat v)) as (u2 & -> & H2). { intros a Ha. rewrite H1 by auto. apply (HW a Ha Ha). }
  cbn [bind]. eexists. split; [reflexivity|]. split; [reflexivity|]. split; cbn [m_u m_step m_resi m_old m_init m_cfl m_lin m_log]; [lia|]. intros a Ha. split; [apply H2; auto|].
  rewrite (energy_sum (rt_r ro) rv) by (intros b l Hb Hl; apply (RV b Hb); auto). fold (res_norm (sm_ne W) (sm_A W) (rt_r ro)). destruct (M a Ha) as (_ & Q). injection Q as Q1 Q2 Q3 Q4 Q5 Q6 Q7. rewrite Q1, Q2, Q3, Q4, Q5, Q6, Q7, Nat.add_0_r. reflexivity.
Qed.
Lemma spread_cont x0 x a : spread_mon x0 x -> (a < nr)%nat -> steady_cont c (x a) = steady_cont c x0.
Proof. intros (_ & M) Ha. destruct (M a Ha) as (_ & Q). injection Q as Q1 Q2 Q3 Q4 Q5 Q6 Q7. unfold steady_cont. congruence. Qed.
Lemma spread_loop fuel : forall x0 x r, spread_mon x0 x -> (forall k y, (k < fuel)%nat -> steady_loop c (steady_body (sm_ne W) (sm_A W) c Rf 0.3 0.25 (fe_upd (sm_ne W) (sm_A W) c)) k x0 = Some (SNext y) -> ok (m_u y)) ->
  steady_loop c (steady_body (sm_ne W) (sm_A W) c Rf 0.3 0.25 (fe_upd (sm_ne W) (sm_A W) c)) fuel x0 = Some r ->
  exists y0 y, r = SNext y0 /\ ranks_loop nr lm S second sp wk c fuel x = Some y /\ spread_mon y0 y.
Proof.
  induction fuel as [|k IH]; intros x0 x r M O E; cbn [steady_loop ranks_loop] in *.
  - injection E as <-. eauto.
  - destruct (steady_cont c x0) eqn:EC.
    + replace (forallb (fun r0 => steady_cont c (x r0)) (seq 0 nr)) with true.
      2:{ symmetry. apply forallb_forall. intros a Ha. apply in_seq in Ha. rewrite (spread_cont x0 x a M) by lia. auto. }
      destruct (steady_body (sm_ne W) (sm_A W) c Rf 0.3 0.25 (fe_upd (sm_ne W) (sm_A W) c) x0) as [z|] eqn:Eb; [|discriminate].
      destruct (spread_body x0 x z M) as (y0 & y & -> & -> & My); auto. { apply (O 0%nat); [lia|reflexivity]. }
      cbn [bind]. apply (IH y0 y r); auto. intros j w Hj Ew. apply (O (Datatypes.S j)); [lia|]. cbn [steady_loop]. rewrite EC, Eb. exact Ew.
    + injection E as <-. replace (forallb (fun r0 => steady_cont c (x r0)) (seq 0 nr)) with false.
      2:{ symmetry. replace nr with (1 + (nr - 1))%nat by lia. cbn [Nat.add seq forallb]. rewrite (spread_cont x0 x 0%nat M NR), EC. reflexivity. }
      replace (forallb (fun r0 => negb (steady_cont c (x r0))) (seq 0 nr)) with true. { eauto. }
      symmetry. apply forallb_forall. intros a Ha. apply in_seq in Ha. rewrite (spread_cont x0 x a M) by lia. rewrite EC. reflexivity.
Qed.
(** a whole solve *)
Lemma spread_solve main lg up glob Jf ksp G at_throw RF u0 u : RF main = Rf -> alen u0 = sm_ne W -> (forall a, (a < nr)%nat -> spr (aat u0) a (u a)) ->
  (forall k y, (k < Z.to_nat (maxiter c))%nat -> steady_loop c (steady_body (sm_ne W) (sm_A W) c Rf 0.3 0.25 (fe_upd (sm_ne W) (sm_A W) c)) k (mkmon u0 0 1 1 1 (cflinit c) 0 []) = Some (SNext y) -> ok (m_u y)) ->
  let r := ode_solve (sm_ne W) (sm_A W) RF glob Jf ksp G at_throw false main c lg up u0 in
  so_end r <> None -> (so_end r = Some (inl 0%Z) \/ so_end r = Some (inr Tolerance_error)) /\
  exists q, ranks_solve nr lm S second sp wk c lg u = Some q /\ alen (so_u r) = sm_ne W /\
  forall a, (a < nr)%nat -> so_end (q a) = so_end r /\ so_td (q a) = so_td r /\ so_vecs (q a) = so_vecs r /\ spr (aat (so_u r)) a (so_u (q a)).
Proof.
  intros ER L0 U O r. subst r. unfold ode_solve, loop_of, fe_solve, ranks_solve. cbv zeta. rewrite ER. destruct (Z.leb_spec (maxiter c) 0) as [Q|Q].
  { cbn [so_end so_td so_vecs so_u m_u m_step m_log]. intros _. split; [auto|]. eexists. split; [reflexivity|]. cbn [so_end so_td so_vecs so_u m_u m_step m_log]. split; [auto|]. intros a Ha. split; [auto|]. split; [destruct lg; auto|]. split; auto. }
  destruct (steady_loop c (steady_body (sm_ne W) (sm_A W) c Rf 0.3 0.25 (fe_upd (sm_ne W) (sm_A W) c)) (Z.to_nat (maxiter c)) (mkmon u0 0 1 1 1 (cflinit c) 0 [])) as [z|] eqn:EL; [|intros H; exfalso; apply H; reflexivity].
  destruct (spread_loop (Z.to_nat (maxiter c)) (mkmon u0 0 1 1 1 (cflinit c) 0 []) (fun a => mkmon (u a) 0 1 1 1 (cflinit c) 0 []) z) as (y0 & y & -> & -> & LY & MY); auto. { split; [exact L0|]. intros a Ha. split; [apply U; auto|reflexivity]. }
  cbn [bind]. destruct (Z.eqb_spec (Z.of_nat (m_step y0)) (maxiter c)) as [K|K]; cbn [so_end so_td so_vecs so_u m_u m_step m_log]; intros _; (split; [auto|]); eexists; (split; [reflexivity|]); (split; [exact LY|]); intros a Ha; destruct (MY a Ha) as (SY & Q0); injection Q0 as Q1 Q2 Q3 Q4 Q5 Q6 Q7; rewrite Q1.
  - destruct (Z.eqb_spec (Z.of_nat (m_step y0)) (maxiter c)); [|lia]. cbn [so_end so_td so_vecs so_u]. rewrite ?Q1, ?Q7. auto 6.
  - destruct (Z.eqb_spec (Z.of_nat (m_step y0)) (maxiter c)); [lia|]. cbn [so_end so_td so_vecs so_u]. rewrite ?Q1, ?Q7. auto 6.
Qed.
End Loop.
