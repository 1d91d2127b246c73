(** The exchanges of M_Async: every reachable state agrees with lockstep execution, some rank can always move,
    and executions are finite. *)
From Coq Require Import List ZArith Lia Bool.
From Verif Require Import M_Async.
Import ListNotations.
Open Scope nat_scope.

Section A.
Context (msg mem : Type) (nbs : Z -> list Z) (out : nat -> Z -> mem -> Z -> msg) (upd : nat -> Z -> mem -> list msg -> mem).
Context (eager : Z -> Z -> nat -> bool) (rounds : nat) (m0 : Z -> mem).
Notation step := (step nbs out upd eager rounds).
Notation exec := (exec nbs out upd eager rounds).
Notation start := (@start msg mem m0).

(** Lockstep execution: what every rank holds after k exchanges. *)
Fixpoint run (k : nat) (r : Z) : mem :=
  match k with
  | 0 => m0 r
  | S j => upd j r (run j r) (map (fun d => out j d (run j d) r) (nbs r))
  end.

Context (ND : forall r, NoDup (nbs r)).

Definition ind (l : list Z) (d : Z) : nat := if in_dec Z.eq_dec d l then 1 else 0.
Lemma ind_in l d : In d l -> ind l d = 1. Proof. unfold ind. destruct (in_dec Z.eq_dec d l); tauto. Qed.
Lemma ind_out l d : ~ In d l -> ind l d = 0. Proof. unfold ind. destruct (in_dec Z.eq_dec d l); tauto. Qed.
Lemma ind_snoc l x d : ~ In x l -> ind (l ++ [x]) d = ind l d + (if Z.eqb d x then 1 else 0).
Proof.
  intros N. destruct (Z.eqb_spec d x).
  - subst. rewrite (ind_out l x N). rewrite ind_in; [lia|]. apply in_or_app; right; left; auto.
  - destruct (in_dec Z.eq_dec d l).
    + rewrite !ind_in; auto; try lia. apply in_or_app; auto.
    + rewrite !ind_out; auto. intros H. apply in_app_or in H. destruct H as [|[|[]]]; congruence.
Qed.

Lemma firstn_S : forall (l : list Z) i x, nth_error l i = Some x -> firstn (S i) l = firstn i l ++ [x].
Proof. induction l as [|a l IH]; intros [|i] x H; cbn in *; try discriminate; [inversion H; auto|]. f_equal. apply IH. auto. Qed.
Lemma nodup_firstn : forall (l : list Z) i x, NoDup l -> nth_error l i = Some x -> ~ In x (firstn i l).
Proof.
  intros l i x N H. assert (L : i < length l) by (apply nth_error_Some; congruence).
  intros I. apply In_nth_error in I. destruct I as (j & J). assert (Lj : j < i).
  { assert (j < length (firstn i l)) by (apply nth_error_Some; congruence). rewrite firstn_length in H0. lia. }
  assert (J' : nth_error l j = Some x). { rewrite <- (firstn_skipn i l). rewrite nth_error_app1; [exact J|]. rewrite firstn_length. lia. }
  assert (i = j); [|lia]. apply (NoDup_nth_error l); auto. congruence.
Qed.

Definition spre (nb : list Z) (p : phase msg) : list Z := match p with Sending i => firstn i nb | _ => nb end.
Definition ppre (nb : list Z) (p : phase msg) : list Z := match p with Sending _ => [] | Posting i => firstn i nb | _ => nb end.
Definition rpre (nb : list Z) (p : phase msg) : list Z := match p with Receiving got => firstn (length got) nb | _ => [] end.
Definition cnt (pre : list Z -> phase msg -> list Z) (l : loc msg mem) (r d : Z) : nat :=
  ind (nbs r) d * l_round l + ind (pre (nbs r) (l_phase l)) d.
Definition okph (r : Z) (l : loc msg mem) : Prop :=
  match l_phase l with
  | Sending i => i <= length (nbs r) | Posting i => i <= length (nbs r)
  | WaitSends => True
  | Receiving got => length got <= length (nbs r) /\
      got = map (fun d => out (l_round l) d (run (l_round l) d) r) (firstn (length got) (nbs r))
  end.

Record inv (s : sys msg mem) : Prop := {
  i_sent : forall r d, nsent s r d = cnt spre (loc_of s r) r d;
  i_post : forall r d, nposted s d r = cnt ppre (loc_of s r) r d;
  i_mem : forall r, l_mem (loc_of s r) = run (l_round (loc_of s r)) r;
  i_ph : forall r, okph r (loc_of s r);
  i_rnd : forall r, l_round (loc_of s r) <= rounds;
  i_le : forall d r, cnt rpre (loc_of s r) r d <= nsent s d r;
  i_chan : forall d r, chan s d r = map (fun k => out k d (run k d) r)
             (seq (cnt rpre (loc_of s r) r d) (nsent s d r - cnt rpre (loc_of s r) r d)) }.

Lemma inv_start : inv start.
Proof.
  split; intros; unfold cnt, okph; cbn; rewrite ?Nat.mul_0_r; auto; lia.
Qed.

Lemma set1_eq {A} (f : Z -> A) r x : set1 f r x r = x. Proof. unfold set1. rewrite Z.eqb_refl. auto. Qed.
Lemma set1_ne {A} (f : Z -> A) r x q : q <> r -> set1 f r x q = f q. Proof. intros. unfold set1. destruct (Z.eqb_spec q r); congruence. Qed.
Lemma set2_eq {A} (f : Z -> Z -> A) a b x : set_2 f a b x a b = x. Proof. unfold set_2. rewrite !Z.eqb_refl. auto. Qed.
Lemma set2_ne {A} (f : Z -> Z -> A) a b x p q : p <> a \/ q <> b -> set_2 f a b x p q = f p q.
Proof. intros. unfold set_2. destruct (Z.eqb_spec p a), (Z.eqb_spec q b); auto. subst. tauto. Qed.

Lemma ind_firstn_all l d n : n = length l -> ind (firstn n l) d = ind l d.
Proof. intros ->. rewrite firstn_all. auto. Qed.

Ltac case1 r q := destruct (Z.eq_dec r q) as [->|?]; [rewrite ?set1_eq|rewrite ?set1_ne by auto].

Lemma step_inv s r s' : inv s -> step r s = Some s' -> inv s'.
Proof.
  intros I H. unfold M_Async.step in H. destruct (loc_of s r) as [k ph m] eqn:L.
  assert (Im := i_mem _ I r). rewrite L in Im. cbn in Im.
  assert (Ip := i_ph _ I r). rewrite L in Ip. unfold okph in Ip. cbn in Ip.
  assert (Ir := i_rnd _ I r). rewrite L in Ir. cbn in Ir.
  destruct (Nat.ltb_spec k rounds) as [Hk|]; [|discriminate].
  assert (CH : forall pre ph' ph'' m', (forall d, ind (pre (nbs r) ph') d = ind (pre (nbs r) ph'') d) -> forall d, cnt pre (mkloc k ph' m') r d = cnt pre (mkloc k ph'' m) r d).
  { intros. unfold cnt. cbn. rewrite H0. auto. }
  destruct ph as [i|i| |got].
  - destruct (nth_error (nbs r) i) as [d0|] eqn:N; injection H as <-.
    + assert (Hi : i < length (nbs r)) by (apply nth_error_Some; congruence).
      assert (U : forall d, cnt spre (mkloc k (Sending (S i)) m) r d = cnt spre (mkloc k (Sending i) m) r d + (if Z.eqb d d0 then 1 else 0)).
      { intros. unfold cnt. cbn [l_round l_phase spre]. rewrite (firstn_S _ _ _ N), ind_snoc by (apply nodup_firstn; auto). lia. }
      assert (Q : forall q, loc_of s q = loc_of (mksys (set1 (loc_of s) r (mkloc k (Sending (S i)) m)) (chan s) (nsent s) (nposted s)) q \/ q = r).
      { intros. cbn. destruct (Z.eq_dec q r); auto. left. rewrite set1_ne; auto. }
      assert (R : forall q d, cnt rpre (set1 (loc_of s) r (mkloc k (Sending (S i)) m) q) q d = cnt rpre (loc_of s q) q d).
      { intros. case1 q r; auto. rewrite L. unfold cnt. cbn. auto. }
      split; cbn [loc_of chan nsent nposted]; intros.
      * destruct (Z.eq_dec r0 r) as [->|Nr].
        -- rewrite set1_eq. rewrite U. rewrite <- L, <- (i_sent _ I). destruct (Z.eqb_spec d d0).
           ++ subst. rewrite set2_eq. lia.
           ++ rewrite set2_ne by auto. lia.
        -- rewrite set1_ne, set2_ne by auto. apply I.
      * rewrite (i_post _ I). case1 r0 r; auto. rewrite L. unfold cnt. cbn. auto.
      * case1 r0 r; auto. apply I.
      * case1 r0 r; [unfold okph; cbn; lia|apply I].
      * case1 r0 r; [cbn; lia|apply I].
      * rewrite R. assert (G := i_le _ I d r0). destruct (Z.eq_dec d r) as [->|]; [destruct (Z.eq_dec r0 d0) as [->|]|]; [rewrite set2_eq; lia| |]; rewrite set2_ne by auto; auto.
      * rewrite R. assert (G := i_le _ I d r0). destruct (Z.eq_dec d r) as [->|]; [destruct (Z.eq_dec r0 d0) as [->|]|].
        -- rewrite !set2_eq, (i_chan _ I).
           assert (E : nsent s r d0 = k). { rewrite (i_sent _ I), L. unfold cnt. cbn. rewrite ind_in by (eapply nth_error_In; eauto). rewrite ind_out by (apply nodup_firstn; auto). lia. }
           rewrite E in *. set (c := cnt rpre (loc_of s d0) d0 r) in *. replace (S k - c) with (S (k - c)) by lia. rewrite seq_S, map_app. cbn. replace (c + (k - c)) with k by lia. rewrite Im. auto.
        -- rewrite !set2_ne by auto. apply I.
        -- rewrite !set2_ne by auto. apply I.
    + assert (i = length (nbs r)). { apply nth_error_None in N. lia. }
      assert (R : forall q d, cnt rpre (set1 (loc_of s) r (mkloc k (Posting 0) m) q) q d = cnt rpre (loc_of s q) q d).
      { intros. case1 q r; auto. rewrite L. auto. }
      split; cbn [loc_of chan nsent nposted]; intros; rewrite ?R; try (apply I).
      * rewrite (i_sent _ I). case1 r0 r; auto. rewrite L. unfold cnt. cbn. rewrite ind_firstn_all; auto.
      * rewrite (i_post _ I). case1 r0 r; auto. rewrite L. auto.
      * case1 r0 r; auto. apply I.
      * case1 r0 r; [unfold okph; cbn; lia|apply I].
      * case1 r0 r; [cbn; lia|apply I].
  - destruct (nth_error (nbs r) i) as [d0|] eqn:N; injection H as <-.
    + assert (Hi : i < length (nbs r)) by (apply nth_error_Some; congruence).
      assert (R : forall q d, cnt rpre (set1 (loc_of s) r (mkloc k (Posting (S i)) m) q) q d = cnt rpre (loc_of s q) q d).
      { intros. case1 q r; auto. rewrite L. auto. }
      split; cbn [loc_of chan nsent nposted]; intros; rewrite ?R; try (apply I).
      * rewrite (i_sent _ I). case1 r0 r; auto. rewrite L. auto.
      * destruct (Z.eq_dec r0 r) as [->|Nr].
        -- rewrite set1_eq. unfold cnt. cbn [l_round l_phase ppre]. rewrite (firstn_S _ _ _ N), ind_snoc by (apply nodup_firstn; auto).
           assert (E := i_post _ I r d). rewrite L in E. unfold cnt in E. cbn in E. destruct (Z.eqb_spec d d0).
           ++ subst. rewrite set2_eq. lia.
           ++ rewrite set2_ne by auto. lia.
        -- rewrite set1_ne, set2_ne by auto. apply I.
      * case1 r0 r; auto. apply I.
      * case1 r0 r; [unfold okph; cbn; lia|apply I].
      * case1 r0 r; [cbn; lia|apply I].
    + assert (i = length (nbs r)). { apply nth_error_None in N. lia. }
      assert (R : forall q d, cnt rpre (set1 (loc_of s) r (mkloc k WaitSends m) q) q d = cnt rpre (loc_of s q) q d).
      { intros. case1 q r; auto. rewrite L. auto. }
      split; cbn [loc_of chan nsent nposted]; intros; rewrite ?R; try (apply I).
      * rewrite (i_sent _ I). case1 r0 r; auto. rewrite L. auto.
      * rewrite (i_post _ I). case1 r0 r; auto. rewrite L. unfold cnt. cbn. rewrite ind_firstn_all; auto.
      * case1 r0 r; auto. apply I.
      * case1 r0 r; [unfold okph; cbn; auto|apply I].
      * case1 r0 r; [cbn; lia|apply I].
  - destruct (forallb _ _); [|discriminate]. injection H as <-.
    assert (R : forall q d, cnt rpre (set1 (loc_of s) r (mkloc k (Receiving []) m) q) q d = cnt rpre (loc_of s q) q d).
    { intros. case1 q r; auto. rewrite L. auto. }
    split; cbn [loc_of chan nsent nposted]; intros; rewrite ?R; try (apply I).
    + rewrite (i_sent _ I). case1 r0 r; auto. rewrite L. auto.
    + rewrite (i_post _ I). case1 r0 r; auto. rewrite L. auto.
    + case1 r0 r; auto. apply I.
    + case1 r0 r; [unfold okph; cbn; split; auto; lia|apply I].
    + case1 r0 r; [cbn; lia|apply I].
  - destruct Ip as (Ig & Eg). destruct (nth_error (nbs r) (length got)) as [d0|] eqn:N.
    + assert (Hi : length got < length (nbs r)) by (apply nth_error_Some; congruence).
      assert (Hin : In d0 (nbs r)) by (eapply nth_error_In; eauto).
      destruct (chan s d0 r) as [|x rest] eqn:C; [discriminate|]. injection H as <-.
      assert (Cc := i_chan _ I d0 r). rewrite C in Cc.
      assert (E0 : cnt rpre (loc_of s r) r d0 = k). { rewrite L. unfold cnt. cbn. rewrite ind_in by auto. rewrite ind_out by (apply nodup_firstn; auto). lia. }
      rewrite E0 in Cc. assert (G := i_le _ I d0 r). rewrite E0 in G.
      destruct (nsent s d0 r - k) as [|b] eqn:B; [discriminate|]. cbn [seq map] in Cc. injection Cc as Ex Er.
      assert (R : forall d, cnt rpre (mkloc k (Receiving (got ++ [x])) m) r d = cnt rpre (loc_of s r) r d + (if Z.eqb d d0 then 1 else 0)).
      { intros. rewrite L. unfold cnt. cbn [l_round l_phase rpre]. rewrite app_length. cbn. rewrite Nat.add_1_r, (firstn_S _ _ _ N), ind_snoc by (apply nodup_firstn; auto). lia. }
      split; cbn [loc_of chan nsent nposted]; intros.
      * rewrite (i_sent _ I). case1 r0 r; auto. rewrite L. auto.
      * rewrite (i_post _ I). case1 r0 r; auto. rewrite L. auto.
      * case1 r0 r; auto. apply I.
      * case1 r0 r; [|apply I]. unfold okph. cbn [l_phase l_round]. rewrite app_length. cbn. split; [lia|]. rewrite Nat.add_1_r, (firstn_S _ _ _ N), map_app. cbn. rewrite <- Eg, Ex. auto.
      * case1 r0 r; [cbn; lia|apply I].
      * case1 r0 r; [|apply I]. rewrite R. destruct (Z.eqb_spec d d0); [subst d; rewrite E0; lia|]. rewrite Nat.add_0_r. apply I.
      * case1 r0 r; [|rewrite set2_ne by auto; apply I]. rewrite R. destruct (Z.eqb_spec d d0).
        -- subst d. rewrite set2_eq. cbv beta. rewrite E0. replace (nsent s d0 r - (k + 1)) with b by lia. rewrite Nat.add_1_r. auto.
        -- rewrite set2_ne by auto. rewrite Nat.add_0_r. apply I.
    + assert (Hl : length got = length (nbs r)). { apply nth_error_None in N. lia. } injection H as <-.
      assert (R : forall q d, cnt rpre (set1 (loc_of s) r (mkloc (S k) (Sending 0) (upd k r m got)) q) q d = cnt rpre (loc_of s q) q d).
      { intros. case1 q r; auto. rewrite L. unfold cnt. cbn. rewrite Hl, firstn_all. unfold ind. destruct (in_dec Z.eq_dec d (nbs r)); lia. }
      split; cbn [loc_of chan nsent nposted]; intros; rewrite ?R; try (apply I).
      * rewrite (i_sent _ I). case1 r0 r; auto. rewrite L. unfold cnt. cbn. unfold ind. destruct (in_dec Z.eq_dec d (nbs r)); lia.
      * rewrite (i_post _ I). case1 r0 r; auto. rewrite L. unfold cnt. cbn. unfold ind. destruct (in_dec Z.eq_dec d (nbs r)); lia.
      * case1 r0 r; [|apply I]. cbn [l_mem l_round run]. rewrite Im, Eg, Hl, firstn_all. auto.
      * case1 r0 r; [unfold okph; cbn; lia|apply I].
      * case1 r0 r; [cbn; lia|apply I].
Qed.

Lemma exec_inv ranks n s : exec ranks start n s -> inv s.
Proof.
  intros E. remember start as s0 eqn:E0. induction E; subst; [apply inv_start|]. eapply step_inv; eauto.
Qed.

(** ** Progress *)
Context (ranks : list Z) (Hsym : forall r d, In r ranks -> In d (nbs r) -> In d ranks /\ In r (nbs d)).

Lemma min_rank (f : Z -> nat) : forall l, l <> [] -> exists r, In r l /\ forall q, In q l -> f r <= f q.
Proof.
  induction l as [|a l IH]; [congruence|]. intros _. destruct l as [|b l].
  - exists a. split; [left; auto|]. intros q [->|[]]. auto.
  - destruct IH as (r & R1 & R2); [congruence|]. destruct (le_lt_dec (f a) (f r)).
    + exists a. split; [left; auto|]. intros q [->|Q]; auto. specialize (R2 q Q). lia.
    + exists r. split; [right; auto|]. intros q [->|Q]; [lia|]. auto.
Qed.

Definition moved_on (p : phase msg) : Prop := match p with WaitSends | Receiving _ => True | _ => False end.

Lemma progress s : inv s -> (exists r, In r ranks /\ l_round (loc_of s r) < rounds) -> exists r s', In r ranks /\ step r s = Some s'.
Proof.
  intros I (r1 & R1 & R2).
  destruct (min_rank (fun r => l_round (loc_of s r)) ranks) as (r & Hr & Hmin). { destruct ranks; [destruct R1|congruence]. }
  assert (Hk : l_round (loc_of s r) < rounds) by (specialize (Hmin r1 R1); lia).
  set (k := l_round (loc_of s r)) in *.
  assert (ST : forall q p m, In q ranks -> loc_of s q = mkloc k p m -> ~ moved_on p -> exists r s', In r ranks /\ step r s = Some s').
  { intros q p m Hq L M. exists q. unfold M_Async.step. rewrite L. rewrite (proj2 (Nat.ltb_lt _ _) Hk). destruct p as [i|i| |g]; cbn in M; try tauto; destruct (nth_error (nbs q) i); eauto. }
  destruct (loc_of s r) as [k' p m] eqn:L. cbn in k. subst k.
  (* the ranks of the smallest round that are still sending or posting can move *)
  assert (Or : (exists r s', In r ranks /\ step r s = Some s') \/ forall q, In q ranks -> l_round (loc_of s q) = k' -> moved_on (l_phase (loc_of s q))).
  { clear - ST. revert ST. generalize (exists r s', In r ranks /\ step r s = Some s') as P. intros P ST.
    assert (forall l, incl l ranks -> P \/ forall q, In q l -> l_round (loc_of s q) = k' -> moved_on (l_phase (loc_of s q))).
    { induction l as [|a l IH]; intros HI; [right; intros q []|]. destruct IH as [|IH]; [intros x Hx; apply HI; right; auto|left; auto|].
      destruct (loc_of s a) as [ka pa ma] eqn:La. destruct (Nat.eq_dec ka k') as [->|Nk].
      - destruct pa as [i|i| |g] eqn:Pa.
        + left. eapply ST; [apply HI; left; reflexivity|exact La|cbn; auto].
        + left. eapply ST; [apply HI; left; reflexivity|exact La|cbn; auto].
        + right. intros q [<-|Hq] Eq; [rewrite La; cbn; auto|auto].
        + right. intros q [<-|Hq] Eq; [rewrite La; cbn; auto|auto].
      - right. intros q [<-|Hq] Eq; [rewrite La in Eq; cbn in Eq; congruence|auto]. }
    apply H. apply incl_refl. }
  destruct Or as [|Or]; auto.
  assert (SENT : forall d, In d (nbs r) -> S k' <= nsent s d r /\ S k' <= nposted s r d).
  { intros d Hd. destruct (Hsym r d Hr Hd) as (Hd1 & Hd2). rewrite (i_sent _ I), (i_post _ I). unfold cnt. rewrite ind_in by auto.
    specialize (Hmin d Hd1). cbn in Hmin. destruct (Nat.eq_dec (l_round (loc_of s d)) k') as [Eq|]; [|lia].
    specialize (Or d Hd1 Eq). destruct (l_phase (loc_of s d)); cbn in Or; try tauto; cbn [spre ppre]; rewrite ind_in by auto; lia. }
  assert (SELF : forall d, In d (nbs r) -> nsent s r d = S k').
  { intros d Hd. rewrite (i_sent _ I), L. unfold cnt. cbn [l_round l_phase]. assert (M := Or r Hr). rewrite L in M. cbn [l_round l_phase] in M. specialize (M eq_refl). destruct p; cbn in M; try tauto; cbn [spre]; rewrite ind_in by auto; lia. }
  exists r. unfold M_Async.step. rewrite L. rewrite (proj2 (Nat.ltb_lt _ _) Hk). destruct p as [i|i| |got].
  - destruct (nth_error (nbs r) i); eauto.
  - destruct (nth_error (nbs r) i); eauto.
  - assert (F : forallb (fun d => orb (eager r d (nsent s r d)) (Nat.leb (nsent s r d) (nposted s r d))) (nbs r) = true).
    { apply forallb_forall. intros d Hd. apply orb_true_iff. right. apply Nat.leb_le. rewrite (SELF d Hd). apply SENT. auto. }
    rewrite F. eauto.
  - destruct (nth_error (nbs r) (length got)) as [d|] eqn:N; eauto. assert (Hd : In d (nbs r)) by (eapply nth_error_In; eauto).
    assert (C := i_chan _ I d r). assert (E0 : cnt rpre (loc_of s r) r d = k'). { rewrite L. unfold cnt. cbn. rewrite ind_in by auto. rewrite ind_out by (apply nodup_firstn; auto). lia. }
    rewrite E0 in C. destruct (SENT d Hd) as (C1 & _). replace (nsent s d r - k') with (S (nsent s d r - k' - 1)) in C by lia. cbn in C. rewrite C. eauto.
Qed.

(** ** Termination: every step uses up exactly one unit *)
Definition used (r : Z) (l : loc msg mem) : nat :=
  let n := length (nbs r) in
  l_round l * (3 * n + 4) + match l_phase l with Sending i => i | Posting i => n + 1 + i | WaitSends => 2 * n + 2 | Receiving got => 2 * n + 3 + length got end.
Fixpoint total (l : list Z) (s : sys msg mem) : nat := match l with [] => 0 | r :: q => used r (loc_of s r) + total q s end.
Definition budget (l : list Z) : nat := fold_right (fun r a => (rounds + 1) * (3 * length (nbs r) + 4) + a) 0 l.

Lemma step_used s r s' : inv s -> step r s = Some s' -> used r (loc_of s' r) = S (used r (loc_of s r)) /\ forall q, q <> r -> loc_of s' q = loc_of s q.
Proof.
  intros I H. assert (Ip := i_ph _ I r). unfold M_Async.step in H. destruct (loc_of s r) as [k ph m] eqn:L. unfold okph in Ip. cbn in Ip.
  destruct (Nat.ltb_spec k rounds); [|discriminate]. destruct ph as [i|i| |got].
  - destruct (nth_error (nbs r) i) eqn:N; injection H as <-; cbn [loc_of]; rewrite set1_eq; split; try (intros; apply set1_ne; auto); unfold used; cbn [l_round l_phase]; try lia. apply nth_error_None in N. lia.
  - destruct (nth_error (nbs r) i) eqn:N; injection H as <-; cbn [loc_of]; rewrite set1_eq; split; try (intros; apply set1_ne; auto); unfold used; cbn [l_round l_phase]; try lia. apply nth_error_None in N. lia.
  - destruct (forallb _ _); [|discriminate]. injection H as <-; cbn [loc_of]; rewrite set1_eq; split; try (intros; apply set1_ne; auto); unfold used; cbn; lia.
  - destruct (nth_error (nbs r) (length got)) eqn:N.
    + destruct (chan s z r); [discriminate|]. injection H as <-; cbn [loc_of]; rewrite set1_eq; split; try (intros; apply set1_ne; auto); unfold used; cbn [l_round l_phase]; rewrite app_length; cbn; lia.
    + apply nth_error_None in N. injection H as <-; cbn [loc_of]; rewrite set1_eq; split; try (intros; apply set1_ne; auto); unfold used; cbn [l_round l_phase]. nia.
Qed.

Lemma total_other l s s' : (forall q, In q l -> loc_of s' q = loc_of s q) -> total l s' = total l s.
Proof. induction l as [|a l IH]; intros H; cbn; auto. rewrite (H a) by (left; auto). rewrite IH; auto. intros. apply H. right. auto. Qed.
Lemma total_step l s r s' : NoDup l -> In r l -> inv s -> step r s = Some s' -> total l s' = S (total l s).
Proof.
  intros N Hr I H. destruct (step_used s r s' I H) as (U & O). induction l as [|a l IH]; [destruct Hr|]. inversion N; subst. cbn.
  destruct (Z.eq_dec a r) as [->|Na].
  - rewrite U. rewrite (total_other l s s'); auto. intros q Hq. apply O. congruence.
  - destruct Hr; [congruence|]. rewrite (O a Na), IH; auto.
Qed.
Lemma total_exec n s : NoDup ranks -> exec ranks start n s -> total ranks s = n.
Proof.
  intros N E. remember start as s0 eqn:E0. induction E; subst.
  - assert (forall l, total l start = 0) by (induction l; cbn; auto). auto.
  - rewrite (total_step ranks s1 r s2); auto. eapply exec_inv; eauto.
Qed.
Lemma total_budget l s : inv s -> total l s <= budget l.
Proof.
  intros I. induction l as [|a l IH]; cbn [total budget fold_right]; auto. unfold budget in IH. enough (used a (loc_of s a) <= (rounds + 1) * (3 * length (nbs a) + 4)) by lia.
  assert (Ip := i_ph _ I a). assert (Ir := i_rnd _ I a). unfold used, okph in *. destruct (loc_of s a) as [k ph m]. cbn [l_round l_phase] in *.
  destruct ph as [i|i| |got]; try (destruct Ip); nia.
Qed.

(** Every execution is finite, and one that cannot be continued has completed all exchanges on every rank with the lockstep result. *)
Lemma exec_bound n s : NoDup ranks -> exec ranks start n s -> n <= budget ranks.
Proof. intros N E. rewrite <- (total_exec n s N E). apply total_budget. eapply exec_inv; eauto. Qed.
Lemma exec_stuck n s : exec ranks start n s -> (forall r s', In r ranks -> step r s = Some s' -> False) ->
  forall r, In r ranks -> l_round (loc_of s r) = rounds /\ l_mem (loc_of s r) = run rounds r.
Proof.
  intros E St r Hr. assert (I := exec_inv _ _ _ E).
  assert (K : l_round (loc_of s r) = rounds).
  { assert (Ir := i_rnd _ I r). destruct (Nat.eq_dec (l_round (loc_of s r)) rounds); auto. exfalso.
    destruct (progress s I) as (q & s' & Q1 & Q2); [exists r; split; auto; lia|]. eapply St; eauto. }
  split; auto. rewrite (i_mem _ I), K. auto.
Qed.
Lemma exec_mem n s r : exec ranks start n s -> l_mem (loc_of s r) = run (l_round (loc_of s r)) r.
Proof. intros E. apply (i_mem _ (exec_inv _ _ _ E)). Qed.

End A.
