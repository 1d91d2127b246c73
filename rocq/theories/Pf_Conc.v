(** Proofs about interleavings. *)
From Coq Require Import Reals Lra List Arith Lia Permutation.
From Verif Require Import Base BaseR BaseSum M_Gas M_Space Pf_Space M_Conc.
Import ListNotations.
Open Scope R_scope.

Lemma run_atomic_val : forall l m a, run_atomic l m a = m a + rsum (fun p => if (fst p =? a)%nat then snd p else 0) l.
Proof.
  induction l as [|[b v] l IH]; intros m a; cbn [run_atomic fold_left rsum fst snd]; [lra|].
  change (run_atomic l (upd m b (m b + v)) a = m a + ((if (b =? a)%nat then v else 0) + rsum (fun p => if (fst p =? a)%nat then snd p else 0) l)).
  rewrite IH. unfold upd. rewrite (Nat.eqb_sym a b). destruct (Nat.eqb_spec b a); [subst|]; lra.
Qed.
Lemma run_atomic_perm l l' m : Permutation l l' -> forall a, run_atomic l m a = run_atomic l' m a.
Proof. intros P a. rewrite !run_atomic_val. f_equal. apply rsum_perm; auto. Qed.

Lemma interleave_perm {A} (ls : list (list A)) r : interleave ls r -> Permutation r (concat ls).
Proof.
  induction 1 as [ls H|l1 x t l2 r H IH].
  - induction ls as [|l ls IH]; [constructor|]. cbn. rewrite (H l) by (left; auto). apply IH. intros; apply H; right; auto.
  - rewrite concat_app in *. cbn in *. rewrite IH. apply Permutation_cons_app. reflexivity.
Qed.

Section Lay.
Context {T : Type} (plus : T -> T -> T) (lay : layout T).
Hypothesis Hw : (0 < width lay)%nat.
Hypothesis Hadd : forall j, additive plus (comp lay j).

Lemma scalar_sum p i j : (j < width lay)%nat ->
  rsum (fun q => if (fst q =? i * width lay + j)%nat then snd q else 0) (scalar_ups lay p) = if (fst p =? i)%nat then comp lay j (snd p) else 0.
Proof.
  intros Hj. unfold scalar_ups. rewrite rsum_map. cbn [fst snd].
  transitivity (rsum (fun x => if (x =? j)%nat then (if (fst p =? i)%nat then comp lay x (snd p) else 0) else 0) (seq 0 (width lay))).
  - apply rsum_ext. intros x Hx. apply in_seq in Hx.
    destruct (Nat.eqb_spec (fst p * width lay + x) (i * width lay + j)) as [E|E]; destruct (Nat.eqb_spec x j) as [E1|E1]; destruct (Nat.eqb_spec (fst p) i) as [E2|E2]; auto; exfalso.
    + subst. apply E2. nia.
    + subst. nia.
    + assert (fst p = i \/ fst p < i \/ i < fst p)%nat as [?|[?|?]] by lia; nia.
    + subst. apply E. lia.
  - apply rsum_single. auto.
Qed.

Theorem atomic_any_order lo hi body A A' (L : nat -> list (inc T)) sched : (lo <= hi)%nat ->
  (forall k, (lo <= k < hi)%nat -> body k = Some (L k) /\ forall p, In p (L k) -> (fst p < alen A)%nat) ->
  acc_loop plus lo hi body A = Some A' ->
  Permutation sched (flat_map (fun k => flat_map (scalar_ups lay) (L k)) (seq lo (hi - lo))) ->
  forall a, run_atomic sched (flat lay A) a = flat lay A' a.
Proof.
  intros Hlh HL E P a. destruct (acc_loop_ok plus lo hi body A L Hlh HL) as (A2 & E2 & _ & V & _). rewrite E in E2. inversion E2; subst A2.
  rewrite run_atomic_val, (rsum_perm _ _ _ P), rsum_flat_map. unfold flat. rewrite V by auto. f_equal.
  apply rsum_ext. intros k _. rewrite rsum_flat_map. unfold added. apply rsum_ext. intros p _.
  rewrite <- scalar_sum by (apply Nat.mod_upper_bound; lia). apply rsum_ext. intros q _.
  rewrite (Nat.div_mod a (width lay)) at 1 by lia. rewrite (Nat.mul_comm (width lay)). reflexivity.
Qed.
End Lay.

(** ** non-atomic updates *)
Lemma run_app l1 l2 s : run_steps (l1 ++ l2) s = run_steps l2 (run_steps l1 s).
Proof. apply fold_left_app. Qed.

(** run without interference, a non-atomic update does what an atomic one does *)
Lemma run_serial t : forall ups m r, exists r', run_steps (nonatomic t ups) (m, r) = (run_atomic ups m, r').
Proof.
  induction ups as [|[a v] ups IH]; intros m r; [exists r; reflexivity|].
  cbn [nonatomic flat_map app run_steps fold_left do_step fst snd]. rewrite upd_eq.
  destruct (IH (upd m a (m a + v)) (upd r t (m a))) as (r' & E). exists r'. exact E.
Qed.
Lemma run_serials : forall (ps : list (nat * list (nat * R))) m r, exists r',
  run_steps (concat (map (fun p => nonatomic (fst p) (snd p)) ps)) (m, r) = (run_atomic (concat (map snd ps)) m, r').
Proof.
  induction ps as [|[t ups] ps IH]; intros m r; [exists r; reflexivity|].
  cbn [map concat fst snd]. rewrite run_app. destruct (run_serial t ups m r) as (r1 & E1). rewrite E1.
  destruct (IH (run_atomic ups m) r1) as (r2 & E2). rewrite E2. exists r2. unfold run_atomic. rewrite fold_left_app. reflexivity.
Qed.

Lemma il_prefix {A} l1 (p t : list A) l2 r : interleave (l1 ++ t :: l2) r -> interleave (l1 ++ (p ++ t) :: l2) (p ++ r).
Proof. induction p as [|x p IH]; intros H; auto. cbn. apply il_step. auto. Qed.
Lemma il_nil_front {A} (ls : list (list A)) r : interleave ls r -> interleave ([] :: ls) r.
Proof.
  induction 1 as [ls H|l1 x t l2 r H IH].
  - apply il_done. intros l [<-|Hl]; auto.
  - apply (il_step ([] :: l1) x t l2 r). exact IH.
Qed.
Lemma il_serial {A} : forall (ls : list (list A)), interleave ls (concat ls).
Proof.
  induction ls as [|l ls IH]; [apply il_done; intros l []|]. cbn.
  pose proof (il_prefix [] l [] ls (concat ls)) as P. cbn in P. rewrite app_nil_r in P. apply P. apply il_nil_front. exact IH.
Qed.

Section Lost.
Variables (PA PB PC : list (nat * list (nat * R))) (t1 t2 : nat) (pre1 post1 pre2 post2 : list (nat * R)) (a : nat) (v1 v2 : R).
Hypothesis Ht : t1 <> t2.
Let na (p : nat * list (nat * R)) := nonatomic (fst p) (snd p).
Definition lost_threads : list (list step) :=
  map na PA ++ nonatomic t1 (pre1 ++ (a, v1) :: post1) :: map na PB ++ nonatomic t2 (pre2 ++ (a, v2) :: post2) :: map na PC.
Definition lost_ups : list (nat * R) :=
  concat (map snd PA) ++ (pre1 ++ (a, v1) :: post1) ++ concat (map snd PB) ++ (pre2 ++ (a, v2) :: post2) ++ concat (map snd PC).

Lemma na_app t l1 l2 : nonatomic t (l1 ++ l2) = nonatomic t l1 ++ nonatomic t l2.
Proof. apply flat_map_app. Qed.

Definition lost_sched : list step :=
  nonatomic t1 pre1 ++ nonatomic t2 pre2 ++ [Ld t1 a; Ld t2 a; Sto t1 a v1; Sto t2 a v2] ++
  concat (map na PA ++ nonatomic t1 post1 :: map na PB ++ nonatomic t2 post2 :: map na PC).

Lemma lost_interleave : interleave lost_threads lost_sched.
Proof.
  unfold lost_threads, lost_sched. rewrite !na_app.
  apply (il_prefix (map na PA) (nonatomic t1 pre1)).
  rewrite app_comm_cons, app_assoc. apply (il_prefix (map na PA ++ nonatomic t1 ((a, v1) :: post1) :: map na PB) (nonatomic t2 pre2)).
  rewrite <- app_assoc. cbn [app].
  change (nonatomic t1 ((a, v1) :: post1)) with (Ld t1 a :: Sto t1 a v1 :: nonatomic t1 post1).
  apply il_step. change (nonatomic t2 ((a, v2) :: post2)) with (Ld t2 a :: Sto t2 a v2 :: nonatomic t2 post2).
  rewrite app_comm_cons, app_assoc. apply il_step. rewrite <- app_assoc. cbn [app]. apply il_step.
  rewrite app_comm_cons, app_assoc. apply il_step. rewrite <- app_assoc. cbn [app]. apply il_serial.
Qed.

Lemma lost_result m r : fst (run_steps lost_sched (m, r)) a = run_atomic lost_ups m a - v1.
Proof.
  unfold lost_sched. rewrite !run_app.
  destruct (run_serial t1 pre1 m r) as (r1 & E1). rewrite E1. destruct (run_serial t2 pre2 (run_atomic pre1 m) r1) as (r2 & E2). rewrite E2.
  set (m2 := run_atomic pre2 (run_atomic pre1 m)).
  cbn [run_steps fold_left do_step fst snd]. rewrite upd_ne by auto. rewrite !upd_eq.
  set (ps := PA ++ (t1, post1) :: PB ++ (t2, post2) :: PC).
  replace (map na PA ++ nonatomic t1 post1 :: map na PB ++ nonatomic t2 post2 :: map na PC) with (map (fun p => nonatomic (fst p) (snd p)) ps)
    by (unfold ps, na; rewrite !map_app; cbn [map]; rewrite !map_app; reflexivity).
  try match goal with |- context [fold_left do_step ?l ?x] => change (fold_left do_step l x) with (run_steps l x) end.
  match goal with |- context [run_steps _ (?mm, ?rr)] => destruct (run_serials ps mm rr) as (r3 & E3) end. match goal with |- fst ?x a = _ => assert (EX : x = (run_atomic (concat (map snd ps)) (upd (upd m2 a (m2 a + v1)) a (m2 a + v2)), r3)) by exact E3; rewrite EX end. cbn [fst].
  rewrite run_atomic_val. rewrite !upd_eq. unfold m2. rewrite !run_atomic_val. unfold ps, lost_ups.
  repeat (rewrite ?map_app, ?concat_app, ?rsum_app; cbn [map concat snd fst rsum]). rewrite Nat.eqb_refl. lra.
Qed.
End Lost.

(** *** without conflicting addresses every execution is correct *)
Definition pending (r : nat -> R) (m : mem) (t : nat) (prog : list step) (ups : list (nat * R)) : Prop :=
  prog = nonatomic t ups \/ exists a v rest, ups = (a, v) :: rest /\ prog = Sto t a v :: nonatomic t rest /\ r t = m a.

Lemma race_free : forall (progs : list (list step)) sched, interleave progs sched ->
  forall (ths : list (nat * list (nat * R))) m r,
  length ths = length progs ->
  (forall k t ups prog, nth_error ths k = Some (t, ups) -> nth_error progs k = Some prog -> pending r m t prog ups) ->
  NoDup (map fst ths) ->
  (forall j k t ups t' ups' p p', j <> k -> nth_error ths j = Some (t, ups) -> nth_error ths k = Some (t', ups') -> In p ups -> In p' ups' -> fst p <> fst p') ->
  forall a, fst (run_steps sched (m, r)) a = m a + rsum (fun p => if (fst p =? a)%nat then snd p else 0) (concat (map snd ths)).
Proof.
  intros progs sched IL. induction IL as [ls H|l1 x t0 l2 rr IL IH]; intros ths m r HL HP HN HD a.
  - cbn. assert (Z : concat (map snd ths) = []); [|rewrite Z; cbn; lra].
    assert (Q : forall p, In p ths -> snd p = []).
    { intros [t ups] Hin. apply In_nth_error in Hin. destruct Hin as (k & Ek).
      assert (k < length ls)%nat by (rewrite <- HL; apply nth_error_Some; congruence).
      destruct (nth_error ls k) as [prog|] eqn:Ep; [|apply nth_error_None in Ep; lia].
      assert (prog = []) by (apply H; eapply nth_error_In; eauto). subst.
      destruct (HP k t ups [] Ek Ep) as [E|(a' & v & rest & _ & E & _)]; [|discriminate]. destruct ups as [|[? ?] ?]; [reflexivity|discriminate]. }
    clear - Q. induction ths as [|p ths IH]; [reflexivity|]. cbn. rewrite Q by (left; auto). apply IH. intros; apply Q; right; auto.
  - assert (Hk : (length l1 < length ths)%nat) by (rewrite HL, app_length; cbn; lia).
    destruct (nth_error ths (length l1)) as [[t ups]|] eqn:Et; [|apply nth_error_None in Et; lia].
    assert (Ep : nth_error (l1 ++ (x :: t0) :: l2) (length l1) = Some (x :: t0)) by (rewrite nth_error_app2, Nat.sub_diag by lia; reflexivity).
    assert (HLn : length ths = length (l1 ++ t0 :: l2)) by (rewrite HL, !app_length; reflexivity).
    assert (Hother : forall k prog, k <> length l1 -> nth_error (l1 ++ t0 :: l2) k = Some prog -> nth_error (l1 ++ (x :: t0) :: l2) k = Some prog).
    { intros k prog Hne. destruct (Nat.lt_ge_cases k (length l1)). rewrite !nth_error_app1 by lia. auto.
      rewrite !nth_error_app2 by lia. destruct (k - length l1)%nat eqn:Z; [lia|]. auto. }
    assert (Hself : nth_error (l1 ++ t0 :: l2) (length l1) = Some t0) by (rewrite nth_error_app2, Nat.sub_diag by lia; reflexivity).
    assert (Htid : forall k t' ups', k <> length l1 -> nth_error ths k = Some (t', ups') -> t' <> t).
    { intros k t' ups' Hne E Eq. subst t'. apply Hne. apply (proj1 (NoDup_nth_error (map fst ths)) HN).
      rewrite map_length. apply nth_error_Some. congruence.
      rewrite !nth_error_map, E, Et. reflexivity. }
    destruct (HP _ _ _ _ Et Ep) as [E|(a' & v & rest & E1 & E2 & E3)].
    + (* a load *)
      destruct ups as [|[a' v] rest]; [discriminate|]. cbn in E. inversion E; subst x t0. clear E.
      cbn [run_steps fold_left do_step fst snd].
      apply (IH ths m (upd r t (m a'))); auto.
      intros k t' ups' prog Ek Epk. destruct (Nat.eq_dec k (length l1)) as [->|Hne].
      * rewrite Et in Ek. inversion Ek; subst. rewrite Hself in Epk. inversion Epk; subst. right. exists a', v, rest. split; auto. split; auto. apply upd_eq.
      * destruct (HP k t' ups' prog Ek (Hother k prog Hne Epk)) as [E|(a2 & v2 & rest2 & E1 & E2 & E3)]; [left; auto|right].
        exists a2, v2, rest2. split; auto. split; auto. rewrite upd_ne; auto. apply (Htid k t' ups'); auto.
    + (* a store *)
      inversion E2; subst x t0. clear E2. subst ups. cbn [run_steps fold_left do_step fst snd].
      destruct (nth_error_split ths (length l1) Et) as (s1 & s2 & Es & Ls).
      set (ths' := s1 ++ (t, rest) :: s2).
      assert (Eth : forall k t' ups', nth_error ths' k = Some (t', ups') -> exists ups2, nth_error ths k = Some (t', ups2) /\ (forall p, In p ups' -> In p ups2) /\ (k <> length l1 -> ups2 = ups')).
      { intros k t' ups' Ek. unfold ths' in Ek. destruct (Nat.eq_dec k (length l1)) as [->|Hne].
        - rewrite nth_error_app2, Ls, Nat.sub_diag in Ek by lia. cbn in Ek. inversion Ek; subst. exists ((a', v) :: ups'). split; auto. split; [intros; right; auto|congruence].
        - exists ups'. split; [|auto]. rewrite Es. destruct (Nat.lt_ge_cases k (length l1)). rewrite nth_error_app1 in * by lia. auto.
          rewrite nth_error_app2 in * by lia. destruct (k - length s1)%nat eqn:Z; [lia|]. auto. }
      fold (run_steps rr (upd m a' (r t + v), r)).
      rewrite (IH ths' (upd m a' (r t + v)) r).
      * unfold ths'. rewrite Es. repeat (rewrite ?map_app, ?concat_app, ?rsum_app; cbn [map concat snd fst rsum]). rewrite E3.
        unfold upd. rewrite (Nat.eqb_sym a a'). destruct (Nat.eqb_spec a' a); [subst|]; lra.
      * rewrite <- HLn. unfold ths'. rewrite Es, !app_length. reflexivity.
      * intros k t' ups' prog Ek Epk. destruct (Eth k t' ups' Ek) as (ups2 & Ek2 & Hsub & Heq). destruct (Nat.eq_dec k (length l1)) as [->|Hne].
        -- rewrite Hself in Epk. inversion Epk; subst. unfold ths' in Ek. rewrite nth_error_app2, Ls, Nat.sub_diag in Ek by lia. cbn in Ek. inversion Ek; subst. left; reflexivity.
        -- specialize (Heq Hne). subst ups2. destruct (HP k t' ups' prog Ek2 (Hother k prog Hne Epk)) as [E|(a2 & v2 & rest2 & Q1 & Q2 & Q3)]; [left; auto|right].
           exists a2, v2, rest2. split; auto. split; auto. rewrite upd_ne; auto.
           apply (HD k (length l1) t' ups' t ((a', v) :: rest) (a2, v2) (a', v)); auto. subst ups'; left; auto. left; auto.
      * unfold ths'. rewrite Es in HN. rewrite map_app in *. exact HN.
      * intros j k t1 u1 t2 u2 p p' Hne Ej Ek Hp Hp'. destruct (Eth j t1 u1 Ej) as (w1 & F1 & G1 & _). destruct (Eth k t2 u2 Ek) as (w2 & F2 & G2 & _).
        apply (HD j k t1 w1 t2 w2); auto.
Qed.
