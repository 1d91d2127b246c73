(** The handlers refine the attached/detached specification when no PETSc call fails and handlers are not copied. *)
From Coq Require Import List Arith Bool Lia.
From Verif Require Import Base M_Handler.
Import ListNotations.

Lemma key_eqb_spec a b : reflect (a = b) (key_eqb a b).
Proof.
  destruct a as [v l r], b as [v' l' r']. unfold key_eqb. cbn. destruct (Nat.eqb_spec v v') as [->|N]; cbn; [|constructor; congruence].
  destruct (Bool.eqb_spec l l') as [->|N]; cbn; [|constructor; congruence]. destruct (Bool.eqb_spec r r') as [->|N]; constructor; congruence.
Qed.

Definition rel1 (p : nat * handler) (q : nat * sh) : Prop :=
  fst p = fst q /\ h_ghost (snd p) = s_ghost (snd q) /\ h_ro (snd p) = s_ro (snd q) /\ h_vec (snd p) = s_vec (snd q) /\
  h_sdata (snd p) = option_map (fun v => mkkey v (s_ghost (snd q)) (s_ro (snd q))) (s_vec (snd q)) /\
  (s_ghost (snd q) = true -> h_local (snd p) = s_vec (snd q)).
Record hsim (w : world) (s : sworld) : Prop := {
  hs_rel : Forall2 rel1 (hs w) s;
  hs_nodup : NoDup (map fst s);
  hs_arrs : forall k, arrs w k = due k s;
  hs_locs : forall v, locs w v = due_local v s }.

Lemma hsim0 : hsim world0 [].
Proof. split; cbn; auto; constructor. Qed.

Lemma rel_lookup l s x : Forall2 rel1 l s -> match lookup x l, slookup x s with Some h, Some a => rel1 (x, h) (x, a) | None, None => True | _, _ => False end.
Proof.
  unfold lookup, slookup. induction 1 as [|p q l s R H IH]; cbn; auto. destruct R as (E & R). rewrite E. destruct (Nat.eqb_spec (fst q) x) as [E2|]; cbn; auto.
  split; auto.
Qed.
Lemma rel_remove l s x : Forall2 rel1 l s -> Forall2 rel1 (remove_h x l) (sremove x s).
Proof. unfold remove_h, sremove. induction 1 as [|p q l s R H IH]; cbn; auto. destruct R as (E & R). rewrite E. destruct (Nat.eqb_spec (fst q) x); cbn; auto. constructor; auto. split; auto. Qed.
Lemma sremove_in s x y : In y (map fst (sremove x s)) <-> In y (map fst s) /\ y <> x.
Proof.
  unfold sremove. rewrite !in_map_iff. split.
  - intros (p & <- & H). apply filter_In in H. destruct H as (H & N). apply negb_true_iff, Nat.eqb_neq in N. split; eauto.
  - intros ((p & <- & H) & N). exists p. split; auto. apply filter_In. split; auto. apply negb_true_iff, Nat.eqb_neq. auto.
Qed.
Lemma sremove_nodup s x : NoDup (map fst s) -> NoDup (map fst (sremove x s)).
Proof. unfold sremove. induction s as [|p s IH]; cbn; auto. intros H. inversion H; subst. destruct (fst p =? x) eqn:E; cbn; auto. constructor; auto. intros Q. apply H2. apply (proj1 (sremove_in s x _)) in Q. tauto. Qed.
Lemma slookup_none s x : slookup x s = None -> ~ In x (map fst s).
Proof. unfold slookup. induction s as [|p s IH]; cbn; auto. destruct (Nat.eqb_spec (fst p) x); cbn; [discriminate|]. intros H [Q|Q]; [auto|apply IH; auto]. Qed.
Lemma sremove_none s x : ~ In x (map fst s) -> sremove x s = s.
Proof. unfold sremove. induction s as [|p s IH]; cbn; auto. intros H. destruct (Nat.eqb_spec (fst p) x); cbn; [exfalso; auto|]. rewrite IH; auto. Qed.
Lemma count_split (f : nat * sh -> bool) s x a : NoDup (map fst s) -> slookup x s = Some a ->
  length (filter f s) = (if f (x, a) then 1 else 0) + length (filter f (sremove x s)).
Proof.
  unfold slookup. induction s as [|p s IH]; cbn; [discriminate|]. intros ND H. inversion ND; subst. destruct (Nat.eqb_spec (fst p) x) as [E|N]; cbn [negb option_map] in *.
  - injection H as <-. change (filter (fun p => negb (fst p =? x)) s) with (sremove x s). rewrite sremove_none by (subst; auto). destruct p as [px pa]. cbn in E. subst px. cbn. destruct (f (x, pa)); cbn; lia.
  - cbn [filter]. specialize (IH H3 H). unfold sremove in IH. destruct (f p); cbn [length]; lia.
Qed.

Section P.
Context (fails : nat -> bool) (NF : forall n, fails n = false).

Lemma put_sim w s x h a : Forall2 rel1 (hs w) s -> NoDup (map fst s) -> rel1 (x, h) (x, a) ->
  (forall k, arrs w k = due k ((x, a) :: sremove x s)) -> (forall v, locs w v = due_local v ((x, a) :: sremove x s)) -> hsim (put w x h) ((x, a) :: sremove x s).
Proof.
  intros F ND R A L. split; cbn [put hs arrs locs]; auto.
  - constructor; auto. apply rel_remove. auto.
  - cbn. constructor; [|apply sremove_nodup; auto]. intros Q. apply (proj1 (sremove_in s x x)) in Q. tauto.
Qed.
Lemma due_cons k p s : due k (p :: s) = (if holds_key k p then 1 else 0) + due k s.
Proof. unfold due. cbn. destruct (holds_key k p); auto. Qed.
Lemma duel_cons k p s : due_local k (p :: s) = (if holds_local k p then 1 else 0) + due_local k s.
Proof. unfold due_local. cbn. destruct (holds_local k p); auto. Qed.

(** attaching *)
Lemma setVec_ok w s x h g ro v : hsim w s -> (slookup x s = None \/ slookup x s = Some (mksh g ro None)) -> h_vec h = None -> h_ghost h = g -> h_ro h = ro ->
  exists w1 h1, setVec fails w h v = (w1, h1, true) /\ hsim (put w1 x h1) ((x, mksh g ro (Some v)) :: sremove x s).
Proof.
  intros S Hx Hv Hg Hr. unfold setVec. rewrite Hv.
  assert (D : forall k, due k s = due k (sremove x s)). { intros k. destruct Hx as [Hx|Hx]; [rewrite sremove_none; auto; apply slookup_none; auto|]. unfold due. rewrite (count_split _ s x _ (hs_nodup _ _ S) Hx). reflexivity. }
  assert (DL : forall k, due_local k s = due_local k (sremove x s)). { intros k. destruct Hx as [Hx|Hx]; [rewrite sremove_none; auto; apply slookup_none; auto|]. unfold due_local. rewrite (count_split _ s x _ (hs_nodup _ _ S) Hx). reflexivity. }
  rewrite Hg. destruct g.
  - unfold get_local. rewrite NF. cbn [fst snd]. unfold get_array. rewrite NF. cbn. do 2 eexists. split; [reflexivity|]. apply put_sim; cbn [arrs locs hs calls]; try apply S.
    + unfold rel1. cbn. rewrite Hr. auto 10.
    + intros k. rewrite due_cons, <- D, (hs_arrs _ _ S). unfold holds_key. cbn. rewrite Hr. destruct (key_eqb k _); lia.
    + intros u. rewrite duel_cons, <- DL. unfold holds_local, upd. cbn. rewrite !(hs_locs _ _ S). destruct (Nat.eqb_spec u v) as [->|]; [rewrite Nat.eqb_refl; lia|]. destruct (Nat.eqb_spec v u); [congruence|]. lia.
  - unfold get_array. rewrite NF. cbn. do 2 eexists. split; [reflexivity|]. apply put_sim; cbn [arrs locs hs calls]; try apply S.
    + unfold rel1. cbn. rewrite Hr. repeat split; auto; discriminate.
    + intros k. rewrite due_cons, <- D, (hs_arrs _ _ S). unfold holds_key. cbn. rewrite Hr. destruct (key_eqb k _); lia.
    + intros u. rewrite duel_cons, <- DL. unfold holds_local. cbn. apply (hs_locs _ _ S).
Qed.

(** giving back *)
Lemma restore_ok w s x h a : hsim w s -> slookup x s = Some a -> rel1 (x, h) (x, a) ->
  exists w1 h1, restore w h = Some (w1, h1) /\ hs w1 = hs w /\ rel1 (x, h1) (x, mksh (s_ghost a) (s_ro a) None) /\
    (forall k, arrs w1 k = due k (sremove x s)) /\ (forall v, locs w1 v = due_local v (sremove x s)).
Proof.
  intros S Hx (_ & R1 & R2 & R3 & R4 & R5). cbn in *.
  assert (D : forall k, due k s = (if holds_key k (x, a) then 1 else 0) + due k (sremove x s)) by (intros k; apply (count_split _ s x _ (hs_nodup _ _ S) Hx)).
  assert (DL : forall k, due_local k s = (if holds_local k (x, a) then 1 else 0) + due_local k (sremove x s)) by (intros k; apply (count_split _ s x _ (hs_nodup _ _ S) Hx)).
  unfold holds_key in D. unfold holds_local in DL. cbn in D, DL.
  unfold restore, restore_ghosted, restore_plain. rewrite R1, R3. destruct (s_vec a) as [v|] eqn:Ev.
  - destruct (s_ghost a) eqn:Eg.
    + rewrite R5 by auto. cbn [bind]. unfold restore_array. rewrite (hs_arrs _ _ S), D, R2. destruct (key_eqb_spec (mkkey v true (s_ro a)) (mkkey v true (s_ro a))) as [_|Q]; [|destruct Q; auto]. cbn [Nat.add bind].
      unfold restore_local. cbn [locs]. rewrite (hs_locs _ _ S), DL. cbn [andb]. rewrite Nat.eqb_refl. cbn [Nat.add bind]. do 2 eexists. split; [reflexivity|]. cbn. split; auto. split; [unfold rel1; cbn; auto 10|]. split.
      * intros k. destruct (key_eqb_spec k (mkkey v true (s_ro a))) as [->|N]; auto. rewrite (hs_arrs _ _ S), D. destruct (key_eqb_spec k (mkkey v true (s_ro a))); [congruence|]. auto.
      * intros u. unfold upd. destruct (Nat.eqb_spec u v) as [->|N]; auto. rewrite (hs_locs _ _ S), DL. cbn. destruct (Nat.eqb_spec v u); [congruence|]. auto.
    + unfold restore_array. rewrite (hs_arrs _ _ S), D, R2. destruct (key_eqb_spec (mkkey v false (s_ro a)) (mkkey v false (s_ro a))) as [_|Q]; [|destruct Q; auto]. cbn [Nat.add bind].
      do 2 eexists. split; [reflexivity|]. cbn. split; auto. split; [unfold rel1; cbn; repeat split; auto; discriminate|]. split.
      * intros k. destruct (key_eqb_spec k (mkkey v false (s_ro a))) as [->|N]; auto. rewrite (hs_arrs _ _ S), D. destruct (key_eqb_spec k (mkkey v false (s_ro a))); [congruence|]. auto.
      * intros u. rewrite (hs_locs _ _ S), DL. cbn. auto.
  - assert (E : (if s_ghost a then Some (w, mkh (s_ghost a) (h_ro h) None (h_data h) None (h_local h)) else Some (w, mkh (s_ghost a) (h_ro h) None (h_data h) None (h_local h))) = Some (w, mkh (s_ghost a) (h_ro h) None (h_data h) None (h_local h))) by (destruct (s_ghost a); auto).
    rewrite E. do 2 eexists. split; [reflexivity|]. split; auto. split; [unfold rel1; cbn; auto 10|]. split; intros; [rewrite (hs_arrs _ _ S), D|rewrite (hs_locs _ _ S), DL]; auto.
Qed.

Theorem hstep_sim p w s s' o : hsim w s -> shstep p s = Some (s', o) -> exists w', hstep fails p w = Some (w', o) /\ hsim w' s'.
Proof.
  intros S H. destruct p as [x g ro|x g ro v|x v|x|x|x|x y]; cbn [shstep] in H; cbn [hstep]; try discriminate;
    pose proof (rel_lookup _ _ x (hs_rel _ _ S)) as RL; destruct (slookup x s) as [a|] eqn:Hx; destruct (lookup x (hs w)) as [h|]; try (destruct RL; fail); cbn [bind] in *; try discriminate.
  - injection H as <- <-. eexists; split; [reflexivity|]. apply put_sim; try apply S.
    + unfold rel1; cbn; auto 10.
    + intros k. rewrite due_cons. cbn. rewrite (sremove_none s x) by (apply slookup_none; auto). apply S.
    + intros k. rewrite duel_cons. cbn. rewrite (sremove_none s x) by (apply slookup_none; auto). apply S.
  - injection H as <- <-. destruct (setVec_ok w s x (blank g ro) g ro v S) as (w1 & h1 & E & S1); auto. rewrite E. eauto.
  - destruct RL as (_ & R1 & R2 & R3 & R4 & R5). cbn in *. destruct (s_vec a) as [u|] eqn:Ev; injection H as <- <-.
    + unfold setVec. rewrite R3. eexists; split; [reflexivity|]. apply put_sim; try apply S.
      * unfold rel1. cbn. rewrite Ev. auto 10.
      * intros k. rewrite due_cons, (hs_arrs _ _ S). apply (count_split _ s x _ (hs_nodup _ _ S) Hx).
      * intros k. rewrite duel_cons, (hs_locs _ _ S). apply (count_split _ s x _ (hs_nodup _ _ S) Hx).
    + destruct (setVec_ok w s x h (s_ghost a) (s_ro a) v S) as (w1 & h1 & E & S1); auto. { right. destruct a; cbn in *; congruence. } rewrite E. eauto.
  - injection H as <- <-. destruct (restore_ok w s x h a S Hx RL) as (w1 & h1 & E & H1 & R & A & L). rewrite E. cbn [bind]. eexists; split; [reflexivity|]. apply put_sim; auto.
    + rewrite H1. apply S. + apply S.
  - injection H as <- <-. exists w. split; auto. destruct RL as (_ & _ & _ & _ & R4 & _). cbn in R4. rewrite R4. auto.
  - injection H as <- <-. destruct (restore_ok w s x h a S Hx RL) as (w1 & h1 & E & H1 & R & A & L). unfold destroy. rewrite E. cbn [bind].
    assert (X : (if h_ghost h then '(w2, _) <- restore_plain w1 h1;; Some w2 else Some w1) = Some w1). { destruct (h_ghost h); auto. unfold restore_plain. destruct R as (_ & _ & _ & R3 & _). cbn in R3. rewrite R3. reflexivity. }
    rewrite X. cbn [bind]. eexists; split; [reflexivity|]. split; cbn; auto.
    + rewrite H1. apply rel_remove. apply S.
    + apply sremove_nodup. apply S.
Qed.

Theorem hrun_sim : forall l w s s' o, hsim w s -> shrun l s = Some (s', o) -> exists w', hrun fails l w = Some (w', o) /\ hsim w' s'.
Proof.
  induction l as [|p l IH]; intros w s s' o S H; cbn in *; [injection H as <- <-; eauto|].
  destruct (shstep p s) as [[s1 o1]|] eqn:E1; [|discriminate]. cbn in H. destruct (shrun l s1) as [[s2 o2]|] eqn:E2; [|discriminate]. cbn in H. injection H as <- <-.
  destruct (hstep_sim p w s s1 o1 S E1) as (w1 & F1 & S1). destruct (IH w1 s1 s2 o2 S1 E2) as (w2 & F2 & S2). rewrite F1. cbn. rewrite F2. cbn. eauto.
Qed.
End P.
