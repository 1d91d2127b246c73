(** Partitioning: the pieces of restrictMeshToPartitions. *)
From Coq Require Import List Arith Lia ZArith Bool Permutation Sorted.
From Verif Require Import Base BaseR M_Mesh M_Part S_Mesh Pf_Esup Pf_Esuel Pf_Host Pf_Lines.
Import ListNotations.
Open Scope nat_scope.

Lemma alist_set A (a : arr A) k x l : alist (mkarr k (aat a)) = l -> k < alen a -> alist (mkarr (k + 1) (upd (aat a) k x)) = l ++ [x].
Proof.
  intros <- Hk. unfold alist. cbn [alen aat]. rewrite seq_app, map_app. cbn. rewrite upd_eq. f_equal. apply map_ext_in. intros i Hi. apply in_seq in Hi. apply upd_ne. lia.
Qed.
Lemma alist_eta A (a : arr A) : alist (mkarr (alen a) (aat a)) = alist a. Proof. reflexivity. Qed.

Lemma map_nth_in A B (f : A -> B) l i d d' : i < length l -> nth i (map f l) d = f (nth i l d').
Proof. intros H. rewrite (nth_indep _ d (f d')) by (rewrite map_length; auto). apply map_nth. Qed.

Lemma firstn_snoc A (d : A) l j : j < length l -> firstn (j + 1) l = firstn j l ++ [nth j l d].
Proof. revert j. induction l as [|y c IH]; intros [|t] Ht; cbn in *; try lia; auto. rewrite <- IH by lia. auto. Qed.

(** ** the trivial partition *)
Lemma trivial_ok ne nr je : 0 < nr -> exists d, trivial_partition ne nr je = Some d /\ alen d = ne /\
  forall i, i < ne -> aat d i = if i <? nr * (ne / nr) then i / (ne / nr) else nr - 1.
Proof.
  intros Hn. unfold trivial_partition. destruct (Nat.eqb_spec nr 0); [lia|]. set (q := ne / nr).
  assert (Hq : nr * q <= ne) by (apply Nat.mul_div_le; lia).
  match goal with |- context [floop _ ?bb ?ss] =>
    destruct (floop_inv _ (fun r (d : arr nat) => alen d = ne /\ forall i, i < r * q -> aat d i = i / q) nr bb ss) as (d1 & E1 & L1 & I1) end.
  - split; auto. intros; lia.
  - intros r d Hr (L & I).
    assert (B : (r + 1) * q <= ne) by nia.
    match goal with |- context [frange ?lo ?hi ?bb ?ss] =>
      destruct (frange_inv _ (fun k (d : arr nat) => alen d = ne /\ forall i, i < k -> aat d i = i / q) lo hi bb ss) as (d' & E' & L' & I') end.
    + nia.
    + auto.
    + intros k d2 Hk (L2 & I2). rewrite aset_ok by lia. eexists; split; [reflexivity|]. cbn. split; auto. intros i Hi. unfold upd.
      destruct (Nat.eqb_spec i k) as [->|]; [|apply I2; lia]. apply (Nat.div_unique k q r (k - r * q)); nia.
    + exists d'. auto.
  - rewrite E1. cbn [bind].
    match goal with |- context [frange ?lo ?hi ?bb ?ss] =>
      destruct (frange_inv _ (fun k (d : arr nat) => alen d = ne /\ forall i, i < k -> aat d i = if i <? nr * q then i / q else nr - 1) lo hi bb ss) as (d' & E' & L' & I') end.
    + auto.
    + split; auto. intros i Hi. destruct (Nat.ltb_spec i (nr * q)); [auto|lia].
    + intros k d2 Hk (L2 & I2). rewrite aset_ok by lia. eexists; split; [reflexivity|]. cbn. split; auto. intros i Hi. unfold upd.
      destruct (Nat.eqb_spec i k) as [->|]; [|apply I2; lia]. destruct (Nat.ltb_spec k (nr * q)); [lia|auto].
    + exists d'. split; auto.
Qed.

(** ** sorting and unique *)
Lemma insert_sorted_in x y l : In y (insert_sorted x l) <-> y = x \/ In y l.
Proof. induction l as [|z l IH]; cbn; [intuition|]. destruct (x <=? z); cbn; rewrite ?IH; intuition. Qed.
Lemma sort_in y l : In y (sort l) <-> In y l.
Proof. induction l as [|x l IH]; cbn; [tauto|]. unfold sort in *. cbn. rewrite insert_sorted_in, IH. intuition. Qed.
Lemma insert_ss x l : StronglySorted le l -> StronglySorted le (insert_sorted x l).
Proof.
  induction l as [|y l IH]; intros H; cbn; [repeat constructor|]. inversion H; subst. destruct (Nat.leb_spec x y).
  - constructor; auto. constructor; auto. eapply Forall_impl; [|eassumption]. cbn; intros; lia.
  - constructor; auto. apply Forall_forall. intros z Hz. apply insert_sorted_in in Hz. destruct Hz as [->|Hz]; [lia|]. rewrite Forall_forall in H3. auto.
Qed.
Lemma sort_ss l : StronglySorted le (sort l).
Proof. induction l; cbn; [constructor|]. apply insert_ss; auto. Qed.
Lemma unique_in y l : In y (unique l) <-> In y l.
Proof.
  induction l as [|x l IH]; [reflexivity|]. destruct l as [|z l]; [reflexivity|]. cbn [unique] in *. destruct (Nat.eqb_spec x z); cbn [In] in *; rewrite IH; cbn; intuition (subst; auto).
Qed.
Lemma unique_ss l : StronglySorted le l -> StronglySorted lt (unique l).
Proof.
  induction l as [|x l IH]; intros H; [constructor|]. inversion H as [|? ? S F]; subst. destruct l as [|z l]; [repeat constructor|].
  cbn [unique] in *. destruct (Nat.eqb_spec x z); [auto|]. constructor; auto. apply Forall_forall. intros y Hy. apply (proj1 (unique_in y (z :: l))) in Hy.
  rewrite Forall_forall in F. assert (x <= z) by (apply F; left; auto). inversion S as [|? ? S2 F2]; subst. rewrite Forall_forall in F2. destruct Hy as [Hy | Hy]; [subst; lia|]. specialize (F2 y Hy). lia.
Qed.
Lemma ss_nodup l : StronglySorted lt l -> NoDup l.
Proof. induction 1 as [|x l S IH F]; constructor; auto. intros Hx. rewrite Forall_forall in F. specialize (F x Hx). lia. Qed.

(** position of a point in a list *)
Fixpoint idx (l : list nat) (x : nat) : nat := match l with [] => 0 | y :: r => if x =? y then 0 else S (idx r x) end.
Lemma idx_ok l x : In x l -> idx l x < length l /\ nth (idx l x) l 0 = x.
Proof.
  induction l as [|y l IH]; intros H; [contradiction|]. cbn. destruct (Nat.eqb_spec x y); [subst; split; [lia|auto]|]. destruct H as [H|H]; [congruence|]. destruct (IH H). split; [lia|auto].
Qed.
Lemma idx_nth l i : NoDup l -> i < length l -> idx l (nth i l 0) = i.
Proof.
  intros N Hi. destruct (idx_ok l (nth i l 0)) as (A & B); [apply nth_In; auto|]. eapply NoDup_nth; eauto.
Qed.
Lemma idx_inj l x y : In x l -> In y l -> idx l x = idx l y -> x = y.
Proof. intros Hx Hy E. destruct (idx_ok l x Hx) as (_ & A), (idx_ok l y Hy) as (_ & B). congruence. Qed.

(** the map built from the sorted points *)
Lemma map_build loc : NoDup loc -> exists mp, floop (length loc) (fun i mp => p <- nth_error loc i ;; Some ((p, i) :: mp)) [] = Some mp /\
  forall x, map_at mp x = if in_dec Nat.eq_dec x loc then Val (idx loc x) else Exn.
Proof.
  intros N.
  match goal with |- context [floop _ ?bb ?ss] =>
    destruct (floop_inv _ (fun k mp => forall x, map_at mp x = if in_dec Nat.eq_dec x (firstn k loc) then Val (idx loc x) else Exn) (length loc) bb ss) as (mp & E & I) end.
  - intros x. reflexivity.
  - intros i mp Hi I. rewrite (nth_error_nth' loc 0 Hi). cbn [bind]. eexists; split; [reflexivity|]. intros x. cbn [map_at]. rewrite I.
    assert (FS : firstn (i + 1) loc = firstn i loc ++ [nth i loc 0]).
    { clear -Hi. revert i Hi. induction loc as [|y l IH]; intros [|t] Ht; cbn in *; try lia; auto. rewrite IH by lia. auto. }
    destruct (Nat.eqb_spec x (nth i loc 0)) as [->|Hn].
    + destruct (in_dec Nat.eq_dec (nth i loc 0) (firstn (i + 1) loc)) as [H|H]. rewrite idx_nth; auto. exfalso; apply H. rewrite FS, in_app_iff. right; left; auto.
    + destruct (in_dec Nat.eq_dec x (firstn i loc)) as [H|H]; destruct (in_dec Nat.eq_dec x (firstn (i + 1) loc)) as [H'|H']; auto.
      * exfalso. apply H'. rewrite FS, in_app_iff. auto.
      * exfalso. rewrite FS, in_app_iff in H'. destruct H' as [H'|[H'|[]]]; auto.
  - exists mp. split; auto. rewrite firstn_all in I. exact I.
Qed.

Section Extract.
Variable g : gmesh.
Variable dist : arr nat.
Variable rank : nat.
Notation gm := (g_m g).
Notation ne := (nelem gm).
Hypothesis Hv : valid_cells (npoin gm) (cells gm).
Hypothesis Hd : alen dist = ne.
Hypothesis HX : alen (g_X g) = npoin gm.
Hypothesis HR : alen (g_regs g) = ne.

(** the cells of this rank *)
Definition own : list nat := filter (fun i => aat dist i =? rank) (seq 0 ne).
Lemma own_in i : In i own <-> i < ne /\ aat dist i = rank.
Proof. clear. unfold own. rewrite filter_In, in_seq, Nat.eqb_eq. intuition lia. Qed.
Lemma own_nodup : NoDup own. Proof. apply NoDup_filter, seq_NoDup. Qed.

Lemma count_local_ok : count_local gm dist rank = Some (length own).
Proof.
  unfold count_local.
  match goal with |- context [floop _ ?bb ?ss] =>
    destruct (floop_inv _ (fun k c => c = length (filter (fun i => aat dist i =? rank) (seq 0 k))) ne bb ss) as (c & E & I) end; auto.
  - intros i c Hi ->. rewrite aget_ok by lia. cbn [bind]. eexists; split; [reflexivity|]. rewrite seq_app, filter_app, app_length. cbn. destruct (aat dist i =? rank); cbn; lia.
  - rewrite E, I. reflexivity.
Qed.

Lemma extractInpoel_ok jc jr ji : exists C Rg L, extractInpoel g dist rank (length own) jc jr ji = Some (C, Rg, L) /\
  alist C = map (cell (cells gm)) own /\ alist Rg = map (aat (g_regs g)) own /\ alist L = own.
Proof.
  unfold extractInpoel.
  match goal with |- context [floop _ ?bb ?ss] =>
    destruct (floop_inv _ (fun k s => let o := filter (fun i => aat dist i =? rank) (seq 0 k) in
      fst s = length o /\ alen (fst (fst (snd s))) = length own /\ alen (snd (fst (snd s))) = length own /\ alen (snd (snd s)) = length own /\
      alist (mkarr (length o) (aat (fst (fst (snd s))))) = map (cell (cells gm)) o /\
      alist (mkarr (length o) (aat (snd (fst (snd s))))) = map (aat (g_regs g)) o /\
      alist (mkarr (length o) (aat (snd (snd s)))) = o) ne bb ss) as ([k [[C Rg] L]] & E & I) end.
  - cbn. auto 10.
  - intros i [k [[C Rg] L]] Hi (I1 & I2 & I3 & I4 & I5 & I6 & I7). cbn [fst snd] in *. rewrite aget_ok by lia. cbn [bind].
    rewrite seq_app, filter_app. cbn [seq plus filter]. destruct (aat dist i =? rank) eqn:B.
    + assert (LO : k < length own).
      { subst k. unfold own. replace ne with (i + (1 + (ne - i - 1))) by lia. rewrite seq_app, filter_app, app_length. cbn. rewrite B. cbn. lia. }
      rewrite aset_ok by lia. cbn [bind]. rewrite (nth_error_nth' _ []) by auto. cbn [bind]. rewrite aset_ok by lia. cbn [bind].
      rewrite aget_ok by lia. cbn [bind]. rewrite aset_ok by lia. cbn [bind].
      eexists; split; [reflexivity|]. cbn [fst snd alen aat]. rewrite !app_length, !map_app. cbn [length map]. subst k. split; [lia|]. split; [auto|]. split; [auto|]. split; [auto|].
      split; [|split]; apply alist_set; auto; lia.
    + eexists; split; [reflexivity|]. rewrite app_nil_r. cbn [fst snd]. auto 10.
  - rewrite E. cbn [bind snd]. cbn [fst snd] in I. destruct I as (I1 & I2 & I3 & I4 & I5 & I6 & I7). fold own in *.
    exists C, Rg, L. split; [reflexivity|]. rewrite <- I2 in I5 at 1. rewrite <- I3 in I6 at 1. rewrite <- I4 in I7 at 1. rewrite !alist_eta in *. auto.
Qed.

Lemma flatten_ok (C : arr (list nat)) :
  floop (alen C) (fun iel l => c <- aget C iel ;; floop (length c) (fun j l => v <- nth_error c j ;; Some (l ++ [v])) l) [] = Some (concat (alist C)).
Proof.
  match goal with |- floop _ ?bb ?ss = _ =>
    destruct (floop_inv _ (fun k l => l = concat (map (aat C) (seq 0 k))) (alen C) bb ss) as (l & E & I) end; auto.
  - intros i l Hi ->. rewrite aget_ok by auto. cbn [bind].
    match goal with |- context [floop _ ?bb ?ss] =>
      destruct (floop_inv _ (fun j l => l = concat (map (aat C) (seq 0 i)) ++ firstn j (aat C i)) (length (aat C i)) bb ss) as (l' & E' & I') end.
    + cbn. rewrite app_nil_r. auto.
    + intros j l Hj ->. rewrite (nth_error_nth' _ 0 Hj). cbn [bind]. eexists; split; [reflexivity|]. rewrite <- app_assoc. f_equal.
      clear -Hj. revert j Hj. induction (aat C i) as [|y c IH]; intros [|t] Ht; cbn in *; try lia; auto. rewrite <- IH by lia. auto.
    + exists l'. split; auto. rewrite I', firstn_all, seq_app, map_app, concat_app. cbn. rewrite app_nil_r. auto.
  - rewrite E, I. reflexivity.
Qed.

(** the points of this rank, in increasing global order *)
Definition pts : list nat := unique (sort (concat (map (cell (cells gm)) own))).
Lemma pts_in x : In x pts <-> exists i, In i own /\ In x (cell (cells gm) i).
Proof. unfold pts. rewrite unique_in, sort_in, in_concat. setoid_rewrite in_map_iff. split. intros (c & (i & <- & Hi) & Hx); eauto. intros (i & Hi & Hx); eauto. Qed.
Lemma pts_ss : StronglySorted lt pts. Proof. apply unique_ss, sort_ss. Qed.
Lemma pts_nodup : NoDup pts. Proof. apply ss_nodup, pts_ss. Qed.
Lemma pts_bound x : In x pts -> x < npoin gm.
Proof. intros H. apply pts_in in H. destruct H as (i & Hi & Hx). apply own_in in Hi. destruct (cell_valid _ _ i Hv (proj1 Hi)) as (_ & _ & Hb). auto. Qed.

Lemma ss_nth_lt : forall l i j, StronglySorted lt l -> i < j -> j < length l -> nth i l 0 < nth j l 0.
Proof.
  induction l as [|x l IH]; intros i j S Hij Hj; [cbn in Hj; lia|]. inversion S as [|? ? S2 F]; subst. rewrite Forall_forall in F. destruct j as [|j]; [lia|]. destruct i as [|i]; cbn in *.
  - apply F. apply nth_In. lia.
  - apply IH; auto; lia.
Qed.

Lemma coords_ok (loc : list nat) jx : StronglySorted lt loc -> (forall x, In x loc -> x < npoin gm) -> exists lp X,
  floop (npoin gm) (fun gp s => let '(lp, X) := s in
         if lp <? length loc then
           p <- nth_error loc lp ;;
           if gp =? p then x <- aget (g_X g) gp ;; X' <- aset X lp x ;; Some (lp + 1, X') else Some s
         else Some s) (0, mkarr (length loc) jx) = Some (lp, X) /\ alist X = map (aat (g_X g)) loc.
Proof.
  intros S B.
  match goal with |- context [floop _ ?bb ?ss] =>
    destruct (floop_inv _ (fun gp (s : nat * arr v2) => fst s <= length loc /\ alen (snd s) = length loc /\
      (forall i, i < fst s -> aat (snd s) i = aat (g_X g) (nth i loc 0)) /\
      (forall i, i < length loc -> (i < fst s <-> nth i loc 0 < gp))) (npoin gm) bb ss) as ([lp X] & E & I1 & I2 & I3 & I4) end.
  - cbn. split; [lia|]. split; auto. split; intros; lia.
  - intros gp [lp X] Hg (I1 & I2 & I3 & I4). cbn [fst snd] in *. destruct (Nat.ltb_spec lp (length loc)) as [L|L].
    + rewrite (nth_error_nth' _ 0 L). cbn [bind]. destruct (Nat.eqb_spec gp (nth lp loc 0)) as [Eq|Nq].
      * rewrite aget_ok by lia. cbn [bind]. rewrite aset_ok by lia. cbn [bind]. eexists; split; [reflexivity|]. cbn [fst snd alen aat]. split; [lia|]. split; [auto|]. split.
        -- intros i Hi. unfold upd. destruct (Nat.eqb_spec i lp); [subst; congruence|]. apply I3; lia.
        -- intros i Hi. destruct (Nat.lt_trichotomy i lp) as [H|[->|H]].
           ++ pose proof (ss_nth_lt loc i lp S H L). split; lia.
           ++ lia.
           ++ pose proof (ss_nth_lt loc lp i S H Hi). split; lia.
      * eexists; split; [reflexivity|]. cbn [fst snd]. split; [lia|]. split; [auto|]. split; [auto|]. intros i Hi. rewrite I4 by auto. split; [lia|]. intros H.
        destruct (Nat.eq_dec (nth i loc 0) gp) as [E1|]; [|lia]. exfalso. destruct (Nat.lt_trichotomy i lp) as [H1|[->|H1]]; [|congruence|].
        -- apply I4 in H1; auto. lia.
        -- pose proof (ss_nth_lt loc lp i S H1 Hi). assert (lp < lp) by (apply I4; auto; lia). lia.
    + eexists; split; [reflexivity|]. cbn [fst snd]. split; [lia|]. split; [auto|]. split; [auto|]. intros i Hi. assert (i < lp) by lia. apply I4 in H; auto. lia.
  - exists lp, X. split; [exact E|]. cbn [fst snd] in *. assert (lp = length loc).
    { destruct (Nat.eq_dec lp (length loc)); auto. assert (lp < lp). { apply I4; [lia|]. apply B. apply nth_In. lia. } lia. }
    subst lp. apply (nth_ext _ _ vzero vzero). rewrite alist_length, map_length. auto.
    intros i Hi. rewrite alist_length in Hi. rewrite I2 in Hi. unfold alist. rewrite (nth_indep _ vzero (aat X 0)) by (rewrite map_length, seq_length; lia). rewrite map_nth, seq_nth by lia.
    rewrite (nth_indep _ vzero (aat (g_X g) 0)) by (rewrite map_length; lia). rewrite map_nth. apply I3. auto.
Qed.

Lemma extractPointCoords_ok C jx : alist C = map (cell (cells gm)) own -> exists mp X, extractPointCoords g C jx = Some (pts, mp, X) /\
  (forall x, map_at mp x = if in_dec Nat.eq_dec x pts then Val (idx pts x) else Exn) /\ alist X = map (aat (g_X g)) pts.
Proof.
  intros EC. unfold extractPointCoords. rewrite flatten_ok. cbn [bind]. rewrite EC. fold pts. cbv zeta.
  destruct (map_build pts pts_nodup) as (mp & Em & Hm). rewrite Em. cbn [bind].
  destruct (coords_ok pts jx pts_ss pts_bound) as (lp & X & EX & HXX). rewrite EX. cbn [bind snd]. exists mp, X. auto.
Qed.

Section Renumber.
Variable mp : list (nat * nat).
Hypothesis Hmp : forall x, map_at mp x = if in_dec Nat.eq_dec x pts then Val (idx pts x) else Exn.

Lemma map_in x : In x pts -> map_at mp x = Val (idx pts x).
Proof. intros H. rewrite Hmp. destruct (in_dec Nat.eq_dec x pts); [auto|contradiction]. Qed.

Lemma renumber_ok C : alist C = map (cell (cells gm)) own -> exists C', renumber mp C = Some (Val C') /\ alist C' = map (fun i => map (idx pts) (cell (cells gm) i)) own.
Proof.
  intros EC. assert (LC : alen C = length own) by (rewrite <- (alist_length _ C), EC, map_length; auto).
  assert (AC : forall i, i < length own -> aat C i = cell (cells gm) (nth i own 0)).
  { intros i Hi. transitivity (nth i (alist C) []).
    - unfold alist. rewrite (nth_indep _ [] (aat C 0)) by (rewrite map_length, seq_length; lia). rewrite map_nth, seq_nth by lia. auto.
    - rewrite EC. rewrite (nth_indep _ [] (cell (cells gm) 0)) by (rewrite map_length; lia). rewrite map_nth. auto. }
  unfold renumber.
  match goal with |- context [eloop _ ?bb ?ss] =>
    destruct (eloop_inv _ (fun k (D : arr (list nat)) => alen D = length own /\ forall i, i < length own -> aat D i = if i <? k then map (idx pts) (cell (cells gm) (nth i own 0)) else aat C i) (alen C) bb ss) as (C' & E & L & I) end.
  - split; auto.
  - intros i D Hi (L & I). rewrite aget_ok by lia. cbn [lift ebind]. rewrite I by lia. destruct (Nat.ltb_spec i i); [lia|]. rewrite AC by lia.
    set (c := cell (cells gm) (nth i own 0)).
    assert (Hc : forall x, In x c -> In x pts). { intros x Hx. apply pts_in. exists (nth i own 0). split; auto. apply nth_In. lia. }
    match goal with |- context [eloop (length c) ?bb ?ss] =>
      destruct (eloop_inv _ (fun j c' => c' = map (idx pts) (firstn j c)) (length c) bb ss) as (c' & E' & I') end.
    + reflexivity.
    + intros j c' Hj ->. rewrite (nth_error_nth' _ 0 Hj). cbn [lift ebind]. rewrite map_in by (apply Hc; apply nth_In; auto). cbn [ebind]. eexists; split; [reflexivity|].
      replace (firstn (j + 1) c) with (firstn j c ++ [nth j c 0]). rewrite map_app. auto.
      clear -Hj. revert j Hj. induction c as [|y c IH]; intros [|t] Ht; cbn in *; try lia; auto. rewrite <- IH by lia. auto.
    + rewrite E'. cbn [ebind]. rewrite aset_ok by lia. cbn [lift]. eexists; split; [reflexivity|]. cbn. split; auto. rewrite I', firstn_all. intros j Hj. unfold upd.
      destruct (Nat.eqb_spec j i) as [->|]. destruct (Nat.ltb_spec i (i + 1)); [auto|lia]. rewrite I by auto. destruct (Nat.ltb_spec j i); destruct (Nat.ltb_spec j (i + 1)); auto; lia.
  - exists C'. split; auto. apply (nth_ext _ _ [] []). rewrite alist_length, map_length; auto. intros i Hi. rewrite alist_length, L in Hi.
    unfold alist. rewrite (nth_indep _ [] (aat C' 0)) by (rewrite map_length, seq_length; lia). rewrite map_nth, seq_nth by lia.
    rewrite (map_nth_in _ _ (fun i => map (idx pts) (cell (cells gm) i)) own i [] 0) by auto. cbn [plus]. rewrite I by auto. rewrite LC. destruct (Nat.ltb_spec i (length own)); [auto|lia].
Qed.

(** boundary faces of this rank *)
Definition owned_bf (hs : list (nat * nat)) : list (bfrec * (nat * nat)) :=
  filter (fun x => aat dist (fst (snd x)) =? rank) (combine (bfaces gm) hs).
Definition rename_bf (bf : bfrec) : bfrec := mkbf (idx pts (b0 bf)) (idx pts (b1 bf)) (btg bf).

Lemma extractbfaces_ok hs : hosts_ok gm hs ->
  nbface gm <= alen (intfac (g_t g)) ->
  (forall q h, nth_error hs q = Some h -> f_left (aat (intfac (g_t g)) q) = fst h) ->
  extractbfaces g dist rank mp = Some (Val (map (fun x => rename_bf (fst x)) (owned_bf hs))).
Proof.
  intros (Lh & Hh) LF HF. unfold extractbfaces.
  match goal with |- eloop _ ?bb ?ss = _ =>
    destruct (eloop_inv _ (fun k l => l = map (fun x => rename_bf (fst x)) (filter (fun x => aat dist (fst (snd x)) =? rank) (firstn k (combine (bfaces gm) hs)))) (nbface gm) bb ss) as (l & E & I) end.
  - reflexivity.
  - intros q l Hq ->. destruct (nth_error_some _ (bfaces gm) q Hq) as (bf & Eb). destruct (nth_error_some _ hs q ltac:(lia)) as (h & Eh).
    rewrite Eb. cbn [lift ebind]. rewrite aget_ok by lia. cbn [lift ebind]. rewrite (HF q h Eh).
    destruct (Hh q bf h Eb Eh) as (B0 & B1 & Hi & Hf & Se & _). rewrite aget_ok by (rewrite Hd; auto). cbn [lift ebind].
    assert (Ec : nth q (combine (bfaces gm) hs) (bf, h) = (bf, h)).
    { rewrite combine_nth by auto. rewrite (nth_error_nth _ _ _ Eb), (nth_error_nth _ _ _ Eh). auto. }
    rewrite (firstn_snoc _ (bf, h)) by (rewrite combine_length; unfold nbface in *; lia). rewrite Ec, filter_app, map_app. cbn [filter snd].
    destruct (Nat.eqb_spec (aat dist (fst h)) rank) as [Er|Er].
    + assert (P : forall x, In x (cell (cells gm) (fst h)) -> In x pts) by (intros x Hx; apply pts_in; exists (fst h); split; auto; apply own_in; auto).
      destruct (cell_valid _ _ (fst h) Hv Hi) as (N3 & _ & _).
      assert (PE : In (b0 bf) pts /\ In (b1 bf) pts).
      { pose proof (next_lt (snd h) _ N3). destruct Se as [Se|Se]; unfold edge in Se; cbn in Se; inversion Se as [[S0 S1]]; split; apply P; rewrite ?S0, ?S1; apply nth_In; auto. }
      rewrite !map_in by tauto. cbn [ebind]. eexists; split; [reflexivity|]. cbn. reflexivity.
    + eexists; split; [reflexivity|]. cbn. rewrite app_nil_r. auto.
  - rewrite E, I. rewrite firstn_all2. reflexivity. rewrite combine_length. lia.
Qed.
End Renumber.
End Extract.

(** ** the adjacency lists *)
Lemma scan_ok v : exists w, inclusive_scan v = Some w /\ alen w = alen v /\
  forall i, i < alen v -> aat w i = list_sum (map (aat v) (seq 0 (i + 1))).
Proof.
  unfold inclusive_scan. destruct (Nat.eq_dec (alen v) 0) as [Z|Z].
  - rewrite Z. exists v. split; [reflexivity|]. split; auto. intros; lia.
  - match goal with |- context [frange ?lo ?hi ?bb ?ss] =>
      destruct (frange_inv _ (fun k (w : arr nat) => alen w = alen v /\ forall i, i < alen v -> aat w i = if i <? k then list_sum (map (aat v) (seq 0 (i + 1))) else aat v i) lo hi bb ss) as (w & E & L & I) end.
    + lia.
    + split; auto. intros i Hi. destruct (Nat.ltb_spec i 1); auto. assert (i = 0) by lia. subst. cbn. lia.
    + intros k w Hk (L & I). rewrite !aget_ok by lia. cbn [bind]. rewrite aset_ok by lia. eexists; split; [reflexivity|]. cbn. split; auto.
      intros i Hi. unfold upd. rewrite !I by lia. destruct (Nat.eqb_spec i k) as [->|].
      * destruct (Nat.ltb_spec k k); [lia|]. destruct (Nat.ltb_spec (k - 1) k); [|lia]. destruct (Nat.ltb_spec k (k + 1)); [|lia].
        replace (k - 1 + 1) with k by lia. rewrite seq_app, map_app, list_sum_app. cbn. lia.
      * destruct (Nat.ltb_spec i k); destruct (Nat.ltb_spec i (k + 1)); auto; lia.
    + exists w. split; auto. split; auto. intros i Hi. rewrite I by auto. destruct (Nat.ltb_spec i (alen v)); [auto|lia].
Qed.
