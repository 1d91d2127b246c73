(** What the lines are: consecutive cells are strongly coupled, lines start at the boundary and go on while they can; and the lines do not depend on
    the entries of the weight table that were never written. *)
From Coq Require Import Reals Lra List Arith Lia ZArith Bool Permutation Sorted.
From Verif Require Import Base BaseR M_Mesh M_MeshUtil S_Mesh Pf_Esup Pf_Esuel Pf_Full Pf_Reorder Pf_Periodic Pf_Lines.
Import ListNotations.
Open Scope nat_scope.

Section Meaning.
Variable m : umesh.
Variable E : arr2 Z.
Variable la : locanis.
Variable thr : R.
Hypothesis HE : nbr_ok m E.
Hypothesis Hla : la_ok m E la.
Hypothesis Hmx : forall c, In c (cells m) -> length c <= maxnfael m.
Hypothesis Hpos : 0 < maxnfael m.
Notation ne := (nelem m).
Notation an := (at2 (la_aniso la)).
Notation nn := (aat (la_n la)).

(** the neighbour in place [j] of the row of cell [a] *)
Definition nb (a j : nat) : nat := Z.to_nat (at2 E a (Z.to_nat (at2 (la_face la) a j))).
Definition taken (cl : arr Z) (x : nat) : Prop := aat cl x <> (-1)%Z.
Definition blockedA (P : nat -> Prop) (c : nat) : Prop := forall j, j < nn c -> (thr < an c j)%R ->
  P (nb c j) \/ exists j0, j0 <= j /\ (thr < an c j0)%R /\ (an (nb c j0) 0 <= thr)%R /\ ~ P (nb c j0).
Definition stepA (P : nat -> Prop) (a b : nat) : Prop := exists j, j < nn a /\ nb a j = b /\ (thr < an a j)%R /\ forall j', j' < j -> (thr < an a j')%R -> P (nb a j').

Lemma nb_ok a j : a < ne -> j < nn a -> nb a j < ne /\ nbr (cells m) a (nb a j) /\
  (f <- get2 (la_face la) a j ;; if (f <? 0)%Z then None else n <- get2 E a (Z.to_nat f) ;; if (n <? 0)%Z then None else Some (Z.to_nat n)) = Some (nb a j).
Proof.
  intros Ha Hj. destruct Hla as [L1 L2 L3 L4 L5 L6 L7]. destruct HE as (R1 & R2 & R3). destruct (L7 a j Ha Hj) as (f & d & Ef & Hf1 & Ed & Hd & Ac).
  assert (En : nb a j = d) by (unfold nb; rewrite Ef, Nat2Z.id, Ed, Nat2Z.id; auto). rewrite En. split; auto. split; [exists f; auto|].
  specialize (L6 a Ha). rewrite get2_ok by lia. cbn [bind]. rewrite Ef. destruct (Z.ltb_spec (Z.of_nat f) 0); [lia|]. rewrite Nat2Z.id.
  assert (length (cell (cells m) a) <= maxnfael m) by (apply Hmx; apply nth_In; auto).
  rewrite get2_ok by lia. cbn [bind]. rewrite Ed. destruct (Z.ltb_spec (Z.of_nat d) 0); [lia|]. rewrite Nat2Z.id. auto.
Qed.
Lemma nb_ne a j : a < ne -> j < nn a -> nb a j <> a.
Proof. intros Ha Hj. destruct (nb_ok a j Ha Hj) as (_ & (f & (_ & _ & _ & H & _)) & _). auto. Qed.

Lemma grow_spec k : forall fuel cl lin cur cl' lin', alen cl = ne -> cur < ne -> grow E la thr k fuel cl lin cur = Some (cl', lin') ->
  exists more, lin' = lin ++ more /\ (forall x, taken cl x -> taken cl' x) /\
   (more = [] -> cl' = cl /\ (an cur 0 <= thr)%R) /\
   (more <> [] -> hd 0 more = cur /\ (thr < an cur 0)%R) /\
   (forall a b, In (a, b) (steps more) -> stepA (taken cl') a b) /\
   (forall d, more <> [] -> forall j, j < nn (last more d) -> (thr < an (last more d) j)%R ->
      taken cl' (nb (last more d) j) \/ exists j0, j0 <= j /\ (thr < an (last more d) j0)%R /\ (an (nb (last more d) j0) 0 <= thr)%R /\ ~ taken cl' (nb (last more d) j0)).
Proof.
  induction fuel as [|fuel IH]; intros cl lin cur cl' lin' Lc Hc Eg; [discriminate|]. cbn [grow] in Eg.
  pose proof Hla as [L1 L2 L3 L4 L5 L6 L7].
  rewrite get2_ok in Eg by lia. cbn [bind] in Eg. destruct (Rltb_spec thr (an cur 0)) as [Ha|Ha].
  2:{ inversion Eg; subst. exists []. rewrite app_nil_r. split; auto. split; auto. split; [intros _; split; auto; lra|]. split; [congruence|]. split; [intros a b []|congruence]. }
  rewrite aset_ok in Eg by lia. cbn [bind] in Eg. rewrite aget_ok in Eg by lia. cbn [bind] in Eg.
  set (cl1 := mkarr (alen cl) (upd (aat cl) cur (Z.of_nat k))) in *.
  assert (Mono : forall x, taken cl x -> taken cl1 x). { intros x Hx. unfold taken, cl1 in *. cbn [aat]. unfold upd. destruct (x =? cur); auto. lia. }
  specialize (L6 cur Hc).
  match type of Eg with context [ofind _ ?pp] =>
    destruct (ofind_from_spec (nn cur) 0 pp (fun j => (aat cl1 (nb cur j) =? -1)%Z && Rltb thr (an cur j))) as [(j & Hj & Qj & Bj & Ej)|(Bj & Ej)] end.
  - intros j Hj. destruct (nb_ok cur j Hc) as (Hd & _ & Ed); [lia|]. rewrite Ed. cbn [bind]. rewrite aget_ok by (cbn; lia). cbn [bind].
    rewrite get2_ok by lia. reflexivity.
  - unfold ofind in Eg. rewrite Ej in Eg. cbn [bind] in Eg. destruct (nb_ok cur j Hc) as (Hd & Hn & Ed); [lia|]. rewrite Ed in Eg. cbn [bind] in Eg.
    apply andb_true_iff in Qj. destruct Qj as (Qj & Qt). apply Z.eqb_eq in Qj. destruct (Rltb_spec thr (an cur j)) as [St|]; [|discriminate].
    assert (Before : forall j', j' < j -> (thr < an cur j')%R -> taken cl1 (nb cur j')).
    { intros j' Hj' S'. specialize (Bj j' ltac:(lia)). destruct (Rltb_spec thr (an cur j')); [|lra]. rewrite andb_true_r in Bj. apply Z.eqb_neq in Bj. exact Bj. }
    destruct (IH cl1 (lin ++ [cur]) (nb cur j) cl' lin' Lc Hd Eg) as (more & Em & Mo & Nil & Hd0 & Stp & Lst).
    exists (cur :: more). split; [rewrite Em, <- app_assoc; reflexivity|]. split; [auto|]. split; [discriminate|]. split; [intros _; split; [reflexivity|exact Ha]|].
    destruct more as [|y more].
    + destruct (Nil eq_refl) as (-> & Iso). split; [intros a b []|]. intros d _ j' Hj' S'. cbn [last] in *. destruct (Nat.lt_ge_cases j' j) as [Lj|Lj]; [left; auto|].
      right. exists j. split; [auto|]. split; [auto|]. split; [auto|]. intros T. apply T. exact Qj.
    + destruct (Hd0 ltac:(discriminate)) as (Hy & _). cbn in Hy. subst y. split.
      * intros a b Hab. unfold steps in Hab. cbn [tl combine] in Hab. destruct Hab as [Hab|Hab].
        -- inversion Hab; subst a b. exists j. split; [lia|]. split; auto.
        -- apply Stp. unfold steps. exact Hab.
      * intros d _. cbn [last]. apply (Lst d). discriminate.
  - unfold ofind in Eg. rewrite Ej in Eg. cbn [bind] in Eg. inversion Eg; subst cl' lin'. exists [cur]. split; auto. split; auto. split; [discriminate|].
    split; [intros _; split; auto|]. split; [intros a b []|]. intros d _ j Hj S'. cbn [last] in *. left. specialize (Bj j ltac:(lia)).
    destruct (Rltb_spec thr (an cur j)); [|lra]. rewrite andb_true_r in Bj. apply Z.eqb_neq in Bj. exact Bj.
Qed.

Definition in_line (lines : list (list nat)) (x : nat) : Prop := exists l, In l lines /\ In x l.
Lemma taken_lines cl lines : lines_ok m la thr cl lines -> forall x, x < ne -> (taken cl x <-> in_line lines x).
Proof.
  intros (A & B & C & D) x Hx. unfold taken. split.
  - intros H. destruct (D x Hx) as [?|(k & l & Hk & Hl)]; [contradiction|]. exists l. split; auto. eapply nth_error_In; eauto.
  - intros (l & Hl & Hi). apply In_nth_error in Hl. destruct Hl as (k & Hk). destruct (C k l Hk x Hi). lia.
Qed.
(** cells that are not anisotropic are in no line *)
Lemma iso_out cl lines x : lines_ok m la thr cl lines -> (an x 0 <= thr)%R -> ~ in_line lines x.
Proof. intros (_ & B & _) H (l & Hl & Hx). destruct (B l Hl) as (_ & _ & _ & Q). specialize (Q x Hx). lra. Qed.

Lemma mono_block (P Q : nat -> Prop) c : (forall x, P x -> Q x) -> (forall x, (an x 0 <= thr)%R -> ~ Q x) -> blockedA P c -> blockedA Q c.
Proof. intros H N B j Hj S. destruct (B j Hj S) as [?|(j0 & A1 & A2 & A3 & A4)]; auto. right. exists j0. auto. Qed.
Lemma mono_step (P Q : nat -> Prop) a b : (forall x, P x -> Q x) -> stepA P a b -> stepA Q a b.
Proof. intros H (j & A1 & A2 & A3 & A4). exists j. repeat split; auto. Qed.

Definition meaning (F : arr face) (n : nat) (lines : list (list nat)) : Prop :=
  (forall l, In l lines -> (exists i, i < n /\ hd 0 l = f_left (aat F i)) /\ (forall a b, In (a, b) (steps l) -> stepA (in_line lines) a b) /\ blockedA (in_line lines) (last l 0)) /\
  (forall i, i < n -> in_line lines (f_left (aat F i)) \/ blockedA (in_line lines) (f_left (aat F i))).

Lemma findLines_meaning n F : n <= alen F -> (forall i, i < n -> f_left (aat F i) < ne) ->
  (forall c j j', c < ne -> j <= j' -> j' < nn c -> (an c j' <= an c j)%R) ->
  exists cl lines, findLines m n F E la thr = Some (cl, lines) /\ lines_ok m la thr cl lines /\ meaning F n lines.
Proof.
  intros HF HL Dec. destruct (findLines_ok m E la thr HE Hla Hmx Hpos n F HF HL) as (cl0 & lines0 & E0 & _). clear cl0 lines0 E0.
  unfold findLines.
  match goal with |- context [floop _ ?bb ?ss] =>
    destruct (floop_inv _ (fun i s => lines_ok m la thr (fst s) (snd s) /\ meaning F i (snd s)) n bb ss) as ([cl lines] & Er & I1 & I2) end.
  - cbn. split.
    + split; [auto|]. split; [intros l []|]. split; [intros k l K; destruct k; discriminate|]. auto.
    + split; [intros l []|intros; lia].
  - intros i [cl lines] Hi (LO & M1 & M2). cbn [fst snd] in *. rewrite aget_ok by lia. cbn [bind]. pose proof (HL i Hi) as Hc. set (c := f_left (aat F i)) in *.
    pose proof LO as (A & B & C & D). rewrite aget_ok by lia. cbn [bind].
    assert (Up : forall l, In l lines -> (exists i', i' < i + 1 /\ hd 0 l = f_left (aat F i')) /\ (forall a b, In (a, b) (steps l) -> stepA (in_line lines) a b) /\ blockedA (in_line lines) (last l 0)).
    { intros l Hl. destruct (M1 l Hl) as ((i' & Hi' & Eh) & Q). split; auto. exists i'. split; auto. lia. }
    destruct (Z.leb_spec 0 (aat cl c)) as [Hcl|Hcl].
    { eexists; split; [reflexivity|]. cbn [fst snd]. split; auto. split; auto. intros i' Hi'. destruct (Nat.eq_dec i' i) as [->|]; [|apply M2; lia]. left. apply (taken_lines cl lines LO c Hc). unfold taken. lia. }
    assert (Hm : aat cl c = (-1)%Z). { destruct (D c Hc) as [H|(k & l & Hk & Hx)]; auto. destruct (C k l Hk c Hx). lia. }
    destruct (grow_ok m E la thr HE Hla Hmx Hpos (length lines) cl (ne + 1) cl [] c) as (cl' & lin & Eg & (O1 & O2 & O3) & Nd & Pr & Lk).
    { cbn. lia. } { split; [auto|]. split; [intros ? ? []|auto]. } { auto. } { auto. } { constructor. } { intros ? []. } { intros ? ? []. }
    destruct (grow_spec (length lines) (ne + 1) cl [] c cl' lin A Hc Eg) as (more & Em & Mo & Nil & Hd0 & Stp & Lst). cbn [app] in Em. subst more.
    rewrite Eg. cbn [bind].
    assert (Old : forall k l, nth_error lines k = Some l -> forall x, In x l -> x < ne /\ ~ In x lin /\ aat cl' x = Z.of_nat k).
    { intros k l Hk x Hx. destruct (C k l Hk x Hx) as (X1 & X2). assert (~ In x lin) by (intros Hin; destruct (Pr x Hin) as (_ & Hm1 & _); lia).
      split; auto. split; auto. rewrite O3; auto. }
    assert (TK : forall x, x < ne -> (taken cl' x <-> In x lin \/ in_line lines x)).
    { intros x Hx. rewrite <- (taken_lines cl lines LO x Hx). unfold taken. destruct (in_dec Nat.eq_dec x lin) as [Hin|Hin].
      - rewrite O2 by auto. split; auto. lia.
      - rewrite O3 by auto. tauto. }
    assert (LIN : forall x, In x lin -> x < ne) by (intros x Hx; apply Pr; auto).
    destruct (Nat.ltb_spec 1 (length lin)) as [L1|L1].
    + eexists; split; [reflexivity|]. cbn [fst snd].
      assert (LO' : lines_ok m la thr cl' (lines ++ [lin])).
      { split; [auto|]. split; [|split].
        * intros l Hl. apply in_app_iff in Hl. destruct Hl as [Hl|[<-|[]]]; auto. split; [lia|]. split; auto. split; auto. intros x Hx. apply Pr; auto.
        * intros k l Hk x Hx. destruct (Nat.lt_ge_cases k (length lines)) as [Lk1|Lk1].
          -- rewrite nth_error_app1 in Hk by auto. destruct (Old k l Hk x Hx) as (? & ? & ?); auto.
          -- rewrite nth_error_app2 in Hk by auto. destruct (k - length lines) as [|z] eqn:Z; [|destruct z; discriminate]. cbn in Hk. inversion Hk; subst l.
             destruct (Pr x Hx). split; auto. rewrite O2 by auto. f_equal. lia.
        * intros x Hx. destruct (in_dec Nat.eq_dec x lin) as [Hin|Hin].
          -- right. exists (length lines), lin. split; auto. rewrite nth_error_app2, Nat.sub_diag by lia. auto.
          -- rewrite O3 by auto. destruct (D x Hx) as [?|(k & l & Hk & Hl)]; auto. right. exists k, l. split; auto. rewrite nth_error_app1; auto.
             apply nth_error_Some. congruence. }
      split; [exact LO'|].
      assert (IL : forall x, in_line (lines ++ [lin]) x <-> In x lin \/ in_line lines x).
      { intros x. unfold in_line. split.
        - intros (l & Hl & Hx). apply in_app_iff in Hl. destruct Hl as [Hl|[<-|[]]]; eauto.
        - intros [Hx|(l & Hl & Hx)]; [exists lin|exists l]; split; auto; apply in_app_iff; cbn; auto. }
      assert (UpS : forall a b, stepA (in_line lines) a b -> stepA (in_line (lines ++ [lin])) a b) by (intros a b; apply mono_step; intros x Hx; apply IL; auto).
      assert (UpB : forall x, blockedA (in_line lines) x -> blockedA (in_line (lines ++ [lin])) x).
      { intros x. apply mono_block. intros y Hy; apply IL; auto. intros y Hy. eapply iso_out; eauto. }
      assert (NE : lin <> []) by (intros ->; cbn in L1; lia).
      destruct (Hd0 NE) as (Hh & _).
      split.
      * intros l Hl. apply in_app_iff in Hl. destruct Hl as [Hl|[<-|[]]].
        -- destruct (Up l Hl) as (Q1 & Q2 & Q3). split; auto.
        -- split; [exists i; split; [lia|exact Hh]|]. split.
           ++ intros a b Hab. assert (Ia : In a lin) by (unfold steps in Hab; apply in_combine_l in Hab; auto). destruct (Stp a b Hab) as (j & J1 & J2 & J3 & J4).
              exists j. split; auto. split; auto. split; auto. intros j' Hj' S'. apply IL. apply TK; [apply nb_ok; auto; lia|]. auto.
           ++ intros j Hj S'. assert (Il : In (last lin 0) lin). { clear -NE. destruct lin as [|x l] using rev_ind; [congruence|]. rewrite last_last. apply in_app_iff. right; left; auto. }
              destruct (Lst 0 NE j Hj S') as [Q|(j0 & Q1 & Q2 & Q3 & Q4)].
              ** left. apply IL, TK; [apply nb_ok; auto|auto].
              ** right. exists j0. split; auto. split; auto. split; auto. intros H. apply Q4. apply TK; [apply nb_ok; auto; lia|]. apply IL; auto.
      * intros i' Hi'. destruct (Nat.eq_dec i' i) as [->|].
        -- left. apply IL. left. fold c. rewrite <- Hh. destruct lin; [congruence|left; auto].
        -- destruct (M2 i') as [Q|Q]; [lia|left; apply IL; auto|right; auto].
    + assert (BL : blockedA (in_line lines) c).
      { destruct lin as [|x [|y lin]]; cbn [length] in *; [| |lia].
        - destruct (Nil eq_refl) as (_ & Iso). intros j Hj S'. specialize (Dec c 0 j Hc ltac:(lia) Hj). lra.
        - destruct (Hd0 ltac:(discriminate)) as (Hh & _). cbn in Hh. subst x. intros j Hj S'. destruct (Lst 0 ltac:(discriminate) j Hj S') as [Q|(j0 & Q1 & Q2 & Q3 & Q4)]; cbn [last] in *.
          + apply TK in Q; [|apply nb_ok; auto]. destruct Q as [[Q|[]]|Q]; auto. exfalso. apply (nb_ne c j Hc Hj). auto.
          + right. exists j0. split; auto. split; auto. split; auto. intros H. apply Q4, TK; [apply nb_ok; auto; lia|auto]. }
      assert (M2' : forall i', i' < i + 1 -> in_line lines (f_left (aat F i')) \/ blockedA (in_line lines) (f_left (aat F i'))).
      { intros i' Hi'. destruct (Nat.eq_dec i' i) as [->|]; [right; exact BL|apply M2; lia]. }
      destruct lin as [|x [|y lin]]; cbn [length] in *; [| |lia].
      * change (0 =? 1) with false. cbv iota. eexists; split; [reflexivity|]. cbn [fst snd]. split; [|split; auto]. split; [auto|]. split; [auto|]. split.
        -- intros k l Hk x Hx. destruct (Old k l Hk x Hx) as (? & ? & ?); auto.
        -- intros x Hx. rewrite O3 by auto. auto.
      * change (1 =? 1) with true. cbv iota. cbn [nth_error bind]. destruct (Pr x) as (Px & Pm & _); [left; auto|].
        rewrite aset_ok by lia. cbn [bind]. eexists; split; [reflexivity|]. cbn [fst snd]. split; [|split; auto]. split; [auto|]. split; [auto|]. cbn [aat]. unfold upd. split.
        -- intros k l Hk y Hy. destruct (Old k l Hk y Hy) as (? & Nn & ?). split; auto. destruct (Nat.eqb_spec y x); auto. subst. exfalso; apply Nn; left; auto.
        -- intros y Hy. destruct (Nat.eqb_spec y x); auto. rewrite O3; auto. cbn. intuition congruence.
  - exists cl, lines. split; [exact Er|]. split; [exact I1|exact I2].
Qed.
End Meaning.

(** ** The rows of the weight table *)
Section Rows.
Variable m : umesh.
Variable E : arr2 Z.
Hypothesis HE : nbr_ok m E.
Hypothesis Hmx : forall c, In c (cells m) -> length c <= maxnfael m.
Variable wt : nat -> nat -> R.
Variable srt : list (R * nat) -> list (R * nat).
Hypothesis Hsrt : forall l, Permutation (srt l) l.

Definition real_faces (i : nat) : list nat := filter (fun f => at2 E i f <? Z.of_nat (nelem m))%Z (seq 0 (length (cell (cells m) i))).
Definition fnb (i f : nat) : nat := Z.to_nat (at2 E i f).

Lemma cell_weights_row i : i < nelem m -> exists mn, cell_weights m E wt srt i = Some (srt (map (fun f => ((wt i (fnb i f) / mn)%R, f)) (real_faces i))) /\
  (forall f, In f (real_faces i) -> (mn <= wt i (fnb i f))%R) /\ (mn = (10 ^ 20)%R \/ exists f, In f (real_faces i) /\ mn = wt i (fnb i f)).
Proof.
  intros Hi. destruct HE as (R1 & R2 & R3). unfold cell_weights. rewrite nnode_ok by auto. cbn [bind].
  assert (Lm : length (cell (cells m) i) <= maxnfael m) by (apply Hmx; apply nth_In; auto).
  match goal with |- context [floop _ ?bb ?ss] =>
    destruct (floop_inv _ (fun j s => let fs := filter (fun f => at2 E i f <? Z.of_nat (nelem m))%Z (seq 0 j) in fst s = map (fun f => (wt i (fnb i f), f)) fs /\
      (forall f, In f fs -> (snd s <= wt i (fnb i f))%R) /\ (snd s = (10 ^ 20)%R \/ exists f, In f fs /\ snd s = wt i (fnb i f))) (length (cell (cells m) i)) bb ss) as (r & Er & I) end.
  - cbn. split; [reflexivity|]. split; [intros f []|auto].
  - intros j [l mn] Hj (I1 & I2 & I3). cbn [fst snd] in *. rewrite get2_ok by lia. cbn [bind]. destruct (R3 i j Hi Hj) as (z & Ez & _). rewrite seq_app, filter_app. cbn [filter seq plus]. rewrite Ez in *.
    destruct (Z.leb_spec (Z.of_nat (nelem m)) (Z.of_nat z)); destruct (Z.ltb_spec (Z.of_nat z) (Z.of_nat (nelem m))); try lia.
    + eexists; split; [reflexivity|]. rewrite app_nil_r. auto.
    + destruct (Z.ltb_spec (Z.of_nat z) 0); [lia|]. eexists; split; [reflexivity|]. cbn [fst snd]. rewrite map_app, I1. cbn [map].
      assert (Ef : fnb i j = Z.to_nat (Z.of_nat z)) by (unfold fnb; rewrite Ez; auto). rewrite Ef. split; [reflexivity|].
      destruct (Rltb_spec (wt i (Z.to_nat (Z.of_nat z))) mn) as [Lt|Ge]; split.
      * intros f Hf. apply in_app_iff in Hf. destruct Hf as [Hf|[<-|[]]]; [specialize (I2 f Hf)|rewrite Ef]; lra.
      * right. exists j. split; [apply in_app_iff; right; left; auto|rewrite Ef; auto].
      * intros f Hf. apply in_app_iff in Hf. destruct Hf as [Hf|[<-|[]]]; [apply (I2 f Hf)|rewrite Ef; lra].
      * destruct I3 as [I3|(f & Hf & I3)]; auto. right. exists f. split; [apply in_app_iff; auto|auto].
  - destruct r as [l mn]. rewrite Er. cbn [bind]. cbn [fst snd] in I. destruct I as (I1 & I2 & I3). exists mn. split; [|split; auto].
    rewrite I1, map_map. reflexivity.
Qed.

Lemma real_nbr i d : i < nelem m -> (nbr (cells m) i d <-> exists f, In f (real_faces i) /\ fnb i f = d).
Proof.
  intros Hi. destruct HE as (R1 & R2 & R3). unfold real_faces, fnb. split.
  - intros (f & A). pose proof A as (_ & Hf & Hd & _). destruct (R3 i f Hi Hf) as (z & Ez & Hz). exists f. assert (z = d) by (apply Hz; auto). subst z.
    split; [|rewrite Ez, Nat2Z.id; auto]. apply filter_In. split; [apply in_seq; lia|]. rewrite Ez. apply Z.ltb_lt. unfold nelem. lia.
  - intros (f & Hf & <-). apply filter_In in Hf. destruct Hf as (H1 & H2). apply in_seq in H1. destruct (R3 i f Hi ltac:(lia)) as (z & Ez & Hz). rewrite Ez in *. rewrite Nat2Z.id.
    apply Z.ltb_lt in H2. exists f. apply Hz; auto. lia.
Qed.

Lemma computeWeights_rows ja : exists la, computeWeights m E wt srt ja = Some la /\ forall i, i < nelem m -> exists l, cell_weights m E wt srt i = Some l /\ aat (la_n la) i = length l /\
  forall j, j < length l -> at2 (la_aniso la) i j = fst (nth j l (0%R, 0)) /\ at2 (la_face la) i j = Z.of_nat (snd (nth j l (0%R, 0))).
Proof.
  unfold computeWeights. cbv zeta.
  match goal with |- context [floop _ ?bb ?ss] =>
    destruct (floop_inv _ (fun k la => (rows (la_aniso la) = nelem m /\ cols (la_aniso la) = maxnfael m) /\ (rows (la_face la) = nelem m /\ cols (la_face la) = maxnfael m) /\
       alen (la_n la) = nelem m /\ (forall i, i < k -> exists l, cell_weights m E wt srt i = Some l /\ aat (la_n la) i = length l /\
         forall j, j < length l -> at2 (la_aniso la) i j = fst (nth j l (0%R, 0)) /\ at2 (la_face la) i j = Z.of_nat (snd (nth j l (0%R, 0))))) (nelem m) bb ss) as (la & El & I) end.
  - cbn. repeat split; auto. intros; lia.
  - intros i la Hi (A & B & C & D). destruct (cell_weights_ok m E HE Hmx wt srt Hsrt i Hi) as (l & El & Pl). rewrite El. cbn [bind]. rewrite aset_ok by lia. cbn [bind].
    assert (Lm : length (cell (cells m) i) <= maxnfael m) by (apply Hmx; apply nth_In; auto).
    assert (Ll : length l <= length (cell (cells m) i)).
    { rewrite <- (map_length snd), (Permutation_length Pl).
      assert (FL : forall (q : nat -> bool) s, length (filter q s) <= length s). { induction s as [|x s IHs]; cbn; [lia|]. destruct (q x); cbn; lia. }
      eapply Nat.le_trans; [apply FL|]. rewrite seq_length. lia. }
    set (n' := mkarr (alen (la_n la)) (upd (aat (la_n la)) i (length l))).
    match goal with |- context [floop (length l) ?bb ?ss] =>
      destruct (floop_inv _ (fun k lb => (rows (la_aniso lb) = nelem m /\ cols (la_aniso lb) = maxnfael m) /\ (rows (la_face lb) = nelem m /\ cols (la_face lb) = maxnfael m) /\
         la_n lb = n' /\ (forall p q, p <> i -> at2 (la_face lb) p q = at2 (la_face la) p q /\ at2 (la_aniso lb) p q = at2 (la_aniso la) p q) /\
         (forall j, j < k -> at2 (la_aniso lb) i j = fst (nth j l (0%R, 0)) /\ at2 (la_face lb) i j = Z.of_nat (snd (nth j l (0%R, 0))))) (length l) bb ss) as (lb & Eb & J) end.
    + cbn. repeat split; try tauto; lia.
    + intros j lb Hj (A1 & B1 & C1 & D1 & F1). assert (Ex : nth_error l j = Some (nth j l (0%R, 0))) by (apply nth_error_nth'; auto). rewrite Ex. cbn [bind].
      rewrite set2_ok by lia. cbn [bind]. rewrite set2_ok by lia. cbn [bind]. eexists; split; [reflexivity|]. cbn. split; [tauto|]. split; [tauto|]. split; [auto|]. split.
      * intros p q Hp. rewrite !upd2_ne by auto. auto.
      * intros j' Hj'. unfold upd2. rewrite Nat.eqb_refl. cbn. destruct (Nat.eqb_spec j' j) as [->|]; auto. apply F1; lia.
    + exists lb. split; [exact Eb|]. destruct J as (A1 & B1 & C1 & D1 & F1). split; [auto|]. split; [auto|]. rewrite C1. unfold n'. cbn. split; [auto|].
      intros p Hp. unfold upd. destruct (Nat.eqb_spec p i) as [->|Hn].
      * exists l. split; auto.
      * destruct (D p) as (l' & D2 & D3 & D4); [lia|]. exists l'. split; auto. split; auto. intros j Hj. destruct (D1 p j Hn) as (-> & ->). auto.
  - exists la. split; [exact El|]. apply I.
Qed.
End Rows.
