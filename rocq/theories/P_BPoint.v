(** C93: the numbering of boundary points. *)
From Coq Require Import List Arith ZArith Bool Lia Permutation.
From Verif Require Import Base M_Mesh M_BPoint.
Import ListNotations.
Open Scope nat_scope.

(** ** Specification *)
(** node [j] of boundary face [f] *)
Definition bnode (m : umesh) (f j : nat) : nat := match nth_error (bfaces m) f with Some b => match j with 0 => b0 b | _ => b1 b end | None => 0 end.
Definition on_boundary (m : umesh) (p : nat) : Prop := exists f j, f < nbface m /\ j < 2 /\ bnode m f j = p.
Definition bnodes_ok (m : umesh) : Prop := forall f j, f < nbface m -> j < 2 -> bnode m f j < npoin m.
(** the last face whose node [j] is [p]; -1 if there is none *)
Definition last_with (m : umesh) (j p : nat) (z : Z) : Prop :=
  (z = (-1)%Z /\ forall f, f < nbface m -> bnode m f j <> p) \/
  (exists f, f < nbface m /\ z = Z.of_nat f /\ bnode m f j = p /\ forall g, f < g < nbface m -> bnode m g j <> p).
(** the boundary consists of closed curves: every boundary point begins one face and ends one *)
Definition closed_boundary (m : umesh) : Prop := forall p, on_boundary m p ->
  exists fb fe, fb < nbface m /\ fe < nbface m /\ bnode m fb 0 = p /\ bnode m fe 1 = p /\
    (forall g, g < nbface m -> bnode m g 0 = p -> g = fb) /\ (forall g, g < nbface m -> bnode m g 1 = p -> g = fe).

(** ** Proof *)
Section Proof.
Context (m : umesh) (Hm : bnodes_ok m).
Let nth_bf f : f < nbface m -> exists b, nth_error (bfaces m) f = Some b /\ b0 b = bnode m f 0 /\ b1 b = bnode m f 1.
Proof. intros H. destruct (nth_error (bfaces m) f) as [b|] eqn:E; [|apply nth_error_None in E; unfold nbface in H; lia]. exists b. unfold bnode. rewrite E. auto. Qed.

(** boundary points in increasing order *)
Definition touched_b (p : nat) : bool := existsb (fun b => (b0 b =? p) || (b1 b =? p)) (bfaces m).
Lemma touched_b_ok p : touched_b p = true <-> on_boundary m p.
Proof.
  unfold touched_b. rewrite existsb_exists. split.
  - intros (b & I & E). apply In_nth_error in I. destruct I as (f & F). assert (Hf : f < nbface m) by (unfold nbface; apply nth_error_Some; congruence).
    apply orb_true_iff in E. destruct E as [E|E]; apply Nat.eqb_eq in E; [exists f, 0|exists f, 1]; repeat split; auto; unfold bnode; rewrite F; cbn; auto.
  - intros (f & j & Hf & Hj & E). destruct (nth_bf f Hf) as (b & F & B0 & B1). exists b. split; [eapply nth_error_In; eauto|]. apply orb_true_iff.
    destruct j as [|[|j]]; [left|right|lia]; apply Nat.eqb_eq; congruence.
Qed.
Definition bpts : list nat := filter touched_b (seq 0 (npoin m)).

Lemma count_ok : count_bpoints m = Some (List.length bpts).
Proof.
  unfold count_bpoints.
  destruct (ofold_inv bfrec (arr nat) (fun pre fl => alen fl = npoin m /\ forall p, aat fl p = if existsb (fun b => (b0 b =? p) || (b1 b =? p)) pre then 1 else 0)
    (fun b fl => fl <- aset fl (b0 b) 1 ;; aset fl (b1 b) 1) (bfaces m) (aconst (npoin m) 0)) as (fl & E & L & V).
  - split; auto.
  - intros pre b post fl El (L & V). assert (F : nth_error (bfaces m) (List.length pre) = Some b) by (rewrite El, nth_error_app2, Nat.sub_diag by lia; reflexivity).
    assert (Hf : List.length pre < nbface m) by (unfold nbface; rewrite El, app_length; cbn; lia).
    pose proof (Hm _ 0 Hf ltac:(lia)) as A0. pose proof (Hm _ 1 Hf ltac:(lia)) as A1. unfold bnode in A0, A1. rewrite F in A0, A1. cbn in A0, A1.
    rewrite aset_ok by lia. cbn [bind]. rewrite aset_ok by (cbn [alen]; lia). eexists. split; [reflexivity|]. cbn [alen aat]. split; [exact L|]. intros p. rewrite existsb_app. cbn [existsb]. unfold upd. rewrite V.
    rewrite (Nat.eqb_sym (b0 b)), (Nat.eqb_sym (b1 b)). destruct (p =? b1 b), (p =? b0 b), (existsb _ pre); reflexivity.
  - rewrite E. cbn [bind].
    destruct (floop_inv nat (fun k n => n = List.length (filter touched_b (seq 0 k))) (npoin m) (fun p n => x <- aget fl p ;; Some (n + x)) 0) as (n & E2 & I2).
    + reflexivity.
    + intros k n Hk ->. rewrite aget_ok by lia. cbn [bind]. eexists. split; [reflexivity|]. rewrite V, Nat.add_1_r, seq_S, filter_app, app_length. cbn [filter Nat.add].
      fold (touched_b k). destruct (touched_b k); reflexivity.
    + rewrite E2, I2. reflexivity.
Qed.
Lemma bpts_in p : In p bpts <-> on_boundary m p.
Proof.
  unfold bpts. rewrite filter_In, touched_b_ok, in_seq. split; [tauto|]. intros H. split; auto. destruct H as (f & j & Hf & Hj & <-). specialize (Hm f j Hf Hj). lia.
Qed.

(** the state after some points [T] have been visited: numbered points [L], columns 2 and 1, entries of bfacebp written so far *)
Definition BInv (T : list nat) (g : nat -> nat -> Z) (F : nat -> nat -> Prop) (s : bpst) : Prop :=
  rows (bpb s) = List.length bpts /\ cols (bpb s) = 3 /\ rows (fbp s) = nbface m /\ cols (fbp s) = 2 /\ alen (lpoin s) = npoin m /\
  exists L, List.length L = bp s /\ NoDup L /\ (forall p, In p L <-> In p T) /\ (forall p, p < npoin m -> (aat (lpoin s) p = true <-> In p L)) /\
    (forall i, i < bp s -> at2 (bpb s) i 0 = Z.of_nat (nth i L 0) /\ at2 (bpb s) i 1 = g 1 (nth i L 0) /\ at2 (bpb s) i 2 = g 2 (nth i L 0)) /\
    (forall i c, bp s <= i -> at2 (bpb s) i c = (-1)%Z) /\
    (forall f j, F f j -> at2 (fbp s) f j < bp s /\ nth (at2 (fbp s) f j) L 0 = bnode m f j).

Lemma find_ok B n (L : list nat) p i : n <= rows B -> 0 < cols B -> List.length L = n -> NoDup L -> (forall i, i < n -> at2 B i 0 = Z.of_nat (nth i L 0)) ->
  i < n -> nth i L 0 = p -> find_bpoint B n p = Some (Some i).
Proof.
  intros Hr Hc HL ND HB Hi Hp. unfold find_bpoint.
  destruct (floop_inv (option nat) (fun k r => r = if i <? k then Some i else None) n
    (fun i r => x <- get2 B i 0 ;; Some (if (x =? Z.of_nat p)%Z then Some i else r)) None) as (r & E & I1).
  - reflexivity.
  - intros k r Hk ->. rewrite get2_ok by lia. cbn [bind]. eexists. split; [reflexivity|]. rewrite HB by auto.
    destruct (Z.eqb_spec (Z.of_nat (nth k L 0)) (Z.of_nat p)) as [Ek|Ek].
    + assert (k = i). { apply (proj1 (NoDup_nth L 0) ND); try lia. } subst k. rewrite (proj2 (Nat.ltb_lt _ _)) by lia. reflexivity.
    + destruct (Nat.eq_dec k i) as [->|N]; [exfalso; apply Ek; congruence|]. destruct (Nat.ltb_spec i k), (Nat.ltb_spec i (k + 1)); try lia; reflexivity.
  - rewrite E, I1. rewrite (proj2 (Nat.ltb_lt _ _)) by lia. reflexivity.
Qed.

Definition gupd (g : nat -> nat -> Z) (c p : nat) (z : Z) : nat -> nat -> Z := fun c' p' => if (c' =? c) && (p' =? p) then z else g c' p'.

Lemma visit_ok T g F s f j c : BInv T g F s -> (c = 1 \/ c = 2) -> f < nbface m -> j < 2 -> (forall p, In p T -> on_boundary m p) -> (forall c p, ~ In p T -> g c p = (-1)%Z) ->
  exists s', visit_point f j c (bnode m f j) s = Some s' /\ BInv (bnode m f j :: T) (gupd g c (bnode m f j) (Z.of_nat f)) (fun f' j' => F f' j' \/ (f' = f /\ j' = j)) s'.
Proof.
  intros (R1 & C1 & R2 & C2 & L1 & L & HL & ND & LT & LP & VB & VM & VF) Hc Hf Hj HT Hg. set (p := bnode m f j) in *.
  assert (Hp : p < npoin m) by (apply Hm; auto). assert (Hb : on_boundary m p) by (exists f, j; auto).
  unfold visit_point. rewrite aget_ok by lia. cbn [bind]. destruct (aat (lpoin s) p) eqn:V; cbn [negb].
  - (* visited before *)
    apply LP in V; auto. destruct (In_nth L p 0 V) as (i & Hi & Ei). rewrite HL in Hi.
    assert (BL : bp s <= List.length bpts). { rewrite <- HL. apply NoDup_incl_length; auto. intros q Hq. apply bpts_in. apply HT. apply LT. exact Hq. }
    rewrite (find_ok (bpb s) (bp s) L p i) by (auto; try lia; intros k Hk; apply VB; auto). cbn [bind]. rewrite set2_ok by lia. cbn [bind]. rewrite set2_ok by lia. cbn [bind].
    eexists. split; [reflexivity|]. unfold BInv. cbn [bpb fbp lpoin bp rows cols at2]. repeat (split; [assumption|]). exists L.
    repeat (split; [first [assumption|reflexivity]|]). split. { intros q. rewrite LT. cbn [In]. split; [right; assumption|]. intros [<-|H]; [apply LT; exact V|exact H]. } split; [exact LP|]. split; [|split].
    + intros k Hk. destruct (VB k Hk) as (A & B1 & B2). unfold upd2, gupd.
      assert (EQ : (k =? i) = (nth k L 0 =? p)).
      { destruct (Nat.eqb_spec k i) as [->|N]; [rewrite Ei, Nat.eqb_refl; reflexivity|]. symmetry. apply Nat.eqb_neq. intros Q. apply N. apply (proj1 (NoDup_nth L 0) ND); lia || congruence. }
      rewrite <- EQ. destruct Hc as [->| ->]; cbn [Nat.eqb]; destruct (k =? i); cbn [andb]; rewrite ?andb_true_r, ?andb_false_r; cbn; auto.
    + intros k c' Hk. rewrite upd2_ne by lia. apply VM, Hk.
    + intros f' j' [H|(-> & ->)].
      * unfold upd2. destruct ((f' =? f) && (j' =? j)) eqn:Q; [|apply VF, H]. apply andb_true_iff in Q. destruct Q as (Q1 & Q2). apply Nat.eqb_eq in Q1, Q2. subst. split; auto.
      * rewrite upd2_eq. split; auto.
  - (* new *)
    assert (NI : ~ In p L) by (intros Q; apply LP in Q; auto; congruence).
    assert (BL : bp s < List.length bpts). { rewrite <- HL. change (List.length (p :: L) <= List.length bpts). apply NoDup_incl_length; [constructor; auto|]. intros q [<-|Hq]; apply bpts_in; auto. apply HT. apply LT. exact Hq. }
    rewrite set2_ok by lia. cbn [bind]. rewrite set2_ok by (cbn [rows cols]; lia). cbn [bind]. rewrite set2_ok by lia. cbn [bind]. rewrite aset_ok by lia. cbn [bind].
    eexists. split; [reflexivity|]. unfold BInv. cbn [bpb fbp lpoin bp rows cols at2 alen aat]. repeat (split; [assumption|]). exists (L ++ [p]).
    assert (NL : nth (bp s) (L ++ [p]) 0 = p) by (rewrite app_nth2, HL, Nat.sub_diag by lia; reflexivity).
    assert (NO : forall i, i < bp s -> nth i (L ++ [p]) 0 = nth i L 0) by (intros i Hi; apply app_nth1; lia).
    split; [rewrite app_length; cbn; lia|]. split; [apply (Permutation_NoDup (l := p :: L)); [apply Permutation_cons_append|constructor; auto]|].
    split. { intros q. rewrite in_app_iff. cbn [In]. rewrite LT. tauto. }
    split. { intros q Hq. rewrite in_app_iff. cbn [In]. unfold upd. destruct (Nat.eqb_spec q p) as [->|N]; [tauto|]. rewrite LP by auto. intuition congruence. }
    split; [|split].
    + intros k Hk. destruct (Nat.eq_dec k (bp s)) as [->|N].
      * rewrite NL. unfold gupd. rewrite !Nat.eqb_refl. rewrite (Nat.eqb_sym 1 c), (Nat.eqb_sym 2 c).
        assert (Q : ~ In p T) by (rewrite <- LT; exact NI).
        destruct Hc as [->| ->]; cbn [Nat.eqb andb]; repeat (rewrite upd2_eq || rewrite upd2_ne by lia); rewrite ?VM by lia; rewrite ?Hg by exact Q; auto.
      * assert (Hk' : k < bp s) by lia. rewrite NO by auto. destruct (VB k Hk') as (A & B1 & B2). rewrite !upd2_ne by lia. unfold gupd.
        assert (Q : nth k L 0 <> p) by (intros Q; apply NI; rewrite <- Q; apply nth_In; lia). rewrite (proj2 (Nat.eqb_neq _ _) Q). rewrite !andb_false_r. auto.
    + intros k c' Hk. rewrite !upd2_ne by lia. apply VM. lia.
    + intros f' j' [H|(-> & ->)].
      * unfold upd2. destruct ((f' =? f) && (j' =? j)) eqn:Q.
        -- apply andb_true_iff in Q. destruct Q as (Q1 & Q2). apply Nat.eqb_eq in Q1, Q2. subst. split; [lia|exact NL].
        -- destruct (VF f' j' H) as (P1 & P2). rewrite NO by auto. split; [lia|exact P2].
      * rewrite upd2_eq. split; [lia|exact NL].
Qed.

(** columns after [k] faces *)
Fixpoint lastf (k j p : nat) : Z := match k with 0 => (-1)%Z | S k' => if bnode m k' j =? p then Z.of_nat k' else lastf k' j p end.
Lemma lastf_spec k j p : (lastf k j p = (-1)%Z /\ forall f, f < k -> bnode m f j <> p) \/
  (exists f, f < k /\ lastf k j p = Z.of_nat f /\ bnode m f j = p /\ forall g, f < g < k -> bnode m g j <> p).
Proof.
  induction k as [|k IH]; [left; split; [reflexivity|lia]|]. cbn [lastf]. destruct (Nat.eqb_spec (bnode m k j) p) as [E|E].
  - right. exists k. repeat split; auto. lia.
  - destruct IH as [(A & B)|(f & A & B & D & F)].
    + left. split; auto. intros f Hf. destruct (Nat.eq_dec f k) as [->|N]; auto. apply B. lia.
    + right. exists f. repeat split; auto. intros g Hg. destruct (Nat.eq_dec g k) as [->|N]; auto. apply F. lia.
Qed.

Definition col_at (k : nat) (c p : nat) : Z := if c =? 1 then lastf k 1 p else if c =? 2 then lastf k 0 p else (-1)%Z.

(** C93: for any set of boundary faces the routine counts the boundary points, numbers each once, and gives for each the last face that begins
    and the last face that ends in it; the faces' nodes are translated into that numbering *)
Lemma bpoints_all junk : exists n B F, compute_boundary_points junk m = Some (n, B, F) /\
  rows B = n /\ cols B = 3 /\ rows F = nbface m /\ cols F = 2 /\
  exists L, List.length L = n /\ NoDup L /\ (forall p, In p L <-> on_boundary m p) /\
    (forall i, i < n -> at2 B i 0 = Z.of_nat (nth i L 0) /\ last_with m 1 (nth i L 0) (at2 B i 1) /\ last_with m 0 (nth i L 0) (at2 B i 2)) /\
    (forall f j, f < nbface m -> j < 2 -> at2 F f j < n /\ nth (at2 F f j) L 0 = bnode m f j).
Proof.
  unfold compute_boundary_points. rewrite count_ok. cbn [bind].
  destruct (floop_inv bpst (fun k s => exists T g FF, BInv T g FF s /\ (forall p, In p T -> on_boundary m p) /\
      (forall f j, f < k -> j < 2 -> In (bnode m f j) T) /\ (forall c p, c < 3 -> g c p = col_at k c p) /\ (forall c p, ~ In p T -> g c p = (-1)%Z) /\ (forall f j, f < k -> j < 2 -> FF f j)) (nbface m)
    (fun f s => b <- nth_error (bfaces m) f ;; s <- visit_point f 0 2 (b0 b) s ;; visit_point f 1 1 (b1 b) s)
    (mkbp (const2 (List.length bpts) 3 (-1)%Z) (mk2 (nbface m) 2 junk) (aconst (npoin m) false) 0)) as (s & E & T & g & FF & Inv & HT & Hin & Hg & Hgm & HF).
  - exists [], (fun _ _ => (-1)%Z), (fun _ _ => False). split; [|split; [intros p []|split; [intros; lia|split; [|split; [auto|intros; lia]]]]].
    + unfold BInv. cbn. repeat (split; [reflexivity|]). exists []. repeat split; auto; try (intros; lia); try constructor; try tauto; try discriminate; intros; contradiction.
    + intros c p Hc. unfold col_at. cbn [lastf]. destruct (c =? 1), (c =? 2); reflexivity.
  - intros k s Hk (T & g & FF & Inv & HT & Hin & Hg & Hgm & HF). destruct (nth_bf k Hk) as (b & Eb & B0 & B1). rewrite Eb. cbn [bind]. rewrite B0, B1.
    destruct (visit_ok T g FF s k 0 2 Inv) as (s1 & E1 & I1); auto; try lia. rewrite E1. cbn [bind].
    destruct (visit_ok _ _ _ s1 k 1 1 I1) as (s2 & E2 & I2); auto; try lia.
    { intros p [<-|H]; auto. exists k, 0; auto. }
    { intros c p H. unfold gupd. destruct ((c =? 2) && (p =? bnode m k 0)) eqn:Q; [exfalso; apply H; left; apply andb_true_iff in Q; destruct Q as (_ & Q); apply Nat.eqb_eq in Q; auto|]. apply Hgm. intros K. apply H. right. exact K. }
    rewrite E2. exists s2. split; [reflexivity|]. eexists _, _, _. split; [exact I2|]. split; [|split; [|split; [|split]]].
    + intros p [<-|[<-|H]]; auto; [exists k, 1|exists k, 0]; auto.
    + intros f j Hf Hj. destruct (Nat.eq_dec f k) as [->|N]; [|right; right; apply Hin; lia]. destruct j as [|[|j]]; [right; left; reflexivity|left; reflexivity|lia].
    + intros c p Hc. unfold gupd, col_at. rewrite Nat.add_1_r. cbn [lastf]. rewrite (Nat.eqb_sym (bnode m k 1)), (Nat.eqb_sym (bnode m k 0)).
      destruct c as [|[|[|c]]]; [| | |lia]; cbn [Nat.eqb andb].
      * apply (Hg 0 p). lia.
      * destruct (p =? bnode m k 1); [reflexivity|]. apply (Hg 1 p). lia.
      * destruct (p =? bnode m k 0); [reflexivity|]. apply (Hg 2 p). lia.
    + intros c p H. unfold gupd. destruct ((c =? 1) && (p =? bnode m k 1)) eqn:Q; [exfalso; apply H; left; apply andb_true_iff in Q; destruct Q as (_ & Q); apply Nat.eqb_eq in Q; auto|].
      destruct ((c =? 2) && (p =? bnode m k 0)) eqn:Q2; [exfalso; apply H; right; left; apply andb_true_iff in Q2; destruct Q2 as (_ & Q2); apply Nat.eqb_eq in Q2; auto|].
      apply Hgm. intros K. apply H. right. right. exact K.
    + intros f j Hf Hj. destruct (Nat.eq_dec f k) as [->|N]; [|left; left; apply HF; lia]. destruct j as [|[|j]]; [left; right; auto|right; auto|lia].
  - rewrite E. cbn [bind]. destruct Inv as (R1 & C1 & R2 & C2 & L1 & L & HL & ND & LT & LP & VB & VM & VF).
    assert (LB : forall p, In p L <-> on_boundary m p). { intros p. rewrite LT. split; [apply HT|]. intros (f & j & Hf & Hj & <-). apply Hin; auto. }
    assert (LN : List.length L = List.length bpts). { apply Nat.le_antisymm; apply NoDup_incl_length; auto; [intros q; rewrite LB, bpts_in; auto|apply NoDup_filter, seq_NoDup|intros q; rewrite LB, bpts_in; auto]. }
    eexists _, _, _. split; [reflexivity|]. repeat (split; [assumption|]). exists L. split; [exact LN|]. split; [exact ND|]. split; [exact LB|]. split.
    + intros i Hi. destruct (VB i ltac:(lia)) as (A & B1 & B2). split; [exact A|]. rewrite B1, B2, !Hg by lia. cbn [col_at Nat.eqb]. split; apply lastf_spec.
    + intros f j Hf Hj. rewrite <- LN, HL. apply VF, HF; auto.
Qed.
End Proof.

Theorem C93_boundary_points : forall m junk, bnodes_ok m -> exists n B F, compute_boundary_points junk m = Some (n, B, F) /\
  rows B = n /\ cols B = 3 /\ rows F = nbface m /\ cols F = 2 /\
  exists L, List.length L = n /\ NoDup L /\ (forall p, In p L <-> on_boundary m p) /\
    (forall i, i < n -> at2 B i 0 = Z.of_nat (nth i L 0) /\ last_with m 1 (nth i L 0) (at2 B i 1) /\ last_with m 0 (nth i L 0) (at2 B i 2)) /\
    (forall f j, f < nbface m -> j < 2 -> at2 F f j < n /\ nth (at2 F f j) L 0 = bnode m f j).
Proof. intros m junk H. apply bpoints_all, H. Qed.

(** On a closed boundary there are as many points as faces, and the two faces of a point are the one that ends in it and the one that begins there *)
Theorem C93_closed_boundary : forall m junk, bnodes_ok m -> closed_boundary m -> exists B F, compute_boundary_points junk m = Some (nbface m, B, F) /\
  forall i, i < nbface m -> exists fe fb p, at2 B i 0 = Z.of_nat p /\ at2 B i 1 = Z.of_nat fe /\ at2 B i 2 = Z.of_nat fb /\ fe < nbface m /\ fb < nbface m /\
    bnode m fe 1 = p /\ bnode m fb 0 = p /\ at2 F fe 1 = i /\ at2 F fb 0 = i.
Proof.
  intros m junk Hm Hc. destruct (bpoints_all m Hm junk) as (n & B & F & E & _ & _ & _ & _ & L & HL & ND & LB & VB & VF).
  assert (Hn : n = nbface m).
  { rewrite <- HL. apply Nat.le_antisymm.
    - (* every point begins a face of its own *)
      assert (I1 : incl L (map (fun f => bnode m f 0) (seq 0 (nbface m)))).
      { intros p Hp. apply LB in Hp. destruct (Hc p Hp) as (fb & fe & A & _ & D & _). apply in_map_iff. exists fb. split; auto. apply in_seq. lia. }
      apply NoDup_incl_length in I1; auto. rewrite map_length, seq_length in I1. exact I1.
    - assert (N2 : NoDup (map (fun f => bnode m f 0) (seq 0 (nbface m)))).
      {
        apply (NoDup_nth _ 0). rewrite map_length, seq_length. intros i j Hi Hj Q.
        rewrite (nth_indep _ 0 (bnode m 0 0)), (nth_indep (map _ _) 0 (bnode m 0 0)) in Q by (rewrite map_length, seq_length; auto).
        rewrite !(map_nth (fun f => bnode m f 0)), !seq_nth in Q by auto. cbn in Q.
        destruct (Hc (bnode m i 0)) as (fb & fe & _ & _ & _ & _ & U & _); [exists i, 0; auto|]. rewrite (U i), (U j); auto. }
      assert (I2 : incl (map (fun f => bnode m f 0) (seq 0 (nbface m))) L).
      { intros p Hp. apply in_map_iff in Hp. destruct Hp as (f & <- & I1). apply in_seq in I1. apply LB. exists f, 0. repeat split; auto; lia. }
      apply NoDup_incl_length in I2; auto. rewrite map_length, seq_length in I2. exact I2. }
  subst n. exists B, F. split; [rewrite Hn in E; exact E|]. intros i Hi. rewrite <- Hn in Hi. destruct (VB i Hi) as (A & A1 & A2). set (p := nth i L 0) in *.
  assert (Hp : on_boundary m p) by (apply LB, nth_In; auto). destruct (Hc p Hp) as (fb & fe & Hfb & Hfe & Eb & Ee & Ub & Ue).
  assert (UI : forall k, k < List.length L -> nth k L 0 = p -> k = i) by (intros k Hk Q; apply (proj1 (NoDup_nth L 0) ND); auto).
  exists fe, fb, p. split; [exact A|]. split.
  { destruct A1 as [(_ & Q)|(f & Hf & -> & Q & _)]; [exfalso; apply (Q fe); auto|]. rewrite (Ue f); auto. }
  split. { destruct A2 as [(_ & Q)|(f & Hf & -> & Q & _)]; [exfalso; apply (Q fb); auto|]. rewrite (Ub f); auto. }
  repeat (split; [assumption|]). destruct (VF fe 1 Hfe ltac:(lia)) as (P1 & P2). destruct (VF fb 0 Hfb ltac:(lia)) as (P3 & P4). split; apply UI; congruence.
Qed.

(** ** Examples: two triangles, boundary a closed square; and an open boundary *)
Definition sq4 : umesh := mkmesh 5 [[0; 1; 2]; [0; 2; 3]] 3 [mkbf 2 3 []; mkbf 0 1 []; mkbf 3 0 []; mkbf 1 2 []] [].
Example C93_hyp : bnodes_ok sq4 /\ closed_boundary sq4.
Proof.
  split.
  - intros f j Hf Hj. do 4 (destruct f; [destruct j as [|[|j]]; cbn; lia|]). cbn in Hf. lia.
  - intros p (f & j & Hf & Hj & E).
    assert (P : p = 0 \/ p = 1 \/ p = 2 \/ p = 3). { do 4 (destruct f; [destruct j as [|[|j]]; cbn in E; lia|]). cbn in Hf. lia. }
    destruct P as [->|[->|[->| ->]]]; [exists 1, 2|exists 3, 1|exists 0, 3|exists 2, 0]; repeat split; try (cbn; lia);
      intros g Hg; do 4 (destruct g; [cbn; intros; (reflexivity || discriminate)|]); cbn in Hg; lia.
Qed.
Example C93_example : exists B F, compute_boundary_points (fun _ _ => 99) sq4 = Some (4, B, F) /\
  map (fun i => map (at2 B i) (seq 0 3)) (seq 0 4) = [[2; 3; 0]; [3; 0; 2]; [0; 2; 1]; [1; 1; 3]]%Z /\
  map (fun f => map (at2 F f) (seq 0 2)) (seq 0 4) = [[0; 1]; [2; 3]; [1; 2]; [3; 0]].
Proof. eexists _, _. split; [vm_compute; reflexivity|]. split; vm_compute; reflexivity. Qed.
Example C93_open : exists B F, compute_boundary_points (fun _ _ => 99) (mkmesh 3 [[0; 1; 2]] 3 [mkbf 0 1 []; mkbf 1 2 []] []) = Some (3, B, F) /\
  map (fun i => map (at2 B i) (seq 0 3)) (seq 0 3) = [[0; -1; 0]; [1; 0; 1]; [2; 1; -1]]%Z.
Proof. eexists _, _. split; [vm_compute; reflexivity|]. vm_compute; reflexivity. Qed.

Print Assumptions C93_boundary_points.
Print Assumptions C93_closed_boundary.
