(** The state after compute_topological on a completely covered mesh, in one record. *)
From Coq Require Import List Arith Lia ZArith Bool Permutation.
From Verif Require Import Base M_Mesh S_Mesh Pf_Esup Pf_Esuel Pf_Host Pf_Faces Pf_Topo Pf_Incid.
Import ListNotations.

(** neighbour table after compute_topological: a cell across the face, or an index beyond the cells *)
Definition nbr_ok (m : umesh) (E : arr2 Z) : Prop :=
  rows E = nelem m /\ cols E = maxnfael m /\
  forall i f, i < nelem m -> f < length (cell (cells m) i) ->
    exists z, at2 E i f = Z.of_nat z /\ (forall j, j < nelem m -> (z = j <-> across (cells m) i f j)).

Record topo (m : umesh) (hs : list (nat * nat)) (p e : arr nat) (ni : nat) (s : fconn) (il : list face) : Prop := {
  to_esup : esup_ok (npoin m) (cells m) p e;
  to_ni : ni = length il;
  to_len : alen (intfac s) = nbface m + ni + nconnface m;
  to_ranges : face_ranges m hs (alist (intfac s)) il;
  to_good : forall i f, i < nelem m -> f < length (cell (cells m) i) -> good m (alen (intfac s)) s i f;
  to_nbr : nbr_ok m (esuel s);
  to_efrows : rows (elemface s) = nelem m; to_efcols : cols (elemface s) = maxnfael m;
  to_btags : forall q bf, nth_error (bfaces m) q = Some bf -> aat (btags s) q = btg bf;
  to_blen : alen (btags s) = nbface m }.

(** extents of the two-dimensional tables *)
Lemma fc_extents : forall m p e E jf je jt n s, rows E = nelem m -> cols E = maxnfael m ->
  faceConnectivity m p e E jf je jt = Some (Val (n, s)) ->
  rows (esuel s) = nelem m /\ cols (esuel s) = maxnfael m /\ rows (elemface s) = nelem m /\ cols (elemface s) = maxnfael m /\ alen (btags s) = nbface m.
Proof.
  intros m p e E jf je jt n s HR HC H.
  assert (S2 : forall A (a a' : arr2 A) i j x, set2 a i j x = Some a' -> rows a' = rows a /\ cols a' = cols a).
  { intros A a a' i j x K. unfold set2 in K. destruct (_ && _); inversion K; auto. }
  assert (SA : forall A (a a' : arr A) i x, aset a i x = Some a' -> alen a' = alen a).
  { intros A a a' i x K. unfold aset in K. destruct (_ <? _); inversion K; auto. }
  assert (FI : forall S (P : S -> Prop) k (b : nat -> S -> option S) (x y : S), P x -> (forall i u v, P u -> b i u = Some v -> P v) -> floop k b x = Some y -> P y).
  { intros S P k b. induction k as [|k IH]; intros x y Px Hb K; cbn in K; [inversion K; subst; auto|].
    apply bind_some in K. destruct K as (z & K1 & K2). eapply Hb; [|exact K2]. eapply IH; eauto. }
  unfold faceConnectivity in H. cbv zeta in H.
  destruct (floop (nelem m) _ 0) as [c|] in H; cbn [lift ebind] in H; [|discriminate].
  destruct (phyBFaceNeighboringElements m p e) as [[hosts|]|]; cbn [ebind] in H; try discriminate.
  set (P := fun s : fconn => rows (esuel s) = nelem m /\ cols (esuel s) = maxnfael m /\ rows (elemface s) = nelem m /\ cols (elemface s) = maxnfael m /\ alen (btags s) = nbface m).
  match type of H with context [floop (nbface m) ?bb ?ss] => destruct (floop (nbface m) bb ss) as [t1|] eqn:F1 end; cbn [lift ebind] in H; [|discriminate].
  apply (FI _ P) in F1; [| |].
  2:{ unfold P. cbn. auto. }
  2:{ intros i u v (P1 & P2 & P3 & P4 & P5) K. repeat (apply bind_some in K; let z := fresh in destruct K as (z & ? & K)). inversion K; subst v.
      unfold P; cbn. repeat match goal with K : set2 _ _ _ _ = Some _ |- _ => apply S2 in K; destruct K end. repeat match goal with K : aset _ _ _ = Some _ |- _ => apply SA in K end. repeat split; congruence. }
  match type of H with context [floop (nelem m) ?bb ?ss] => destruct (floop (nelem m) bb ss) as [t2|] eqn:F2 end; cbn [lift ebind] in H; [|discriminate].
  apply (FI _ (fun t => P (snd t))) in F2; [|exact F1|].
  2:{ intros i u v Pu K. apply bind_some in K. destruct K as (nn & _ & K). apply (FI _ (fun t => P (snd t))) in K; auto.
      intros f [a b] w (P1 & P2 & P3 & P4 & P5) K2. cbn [snd] in *. apply bind_some in K2. destruct K2 as (j & _ & K2).
      destruct (_ && _)%bool in K2; [|inversion K2; subst w; unfold P; auto].
      apply bind_some in K2; destruct K2 as (v0 & _ & K2). apply bind_some in K2; destruct K2 as (v1 & _ & K2).
      apply bind_some in K2; destruct K2 as (F & _ & K2). apply bind_some in K2; destruct K2 as (EF & KE & K2).
      apply bind_some in K2; destruct K2 as (nj & _ & K2). apply bind_some in K2; destruct K2 as (EF' & KE' & K2).
      inversion K2; subst w. unfold P; cbn. apply S2 in KE.
      apply (FI _ (fun X : arr2 nat => rows X = nelem m /\ cols X = maxnfael m)) in KE'; [|split; destruct KE; congruence|].
      - tauto.
      - intros jn X Y (X1 & X2) K3. apply bind_some in K3. destruct K3 as (w & _ & K3). destruct (v1 =? w) in K3.
        apply S2 in K3. destruct K3; split; congruence. inversion K3; subst; auto. }
  match type of H with context [floop (nconnface m) ?bb ?ss] => destruct (floop (nconnface m) bb ss) as [t3|] eqn:F3 end; cbn [lift ebind] in H; [|discriminate].
  apply (FI _ P) in F3; [|exact F2|].
  2:{ intros i u v (P1 & P2 & P3 & P4 & P5) K. repeat (apply bind_some in K; let z := fresh in destruct K as (z & ? & K)). inversion K; subst v.
      unfold P; cbn. repeat match goal with K : set2 _ _ _ _ = Some _ |- _ => apply S2 in K; destruct K end. repeat match goal with K : aset _ _ _ = Some _ |- _ => apply SA in K end. repeat split; congruence. }
  inversion H; subst. exact F3.
Qed.

Theorem topo_full : forall m hs, tiled m hs -> forall j0 jf je jt, exists p e ni s il,
  compute_topological m j0 jf je jt = Some (Val (p, e, (ni, s))) /\ topo m hs p e ni s il.
Proof.
  intros m hs T j0 jf je jt. pose proof (tl_good _ _ T) as G.
  destruct (topo_ok m hs G j0 jf je jt) as (p & e & E & s & E0 & E1 & TT & Hes & HE & A1 & A2 & A3 & A4 & A5).
  destruct (topo_ranges m hs G j0 jf je jt) as (p' & e' & s' & il & T' & HR).
  rewrite TT in T'. injection T' as Q1 Q2 Q3 Q4. subst p' e' s'.
  set (il0 := ibl (cells m) (at2 E) (ifs (cells m))) in *.
  exists p, e, (length il0), s, il. split; [exact TT|].
  assert (EX : rows (esuel s) = nelem m /\ cols (esuel s) = maxnfael m /\ rows (elemface s) = nelem m /\ cols (elemface s) = maxnfael m /\ alen (btags s) = nbface m).
  { unfold compute_topological in TT. rewrite E0 in TT. cbn [lift ebind fst snd] in TT. rewrite E1 in TT. cbn [lift ebind] in TT.
    destruct (faceConnectivity m p e E jf je jt) as [[[n t]|]|] eqn:FC; cbn [ebind] in TT; try discriminate. inversion TT; subst.
    destruct HE as (R1 & C1 & _). eapply fc_extents; [exact R1|exact C1|exact FC]. }
  destruct EX as (X1 & X2 & X3 & X4 & X5).
  assert (GD : forall i f, i < nelem m -> f < length (cell (cells m) i) -> good m (alen (intfac s)) s i f).
  { intros i f Hi Hf. rewrite A1. apply A5; auto. apply (tl_or _ _ T). apply (tl_cover _ _ T); auto. }
  split; auto.
  - split; auto. split; auto. intros i f Hi Hf. pose proof (GD i f Hi Hf) as (L & Se & W).
    set (fc := aat (intfac s) (at2 (elemface s) i f)) in *.
    assert (Hin : In fc (alist (intfac s))) by (unfold alist, fc; apply in_map; apply in_seq; lia).
    destruct G as [Hv Hcf Hm Hh Hcn]. destruct (cell_valid _ _ i Hv Hi) as (N3 & ND & _).
    (* fc seen from cell i *)
    assert (O : origin m hs fc i f).
    { assert (K : forall e, In (i, e) (halves (nelem m) fc) -> same_edge e (edge (cell (cells m) i) f) -> origin m hs fc i f).
      { intros e1 K1 K2. destruct (origin_of m hs _ il T HR fc i e1 Hin K1) as (g & _ & Hg & -> & O).
        apply edge_unique in K2; auto. subst g. exact O. }
      destruct W as [(W1 & W2)|(W1 & W2)].
      - apply (K (f_a fc, f_b fc)); auto. rewrite <- W1. left; reflexivity.
      - apply (K (f_b fc, f_a fc)).
        + unfold halves. rewrite W1. destruct (Nat.ltb_spec i (nelem m)); [|lia]. right; left; reflexivity.
        + apply same_edge_trans with (f_a fc, f_b fc); auto. right; reflexivity. }
    assert (Hij : forall j, across (cells m) i f j -> fc = if i <? j then mkface i j (fst (edge (cell (cells m) i) f)) (snd (edge (cell (cells m) i) f))
                     else mkface j i (snd (edge (cell (cells m) i) f)) (fst (edge (cell (cells m) i) f))).
    { intros j A. apply (origin_unique m hs T fc _ i f O). right; left. exists j. split; auto. }
    assert (Ha : forall j, j < nelem m -> (f_left fc = i /\ f_right fc = j) \/ (f_left fc = j /\ f_right fc = i) -> across (cells m) i f j).
    { intros j Hj Hs. destruct O as [(q & bf & _ & _ & Q)|[(j' & A & Q)|(q & cf & _ & _ & _ & Q)]].
      - rewrite Q in Hs. cbn in Hs. lia.
      - assert (j' = j); [|subst; auto]. pose proof A as (_ & _ & A3' & A4' & _). cbv zeta in Q. destruct (i <? j'); rewrite Q in Hs; cbn in Hs; lia.
      - rewrite Q in Hs. cbn in Hs. lia. }
    destruct W as [(W1 & W2)|(W1 & W2)]; [exists (f_right fc)|exists (f_left fc)]; (split; [exact W2|]); intros j Hj; split.
    + intros E2. apply Ha; auto.
    + intros A. rewrite (Hij j A) in W1 |- *. pose proof A as (_ & _ & _ & A4' & _). destruct (i <? j); cbn in *; lia.
    + intros E2. apply Ha; auto.
    + intros A. rewrite (Hij j A) in W1 |- *. pose proof A as (_ & _ & _ & A4' & _). destruct (i <? j); cbn in *; lia.
  - intros q bf Eb. destruct G as [_ _ _ [Lh _] _]. assert (q < nbface m) by (apply nth_error_Some; congruence).
    destruct (nth_error_some _ hs q ltac:(lia)) as (h & Eh). apply (A2 q bf h Eb Eh).
Qed.
