(** C99: the mesh a case is run on, from what readMesh returns (constructMesh and preprocessMesh, mesh/ameshutils.cpp 38-152). Specification: S_Mesh.v (cells,
    faces, hosted, across), S_Geom.v (areas), Pf_Prep.v (reads, refused, ordered: the options; prepared: the members computed last). *)
From Coq Require Import Reals Lra List Arith Lia ZArith Bool Permutation Sorted String.
From Verif Require Import Base BaseR BaseSum M_Mesh M_Geom M_Space M_Resid M_Diff M_MeshUtil M_Part M_Prep S_Mesh S_Geom Pf_Esup Pf_Esuel Pf_Host Pf_Faces Pf_Topo Pf_Incid Pf_Full
  Pf_Geom Pf_Space Pf_Reorder Pf_Periodic Pf_Part Pf_Restrict Pf_Part2 Pf_Lines P_MeshUtil Pf_Lines2 P_Lines ChkMesh P_Part P_Compare Pf_Prep.
Import ListNotations.
Open Scope nat_scope.

(** ** Specification *)
(** a mesh file: cells of three or four points listed all in the same sense of rotation, faces shared by at most two cells, and a boundary face, in either direction, for
    every cell face without a neighbour; [hs] says which cell face each boundary face is *)
Definition mesh_file (m : umesh) (hs : list (nat * nat)) (X : arr v2) (regs : arr (list Z)) : Prop :=
  good_mesh m hs /\ oriented (cells m) /\ conns m = [] /\ NoDup hs /\
  (forall i f, i < nelem m -> f < List.length (cell (cells m) i) -> (exists j, across (cells m) i f j) \/ In (i, f) hs) /\
  (forall c, In c (cells m) -> List.length c = 3 \/ List.length c = 4) /\ alen X = npoin m /\ alen regs = nelem m /\ 0 < nelem m.
(** the same two points *)
Definition same_points (b b' : bfrec) : Prop := (b0 b = b0 b' /\ b1 b = b1 b') \/ (b0 b = b1 b' /\ b1 b = b0 b').
(** the mesh [L] is the mesh [m] with its cells in the order [p] and without the points that belong to no cell *)
Definition same_mesh (m : umesh) (X : arr v2) (p : arr nat) (L : lmesh) : Prop :=
  nelem (l_m L) = nelem m /\ (forall i, i < nelem m -> map (back L) (cell (cells (l_m L)) i) = cell (cells m) (aat p i)) /\
  npoin (l_m L) = List.length (l_p2g L) /\ StronglySorted lt (l_p2g L) /\ (forall x, In x (l_p2g L) <-> used m x) /\
  (alen (l_X L) = npoin (l_m L) /\ forall v, v < npoin (l_m L) -> aat (l_X L) v = aat X (back L v)) /\
  Forall2 (fun b b' => same_points b (back_bf L b') /\ btg b' = btg b) (bfaces m) (bfaces (l_m L)) /\ conns (l_m L) = [].

(** ** From the file to the part of a process *)
Lemma Forall2_nth A B (P : A -> B -> Prop) l l' : List.length l = List.length l' -> (forall k a b, nth_error l k = Some a -> nth_error l' k = Some b -> P a b) -> Forall2 P l l'.
Proof.
  revert l'. induction l as [|a l IH]; intros [|b l'] L H; cbn in L; try lia; constructor.
  - apply (H 0); reflexivity.
  - apply IH; [lia|]. intros k a' b' E1 E2. apply (H (S k)); auto.
Qed.
Lemma oriented_file m hs X regs : mesh_file m hs X regs -> exists m1, correctBoundaryFaceOrientation m = Some (Val m1) /\ tiled m1 hs /\ cells m1 = cells m /\ npoin m1 = npoin m /\
  maxnfael m1 = maxnfael m /\ conns m1 = [] /\ Forall2 (fun b b' => same_points b b' /\ btg b' = btg b) (bfaces m) (bfaces m1).
Proof.
  intros (G & O & C & N & Cv & H34 & LX & LR & Hn). pose proof (gm_hosts _ _ G) as (Lh & Hh).
  destruct (correct_orientation m hs (gm_valid _ _ G) (gm_hosts _ _ G)) as (bl & E & L & I0). eexists. split; [exact E|]. cbn [cells npoin maxnfael bfaces conns].
  assert (Both : forall k b', nth_error bl k = Some b' -> exists b h, nth_error (bfaces m) k = Some b /\ nth_error hs k = Some h /\ b' = orient (cell (cells m) (fst h)) (snd h) b).
  { intros k b' Eb. assert (Hk : k < nbface m) by (rewrite <- L; apply nth_error_Some; congruence). destruct (nth_error_some _ (bfaces m) k Hk) as (b & E1).
    destruct (nth_error_some _ hs k) as (h & E2); [lia|]. exists b, h. split; auto. split; auto. rewrite (I0 k b h E1 E2) in Eb. congruence. }
  assert (SE : forall k b h, nth_error (bfaces m) k = Some b -> nth_error hs k = Some h -> let e := edge (cell (cells m) (fst h)) (snd h) in fst e = b0 b /\ snd e = b1 b \/ fst e = b1 b /\ snd e = b0 b).
  { intros k b h E1 E2. destruct (Hh k b h E1 E2) as (_ & _ & (_ & _ & Q & _)); cbv zeta. unfold same_edge in Q. destruct (edge _ _) as (x & y). cbn in Q |- *. destruct Q as [Q|Q]; injection Q as -> ->; auto. }
  split; [|split; [auto|split; [auto|split; [auto|split; [auto|]]]]].
  - split; cbn [cells npoin maxnfael bfaces conns].
    + split; cbn [cells npoin maxnfael bfaces conns]; try apply G.
      * split; [unfold nbface in *; cbn [bfaces]; lia|]. cbn [cells npoin maxnfael bfaces conns]. intros k b' h Eb Eh. destruct (Both k b' Eb) as (b & h' & E1 & E2 & ->). assert (h' = h) by congruence. subst h'.
        destruct (Hh k b h E1 E2) as (B0 & B1 & (P1 & P2 & P3 & P4)). unfold orient. cbn [b0 b1].
        destruct (SE k b h E1 E2) as [(-> & ->)|(-> & ->)]; (split; [auto|]); (split; [auto|]); (split; [auto|]); (split; [auto|]).
        -- split; auto.
        -- split; [clear -P3; unfold same_edge in *; destruct (edge _ _) as (x & y); cbn in *; destruct P3 as [Q|Q]; injection Q as -> ->; auto|]. intros j Hj. apply P4. unfold has_both in *. tauto.
    + auto.
    + intros k b' h Eb Eh. destruct (Both k b' Eb) as (b & h' & E1 & E2 & ->). assert (h' = h) by congruence. subst h'. unfold orient. cbn [b0 b1]. symmetry. apply surjective_pairing.
    + rewrite C. cbn. rewrite app_nil_r. auto.
    + rewrite C. contradiction.
    + intros i f Hi Hf. destruct (Cv i f Hi Hf); auto.
  - apply Forall2_nth; [unfold nbface in *; auto|]. intros k b b' E1 Eb. destruct (Both k b' Eb) as (b2 & h & E2 & E3 & ->). assert (b2 = b) by congruence. subst b2.
    split; [|reflexivity]. unfold same_points, orient. cbn [b0 b1]. destruct (SE k b h E2 E3) as [(-> & ->)|(-> & ->)]; auto.
Qed.

Section File.
Variables (srt : list (R * nat) -> list (R * nat)) (registered : string -> option (nat -> list (nat * Z) -> list nat)).
Variables (m : umesh) (hs : list (nat * nat)) (X : arr v2) (regs : arr (list Z)).
Hypothesis MF : mesh_file m hs X regs.
Variables (nranks rank : nat).
Hypothesis HN : 0 < nranks <= nelem m.
Lemma part_of je (kg : junk) jc jr ji jx j0 : exists m1 d t lm, trivial_partition (nelem m) nranks je = Some d /\ alen d = nelem m /\ global_ok (mkgm m1 t X regs) hs /\ cells m1 = cells m /\ npoin m1 = npoin m /\
  maxnfael m1 = maxnfael m /\ Forall2 (fun b b' => same_points b b' /\ btg b' = btg b) (bfaces m) (bfaces m1) /\ restrictMesh (mkgm m1 t X regs) d rank jc jr ji jx j0 = Some (Val lm) /\
  forall o k1 k2 ghost, constructMesh srt registered o nranks rank kg k1 k2 je jc jr ji jx j0 ghost m X regs = preprocessMesh srt registered o k1 k2 ghost (mkpm lm None None None).
Proof.
  destruct (oriented_file m hs X regs MF) as (m1 & E1 & T1 & C1 & N1 & M1 & K1 & F1). destruct MF as (G & O & C & N & Cv & H34 & LX & LR & Hn).
  destruct (topo_full m1 hs T1 (k_0 kg) (k_f kg) (k_e kg) (k_t kg)) as (pp & e & ni & t & il & ET & TP).
  assert (NE : nelem m1 = nelem m) by (unfold nelem; rewrite C1; auto).
  destruct (C14_trivial_partition (nelem m) nranks je ltac:(lia)) as (d & Ed & Ld & _).
  assert (GO : global_ok (mkgm m1 t X regs) hs). { split; cbn; auto; try congruence. exists pp, e, ni, il. exact TP. }
  destruct (C15_restriction (mkgm m1 t X regs) hs d rank GO ltac:(cbn; congruence) jc jr ji jx j0) as (lm & ER & _).
  exists m1, d, t, lm. do 8 (split; [auto|]). intros o k1 k2 ghost. unfold constructMesh. rewrite E1. cbn [ebind]. rewrite ET. cbn [ebind snd].
  assert (EP : partitioner_ctor (nelem m1) nranks = Val tt). { unfold partitioner_ctor. destruct (Nat.ltb_spec (nelem m1) nranks); auto. lia. }
  rewrite EP. cbn [ebind]. rewrite NE, Ed. cbn [lift ebind]. rewrite ER. reflexivity.
Qed.
End File.

(** ** The order does not depend on how the points are numbered *)
Section Transfer.
Variables (m1 m2 : umesh) (hs : list (nat * nat)) (X1 X2 : arr v2).
Hypothesis NE : nelem m1 = nelem m2.
Hypothesis NB : forall a b, nbr (cells m1) a b <-> nbr (cells m2) a b.
Hypothesis CL : forall a b, nbr (cells m1) a b -> closeness m1 X1 a b = closeness m2 X2 a b.
Notation w1 := (closeness m1 X1).
Notation w2 := (closeness m2 X2).
Lemma strong_move thr a b : strong m1 w1 thr a b <-> strong m2 w2 thr a b.
Proof.
  unfold strong. split; intros (A & d & D1 & D2 & D3).
  - split; [apply NB; auto|]. exists d. split; [apply NB; auto|]. split; [intros d' N'; apply NB in N'; rewrite <- !CL by auto; auto|]. rewrite <- !CL by auto. auto.
  - pose proof A as A'. apply NB in A'. pose proof D1 as D1'. apply NB in D1'. split; auto. exists d. split; auto. split; [intros d' N'; rewrite !CL by auto; apply D2; apply NB; auto|]. rewrite !CL by auto. auto.
Qed.
Lemma stops_move thr lines c : stops m1 w1 thr lines c -> stops m2 w2 thr lines c.
Proof.
  intros H d Hd. apply strong_move in Hd. destruct (H d Hd) as [?|(d0 & A & B & C & D)]; auto. right. exists d0. split; [apply strong_move; auto|].
  split; [rewrite <- !CL by (apply A || apply Hd); auto|]. split; auto. intros e He. apply (D e). apply strong_move. auto.
Qed.
Lemma line_set_move thr lines : line_set m1 hs w1 thr lines -> line_set m2 hs w2 thr lines.
Proof.
  intros (A & B & C). split; auto. split; [intros l Hl; destruct (B l Hl) as (B1 & B2); split; auto; intros a b Hab; apply NB; auto|].
  intros P. destruct C as (C1 & C2). { intros a b N. rewrite CL by auto. apply P, NB, N. }
  split; [|intros c Hc N; apply stops_move; auto]. intros l Hl. destruct (C1 l Hl) as (D1 & D2 & D3). split; auto. split; [|apply stops_move; auto].
  intros a b Hab. destruct (D2 a b Hab) as (E1 & E2). split; [apply strong_move; auto|]. intros d Sd Lt. apply strong_move in Sd. apply (E2 d); auto. rewrite !CL by (apply E1 || apply Sd). auto.
Qed.
Lemma others_move lines rest : others m1 lines rest -> others m2 lines rest.
Proof. unfold others. rewrite NE. auto. Qed.
Lemma by_petsc_move registered name (G1 G2 : list (nat * Z) -> Prop) n l : (forall e, G1 e -> G2 e) -> by_petsc registered name G1 n l -> by_petsc registered name G2 n l.
Proof. intros H [?|(A & f & ent & B & C & D)]; [left; auto|]. right. split; auto. exists f, ent. auto. Qed.
Lemma ordered_move registered o p : ordered registered o m1 hs X1 p -> ordered registered o m2 hs X2 p.
Proof.
  intros (A & B). split; [rewrite <- NE; auto|]. intros name Rn. destruct (B name Rn) as (B1 & B2 & B3). split; [|split].
  - intros E. destruct (B1 E) as (thr & lines & rest & D1 & D2 & D3 & D4). exists thr, lines, rest. split; auto. split; [apply line_set_move; auto|]. split; auto. apply others_move; auto.
  - intros N Ll. destruct (B2 N Ll) as (x & y & thr & lines & rest & gro & D1 & D2 & D3 & D4 & D5 & D6). exists x, y, thr, lines, rest, gro. split; auto. split; auto. split; [apply line_set_move; auto|].
    split; [apply others_move; auto|]. split; auto. eapply by_petsc_move; [|exact D6]. intros e (V1 & V2). split; auto. intros v w Hv Hw. rewrite V2 by auto.
    split; (intros [?|(c & d & ? & ? & Nb)]; [left; auto|right; exists c, d; split; auto; split; auto; apply NB; auto]).
  - intros N. rewrite <- NE. eapply by_petsc_move; [|apply B3; auto]. intros e (V1 & V2). unfold graph_of. rewrite <- NE. split; auto. intros i j Hi Hj. rewrite V2 by auto. rewrite NB. tauto.
Qed.
End Transfer.

Lemma mesh_of_case : forall srt registered m hs X regs o kg k1 k2 je jc jr ji jx j0 ghost,
  mesh_file m hs X regs -> sorts_down srt -> (forall name f, registered name = Some f -> forall n ent, Permutation (f n ent) (seq 0 n)) ->
  exists r, constructMesh srt registered o 1 0 kg k1 k2 je jc jr ji jx j0 ghost m X regs = Some r /\
  match r with
  | Exn => refused registered o
  | Val P => (~ refused registered o /\ exists p hs', is_perm (nelem m) p /\ ordered registered o m hs X p /\ same_mesh m X p (pm_l P) /\
      tiled (l_m (pm_l P)) hs' /\ map (fun h => (aat p (fst h), snd h)) hs' = hs /\ prepared P hs') /\ alist (l_eglob (pm_l P)) = seq 0 (nelem m)
  end.
Proof.
  intros srt registered m hs X regs o kg k1 k2 je jc jr ji jx j0 ghost MF Hs Hr. pose proof MF as (_ & _ & _ & _ & _ & H34 & LX & LR & Hn).
  destruct (part_of srt registered m hs X regs MF 1 0 ltac:(lia) je kg jc jr ji jx j0) as (m1 & d & t & lm & Ed & Ld & G & C1 & N1 & M1 & F1 & ER & EC). rewrite EC. clear EC.
  destruct (trivial_one (nelem m) je) as (d' & Ed' & _ & D0). rewrite Ed in Ed'. inversion Ed'; subst d'. clear Ed'.
  set (g := mkgm m1 t X regs) in *. assert (NE : nelem (g_m g) = nelem m) by (unfold g, nelem; cbn; rewrite C1; auto).
  assert (Hd : alen d = nelem (g_m g)) by congruence.
  destruct (restrict_ok g hs G d 0 Hd jc jr ji jx j0) as (E & B & lm' & HE & HB1 & HB2 & R0 & M & XX & Rg & L & P). rewrite ER in R0. inversion R0; subst lm'. clear R0.
  assert (Own : own g d 0 = seq 0 (nelem m)). { unfold own. rewrite NE. apply filter_all. intros i Hi. apply in_seq in Hi. apply Nat.eqb_eq, D0. lia. }
  assert (GC : forall l, l < nelem m -> gc g d 0 l = l) by (intros l Hl; unfold gc; rewrite Own, seq_nth by lia; auto).
  assert (NL : List.length (own g d 0) = nelem m) by (rewrite Own; apply seq_length).
  assert (NI : forall i f j, ~ interface g d 0 i f j). { intros i f j ((_ & _ & A & _) & _ & Q). apply Q, D0. rewrite <- NE. exact A. }
  assert (T : tiled (l_m lm) (lhs g hs d 0)). { rewrite M. apply (local_tiled g hs G d 0 Hd E HE B HB1 HB2). intros i f j Q. destruct (NI i f j Q). }
  assert (CS : cells (g_m g) = cells m) by exact C1.
  assert (Lh : List.length (bfaces (g_m g)) = List.length hs) by (symmetry; apply (hosts g hs G)).
  assert (Ihs : forall h, In h hs -> fst h < nelem m).
  { intros h Hh. apply In_nth_error in Hh. destruct Hh as (q & Eq). destruct (nth_error_some _ (bfaces (g_m g)) q) as (bf & Eb). rewrite Lh; apply nth_error_Some; congruence.
    destruct (hosts' g hs G q bf h Eb Eq) as (_ & _ & A & _). rewrite <- NE. exact A. }
  assert (Obf : owned_bf g d 0 hs = combine (bfaces (g_m g)) hs).
  { apply filter_all. intros (bf & h) Hx. apply Nat.eqb_eq, D0. apply in_combine_r in Hx. apply (Ihs h Hx). }
  assert (LH : lhs g hs d 0 = hs).
  { unfold lhs. rewrite Obf, Own. clear -Lh Ihs. revert Lh Ihs. generalize (bfaces (g_m g)) as bl. generalize hs as hh. induction hh as [|h hh IH]; intros [|b bl] Lh Ihs; cbn in *; try lia; auto.
    rewrite IH by (try lia; auto). rewrite idx_seq by auto. destruct h; auto. }
  rewrite LH in T.
  assert (NC : conns (l_m lm) = []).
  { rewrite M. cbn [conns]. destruct (cfaces g d 0 E B) as [|cf r] eqn:Q; auto. assert (Hin : In cf (cfaces g d 0 E B)) by (rewrite Q; left; auto). apply (cfaces_in g d 0 Hd E B HB1) in Hin.
    destruct Hin as (l & f & Hl & Hf & K & _). destruct (keep_global g hs G d 0 Hd E HE B HB1 HB2 l f Hl Hf K) as (j & (_ & _ & A & _) & Q'). destruct Q'. apply D0. rewrite <- NE. exact A. }
  assert (NEl : nelem (l_m lm) = nelem m) by (rewrite M; unfold nelem at 1; cbn [cells]; rewrite lcells_len; auto).
  destruct (C15_restriction g hs d 0 G Hd jc jr ji jx j0) as (lm' & R0 & L1 & L2 & L3 & L4 & L5 & L6 & L7 & _ & L9). rewrite ER in R0. inversion R0; subst lm'. clear R0.
  rewrite L, Own in L2, L6.
  assert (BC : forall i, i < nelem m -> map (back lm) (cell (cells (l_m lm)) i) = cell (cells m) i).
  { intros i Hi. assert (K : nth i (map (map (back lm)) (cells (l_m lm))) [] = nth i (map (cell (cells (g_m g))) (seq 0 (nelem m))) []) by congruence.
    rewrite (map_nth_in _ _ (map (back lm)) (cells (l_m lm)) i [] []) in K by (fold (nelem (l_m lm)); lia). rewrite (map_nth_in _ _ (cell (cells (g_m g))) (seq 0 (nelem m)) i [] 0) in K by (rewrite seq_length; auto).
    rewrite seq_nth in K by auto. rewrite CS in K. exact K. }
  assert (LXl : alen (l_X lm) = npoin (l_m lm)) by (rewrite <- alist_length, L7, map_length, L4; auto).
  assert (BX : forall v, v < npoin (l_m lm) -> aat (l_X lm) v = aat X (back lm v)).
  { intros v Hv. rewrite <- (P_MeshUtil.nth_alist _ (l_X lm) v vzero) by lia. rewrite L7. rewrite (map_nth_in _ _ (aat (g_X g)) (l_p2g lm) v vzero 0) by lia. reflexivity. }
  assert (OK : mesh_ok lm hs).
  { split; auto. split; [|split; [auto|lia]]. intros c Hc. destruct (In_nth _ _ [] Hc) as (i & Hi & Ei). fold (nelem (l_m lm)) in Hi. rewrite NEl in Hi. specialize (BC i Hi). unfold cell at 1 in BC. rewrite Ei in BC.
    assert (K : List.length (map (back lm) c) = List.length (cell (cells m) i)) by congruence. rewrite map_length in K. rewrite K. apply H34, nth_In. exact Hi. }
  assert (NB : forall a b, nbr (cells (l_m lm)) a b <-> nbr (cells m) a b).
  { rewrite M. cbn [cells]. intros a b. unfold nbr. split; intros (f & A).
    - exists f. destruct (across_lt g d 0 a f b A) as (Ha & Hf & Hb). apply (lacross g d 0 a f b) in A; auto. rewrite !GC in A by lia. rewrite <- CS. exact A.
    - exists f. pose proof A as (Ha & _ & Hb & _). apply (lacross g d 0 a f b); [rewrite NL; exact Ha|rewrite NL; exact Hb|]. rewrite !GC by auto. rewrite CS. exact A. }
  assert (CT : forall a, a < nelem m -> centroid (l_X lm) (cell (cells (l_m lm)) a) = centroid X (cell (cells m) a)).
  { intros a Ha. unfold centroid. rewrite <- (BC a Ha). rewrite map_length.
    assert (VS : vsum (aat (l_X lm)) (cell (cells (l_m lm)) a) = vsum (aat X) (map (back lm) (cell (cells (l_m lm)) a))); [|rewrite VS; reflexivity].
    unfold vsum. rewrite !rsum_map. f_equal; apply rsum_ext; intros v Hv; rewrite BX; auto; apply (L3 (cell (cells (l_m lm)) a)); auto; apply nth_In; fold (nelem (l_m lm)); lia. }
  assert (CL : forall a b, nbr (cells (l_m lm)) a b -> closeness (l_m lm) (l_X lm) a b = closeness m X a b).
  { intros a b N. apply NB in N. destruct N as (f & (Ha & _ & Hb & _)). unfold closeness. rewrite !CT; auto. }
  destruct (preprocess_ok srt Hs registered Hr lm hs OK NC o k1 ghost k2 None None None) as (r & Er & H). exists r. split; auto. destruct r as [Q|]; auto.
  destruct H as (NR & p & hs' & Pp & Mv & Or & (T' & _) & Hb & PR). split; [|destruct Mv as (_ & _ & _ & _ & _ & V6 & _); rewrite V6, L, Own; reflexivity]. split; auto. rewrite NEl in Pp. exists p, hs'. split; auto. split; [apply (ordered_move (l_m lm) m hs (l_X lm) X NEl NB CL); auto|].
  destruct Mv as (V1 & V2 & (V3 & V3' & V3c & V3d) & V4 & V5 & V6 & V7).
  split; [|auto]. unfold same_mesh. rewrite V1, V3, V3c, V3d, V4, V7. assert (BK : back (pm_l Q) = back lm) by (unfold back; rewrite V7; auto).
  assert (BB : back_bf (pm_l Q) = back_bf lm) by (unfold back_bf; rewrite BK; auto). rewrite BK, BB.
  split; auto. split; [intros i Hi; rewrite V2 by lia; apply BC; apply (perm_bound (nelem m)); auto|]. split; auto. split; auto. split; [|split; [auto|split; auto]].
  - intros x. rewrite L6. split.
    + intros (i & Hi & Hx). apply in_seq in Hi. exists (cell (cells m) i). split; [apply nth_In; unfold nelem in Hi; lia|]. rewrite <- CS. exact Hx.
    + intros (c & Hc & Hx). destruct (In_nth _ _ [] Hc) as (i & Hi & Ei). exists i. split; [apply in_seq; unfold nelem; lia|]. unfold cell. rewrite CS, Ei. exact Hx.
  - assert (K : map (back_bf lm) (bfaces (l_m lm)) = bfaces m1).
    { rewrite L9. fold (owned_bf g d 0 hs). rewrite Obf. cbn [g_m g] in *. revert Lh. clear. generalize (bfaces m1). generalize hs. induction hs0 as [|h hh IH]; intros [|b bl] Lh; cbn in *; try lia; auto. f_equal. apply IH. lia. }
    rewrite <- K in F1. clear -F1. revert F1. generalize (bfaces (l_m lm)), (bfaces m). induction l as [|b l IH]; intros [|b' l'] F; inversion F; subst; constructor; auto.
Qed.
(** ** One process *)
Theorem C99_mesh_of_a_case : forall srt registered m hs X regs o kg k1 k2 je jc jr ji jx j0 ghost,
  mesh_file m hs X regs -> sorts_down srt -> (forall name f, registered name = Some f -> forall n ent, Permutation (f n ent) (seq 0 n)) ->
  exists r, constructMesh srt registered o 1 0 kg k1 k2 je jc jr ji jx j0 ghost m X regs = Some r /\
  match r with
  | Exn => refused registered o
  | Val P => ~ refused registered o /\ exists p hs', is_perm (nelem m) p /\ ordered registered o m hs X p /\ same_mesh m X p (pm_l P) /\
      tiled (l_m (pm_l P)) hs' /\ map (fun h => (aat p (fst h), snd h)) hs' = hs /\ prepared P hs'
  end.
Proof.
  intros srt registered m hs X regs o kg k1 k2 je jc jr ji jx j0 ghost MF Hs Hr. destruct (mesh_of_case srt registered m hs X regs o kg k1 k2 je jc jr ji jx j0 ghost MF Hs Hr) as (r & E & H). exists r. split; auto. destruct r; auto. apply H.
Qed.
Print Assumptions C99_mesh_of_a_case.

(** ** Several processes *)
(** point [v] is on a boundary face of a cell of [rank] *)
Definition boundary_point (m : umesh) (hs : list (nat * nat)) (d : arr nat) (rank v : nat) : Prop :=
  exists h, In h hs /\ aat d (fst h) = rank /\ let e := edge (cell (cells m) (fst h)) (snd h) in v = fst e \/ v = snd e.
(** between cells of [rank] and of other processes there is no face with both points on the boundary of [rank]: such a face would be taken for one of the
    boundary (finding C17_interfaces_refuted) *)
Definition interfaces_seen (m : umesh) (hs : list (nat * nat)) (d : arr nat) (rank : nat) : Prop :=
  forall i f j, across (cells m) i f j -> aat d i = rank -> aat d j <> rank ->
    let e := edge (cell (cells m) i) f in ~ (boundary_point m hs d rank (fst e) /\ boundary_point m hs d rank (snd e)).
(** [L] is made of the cells of [rank], in the order of the file *)
Definition part_mesh (m : umesh) (X : arr v2) (d : arr nat) (rank : nat) (L : lmesh) : Prop :=
  (StronglySorted lt (alist (l_eglob L)) /\ forall i, In i (alist (l_eglob L)) <-> i < nelem m /\ aat d i = rank) /\
  map (map (back L)) (cells (l_m L)) = map (cell (cells m)) (alist (l_eglob L)) /\
  npoin (l_m L) = List.length (l_p2g L) /\ alist (l_X L) = map (aat X) (l_p2g L) /\
  (forall cf, In cf (conns (l_m L)) -> exists j, across (cells m) (aat (l_eglob L) (cf_elem cf)) (cf_face cf) j /\ cf_rank cf = Z.of_nat (aat d j) /\ cf_gelem cf = Z.of_nat j /\ aat d j <> rank) /\
  (forall i f j, across (cells m) i f j -> aat d i = rank -> aat d j <> rank -> exists cf, In cf (conns (l_m L)) /\ aat (l_eglob L) (cf_elem cf) = i /\ cf_face cf = f).

Lemma floop_first S n (b : nat -> S -> option S) s : 0 < n -> (forall x, b 0 x = None) -> floop n b s = None.
Proof. intros Hn H. induction n as [|n IH]; [lia|]. cbn [floop]. destruct n as [|n]; [cbn; auto|]. rewrite IH by lia. reflexivity. Qed.
Lemma graph_past_end lm hs pp e ni s il : mesh_ok lm hs -> topo (l_m lm) hs pp e ni s il -> conns (l_m lm) <> [] -> petsc_graph (l_m lm) ni (intfac s) = None.
Proof.
  intros OK TO NC. pose proof (to_len _ _ _ _ _ _ _ TO) as TL. pose proof (to_ni _ _ _ _ _ _ _ TO) as NI. destruct (to_ranges _ _ _ _ _ _ _ TO) as (bl & cl & EF & Lb & Lc & _ & Hc & _).
  destruct (conns (l_m lm)) as [|cf r] eqn:EC; [congruence|]. assert (NN : 0 < nconnface (l_m lm)) by (unfold nconnface; rewrite EC; cbn; lia).
  assert (Hr : f_right (aat (intfac s) (nbface (l_m lm) + ni)) = nelem (l_m lm) + 0).
  { specialize (Hc 0 cf eq_refl). destruct cl as [|c0 cl]; [discriminate|]. cbn in Hc. inversion Hc; subst c0. rewrite <- (P_MeshUtil.nth_alist _ (intfac s) _ (conn_entry (l_m lm) 0 cf)) by lia. rewrite EF.
    rewrite app_nth2 by lia. rewrite app_nth2 by lia. replace (nbface (l_m lm) + ni - List.length bl - List.length il) with 0 by lia. reflexivity. }
  unfold petsc_graph. cbv zeta. destruct (floop _ _ _) as [s1|]; cbn [bind]; auto. destruct (frange (nbface (l_m lm)) _ _ _) as [s2|]; cbn [bind]; auto.
  unfold frange. apply floop_first; [lia|]. intros x. rewrite Nat.add_0_r. destruct (aget (intfac s) _) as [fc|] eqn:Ea; cbn [bind]; auto. unfold aget in Ea. destruct (_ <? _) in Ea; [|discriminate]. inversion Ea; subst fc.
  destruct (aget _ (f_left _)) as [y|]; cbn [bind]; auto. rewrite Hr. unfold aget. cbn [alen]. destruct (Nat.ltb_spec (nelem (l_m lm) + 0) (nelem (l_m lm))); [lia|reflexivity].
Qed.

Lemma own_ss g d rank : StronglySorted lt (own g d rank).
Proof.
  unfold own. generalize (seq_ss 0 (nelem (g_m g))). generalize (seq 0 (nelem (g_m g))). induction 1 as [|x l S IH F]; cbn; [constructor|]. destruct (aat d x =? rank); auto. constructor; auto.
  apply Forall_forall. intros y Hy. apply filter_In in Hy. rewrite Forall_forall in F. apply F, Hy.
Qed.
Section Parts.
Variables (srt : list (R * nat) -> list (R * nat)) (registered : string -> option (nat -> list (nat * Z) -> list nat)).
Variables (m : umesh) (hs : list (nat * nat)) (X : arr v2) (regs : arr (list Z)) (nranks rank : nat).
Hypothesis MF : mesh_file m hs X regs.
Hypothesis HN : rank < nranks <= nelem m.
Lemma part_ok je (kg : junk) jc jr ji jx j0 d : trivial_partition (nelem m) nranks je = Some d -> interfaces_seen m hs d rank -> exists lm hs', mesh_ok lm hs' /\ part_mesh m X d rank lm /\
  forall o k1 k2 ghost, constructMesh srt registered o nranks rank kg k1 k2 je jc jr ji jx j0 ghost m X regs = preprocessMesh srt registered o k1 k2 ghost (mkpm lm None None None).
Proof.
  intros Ed SE. pose proof MF as (_ & _ & _ & _ & _ & H34 & LX & LR & Hn).
  destruct (part_of srt registered m hs X regs MF nranks rank ltac:(lia) je kg jc jr ji jx j0) as (m1 & d' & t & lm & Ed' & Ld & G & C1 & N1 & M1 & F1 & ER & EC). rewrite Ed in Ed'. inversion Ed'; subst d'. clear Ed'.
  set (g := mkgm m1 t X regs) in *. assert (NE : nelem (g_m g) = nelem m) by (unfold g, nelem; cbn; rewrite C1; auto). assert (Hd : alen d = nelem (g_m g)) by congruence.
  assert (CS : cells (g_m g) = cells m) by exact C1.
  assert (SE' : forall i f j, interface g d rank i f j -> seen g hs d rank i f).
  { intros i f j (A & B & C). rewrite CS in A. intros (P1 & P2). rewrite CS in P1, P2. apply (SE i f j A B C).
    assert (W : forall v, rank_bnd g hs d rank v -> boundary_point m hs d rank v).
    { intros v (q & bf & h & E1 & E2 & E3 & E4). exists h. split; [eapply nth_error_In; eauto|]. split; auto. cbv zeta. rewrite <- CS. rewrite <- (tl_bor _ _ (gl_tiled _ _ G) q bf h E1 E2). exact E4. }
    split; apply W; auto. }
  destruct (restrict_ok g hs G d rank Hd jc jr ji jx j0) as (E & B & lm' & HE & HB1 & HB2 & R0 & M & XX & Rg & L & P). rewrite ER in R0. inversion R0; subst lm'. clear R0.
  assert (T : tiled (l_m lm) (lhs g hs d rank)) by (rewrite M; apply (local_tiled g hs G d rank Hd E HE B HB1 HB2 SE')).
  destruct (C15_restriction g hs d rank G Hd jc jr ji jx j0) as (lm' & R0 & L1 & L2 & L3 & L4 & L5 & L6 & L7 & _ & L9). rewrite ER in R0. inversion R0; subst lm'. clear R0.
  destruct (C17_connectivity_faces g hs d rank G Hd jc jr ji jx j0) as (lm' & R0 & K1 & K2 & _). rewrite ER in R0. inversion R0; subst lm'. clear R0.
  assert (NEl : nelem (l_m lm) = List.length (own g d rank)) by (rewrite M; unfold nelem at 1; cbn [cells]; apply lcells_len).
  assert (Lel : alen (l_eglob lm) = List.length (own g d rank)) by (rewrite <- alist_length, L; auto).
  exists lm, (lhs g hs d rank). split; [|split; [|exact EC]].
  - split; auto. split; [|split].
    + intros c Hc. assert (Hc' : In (map (back lm) c) (map (cell (cells (g_m g))) (alist (l_eglob lm)))) by (rewrite <- L2; apply in_map; auto). apply in_map_iff in Hc'. destruct Hc' as (i & Ei & Hi).
      rewrite L in Hi. apply (own_in g d rank) in Hi. rewrite <- (map_length (back lm) c), <- Ei, CS. apply H34, nth_In. rewrite NE in Hi. apply Hi.
    + rewrite <- alist_length, L7, map_length. auto.
    + rewrite NEl. destruct (C14_trivial_partition (nelem m) nranks je ltac:(lia)) as (d' & Ed' & _ & _ & _ & Hs). rewrite Ed in Ed'. inversion Ed'; subst d'. destruct (Hs ltac:(lia) rank ltac:(lia)) as (i & Hi & Er).
      assert (Io : In i (own g d rank)) by (apply own_in; rewrite NE; auto). destruct (own g d rank); [contradiction|cbn; lia].
  - split; [split|split; [|split; [auto|split; [auto|split]]]].
    + rewrite L. apply own_ss.
    + intros i. rewrite L, own_in, NE. tauto.
    + rewrite L2, CS. auto.
    + intros cf Hcf. apply K2 in Hcf. destruct Hcf as (i & j & f & q & -> & Hi & (A & B' & C) & _ & _). cbn [cf_elem cf_face cf_rank cf_gelem]. exists j. rewrite <- CS. auto.
    + intros i f j A Di Dj. assert (Io : In i (own g d rank)) by (apply own_in; rewrite NE; split; auto; apply A). rewrite <- L in Io. destruct (In_nth _ _ 0 Io) as (l & Hl & El). rewrite alist_length in Hl.
      rewrite (P_MeshUtil.nth_alist _ (l_eglob lm) l 0 Hl) in El. exists (mkcf l f (Z.of_nat (aat d j)) (Z.of_nat j) (Z.of_nat (at2 (elemface (g_t g)) i f))). cbn [cf_elem cf_face]. split; auto.
      apply K2. exists l, j, f, (at2 (elemface (g_t g)) i f). split; auto. split; [lia|]. cbv zeta. rewrite El. assert (I0 : interface g d rank i f j) by (split; [rewrite CS; auto|auto]). split; auto. split; [apply (SE' i f j); auto|auto].
Qed.
End Parts.

Theorem C99_part_of_a_case : forall srt registered m hs X regs nranks rank o kg k1 k2 je jc jr ji jx j0 ghost d,
  mesh_file m hs X regs -> rank < nranks <= nelem m -> trivial_partition (nelem m) nranks je = Some d -> interfaces_seen m hs d rank ->
  po_reorder o = None \/ reads o "natural" ->
  exists P hs', constructMesh srt registered o nranks rank kg k1 k2 je jc jr ji jx j0 ghost m X regs = Some (Val P) /\
    part_mesh m X d rank (pm_l P) /\ tiled (l_m (pm_l P)) hs' /\ prepared P hs'.
Proof.
  intros srt registered m hs X regs nranks rank o kg k1 k2 je jc jr ji jx j0 ghost d MF HN Ed SE Ho.
  destruct (part_ok srt registered m hs X regs nranks rank MF HN je kg jc jr ji jx j0 d Ed SE) as (lm & hs' & OK & PM & EC). rewrite EC, preprocess_two.
  assert (E1 : exists t M A, first_pass srt registered o k1 ghost (mkpm lm None None None) = Some (Val (mkpm lm t M A))).
  { unfold first_pass. destruct Ho as [->|Rn]; [eauto|]. apply reads_iff in Rn. destruct Rn as (given & -> & En). cbv zeta. rewrite <- En.
    destruct (tables lm hs' OK k1 None None None) as (pp & e & ni & s & il & M & ET & EM & TO & E1 & E2 & _). rewrite E1. cbn [ebind]. rewrite E2. cbn [ebind].
    change (String.eqb "natural" "line") with false. change (has_sub "line" "natural") with false. cbv iota. unfold petscReorder. cbn [pm_l pm_t pm_M pm_A lift ebind fst snd].
    match goal with |- context [spatial_ctor _ _ _ _ _ ?A' _ _ _] => destruct (ctor_sizes lm hs' OK k1 ghost pp e ni s M A' ET EM) as (sp & h & C1 & C2) end. rewrite C1. cbn [lift ebind]. rewrite C2. cbn [lift ebind].
    change (String.eqb "natural" "natural") with true. cbv iota. eauto. }
  destruct E1 as (t & M & A & ->). cbn [ebind]. destruct (finish lm hs' OK k2 t M A) as (P & EP & PL & PR). rewrite EP. exists P, hs'. rewrite PL. split; auto. split; auto. split; [apply OK|auto].
Qed.
Print Assumptions C99_part_of_a_case.

(** with an ordering of PETSc the vector of the assembly ends before the entry of the first ghost cell *)
Theorem C99_petsc_order_of_parts : forall srt registered m hs X regs nranks rank o name kg k1 k2 je jc jr ji jx j0 ghost d,
  mesh_file m hs X regs -> rank < nranks <= nelem m -> trivial_partition (nelem m) nranks je = Some d -> interfaces_seen m hs d rank ->
  (exists i f j, across (cells m) i f j /\ aat d i = rank /\ aat d j <> rank) -> reads o name -> ~ line_like name -> name <> "natural"%string ->
  constructMesh srt registered o nranks rank kg k1 k2 je jc jr ji jx j0 ghost m X regs = None.
Proof.
  intros srt registered m hs X regs nranks rank o name kg k1 k2 je jc jr ji jx j0 ghost d MF HN Ed SE (i & f & j & A & Di & Dj) Rn NL NN.
  destruct (part_ok srt registered m hs X regs nranks rank MF HN je kg jc jr ji jx j0 d Ed SE) as (lm & hs' & OK & PM & EC). rewrite EC, preprocess_two. clear EC.
  assert (NC : conns (l_m lm) <> []). { destruct PM as (_ & _ & _ & _ & _ & P). destruct (P i f j A Di Dj) as (cf & Hcf & _). intros Q. rewrite Q in Hcf. contradiction. }
  unfold first_pass. apply reads_iff in Rn. destruct Rn as (given & -> & En). cbv zeta. rewrite <- En.
  destruct (tables lm hs' OK k1 None None None) as (pp & e & ni & s & il & M & ET & EM & TO & E1 & E2 & _). rewrite E1. cbn [ebind]. rewrite E2. cbn [ebind].
  destruct (String.eqb_spec name "line") as [Q|_]; [destruct NL; exists EmptyString, EmptyString; rewrite Q; reflexivity|].
  destruct (has_sub "line" name) eqn:HS; [destruct NL; apply has_sub_iff; auto|]. unfold petscReorder. cbn [pm_l pm_t pm_M pm_A lift ebind fst snd].
  match goal with |- context [spatial_ctor _ _ _ _ _ ?A' _ _ _] => destruct (ctor_sizes lm hs' OK k1 ghost pp e ni s M A' ET EM) as (sp & h & C1 & C2) end. rewrite C1. cbn [lift ebind]. rewrite C2. cbn [lift ebind].
  destruct (String.eqb_spec name "natural"); [contradiction|]. rewrite (graph_past_end lm hs' pp e ni s il OK TO NC). reflexivity.
Qed.
Print Assumptions C99_petsc_order_of_parts.

(** ** Examples *)
(** the mesh of seven triangles of C17, one of its boundary faces written the other way round, with one point that belongs to no cell *)
Definition ring_f : umesh := mkmesh 7 (cells ring) 4 (match bfaces ring with b :: r => mkbf (b1 b) (b0 b) (btg b) :: r | [] => [] end) [].
Definition ring_fX : arr v2 := mkarr 7 (fun i => nth i [mkv 0 1; mkv (-1) (-1); mkv 1 (-1); mkv (-9) 3; mkv 0 (-12); mkv 9 3; mkv 5 5] vzero)%R.
Lemma ring_file : mesh_file ring_f ring_h ring_fX (mkarr 7 (fun _ => [1%Z])).
Proof.
  pose proof ring7_tiled as T. pose proof (tl_good _ _ T) as G. split; [|split; [|split; [|split; [|split; [|split; [|split; [|split; [|]]]]]]]].
  - split; [apply (gm_valid _ _ G)|apply (gm_conf _ _ G)|apply (gm_max _ _ G)| |intros cf []]. split; [reflexivity|]. intros k b h Eb Eh. destruct (gm_hosts _ _ G) as (_ & H). destruct k as [|k].
    + cbn in Eb, Eh. inversion Eb; inversion Eh; subst b h. destruct (H 0 (mkbf 3 4 [1%Z]) (2, 0) eq_refl eq_refl) as (A & B & C1 & C2 & C3 & C4). cbn [b0 b1 fst snd] in *. split; [exact B|]. split; [exact A|].
      split; [exact C1|]. split; [exact C2|]. split; [right; reflexivity|]. intros j Hj. apply C4. unfold has_both in *. cbn [cells ring_f ring7] in *. tauto.
    + apply (H (S k) b h); auto.
  - apply (tl_or _ _ T).
  - reflexivity.
  - pose proof (tl_nodup _ _ T) as N. cbn in N. exact N.
  - intros i f Hi Hf. destruct (tl_cover _ _ T i f Hi Hf) as [?|[?|(cf & [] & _)]]; auto.
  - intros c Hc. left. cbn in Hc. decompose [or] Hc; subst; try reflexivity; contradiction.
  - reflexivity.
  - reflexivity.
  - cbn; lia.
Qed.
(** one process: the reverse Cuthill-McKee ordering of PETSc, here any function that gives permutations *)
Definition rcm (n : nat) (_ : list (nat * Z)) : list nat := rev (seq 0 n).
Definition rcm_only (name : string) : option (nat -> list (nat * Z) -> list nat) := if String.eqb name "rcm" then Some rcm else None.
Lemma rcm_perm name f : rcm_only name = Some f -> forall n ent, Permutation (f n ent) (seq 0 n).
Proof. unfold rcm_only. destruct (String.eqb name "rcm"); intros E n ent; inversion E; subst. symmetry. apply Permutation_rev. Qed.
Lemma rcm_not_line : ~ line_like "rcm".
Proof. intros Q. apply has_sub_iff in Q. discriminate. Qed.
Definition rcm_opts : popts := mkpo (Some "rcm"%string) RAbsent.
Lemma reads_rcm : reads rcm_opts "rcm". Proof. apply reads_iff. exists "rcm"%string. split; reflexivity. Qed.
Theorem C99_example : forall kg k1 k2 je jc jr ji jx j0 ghost, exists P, constructMesh dsort rcm_only rcm_opts 1 0 kg k1 k2 je jc jr ji jx j0 ghost ring_f ring_fX (mkarr 7 (fun _ => [1%Z])) = Some (Val P) /\
  map (map (back (pm_l P))) (cells (l_m (pm_l P))) = rev (cells ring) /\ l_p2g (pm_l P) = seq 0 6 /\ map btg (bfaces (l_m (pm_l P))) = [[1%Z]; [2%Z]; [3%Z]].
Proof.
  intros kg k1 k2 je jc jr ji jx j0 ghost.
  destruct (C99_mesh_of_a_case dsort rcm_only ring_f ring_h ring_fX (mkarr 7 (fun _ => [1%Z])) rcm_opts kg k1 k2 je jc jr ji jx j0 ghost ring_file dsort_sorts rcm_perm) as (r & E & H).
  assert (UN : forall name, reads rcm_opts name -> name = "rcm"%string). { intros name Q. apply reads_iff in Q. destruct Q as (g & Q & ->). inversion Q; subst. reflexivity. }
  destruct r as [P|].
  2:{ destruct H as (name & Rn & Q). apply UN in Rn. subst name. destruct Q as [(Q & _)|(_ & _ & Q)]; [destruct (rcm_not_line Q)|discriminate]. }
  destruct H as (_ & p & hs' & Pp & Or & (S1 & S2 & S3 & S4 & S5 & _ & S7 & _) & _). exists P. split; auto.
  destruct Or as (_ & Or). destruct (Or _ reads_rcm) as (_ & _ & O3). destruct (O3 rcm_not_line) as [(Q & _)|(_ & f & ent & Ef & _ & Ep)]; [discriminate|]. inversion Ef; subst f. cbn in Ep.
  split; [|split].
  - pose proof (perm_len _ _ Pp) as Lp. apply (nth_ext _ _ [] []); [rewrite map_length; exact S1|]. intros i Hi. rewrite map_length in Hi. fold (nelem (l_m (pm_l P))) in Hi. rewrite S1 in Hi.
    rewrite (map_nth_in _ _ (map (back (pm_l P))) (cells (l_m (pm_l P))) i [] []) by (fold (nelem (l_m (pm_l P))); lia). fold (cell (cells (l_m (pm_l P))) i). rewrite S2 by auto.
    rewrite <- (P_MeshUtil.nth_alist _ p i 0) by lia. rewrite Ep. cbn in Hi. do 7 (destruct i as [|i]; [reflexivity|]). lia.
  - apply ss_ext; auto; [apply seq_ss|]. intros x. rewrite S5, in_seq. split.
    + intros (c & Hc & Hx). cbn in Hc. decompose [or] Hc; subst; cbn in Hx; lia.
    + intros Hx. destruct x as [|[|[|[|[|[|x]]]]]]; [| | | | | |lia]. all: first [exists [0;1;2]; cbn; tauto | exists [3;4;1]; cbn; tauto | exists [4;5;2]; cbn; tauto].
  - cbn in S7. inversion S7 as [|b b' l l' (_ & T1) F1]; subst. inversion F1 as [|b2 b2' l2 l2' (_ & T2) F2]; subst. inversion F2 as [|b3 b3' l3 l3' (_ & T3) F3]; subst. inversion F3; subst. cbn in *. congruence.
Qed.
Print Assumptions C99_example.

(** two processes *)
Definition two (i : nat) : nat := if i <? 3 then 0 else 1.
Lemma ring_two je : exists d, trivial_partition (nelem ring_f) 2 je = Some d /\ forall i, i < 7 -> aat d i = two i.
Proof. eexists. split; [reflexivity|]. intros i Hi. do 7 (destruct i as [|i]; [reflexivity|]). lia. Qed.
Lemma ring_seen d : (forall i, i < 7 -> aat d i = two i) -> interfaces_seen ring_f ring_h d 0.
Proof.
  intros D i f j A Di Dj. cbv zeta. intros (B1 & B2). pose proof A as (Hi & Hf & Hj & _). cbn in Hi, Hj. rewrite D in Di by auto. rewrite D in Dj by auto.
  assert (W : forall v, boundary_point ring_f ring_h d 0 v -> v = 3 \/ v = 4).
  { intros v (h & Hh & Dh & Q). cbn in Hh. destruct Hh as [<-|[<-|[<-|[]]]]; cbn [fst snd] in *; rewrite D in Dh by lia; try discriminate. cbn in Q. auto. }
  apply W in B1, B2. apply acrossb_ok in A. clear -Hi Hf Hj Di Dj A B1 B2. destruct i as [|[|[|i]]]; [| | |unfold two in Di; cbn in Di; discriminate].
  all: cbn in Hf; destruct f as [|[|[|f]]]; try lia; cbn in B1, B2; try lia.
  all: destruct j as [|[|[|[|[|[|[|j]]]]]]]; [| | | | | | |lia]; vm_compute in A; try discriminate A; vm_compute in Dj; vm_compute in B1; vm_compute in B2; first [congruence | destruct B1, B2; discriminate].
Qed.
Theorem C99_petsc_order_of_parts_refuted : exists m hs X regs o, mesh_file m hs X regs /\ 2 <= nelem m /\ ~ refused rcm_only o /\
  forall srt kg k1 k2 je jc jr ji jx j0 ghost, constructMesh srt rcm_only o 2 0 kg k1 k2 je jc jr ji jx j0 ghost m X regs = None.
Proof.
  exists ring_f, ring_h, ring_fX, (mkarr 7 (fun _ => [1%Z])), rcm_opts. split; [exact ring_file|]. split; [cbn; lia|]. split.
  - intros (name & Rn & Q). apply reads_iff in Rn. destruct Rn as (g & Eg & ->). inversion Eg; subst g. destruct Q as [(Q & _)|(_ & _ & Q)]; [destruct (rcm_not_line Q)|discriminate].
  - intros. destruct (ring_two je) as (d & Ed & D). apply (C99_petsc_order_of_parts srt rcm_only ring_f ring_h ring_fX _ 2 0 rcm_opts "rcm" kg k1 k2 je jc jr ji jx j0 ghost d ring_file); auto.
    + cbn; lia.
    + apply ring_seen; auto.
    + exists 2, 1, 3. split; [apply acrossb_ok; vm_compute; reflexivity|]. rewrite !D by lia. split; [reflexivity|discriminate].
    + exact reads_rcm.
    + exact rcm_not_line.
    + discriminate.
Qed.
Print Assumptions C99_petsc_order_of_parts_refuted.
