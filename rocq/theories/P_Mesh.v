(** Properties C01-C05: mesh topology. Vocabulary: S_Mesh.v. *)
From Coq Require Import List Arith Lia ZArith Bool.
From Verif Require Import Base M_Mesh S_Mesh Pf_Esup Pf_Esuel Pf_Host Pf_Faces Pf_Topo.
Import ListNotations.

(** C01 *)
Theorem C01_cells_around_points : forall m : umesh,
  (forall c v, In c (cells m) -> In v c -> v < npoin m) ->
  exists p e, elementsSurroundingPoints m = Some (p, e) /\
    alen p = npoin m + 1 /\ aat p 0 = 0 /\ alen e = aat p (npoin m) /\
    (forall k, k < npoin m -> aat p (k + 1) = aat p k + length (cells_around (cells m) k)) /\
    (forall k, k < npoin m -> aslice e (aat p k) (aat p (k + 1)) = cells_around (cells m) k).
Proof. exact esup_correct. Qed.
Print Assumptions C01_cells_around_points.
Example C01_ex : forall c v, In c (cells exm) -> In v c -> v < npoin exm.
Proof. intros c v Hc Hv. apply (ex_valid c Hc). auto. Qed.
(** what [cells_around] lists: cell i appears as often as it has k as a node, in increasing order *)
Theorem C01_meaning : forall cs k i,
  count_occ Nat.eq_dec (cells_around cs k) i
  = (if i <? length cs then count_occ Nat.eq_dec (nth i cs []) k else 0).
Proof.
  intros cs k i. unfold cells_around.
  assert (G : forall n s, count_occ Nat.eq_dec (flat_map (fun i => repeat i (count_occ Nat.eq_dec (nth i cs []) k)) (seq s n)) i
     = if (s <=? i) && (i <? s + n) then count_occ Nat.eq_dec (nth i cs []) k else 0).
  { induction n as [|n IH]; intros s; cbn [seq flat_map].
    - destruct (Nat.leb_spec s i); destruct (Nat.ltb_spec i (s + 0)); cbn; try lia.
    - rewrite count_occ_app, IH.
      destruct (Nat.eq_dec s i) as [<-|Hne].
      + rewrite count_occ_repeat_eq by reflexivity.
        destruct (Nat.leb_spec (S s) s); destruct (Nat.leb_spec s s); destruct (Nat.ltb_spec s (s + S n)); cbn; try lia.
      + rewrite count_occ_repeat_neq by auto.
        destruct (Nat.leb_spec (S s) i); destruct (Nat.leb_spec s i);
        destruct (Nat.ltb_spec i (S s + n)); destruct (Nat.ltb_spec i (s + S n)); cbn; try lia. }
  rewrite G. reflexivity.
Qed.
Print Assumptions C01_meaning.

(** C02 *)
Theorem C02_cell_neighbours : forall m : umesh,
  valid_cells (npoin m) (cells m) -> conforming (cells m) ->
  (forall c, In c (cells m) -> length c <= maxnfael m) -> forall junk,
  exists p e E, elementsSurroundingPoints m = Some (p, e) /\ elementsSurroundingElements m p e junk = Some E /\
    (forall i f, i < nelem m -> f < length (cell (cells m) i) ->
       (forall j, at2 E i f = Z.of_nat j <-> across (cells m) i f j) /\
       (at2 E i f = (-1)%Z <-> ~ exists j, across (cells m) i f j)) /\
    (forall i f j, i < nelem m -> f < length (cell (cells m) i) -> at2 E i f = Z.of_nat j ->
       j < nelem m /\ exists g, g < length (cell (cells m) j) /\ at2 E j g = Z.of_nat i /\
         same_edge (edge (cell (cells m) i) f) (edge (cell (cells m) j) g)).
Proof.
  intros m Hv Hc Hm junk. destruct (esup_correct m) as (p & e & E0 & Hes). { intros c v H H0. apply (Hv c H); auto. }
  destruct (esuel_correct m Hv Hc Hm p e junk Hes) as (E & E1 & R & C & H). exists p, e, E. split; auto. split; auto.
  assert (Mx : forall i, i < nelem m -> length (cell (cells m) i) <= maxnfael m) by (intros; apply Hm; apply nth_In; auto).
  split.
  - intros i f Hi Hf. apply H; auto. specialize (Mx i Hi). lia.
  - intros i f j Hi Hf Ej. specialize (Mx i Hi) as Mi. apply (H i f Hi ltac:(lia)) in Ej.
    destruct (across_sym _ _ _ _ Ej) as (g & Ag & Sg). pose proof Ag as (A1 & A2 & _). split; auto.
    exists g. split; auto. split; auto. specialize (Mx j A1). apply (H j g A1 ltac:(lia)); auto.
Qed.
Print Assumptions C02_cell_neighbours.
Example C02_ex : valid_cells (npoin exm) (cells exm) /\ conforming (cells exm) /\
  (forall c, In c (cells exm) -> length c <= maxnfael exm) /\ across (cells exm) 0 1 2.
Proof.
  destruct ex_good. do 3 (split; [auto|]). do 4 (split; [cbn; lia|]). exists 3. split; [cbn; lia|]. right; reflexivity.
Qed.

(** C03 *)
Theorem C03_face_list : forall (m : umesh) (hs : list (nat * nat)), good_mesh m hs ->
  forall j0 jf je jt, exists p e ninface s L,
  compute_topological m j0 jf je jt = Some (Val (p, e, (ninface, s))) /\
  (* the three ranges *)
  alen (intfac s) = nbface m + ninface + nconnface m /\
  (* boundary faces, in the order given, with their tags, the host cell on the left, a ghost index on the right *)
  (forall q bf h, nth_error (bfaces m) q = Some bf -> nth_error hs q = Some h ->
     aat (intfac s) q = mkface (fst h) (nelem m + nconnface m + q) (b0 bf) (b1 bf) /\ aat (btags s) q = btg bf) /\
  (* interior faces: each common edge of two cells exactly once, lower index left, oriented as in the left cell *)
  aslice (intfac s) (nbface m) (nbface m + ninface) = L /\ NoDup L /\
  (forall fc, In fc L <-> f_left fc < f_right fc /\
     exists f, across (cells m) (f_left fc) f (f_right fc) /\ (f_a fc, f_b fc) = edge (cell (cells m) (f_left fc)) f) /\
  (* connectivity faces *)
  (forall q cf, nth_error (conns m) q = Some cf ->
     aat (intfac s) (nbface m + ninface + q) =
     mkface (cf_elem cf) (nelem m + q) (fst (edge (cell (cells m) (cf_elem cf)) (cf_face cf)))
                                       (snd (edge (cell (cells m) (cf_elem cf)) (cf_face cf)))).
Proof.
  intros m hs G j0 jf je jt. destruct (topo_ok m hs G j0 jf je jt) as (p & e & E & s & _ & _ & T & _ & HE & A1 & A2 & A3 & A4 & _).
  destruct G as [Hv Hc Hm Hh Hcn].
  set (il := ibl (cells m) (at2 E) (ifs (cells m))) in *.
  exists p, e, (length il), s, il. split; [exact T|]. split; [exact A1|]. split; [exact A2|]. split.
  - apply (nth_ext _ _ (mkface 0 0 0 0) (mkface 0 0 0 0)).
    + unfold aslice. rewrite map_length, seq_length. lia.
    + intros k Hk. unfold aslice in *. rewrite map_length, seq_length in Hk.
      rewrite (nth_indep _ _ (aat (intfac s) 0)) by (rewrite map_length, seq_length; auto).
      rewrite map_nth, seq_nth by auto. apply A3. lia.
  - split; [apply (il_nodup m Hv E)|]. split; [|exact A4].
    intros fc. unfold il. rewrite (il_spec m Hm E HE). split; intros H.
    + destruct H as (f & B1 & B2 & B3). split; eauto.
    + destruct H as (B2 & f & B1 & B3). eauto.
Qed.
Print Assumptions C03_face_list.
Example C03_ex : good_mesh exm exh. Proof. exact ex_good. Qed.

(** C04 *)
Theorem C04_elemface : forall (m : umesh) (hs : list (nat * nat)), good_mesh m hs -> oriented (cells m) ->
  forall j0 jf je jt, exists p e ninface s,
  compute_topological m j0 jf je jt = Some (Val (p, e, (ninface, s))) /\
  forall i f, i < nelem m -> f < length (cell (cells m) i) ->
    (* the face is interior, on the physical boundary, or a connectivity face *)
    ((exists j, across (cells m) i f j) \/ In (i, f) hs \/
     (exists cf, In cf (conns m) /\ (cf_elem cf, cf_face cf) = (i, f))) ->
    let k := at2 (elemface s) i f in let fc := aat (intfac s) k in
    k < alen (intfac s) /\ same_edge (f_a fc, f_b fc) (edge (cell (cells m) i) f) /\
    ((f_left fc = i /\ at2 (esuel s) i f = Z.of_nat (f_right fc)) \/
     (f_right fc = i /\ at2 (esuel s) i f = Z.of_nat (f_left fc))).
Proof.
  intros m hs G Or j0 jf je jt. destruct (topo_ok m hs G j0 jf je jt) as (p & e & E & s & _ & _ & T & _ & HE & A1 & A2 & A3 & A4 & A5).
  exists p, e, (length (ibl (cells m) (at2 E) (ifs (cells m)))), s. split; [exact T|].
  intros i f Hi Hf Cov. cbv zeta. rewrite A1. apply A5; auto.
Qed.
Print Assumptions C04_elemface.
Example C04_ex : good_mesh exm exh /\ oriented (cells exm) /\ forall i f, i < nelem exm -> f < length (cell (cells exm) i) ->
    ((exists j, across (cells exm) i f j) \/ In (i, f) exh \/
     (exists cf, In cf (conns exm) /\ (cf_elem cf, cf_face cf) = (i, f))).
Proof.
  split; [exact ex_good|]. split; [exact ex_oriented|]. intros i f Hi Hf.
  assert (D : forall i f j, i < 3 -> j < 3 -> f < length (cell (cells exm) i) -> j <> i ->
    (exists g, g < length (cell (cells exm) j) /\ same_edge (edge (cell (cells exm) i) f) (edge (cell (cells exm) j) g)) -> across (cells exm) i f j).
  { intros. repeat split; auto. }
  cbn in Hi. destruct i as [|[|[|i]]]; try lia; cbn in Hf; destruct f as [|[|[|[|f]]]]; try lia.
  all: try (right; left; cbn; tauto).
  all: try (right; right; eexists; split; [left; reflexivity|reflexivity]).
  - left. exists 2. apply D; cbn; try lia. exists 3. split; [lia|]. right; reflexivity.
  - left. exists 1. apply D; cbn; try lia. exists 0. split; [lia|]. right; reflexivity.
  - left. exists 0. apply D; cbn; try lia. exists 2. split; [lia|]. right; reflexivity.
  - left. exists 0. apply D; cbn; try lia. exists 1. split; [lia|]. right; reflexivity.
Qed.

(** C05 *)
Theorem C05_boundary_orientation : forall (m : umesh) (hs : list (nat * nat)),
  valid_cells (npoin m) (cells m) -> hosts_ok m hs ->
  exists m', correctBoundaryFaceOrientation m = Some (Val m') /\
    cells m' = cells m /\ npoin m' = npoin m /\ nbface m' = nbface m /\
    (forall k bf h, nth_error (bfaces m) k = Some bf -> nth_error hs k = Some h ->
      exists bf', nth_error (bfaces m') k = Some bf' /\ btg bf' = btg bf /\
        (b0 bf', b1 bf') = edge (cell (cells m) (fst h)) (snd h)) /\
    correctBoundaryFaceOrientation m' = Some (Val m').
Proof.
  intros m hs Hv Hh. destruct (correct_orientation m hs Hv Hh) as (bl & E & L & I).
  eexists. split; [exact E|]. cbn [cells npoin bfaces]. split; auto. split; auto. split; auto. split.
  - intros k bf h Eb Eh. eexists. split; [apply I; eauto|]. split; auto.
  - eapply orientation_idem; eauto.
Qed.
Print Assumptions C05_boundary_orientation.

(** The host search itself: the unique host, undefined behaviour without a host, exception with several. *)
Theorem C05_host_search : forall (m : umesh) (p e : arr nat) (bf : bfrec),
  valid_cells (npoin m) (cells m) -> elementsSurroundingPoints m = Some (p, e) ->
  b0 bf < npoin m -> b1 bf < npoin m ->
  (forall i f, hosted (cells m) (b0 bf) (b1 bf) i f ->
     phyBFaceNeighboringElement m p e bf = Some (Val (i, Some f))) /\
  ((forall j, ~ has_both (cells m) (b0 bf) (b1 bf) j) -> phyBFaceNeighboringElement m p e bf = None) /\
  (forall i j, i <> j -> has_both (cells m) (b0 bf) (b1 bf) i -> has_both (cells m) (b0 bf) (b1 bf) j ->
     phyBFaceNeighboringElement m p e bf = Some Exn).
Proof.
  intros m p e bf Hv E H0 H1. destruct (esup_correct m) as (p' & e' & E' & Hes). { intros c v Hc Hvv. apply (Hv c Hc); auto. }
  rewrite E in E'. inversion E'; subst p' e'.
  split; [|split]; intros; [eapply host_one|eapply host_none|eapply host_many]; eauto.
Qed.
Print Assumptions C05_host_search.
Example C05_ex : hosts_ok exm exh /\ hosted (cells exm) 3 2 1 1 /\ (forall j, ~ has_both (cells exm) 3 4 j).
Proof.
  destruct ex_good as [_ _ _ H _]. split; auto. split.
  - destruct H as (_ & H). apply (H 4 _ (1,1) eq_refl eq_refl).
  - intros j (H1 & H2 & H3). cbn in H1. destruct j as [|[|[|j]]]; try lia; cbn in H2, H3; intuition discriminate.
Qed.
