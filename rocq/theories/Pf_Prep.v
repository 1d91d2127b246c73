(** The mesh a case is run on: permuting the cells keeps a mesh tiled, the tables of a prepared mesh, the graph handed to PETSc, and the cases of
    preprocessMesh. *)
From Coq Require Import Reals Lra List Arith Lia ZArith Bool Permutation Sorted String Ascii.
From Verif Require Import Base BaseR BaseSum M_Mesh M_Geom M_Space M_Resid M_Diff M_MeshUtil M_Part M_Prep S_Mesh S_Geom Pf_Esup Pf_Esuel Pf_Host Pf_Faces Pf_Topo Pf_Incid Pf_Full
  Pf_Geom Pf_Space Pf_Reorder Pf_Periodic Pf_Part Pf_Lines P_MeshUtil Pf_Lines2 P_Lines P_Part.
Import ListNotations.
Open Scope nat_scope.
Notation length := List.length.

(** ** Cells in another order *)
Section Reord.
Variables (m : umesh) (hs : list (nat * nat)) (p : arr nat) (m' : umesh).
Hypothesis T : tiled m hs.
Hypothesis NC : conns m = [].
Hypothesis P : is_perm (nelem m) p.
Hypothesis N' : nelem m' = nelem m.
Hypothesis C' : forall i, i < nelem m -> cell (cells m') i = cell (cells m) (aat p i).
Hypothesis Rest : npoin m' = npoin m /\ maxnfael m' = maxnfael m /\ bfaces m' = bfaces m /\ conns m' = conns m.
Definition inv (i : nat) : nat := idx (alist p) i.
Definition hs_perm : list (nat * nat) := map (fun h => (inv (fst h), snd h)) hs.

Lemma inv_ok i : i < nelem m -> inv i < nelem m /\ aat p (inv i) = i.
Proof.
  intros Hi. assert (Hin : In i (alist p)) by (apply (Permutation_in _ (Permutation_sym P)), in_seq; lia).
  destruct (idx_ok _ _ Hin) as (A & B). rewrite alist_length, (perm_len _ _ P) in A. split; auto. unfold inv. rewrite <- B at 2. symmetry. apply P_MeshUtil.nth_alist. rewrite (perm_len _ _ P). auto.
Qed.
Lemma inv_p i : i < nelem m -> inv (aat p i) = i.
Proof. intros Hi. pose proof (perm_bound _ _ _ P Hi) as B. destruct (inv_ok _ B). apply (perm_inj _ _ _ _ P); auto. Qed.
Lemma hs_lt c f : In (c, f) hs -> c < nelem m /\ f < length (cell (cells m) c).
Proof.
  intros H. apply In_nth_error in H. destruct H as (k & Hk). destruct (gm_hosts _ _ (tl_good _ _ T)) as (L & HH).
  destruct (nth_error_some _ (bfaces m) k) as (bf & Eb). { unfold nbface in L. rewrite <- L. apply nth_error_Some. congruence. }
  destruct (HH k bf (c, f) Eb Hk) as (_ & _ & (A & B & _)). cbn in *. auto.
Qed.
Lemma perm_cells c : In c (cells m') -> In c (cells m).
Proof.
  intros H. apply (In_nth _ _ []) in H. destruct H as (i & Hi & <-). fold (nelem m') in Hi. rewrite N' in Hi. change (nth i (cells m') []) with (cell (cells m') i). rewrite C' by auto.
  apply nth_In. apply (perm_bound _ _ _ P Hi).
Qed.
Lemma perm_across i f j : i < nelem m -> j < nelem m -> (across (cells m') i f j <-> across (cells m) (aat p i) f (aat p j)).
Proof. apply reorder_across; auto. Qed.
Lemma across_bounds i f j : across (cells m') i f j -> i < nelem m /\ j < nelem m.
Proof. intros (A & _ & B & _). fold (nelem m') in A, B. rewrite N' in A, B. auto. Qed.

Lemma perm_tiled : tiled m' hs_perm.
Proof.
  pose proof T as [G Or Bo Nd Cn Cv]. destruct G as [Gv Gc Gm Gh Gn]. destruct Rest as (R1 & R2 & R3 & R4).
  assert (Hk : forall k h', nth_error hs_perm k = Some h' -> exists h, nth_error hs k = Some h /\ h' = (inv (fst h), snd h) /\ fst h < nelem m).
  { intros k h' H. unfold hs_perm in H. rewrite nth_error_map in H. destruct (nth_error hs k) as [h|] eqn:Eh; [|discriminate]. cbn in H. inversion H; subst. exists h. split; auto. split; auto.
    destruct h as (c & f). apply (hs_lt c f). eapply nth_error_In; eauto. }
  split.
  - split.
    + intros c Hc. rewrite R1. apply Gv, perm_cells; auto.
    + intros i f j j' A B. destruct (across_bounds _ _ _ A) as (Hi & Hj). destruct (across_bounds _ _ _ B) as (_ & Hj'). apply perm_across in A; auto. apply perm_across in B; auto.
      apply (perm_inj _ _ _ _ P Hj Hj'). eapply Gc; eauto.
    + intros c Hc. rewrite R2. apply Gm, perm_cells; auto.
    + split; [unfold hs_perm, nbface; rewrite map_length, R3; apply Gh|]. intros k bf h' Eb Eh. rewrite R3 in Eb. destruct (Hk k h' Eh) as (h & Eh0 & -> & Hh).
      destruct (proj2 Gh k bf h Eb Eh0) as (B1 & B2 & (H1 & H2 & H3 & H4)). rewrite R1. split; auto. split; auto. cbn [fst snd]. destruct (inv_ok _ Hh) as (I1 & I2).
      split; [fold (nelem m'); lia|]. rewrite C', I2 by auto. split; auto. split; auto. intros j (J1 & J2 & J3). fold (nelem m') in J1. rewrite N' in J1. rewrite C' in J2, J3 by auto.
      rewrite <- (inv_p j J1). f_equal. apply H4. split; auto. apply (perm_bound _ _ _ P J1).
    + intros cf Hcf. rewrite R4, NC in Hcf. destruct Hcf.
  - intros i f j g Hi Hj Hne Hf Hg Se. fold (nelem m') in Hi, Hj. rewrite N' in Hi, Hj. rewrite !C' in * by auto. apply (Or (aat p i) f (aat p j) g); auto; try (apply (perm_bound _ _ _ P); auto).
    intros E. apply Hne. apply (perm_inj _ _ _ _ P); auto.
  - intros k bf h' Eb Eh. rewrite R3 in Eb. destruct (Hk k h' Eh) as (h & Eh0 & -> & Hh). cbn [fst snd]. destruct (inv_ok _ Hh) as (I1 & I2). rewrite C', I2 by auto. apply (Bo k); auto.
  - rewrite R4, NC. cbn [map]. rewrite app_nil_r. rewrite NC in Nd. cbn [map] in Nd. rewrite app_nil_r in Nd. unfold hs_perm.
    assert (Inj : forall x y, In x hs -> In y hs -> (inv (fst x), snd x) = (inv (fst y), snd y) -> x = y).
    { intros (a & f) (b & g) Ha Hb E. cbn [fst snd] in E. inversion E; subst. apply hs_lt in Ha, Hb. f_equal. destruct (inv_ok a), (inv_ok b); try tauto. congruence. }
    clear - Nd Inj. induction hs as [|x l IH]; cbn; [constructor|]. inversion Nd; subst. constructor.
    + intros Hin. apply in_map_iff in Hin. destruct Hin as (y & E & Hy). assert (y = x) by (apply Inj; cbn; auto). subst. contradiction.
    + apply IH; auto. intros; apply Inj; cbn; auto.
  - intros cf j Hcf. rewrite R4, NC in Hcf. destruct Hcf.
  - intros i f Hi Hf. rewrite N' in Hi. rewrite C' in Hf by auto. pose proof (perm_bound _ _ _ P Hi) as Hp. destruct (Cv (aat p i) f Hp Hf) as [(j & A)|[H|(cf & Hcf & _)]].
    + left. assert (Hj : j < nelem m) by apply A. destruct (inv_ok j Hj) as (I1 & I2). exists (inv j). apply perm_across; auto. rewrite I2. auto.
    + right; left. unfold hs_perm. apply in_map_iff. exists (aat p i, f). cbn [fst snd]. rewrite inv_p by auto. auto.
    + rewrite NC in Hcf. destruct Hcf.
Qed.
Lemma hs_back : map (fun h => (aat p (fst h), snd h)) hs_perm = hs.
Proof.
  unfold hs_perm. rewrite map_map. rewrite <- (map_id hs) at 2. apply map_ext_in. intros (c & f) H. cbn [fst snd]. apply hs_lt in H. destruct (inv_ok c) as (_ & ->); tauto.
Qed.
End Reord.

Lemma reorder_full lm p : is_perm (nelem (l_m lm)) p -> exists lm', reorder_lmesh lm p = Some lm' /\
  nelem (l_m lm') = nelem (l_m lm) /\ (forall i, i < nelem (l_m lm) -> cell (cells (l_m lm')) i = cell (cells (l_m lm)) (aat p i)) /\
  (npoin (l_m lm') = npoin (l_m lm) /\ maxnfael (l_m lm') = maxnfael (l_m lm) /\ bfaces (l_m lm') = bfaces (l_m lm) /\ conns (l_m lm') = conns (l_m lm)) /\
  l_X lm' = l_X lm /\ l_regs lm' = l_regs lm /\ l_eglob lm' = l_eglob lm /\ l_p2g lm' = l_p2g lm.
Proof.
  intros P. destruct (reorder_l_ok lm p) as (lm' & E & A & B & _). { apply perm_len; auto. } { intros i Hi. apply perm_bound; auto. }
  exists lm'. split; auto. split; auto. split; auto. unfold reorder_lmesh in E. apply bind_some in E. destruct E as (C & _ & E). inversion E; subst lm'. cbn. auto 10.
Qed.

(** ** The members of a prepared mesh *)
Definition mesh_ok (lm : lmesh) (hs : list (nat * nat)) : Prop :=
  tiled (l_m lm) hs /\ (forall c, In c (cells (l_m lm)) -> length c = 3 \/ length c = 4) /\ alen (l_X lm) = npoin (l_m lm) /\ 0 < nelem (l_m lm).

(** the members are those computed from the mesh as it is *)
Definition prepared (P : pmesh) (hs : list (nat * nat)) : Prop :=
  exists ni s M A, pm_t P = Some (ni, s) /\ pm_M P = Some M /\ pm_A P = Some A /\
  (exists pp e il, topo (l_m (pm_l P)) hs pp e ni s il) /\
  (alen M = alen (intfac s) /\ forall k, k < alen (intfac s) -> aat M k = face_metric (aat (l_X (pm_l P)) (f_a (aat (intfac s) k))) (aat (l_X (pm_l P)) (f_b (aat (intfac s) k)))) /\
  (alen A = nelem (l_m (pm_l P)) /\ forall i, i < nelem (l_m (pm_l P)) -> aat A i = polygon_area (map (aat (l_X (pm_l P))) (cell (cells (l_m (pm_l P))) i))) /\
  (forall ghost jc jb, exists S, spatial_ctor (l_m (pm_l P)) (l_X (pm_l P)) ni s M A ghost jc jb = Some S /\ built (l_m (pm_l P)) hs (l_X (pm_l P)) ghost S).

Section Tables.
Variables (lm : lmesh) (hs : list (nat * nat)).
Hypothesis OK : mesh_ok lm hs.
Notation m := (l_m lm).

Lemma tables k M0 A0 t0 : exists pp e ni s il M, compute_topological m (k_0 k) (k_f k) (k_e k) (k_t k) = Some (Val (pp, e, (ni, s))) /\ compute_face_data (l_X lm) (intfac s) (k_m k) = Some M /\ topo m hs pp e ni s il /\
  do_topological k (mkpm lm t0 M0 A0) = Some (Val (mkpm lm (Some (ni, s)) M0 A0)) /\
  (forall M1 A1, do_face_data k (mkpm lm (Some (ni, s)) M1 A1) = Some (Val (mkpm lm (Some (ni, s)) (Some M) A1))) /\
  alen M = alen (intfac s) /\ forall q, q < alen (intfac s) -> aat M q = face_metric (aat (l_X lm) (f_a (aat (intfac s) q))) (aat (l_X lm) (f_b (aat (intfac s) q))).
Proof.
  destruct OK as (T & H34 & LX & _). destruct (topo_full m hs T (k_0 k) (k_f k) (k_e k) (k_t k)) as (pp & e & ni & s & il & TT & TO).
  pose proof (tl_good _ _ T) as G. pose proof (gm_valid _ _ G) as Hv. pose proof (to_ranges _ _ _ _ _ _ _ TO) as HR.
  assert (Hb : forall q, (q < alen (intfac s))%nat -> (f_a (aat (intfac s) q) < alen (l_X lm))%nat /\ (f_b (aat (intfac s) q) < alen (l_X lm))%nat).
  { intros q Hq. destruct (face_points m hs _ il T HR (aat (intfac s) q)) as (j & f & Hj & Hf & El & Ee). { unfold alist. apply in_map. apply in_seq. lia. }
    destruct (cell_valid _ _ j Hv Hj) as (_ & _ & Hn). destruct (Pf_Geom.edge_in _ _ j f Hv Hj Hf) as (I1 & I2). rewrite <- Ee in I1, I2. rewrite LX. split; apply Hn; auto. }
  destruct (face_data_ok (l_X lm) (intfac s) (k_m k) Hb) as (M & EM & LM & IM).
  exists pp, e, ni, s, il, M. split; auto. split; auto. split; auto. split; [|split; [|split; auto]].
  - unfold do_topological. cbn [pm_l]. rewrite TT. reflexivity.
  - intros M1 A1. unfold do_face_data. cbn [pm_t pm_l snd]. cbn [lift ebind snd]. rewrite EM. reflexivity.
Qed.
Lemma areas k : exists A, compute_areas m (l_X lm) (k_a k) = Some A /\ (forall t M A0, do_areas k (mkpm lm t M A0) = Some (Val (mkpm lm t M (Some A)))) /\ alen A = nelem m /\
  forall i, i < nelem m -> aat A i = polygon_area (map (aat (l_X lm)) (cell (cells m) i)).
Proof.
  destruct OK as (T & H34 & LX & _). destruct (areas_ok m (l_X lm) (k_a k)) as (A & EA & LA & IA).
  { intros c Hc. split; auto. rewrite LX. intros v Hv. apply (gm_valid _ _ (tl_good _ _ T) c Hc); auto. }
  exists A. split; auto. split; auto. intros t M A0. unfold do_areas. cbn [pm_l pm_t pm_M]. rewrite EA. reflexivity.
Qed.
(** the second pass *)
Lemma finish k t0 M0 A0 : exists P, (Pt <-- do_topological k (mkpm lm t0 M0 A0) ;; Pa <-- do_areas k Pt ;; do_face_data k Pa) = Some (Val P) /\ pm_l P = lm /\ prepared P hs.
Proof.
  destruct (tables k M0 A0 t0) as (pp & e & ni & s & il & M & CT & CF & TO & ET & EF & LM & IM). destruct (areas k) as (A & CA & EA & LA & IA).
  rewrite ET. cbn [ebind]. rewrite EA. cbn [ebind]. rewrite EF. eexists; split; [reflexivity|]. split; [reflexivity|].
  exists ni, s, M, A. cbn [pm_l pm_t pm_M pm_A]. do 3 (split; [reflexivity|]). split; [eauto|]. split; [auto|]. split; [auto|].
  intros ghost jc jb. destruct OK as (T & H34 & LX & _).
  destruct (setup_ok m hs (l_X lm) ghost (k_0 k) (k_f k) (k_e k) (k_t k) (k_m k) (k_a k) jc jb T H34 LX) as (pp' & e' & ni' & s' & il' & S & ET' & _ & ES & _).
  exists S. split; [|split; [|split; [|split; [|do 8 eexists; exact ES]]]]; auto. unfold setup in ES. rewrite CT, CF, CA in ES. cbn [bind] in ES. apply bind_some in ES. destruct ES as (S' & EC & ES). inversion ES; subst. auto.
Qed.
Lemma max_pos : 0 < maxnfael m.
Proof.
  destruct OK as (T & H34 & _ & Hn). assert (Hin : In (cell (cells m) 0) (cells m)) by (apply nth_In; auto). pose proof (gm_max _ _ (tl_good _ _ T) _ Hin). destruct (H34 _ Hin); lia.
Qed.

(** ** The graph handed to PETSc *)
Definition graph_of (m : umesh) (ent : list (nat * Z)) : Prop :=
  (forall i z, In (i, z) ent -> i < nelem m /\ exists j, j < nelem m /\ z = Z.of_nat j) /\
  (forall i j, i < nelem m -> j < nelem m -> (In (i, Z.of_nat j) ent <-> i = j \/ nbr (cells m) i j)).

Lemma frange_same S a (b : nat -> S -> option S) s : frange a (a + 0) b s = Some s.
Proof. unfold frange. replace (a + 0 - a) with 0 by lia. reflexivity. Qed.

Lemma petsc_graph_ok pp e ni s il : conns m = [] -> topo m hs pp e ni s il -> exists ent, petsc_graph m ni (intfac s) = Some ent /\ graph_of m ent.
Proof.
  intros NC TO. destruct OK as (T & H34 & LX & _). pose proof (to_len _ _ _ _ _ _ _ TO) as TL. pose proof (to_ni _ _ _ _ _ _ _ TO) as NI.
  destruct (to_ranges _ _ _ _ _ _ _ TO) as (bl & cl & EF & Lb & Lc & Hb & _ & _ & Hi).
  set (n := nelem m) in *.
  assert (At : forall k d, k < alen (intfac s) -> aat (intfac s) k = nth k (bl ++ il ++ cl) d). { intros k d Hk. rewrite <- EF. symmetry. apply P_MeshUtil.nth_alist; auto. }
  assert (Int : forall k, nbface m <= k < nbface m + ni -> In (aat (intfac s) k) il).
  { intros k Hk. rewrite (At k (aat (intfac s) k)) by lia. rewrite app_nth2 by lia. rewrite app_nth1 by lia. apply nth_In. lia. }
  assert (Left : forall k, k < alen (intfac s) -> f_left (aat (intfac s) k) < n) by (eapply face_left_lt; eauto).
  unfold petsc_graph. fold n.
  match goal with |- context [floop _ ?bb ?ss] =>
    destruct (floop_inv _ (fun j (l : list (nat * Z)) => forall i z, In (i, z) l <-> exists k, k < j /\ i = f_left (aat (intfac s) k) /\ z = Z.of_nat i) (nbface m) bb ss) as (s1 & E1 & I1) end.
  { intros i z. split; [intros []|intros (k & Hk & _); lia]. }
  { intros k l Hk I. rewrite aget_ok by lia. cbn [bind]. rewrite aget_ok by (apply Left; lia). cbn [bind]. eexists; split; [reflexivity|]. intros i z. rewrite in_app_iff, I. cbn [In]. split.
    - intros [(k' & Hk' & Q)|[Q|[]]]; [exists k'; split; [lia|auto]|inversion Q; subst; exists k; split; [lia|auto]].
    - intros (k' & Hk' & -> & ->). destruct (Nat.eq_dec k' k) as [->|]; [auto|left; exists k'; split; [lia|auto]]. }
  rewrite E1. cbn [bind].
  match goal with |- context [frange (nbface m) _ ?bb ?ss] =>
    destruct (frange_inv _ (fun j (l : list (nat * Z)) => forall i z, In (i, z) l <-> In (i, z) s1 \/ exists k, nbface m <= k < j /\ let a := f_left (aat (intfac s) k) in let b := f_right (aat (intfac s) k) in
      (i = a \/ i = b) /\ (z = Z.of_nat a \/ z = Z.of_nat b)) (nbface m) (nbface m + ni) bb ss) as (s2 & E2 & I2) end.
  { lia. } { intros i z. split; [auto|intros [?|(k & Hk & _)]; [auto|lia]]. }
  { intros k l Hk I. rewrite aget_ok by lia. cbn [bind]. rewrite aget_ok by (apply Left; lia). cbn [bind].
    destruct (proj1 (Hi _) (Int k Hk)) as (f & (_ & _ & Hr & _) & _). fold n in Hr. rewrite aget_ok by auto. cbn [bind]. eexists; split; [reflexivity|]. intros i z. rewrite in_app_iff, I. cbn [In]. split.
    - intros [[?|(k' & Hk' & Q)]|Q]; [auto|right; exists k'; split; [lia|auto]|]. right. exists k. split; [lia|]. cbv zeta. destruct Q as [Q|[Q|[Q|[Q|[]]]]]; inversion Q; subst; auto.
    - intros [?|(k' & Hk' & Q)]; [auto|]. destruct (Nat.eq_dec k' k) as [->|]; [|left; right; exists k'; split; [lia|auto]]. right. cbv zeta in Q. destruct Q as ([->| ->] & [->| ->]); auto. }
  rewrite E2. cbn [bind]. unfold nconnface. rewrite NC. cbn [length]. rewrite frange_same. eexists; split; [reflexivity|].
  assert (Pair : forall i f j, across (cells m) i f j -> exists k, nbface m <= k < nbface m + ni /\ (f_left (aat (intfac s) k) = i /\ f_right (aat (intfac s) k) = j \/ f_left (aat (intfac s) k) = j /\ f_right (aat (intfac s) k) = i)).
  { assert (W : forall i f j, across (cells m) i f j -> i < j -> exists k, nbface m <= k < nbface m + ni /\ f_left (aat (intfac s) k) = i /\ f_right (aat (intfac s) k) = j).
    { intros i f j A L. set (fc := mkface i j (fst (edge (cell (cells m) i) f)) (snd (edge (cell (cells m) i) f))).
      assert (Hin : In fc il). { apply Hi. exists f. cbn [fc f_left f_right f_a f_b]. split; auto. }
      apply (In_nth _ _ fc) in Hin. destruct Hin as (q & Hq & Eq). exists (nbface m + q). split; [lia|]. rewrite (At (nbface m + q) fc) by lia. rewrite app_nth2 by lia. rewrite app_nth1 by lia.
      replace (nbface m + q - length bl) with q by lia. rewrite Eq. auto. }
    intros i f j A. pose proof A as (_ & _ & _ & Ne & _). destruct (Nat.lt_total i j) as [L|[->|L]]; [|congruence|].
    - destruct (W i f j A L) as (k & Hk & Q). eauto.
    - assert (Nb : nbr (cells m) j i) by (apply nbr_sym; exists f; auto). destruct Nb as (g & B). destruct (W j g i B L) as (k & Hk & Q). eauto. }
  split.
  - intros i z H. apply I2 in H. destruct H as [H|(k & Hk & Q)].
    + apply I1 in H. destruct H as (k & Hk & -> & ->). specialize (Left k ltac:(lia)). split; eauto.
    + cbv zeta in Q. destruct (proj1 (Hi _) (Int k Hk)) as (f & (Hl & _ & Hr & _) & _). fold n in Hl, Hr. destruct Q as ([->| ->] & [->| ->]); split; eauto.
  - intros i j Hi' Hj'. rewrite I2. split.
    + intros [H|(k & Hk & Q)].
      * apply I1 in H. destruct H as (k & Hk & -> & E). left. lia.
      * cbv zeta in Q. destruct (proj1 (Hi _) (Int k Hk)) as (f & A & _). destruct (Nat.eq_dec i j); auto. right.
        destruct Q as ([->| ->] & [Q|Q]); apply Nat2Z.inj in Q; subst; try congruence; [exists f; auto|]. apply nbr_sym. exists f; auto.
    + intros [->|(f & A)].
      * assert (Hin : In (cell (cells m) j) (cells m)) by (apply nth_In; auto).
        destruct (tl_cover _ _ T j 0 Hj') as [(d & A)|[Hh|(cf & Hcf & _)]]; [destruct (H34 _ Hin); lia| | |rewrite NC in Hcf; destruct Hcf].
        -- destruct (Pair _ _ _ A) as (k & Hk & Q). right. exists k. split; auto. cbv zeta. destruct Q as [(-> & ->)|(-> & ->)]; auto.
        -- left. apply I1. apply In_nth_error in Hh. destruct Hh as (q & Hq). pose proof (gm_hosts _ _ (tl_good _ _ T)) as (Lh & _).
           assert (Lq : q < nbface m) by (rewrite <- Lh; apply nth_error_Some; congruence). destruct (bnd_left m hs pp e ni s il T TO q Lq) as (f' & Hf'). rewrite Hq in Hf'. inversion Hf'; subst. exists q. auto.
      * destruct (Pair _ _ _ A) as (k & Hk & Q). right. exists k. split; auto. cbv zeta. destruct Q as [(-> & ->)|(-> & ->)]; auto.
Qed.

(** ** The constructor of the diffusion operator *)
Lemma ctor_sizes k ghost pp e ni s M A' : compute_topological m (k_0 k) (k_f k) (k_e k) (k_t k) = Some (Val (pp, e, (ni, s))) -> compute_face_data (l_X lm) (intfac s) (k_m k) = Some M ->
  exists sp h, spatial_ctor m (l_X lm) ni s M A' ghost (k_c k) (k_b k) = Some sp /\ diff_sizes sp = Some h.
Proof.
  intros ET EM. destruct OK as (T & H34 & LX & _).
  destruct (setup_ok m hs (l_X lm) ghost (k_0 k) (k_f k) (k_e k) (k_t k) (k_m k) (k_a k) (k_c k) (k_b k) T H34 LX) as (pp' & e' & ni' & s' & il & S & ET' & _ & ES & SO & _).
  rewrite ET in ET'. inversion ET'; subst pp' e' ni' s'. unfold setup in ES. rewrite ET, EM in ES. cbn [bind] in ES. apply bind_some in ES. destruct ES as (A & _ & ES). apply bind_some in ES. destruct ES as (S' & EC & ES).
  inversion ES; subst S'. clear ES. unfold spatial_ctor in *. apply bind_some in EC. destruct EC as (C & E1 & EC). rewrite E1. cbn [bind] in EC |- *. cbv zeta in EC |- *. apply bind_some in EC. destruct EC as (gr & E2 & EC). rewrite E2. cbn [bind] in EC |- *.
  apply bind_some in EC. destruct EC as (rb & E3 & EC). rewrite E3. cbn [bind]. inversion EC. clear EC. rename H0 into ES. 
  eexists. cut (exists h, diff_sizes S = Some h).
  { intros (h & Eh). exists h. split; [reflexivity|]. rewrite <- Eh, <- ES. reflexivity. }
  clear ES. unfold diff_sizes.
  match goal with |- context [floop _ ?bb ?ss] => destruct (floop_inv _ (fun j (a : arr R) => alen a = sm_ne S) (sm_ne S) bb ss) as (h & Eh & _) end; [reflexivity| |eauto].
  intros i a Hi La. destruct (so_tab _ SO) as (T1 & _ & T3). specialize (T3 i Hi).
  assert (Ec : exists h, cell_size S i = Some h).
  { unfold cell_size. rewrite aget_ok by (rewrite (so_nf _ SO); auto). cbn [bind].
    match goal with |- context [floop ?n ?bb ?ss] => destruct (floop_inv _ (fun _ (_ : R) => True) n bb ss) as (h & Eh & _) end; [exact Logic.I| |eauto].
    intros f h Hf _. rewrite get2_ok by lia. cbn [bind]. destruct (so_ef _ SO i f Hi Hf) as (Hk & _). rewrite aget_ok by (rewrite (so_M _ SO); auto). cbn [bind]. eauto. }
  destruct Ec as (h & ->). cbn [bind]. rewrite aset_ok by lia. eexists; split; [reflexivity|]. auto.
Qed.
End Tables.

(** ** Strings *)
Definition free_of (c : ascii) (s : string) : Prop := ~ In c (list_ascii_of_string s).
Lemma prefix_iff p s : prefix p s = true <-> exists b, s = (p ++ b)%string.
Proof.
  revert s. induction p as [|x p IH]; intros s.
  - split; [intros _; exists s; auto|]. destruct s; auto.
  - destruct s as [|y s]; [split; [discriminate|intros (b & H); discriminate]|]. change (prefix (String x p) (String y s)) with (if ascii_dec x y then prefix p s else false). cbn [append]. destruct (ascii_dec x y) as [->|N].
    + rewrite IH. split; intros (b & H); exists b; [rewrite H; auto|inversion H; auto].
    + split; [discriminate|]. intros (b & H). inversion H. congruence.
Qed.
Lemma has_sub_iff p s : has_sub p s = true <-> exists a b, s = (a ++ p ++ b)%string.
Proof.
  induction s as [|x s IH]; cbn [has_sub]; rewrite orb_true_iff, prefix_iff.
  - split; [intros [(b & H)|H]; [exists EmptyString, b; auto|discriminate]|]. intros (a & b & H). left. exists b. destruct a; [auto|discriminate].
  - rewrite IH. split.
    + intros [(b & H)|(a & b & H)]; [exists EmptyString, b; auto|]. exists (String x a), b. cbn. rewrite H. auto.
    + intros (a & b & H). destruct a as [|y a]; [left; exists b; auto|right; exists a, b]. cbn in H. inversion H. auto.
Qed.
Lemma split_at_one c s : free_of c s -> split_at c s = [s].
Proof.
  unfold free_of. induction s as [|x s IH]; cbn; auto. intros H. destruct (Ascii.eqb_spec x c) as [->|N]; [exfalso; apply H; auto|]. rewrite IH; [auto|tauto].
Qed.
Lemma split_at_ne c s : exists h r, split_at c s = h :: r.
Proof. induction s as [|x s (h & r & IH)]; cbn; eauto. rewrite IH. destruct (Ascii.eqb x c); eauto. Qed.
Lemma split_at_free c s h r : split_at c s = h :: r -> free_of c h /\ (r = [] -> h = s).
Proof.
  unfold free_of. revert h r. induction s as [|x s IH]; intros h r; cbn.
  - intros H; inversion H; subst; cbn; auto.
  - destruct (split_at_ne c s) as (h' & r' & E). rewrite E. destruct (IH _ _ E) as (F & W). destruct (Ascii.eqb_spec x c) as [->|N]; intros H; inversion H; subst; cbn; [split; auto; discriminate|].
    split; [intros [?|?]; auto|]. intros ->. rewrite W; auto.
Qed.
Lemma split_at_two c s x y : split_at c s = [x; y] <-> s = (x ++ String c y)%string /\ free_of c x /\ free_of c y.
Proof.
  revert x y. induction s as [|a s IH]; intros x y; cbn.
  - split; [discriminate|]. intros (H & _). destruct x; discriminate.
  - destruct (Ascii.eqb_spec a c) as [->|N].
    + split.
      * intros H. inversion H; subst. destruct (split_at_free c s y [] H2) as (F & W). rewrite (W eq_refl) in *. cbn. split; auto. split; auto. unfold free_of. cbn. auto.
      * intros (H & F & G). destruct x as [|b x]; cbn in H; inversion H; subst; [rewrite split_at_one; auto|]. exfalso. apply F. cbn. auto.
    + destruct (split_at_ne c s) as (h & r & E). rewrite E. split.
      * intros H. inversion H; subst. apply IH in E. destruct E as (-> & F & G). cbn. split; auto. split; auto. unfold free_of in *. cbn. intros [?|?]; auto.
      * intros (H & F & G). destruct x as [|b x]; cbn in H; inversion H; subst; [congruence|]. assert (Q : split_at c (x ++ String c y) = [x; y]) by (apply IH; unfold free_of in *; cbn in F; tauto).
        rewrite Q in E. inversion E; subst. reflexivity.
Qed.
(** the option as it fits into the buffer *)
Definition reads (o : popts) (name : string) : Prop := exists given rest, po_reorder o = Some given /\ given = (name ++ rest)%string /\
  (String.length name = 29 \/ String.length name < 29 /\ rest = EmptyString).
Lemma substring_reads n s name rest : s = (name ++ rest)%string -> (String.length name = n \/ String.length name < n /\ rest = EmptyString) -> substring 0 n s = name.
Proof.
  revert s name. induction n as [|n IH]; intros s name -> H; cbn.
  - destruct name; [|cbn in H; lia]. cbn. destruct rest; auto.
  - destruct name as [|x name]; cbn in *; [destruct H as [H|(_ & ->)]; [lia|auto]|]. f_equal. apply (IH _ name); auto. intuition lia.
Qed.
Lemma reads_sub n s : exists rest, s = (substring 0 n s ++ rest)%string /\ (String.length (substring 0 n s) = n \/ String.length (substring 0 n s) < n /\ rest = EmptyString).
Proof.
  revert s. induction n as [|n IH]; intros s; [exists s; destruct s; cbn; auto|]. destruct s as [|x s]; cbn; [exists EmptyString; split; [auto|right; split; [lia|auto]]|].
  destruct (IH s) as (rest & E & L). exists rest. cbn. rewrite <- E. split; auto. intuition lia.
Qed.
Lemma reads_iff o name : reads o name <-> exists given, po_reorder o = Some given /\ name = substring 0 29 given.
Proof.
  split.
  - intros (given & rest & E & H & L). exists given. split; auto. symmetry. eapply substring_reads; eauto.
  - intros (given & E & ->). destruct (reads_sub 29 given) as (rest & A & B). exists given, rest. auto.
Qed.

(** ** Lines *)
(** the mean of the nodes *)
Definition centroid (X : arr v2) (c : list nat) : v2 := mkv (vx (vsum (aat X) c) / INR (length c)) (vy (vsum (aat X) c) / INR (length c)).
(** the weight of a neighbour: one over the distance of the centroids *)
Definition closeness (m : umesh) (X : arr v2) (a b : nat) : R :=
  let p := centroid X (cell (cells m) a) in let q := centroid X (cell (cells m) b) in (/ sqrt ((vx p - vx q) ^ 2 + (vy p - vy q) ^ 2))%R.
Definition line_set (m : umesh) (hs : list (nat * nat)) (wt : nat -> nat -> R) (thr : R) (lines : list (list nat)) : Prop :=
  NoDup (List.concat lines) /\ (forall l, In l lines -> 2 <= length l /\ forall a b, In (a, b) (steps l) -> nbr (cells m) a b) /\
  ((forall a b, nbr (cells m) a b -> (0 < wt a b < 10 ^ 20)%R) ->
     (forall l, In l lines -> In (hd 0 l) (map fst hs) /\
       (forall a b, In (a, b) (steps l) -> strong m wt thr a b /\ forall d, strong m wt thr a d -> (wt a b < wt a d)%R -> in_line lines d) /\
       stops m wt thr lines (last l 0)) /\
     (forall c, In c (map fst hs) -> ~ in_line lines c -> stops m wt thr lines c)).
(** the cells outside the lines, in the order of the file *)
Definition others (m : umesh) (lines : list (list nat)) (l : list nat) : Prop :=
  StronglySorted lt l /\ forall c, In c l <-> c < nelem m /\ ~ in_line lines c.

Lemma strong_ext m wt wt' thr a b : (forall a b, nbr (cells m) a b -> wt a b = wt' a b) -> (strong m wt thr a b <-> strong m wt' thr a b).
Proof.
  intros H. assert (W : forall w w', (forall a b, nbr (cells m) a b -> w a b = w' a b) -> strong m w thr a b -> strong m w' thr a b).
  { intros w w' Q (N & d & Nd & Mn & L). split; auto. exists d. split; auto. split; [intros d' Nd'; rewrite <- !Q by auto; auto|rewrite <- !Q by auto; auto]. }
  split; apply W; auto. intros; symmetry; auto.
Qed.
Lemma stops_ext m wt wt' thr lines c : (forall a b, nbr (cells m) a b -> wt a b = wt' a b) -> stops m wt thr lines c -> stops m wt' thr lines c.
Proof.
  intros H S d Hd. apply (strong_ext m wt wt' thr) in Hd; auto. destruct (S d Hd) as [?|(d0 & A & B & C & D)]; auto. right. exists d0. split; [apply (strong_ext m wt wt' thr); auto|].
  split; [rewrite <- !H by (apply A || apply Hd); auto|]. split; auto. intros e He. apply (D e). apply (strong_ext m wt wt' thr); auto.
Qed.

Section Cases.
Variable srt : list (R * nat) -> list (R * nat).
Hypothesis Hsrt : sorts_down srt.
Variable registered : string -> option (nat -> list (nat * Z) -> list nat).
Hypothesis Hreg : forall name f, registered name = Some f -> forall n ent, Permutation (f n ent) (seq 0 n).
Variables (lm : lmesh) (hs : list (nat * nat)).
Hypothesis OK : mesh_ok lm hs.
Notation m := (l_m lm).
Variable k : junk.
Variables (pp e : arr nat) (ni : nat) (s : fconn) (il : list face) (M : arr fmet).
Hypothesis ET : compute_topological m (k_0 k) (k_f k) (k_e k) (k_t k) = Some (Val (pp, e, (ni, s))).
Hypothesis TO : topo m hs pp e ni s il.
Variables (M0 : option (arr fmet)) (A0 : option (arr R)).
Notation P := (mkpm lm (Some (ni, s)) M0 A0).

Lemma lines_of_ok thr : exists la cl lines, lines_of srt k P thr = Some (cl, lines) /\ lines_ok m la thr cl lines /\ line_set m hs (closeness m (l_X lm)) thr lines /\ others m lines (singles m cl).
Proof.
  pose proof OK as (T & H34 & LX & _). pose proof (max_pos lm hs OK) as Hp.
  destruct (centres_ok m (l_X lm) (k_c k)) as (C & EC & LC & IC). { intros c Hc v Hv. rewrite LX. apply (gm_valid _ _ (tl_good _ _ T) c Hc); auto. }
  set (wt := fun i j => inv_dist (aat C i) (aat C j)).
  assert (Same : forall a b, nbr (cells m) a b -> wt a b = closeness m (l_X lm) a b).
  { intros a b (f & (Ha & _ & Hb & _)). unfold wt, closeness. rewrite !IC by auto. fold (centroid (l_X lm) (cell (cells m) a)) (centroid (l_X lm) (cell (cells m) b)). unfold inv_dist.
    rewrite Rplus_0_l. unfold Rdiv. rewrite Rmult_1_l. reflexivity. }
  pose proof (to_nbr _ _ _ _ _ _ _ TO) as NB. pose proof (tl_max m hs T) as MX.
  destruct (computeWeights_ok m (esuel s) NB MX wt srt (fun l => proj1 (Hsrt l)) (k_w k)) as (la & El & Hla).
  destruct (findLines_ok m (esuel s) la thr NB Hla MX Hp (nbface m) (intfac s)) as (cl & lines & Ef & HL).
  { rewrite (to_len _ _ _ _ _ _ _ TO). lia. } { intros i Hi. eapply face_left_lt; eauto. rewrite (to_len _ _ _ _ _ _ _ TO). lia. }
  exists la, cl, lines. split; [|split; [auto|split]].
  - unfold lines_of. cbn [pm_t pm_l bind snd]. rewrite EC. cbn [bind]. fold wt. rewrite El. cbn [bind]. exact Ef.
  - pose proof HL as (A & B & _). split; [|split].
    + pose proof (lines_perm m la thr Hp cl lines HL) as PP.
      assert (N : NoDup (List.concat lines ++ singles m cl)) by (apply (Permutation_NoDup (Permutation_sym PP)), seq_NoDup). clear -N.
      induction (List.concat lines) as [|x l IH]; [constructor|]. cbn in N. inversion N; subst. constructor; auto. intros H; apply H1, in_app_iff; auto.
    + intros l Hl. destruct (B l Hl) as (B1 & B2 & B3 & B4). split; auto.
    + intros W. destruct (C11_lines_meaning m hs (k_0 k) (k_f k) (k_e k) (k_t k) wt srt (k_w k) thr T Hp Hsrt) as (p' & e' & ni' & s' & la' & cl' & lines' & E1 & E2 & E3 & Q1 & Q2).
      { intros a b N. rewrite Same by auto. auto. }
      rewrite ET in E1. inversion E1; subst p' e' ni' s'. assert (la' = la) by congruence. subst la'. rewrite Ef in E3. inversion E3; subst cl' lines'. split.
      * intros l Hl. destruct (Q1 l Hl) as (_ & R1 & R2 & R3). split; auto. split; [|apply (stops_ext m wt); auto].
        intros a b Hab. destruct (R2 a b Hab) as (R4 & R5). assert (Nab : nbr (cells m) a b) by apply R4. split; [apply (strong_ext m wt (closeness m (l_X lm))); auto|].
        intros d Hd L. apply (strong_ext m wt (closeness m (l_X lm))) in Hd; auto. apply R5; auto. rewrite !Same by (auto; apply Hd). auto.
      * intros c Hc Hn. apply (stops_ext m wt); auto.
  - pose proof (taken_lines m la thr Hp cl lines HL) as TK. unfold singles. split.
    + apply ss_filter, ss_seq.
    + intros c. rewrite filter_In, in_seq, Z.eqb_eq. split.
      * intros (Hc & E0). split; [lia|]. intros H. apply TK in H; [|lia]. apply H; auto.
      * intros (Hc & H). split; [lia|]. destruct (Z.eq_dec (aat cl c) (-1)); auto. exfalso. apply H, TK; auto.
Qed.

(** ** The first pass *)
End Cases.

(** the same mesh with its cells in the order [p] *)
Definition moved (lm lm' : lmesh) (p : arr nat) : Prop :=
  nelem (l_m lm') = nelem (l_m lm) /\ (forall i, i < nelem (l_m lm) -> cell (cells (l_m lm')) i = cell (cells (l_m lm)) (aat p i)) /\
  (npoin (l_m lm') = npoin (l_m lm) /\ maxnfael (l_m lm') = maxnfael (l_m lm) /\ bfaces (l_m lm') = bfaces (l_m lm) /\ conns (l_m lm') = conns (l_m lm)) /\
  l_X lm' = l_X lm /\ l_regs lm' = l_regs lm /\ l_eglob lm' = l_eglob lm /\ l_p2g lm' = l_p2g lm.
Lemma moved_id lm : moved lm lm (mkarr (nelem (l_m lm)) (fun i => i)).
Proof. repeat split; auto. Qed.
Lemma alist_id n : alist (mkarr n (fun i => i)) = seq 0 n. Proof. unfold alist. cbn. apply map_id. Qed.
Lemma do_reorder_ok lm t M A p : is_perm (nelem (l_m lm)) p -> exists lm', do_reorder (mkpm lm t M A) p = Some (Val (mkpm lm' t M A)) /\ moved lm lm' p.
Proof. intros H. destruct (reorder_full lm p H) as (lm' & E & Q). exists lm'. unfold do_reorder. cbn [pm_l]. rewrite E. split; auto. Qed.

Definition line_like (name : string) : Prop := exists a b, name = (a ++ "line" ++ b)%string.
Definition two_parts (name x y : string) : Prop := name = (x ++ String "_" y)%string /\ free_of "_" x /\ free_of "_" y.
(** the requests that are refused *)
Definition refused (registered : string -> option (nat -> list (nat * Z) -> list nat)) (o : popts) : Prop := exists name, reads o name /\
  (line_like name /\ ((forall r, po_thr o <> RVal r) \/ name <> "line"%string /\ forall x y, two_parts name x y -> y <> "natural"%string /\ registered y = None) \/
   ~ line_like name /\ name <> "natural"%string /\ registered name = None).
(** [l] is the order [name] of a graph with [n] vertices *)
Definition by_petsc (registered : string -> option (nat -> list (nat * Z) -> list nat)) (name : string) (G : list (nat * Z) -> Prop) (n : nat) (l : list nat) : Prop :=
  name = "natural"%string /\ l = seq 0 n \/ name <> "natural"%string /\ exists f ent, registered name = Some f /\ G ent /\ l = f n ent.
Definition vertex_graph (m : umesh) (lines : list (list nat)) (rest : list nat) (ent : list (nat * Z)) : Prop :=
  let n := length lines + length rest in
  (forall v z, In (v, z) ent -> v < n /\ exists w, w < n /\ z = Z.of_nat w) /\
  (forall v w, v < n -> w < n -> (In (v, Z.of_nat w) ent <-> v = w \/ exists c d, In c (vcells lines rest v) /\ In d (vcells lines rest w) /\ nbr (cells m) c d)).
(** the order asked for *)
Definition ordered (registered : string -> option (nat -> list (nat * Z) -> list nat)) (o : popts) (m : umesh) (hs : list (nat * nat)) (X : arr v2) (p : arr nat) : Prop :=
  (po_reorder o = None -> alist p = seq 0 (nelem m)) /\
  forall name, reads o name ->
    (name = "line"%string -> exists thr lines rest, po_thr o = RVal thr /\ line_set m hs (closeness m X) thr lines /\ others m lines rest /\ alist p = List.concat lines ++ rest) /\
    (name <> "line"%string -> line_like name -> exists x y thr lines rest gro, two_parts name x y /\ po_thr o = RVal thr /\ line_set m hs (closeness m X) thr lines /\ others m lines rest /\
       alist p = flat_map (vcells lines rest) gro /\ by_petsc registered y (vertex_graph m lines rest) (length lines + length rest) gro) /\
    (~ line_like name -> by_petsc registered name (graph_of m) (nelem m) (alist p)).

Definition first_pass srt registered (o : popts) (k1 : junk) (ghost : nat -> v2) (P : pmesh) : option (exc pmesh) :=
  match po_reorder o with
  | None => Some (Val P)
  | Some given =>
      let name := substring 0 29 given in
      Pt <-- do_topological k1 P ;; Pf <-- do_face_data k1 Pt ;;
      if String.eqb name "line" then threshold o (lineReorder srt k1 Pf)
      else if has_sub "line" name then
        match split_at "_" name with
        | [_; second] => threshold o (fun thr => hybridLineReorder srt registered k1 Pf thr second)
        | _ => Some Exn
        end
      else petscReorder registered k1 ghost Pf name
  end.
Lemma preprocess_two srt registered o k1 k2 ghost P : preprocessMesh srt registered o k1 k2 ghost P =
  (P1 <-- first_pass srt registered o k1 ghost P ;; Pt <-- do_topological k2 P1 ;; Pa <-- do_areas k2 Pt ;; do_face_data k2 Pa).
Proof. reflexivity. Qed.

Section First.
Variable srt : list (R * nat) -> list (R * nat).
Hypothesis Hsrt : sorts_down srt.
Variable registered : string -> option (nat -> list (nat * Z) -> list nat).
Hypothesis Hreg : forall name f, registered name = Some f -> forall n ent, Permutation (f n ent) (seq 0 n).
Variables (lm : lmesh) (hs : list (nat * nat)).
Hypothesis OK : mesh_ok lm hs.
Hypothesis NC : conns (l_m lm) = [].
Notation m := (l_m lm).
Variables (o : popts) (k : junk) (ghost : nat -> v2).

Lemma getPetsc_ok n ent name : match getPetscOrdering registered n ent name with
  | Exn => name <> "natural"%string /\ registered name = None
  | Val l => Permutation l (seq 0 n) /\ forall G : list (nat * Z) -> Prop, G ent -> by_petsc registered name G n l end.
Proof.
  unfold getPetscOrdering, by_petsc. destruct (String.eqb_spec name "natural") as [->|N]; [split; auto|]. destruct (registered name) as [f|] eqn:E; auto. split; [eapply Hreg; eauto|].
  intros G HG. right. split; auto. eauto.
Qed.

Lemma first_pass_ok t0 M0 A0 : exists r, first_pass srt registered o k ghost (mkpm lm t0 M0 A0) = Some r /\
  match r with
  | Exn => refused registered o
  | Val P1 => ~ refused registered o /\ exists p, is_perm (nelem m) p /\ moved lm (pm_l P1) p /\ ordered registered o m hs (l_X lm) p
  end.
Proof.
  unfold first_pass. destruct (po_reorder o) as [given|] eqn:Eo.
  2:{ eexists; split; [reflexivity|]. split; [intros (name & (g & r & E & _) & _); congruence|]. exists (mkarr (nelem m) (fun i => i)). cbn [pm_l].
      split; [unfold is_perm; rewrite alist_id; auto|]. split; [apply moved_id|]. split; [intros _; apply alist_id|]. intros name (g & r & E & _). congruence. }
  cbv zeta. set (name := substring 0 29 given).
  assert (RD : reads o name) by (apply reads_iff; eauto). assert (UN : forall n', reads o n' -> n' = name). { intros n' H. apply reads_iff in H. destruct H as (g & E & ->). rewrite Eo in E. inversion E; subst. reflexivity. }
  assert (ND : po_reorder o <> None) by congruence.
  destruct (tables lm hs OK k M0 A0 t0) as (pp & e & ni & s & il & M & ET & EM & TO & E1 & E2 & LM & IM). rewrite E1. cbn [ebind]. rewrite E2. cbn [ebind].
  pose proof (max_pos lm hs OK) as Hp. pose proof OK as (T & _). pose proof (to_nbr _ _ _ _ _ _ _ TO) as NB. pose proof (tl_max m hs T) as MX.
  destruct (String.eqb_spec name "line") as [EL|NL].
  { assert (LL : line_like name) by (exists EmptyString, EmptyString; rewrite EL; reflexivity).
    unfold threshold. destruct (po_thr o) as [| |thr] eqn:Eh.
    1,2: eexists; split; [reflexivity|]; exists name; split; auto; left; split; auto; left; intros r; congruence.
    unfold lineReorder. destruct (lines_of_ok srt Hsrt lm hs OK k pp e ni s il ET TO (Some M) A0 thr) as (la & cl & lines & Ef & HL & LS & OT). rewrite Ef. cbn [lift ebind fst snd pm_l].
    destruct (lineOrdering_ok m la thr Hp cl lines (k_o k) HL) as (p & Ep & Al). rewrite Ep. cbn [lift ebind].
    assert (Pp : is_perm (nelem m) p) by (unfold is_perm; rewrite Al; apply (lines_perm m la thr Hp cl lines HL)).
    destruct (do_reorder_ok lm (Some (ni, s)) (Some M) A0 p Pp) as (lm' & Er & Mv). rewrite Er. eexists; split; [reflexivity|]. cbn [pm_l]. split.
    - intros (n' & Rn & Q). apply UN in Rn. subst n'. destruct Q as [(_ & [Q|(Q & _)])|(Q & _)]; [apply (Q thr); auto|auto|auto].
    - exists p. split; auto. split; auto. split; [congruence|]. intros n' Rn. apply UN in Rn. subst n'. split; [|split; [intros Q0; contradiction|intros Q0; contradiction]]. intros _. exists thr, lines, (singles m cl). auto. }
  destruct (has_sub "line" name) eqn:HS.
  - apply has_sub_iff in HS. fold (line_like name) in HS.
    assert (No : (forall x y, ~ two_parts name x y) -> exists r, Some (@Exn pmesh) = Some r /\ match r with Exn => refused registered o | Val P1 => ~ refused registered o /\
       exists p, is_perm (nelem m) p /\ moved lm (pm_l P1) p /\ ordered registered o m hs (l_X lm) p end).
    { intros H. eexists; split; [reflexivity|]. exists name. split; auto. left. split; auto. right. split; auto. intros x y Q. destruct (H x y Q). }
    assert (TW : forall x y, two_parts name x y <-> split_at "_" name = [x; y]) by (intros x y; symmetry; apply split_at_two).
    destruct (split_at "_" name) as [|x [|y [|]]] eqn:ES.
    1,2,4: apply No; intros x' y' Q; apply TW in Q; discriminate.
    assert (T2 : two_parts name x y) by (apply TW; auto). assert (TU : forall x' y', two_parts name x' y' -> y' = y) by (intros x' y' Q; apply TW in Q; congruence).
    unfold threshold. destruct (po_thr o) as [| |thr] eqn:Eh.
    1,2: eexists; split; [reflexivity|]; exists name; split; auto; left; split; auto; left; intros r; congruence.
    unfold hybridLineReorder. cbn [pm_l pm_t lift ebind snd].
    destruct (lines_of_ok srt Hsrt lm hs OK k pp e ni s il ET TO (Some M) A0 thr) as (la & cl & lines & Ef & HL & LS & OT). rewrite Ef. cbn [lift ebind fst snd].
    pose proof HL as (LA & _). destruct (graphVertices_ok m Hp cl (length lines) LA) as (mp & Eg & Hmp). rewrite Eg. cbn [lift ebind].
    destruct (graph_ok m (esuel s) la thr NB MX Hp cl lines mp HL Hmp) as (ent & Ee & G1 & G2). rewrite Ee. cbn [lift ebind].
    set (gv := map GLine (seq 0 (length lines)) ++ map GPoint (seq 0 (length (singles m cl)))) in *. assert (Lg : length gv = length lines + length (singles m cl)) by (unfold gv; rewrite app_length, !map_length, !seq_length; auto).
    pose proof (getPetsc_ok (length gv) ent y) as GP. destruct (getPetscOrdering registered (length gv) ent y) as [gro|] eqn:EG; cbn [ebind].
    + destruct GP as (Pg & BP). rewrite Lg in Pg, BP. destruct (hybrid_ok m la thr Hp cl lines (k_o k) gro HL Pg) as (p & Eh' & Al & Po). fold gv in Eh'. rewrite Eh'. cbn [lift ebind].
      destruct (do_reorder_ok lm (Some (ni, s)) (Some M) A0 p Po) as (lm' & Er & Mv). rewrite Er. eexists; split; [reflexivity|]. cbn [pm_l].
      assert (VG : vertex_graph m lines (singles m cl) ent) by (split; auto).
      split.
      * intros (n' & Rn & Q). apply UN in Rn. subst n'. destruct Q as [(_ & [Q|(_ & Q)])|(Q & _)]; [apply (Q thr); auto| |auto]. destruct (Q x y T2) as (Q1 & Q2).
        unfold getPetscOrdering in EG. destruct (String.eqb_spec y "natural"); [auto|]. rewrite Q2 in EG. discriminate.
      * exists p. split; auto. split; auto. split; [congruence|]. intros n' Rn. apply UN in Rn. subst n'. split; [intros Q0; contradiction|]. split; [|intros Q0; contradiction]. intros _ _.
        exists x, y, thr, lines, (singles m cl), gro. do 5 (split; [auto|]). apply BP. auto.
    + eexists; split; [reflexivity|]. exists name. split; auto. left. split; auto. right. split; auto. intros x' y' Q. rewrite (TU x' y' Q). auto.
  - assert (NLL : ~ line_like name) by (intros Q; apply has_sub_iff in Q; congruence).
    unfold petscReorder. cbn [pm_l pm_t pm_M pm_A lift ebind fst snd].
    match goal with |- context [spatial_ctor _ _ _ _ _ ?A' _ _ _] => destruct (ctor_sizes lm hs OK k ghost pp e ni s M A' ET EM) as (sp & h & C1 & C2) end. rewrite C1. cbn [lift ebind]. rewrite C2. cbn [lift ebind].
    destruct (String.eqb_spec name "natural") as [EN|NN].
    + eexists; split; [reflexivity|]. cbn [pm_l]. split.
      * intros (n' & Rn & Q). apply UN in Rn. subst n'. destruct Q as [(Q & _)|(_ & Q & _)]; auto.
      * exists (mkarr (nelem m) (fun i => i)). split; [unfold is_perm; rewrite alist_id; auto|]. split; [apply moved_id|]. split; [congruence|]. intros n' Rn. apply UN in Rn. subst n'.
        split; [intros Q0; contradiction|]. split; [intros _ Q0; contradiction|]. intros _. left. rewrite alist_id. auto.
    + destruct (petsc_graph_ok lm hs OK pp e ni s il NC TO) as (ent & Ee & Ge). rewrite Ee. cbn [lift ebind]. destruct (registered name) as [f|] eqn:ER; cbn [ebind].
      * set (p := mkarr (length (f (nelem m) ent)) (fun i => nth i (f (nelem m) ent) 0)).
        assert (Al : alist p = f (nelem m) ent). { unfold p, alist. cbn. apply (Pf_Incid.map_seq_nth _ (f (nelem m) ent) 0 (fun i => nth i (f (nelem m) ent) 0) 0). auto. }
        assert (Pp : is_perm (nelem m) p) by (unfold is_perm; rewrite Al; eapply Hreg; eauto).
        destruct (do_reorder_ok lm (Some (ni, s)) (Some M) A0 p Pp) as (lm' & Er & Mv). rewrite Er. eexists; split; [reflexivity|]. cbn [pm_l]. split.
        -- intros (n' & Rn & Q). apply UN in Rn. subst n'. destruct Q as [(Q & _)|(_ & _ & Q)]; [auto|congruence].
        -- exists p. split; auto. split; auto. split; [congruence|]. intros n' Rn. apply UN in Rn. subst n'. split; [intros Q0; contradiction|]. split; [intros _ Q0; contradiction|]. intros _. right. split; auto. exists f, ent. auto.
      * eexists; split; [reflexivity|]. exists name. split; auto.
Qed.

(** both passes *)
Lemma preprocess_ok k2 t0 M0 A0 : exists r, preprocessMesh srt registered o k k2 ghost (mkpm lm t0 M0 A0) = Some r /\
  match r with
  | Exn => refused registered o
  | Val P => ~ refused registered o /\ exists p hs', is_perm (nelem m) p /\ moved lm (pm_l P) p /\ ordered registered o m hs (l_X lm) p /\
      mesh_ok (pm_l P) hs' /\ map (fun h => (aat p (fst h), snd h)) hs' = hs /\ prepared P hs'
  end.
Proof.
  rewrite preprocess_two. destruct (first_pass_ok t0 M0 A0) as (r & E & H). rewrite E. destruct r as [[lm1 t1 M1 A1]|]; cbn [ebind]; [|eauto].
  destruct H as (NR & p & Pp & Mv & Or). cbn [pm_l] in Mv. pose proof Mv as (V1 & V2 & V3 & V4 & V5). pose proof OK as (T & H34 & LX & Ne).
  assert (OK1 : mesh_ok lm1 (hs_perm hs p)).
  { split; [apply (perm_tiled m hs p (l_m lm1)); auto|]. split; [|split].
    - intros c Hc. apply H34. apply (perm_cells m p (l_m lm1)); auto.
    - destruct V3 as (-> & _). rewrite V4. auto.
    - rewrite V1. auto. }
  destruct (finish lm1 (hs_perm hs p) OK1 k2 t1 M1 A1) as (P & EP & PL & PR). rewrite EP. exists (Val P). split; [reflexivity|]. cbv beta iota. split; auto. rewrite PL.
  exists p, (hs_perm hs p). do 4 (split; [auto|]). split; auto. apply (hs_back m hs p (l_m lm1)); auto.
Qed.
End First.
