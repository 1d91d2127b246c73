(** Proofs about the values a case reports. *)
From Coq Require Import Reals List Arith ZArith Lia Lra Bool Permutation.
From Verif Require Import Base BaseR BaseSum M_Gas M_Flux M_Visc M_BC M_BCConf M_Mesh M_Geom M_Part M_Space M_Grad M_Recon S_Space S_Gas S_Mesh S_Geom M_Resid S_Resid S_Par M_Out S_Out M_Ode
  Pf_Host Pf_Topo Pf_Incid Pf_Full Pf_Geom Pf_Space Pf_Grad Pf_Recon Pf_Reorder Pf_Resid Pf_Resid2 Pf_Part Pf_Restrict Pf_Part2 P_Geom P_Grad P_Part P_Resid Pf_Par P_Par Pf_Par2 P_Par2 Pf_Out P_Out M_Ctl M_Case M_Start M_Dist Pf_Dist M_Report.
Import ListNotations.
Open Scope R_scope.

(** ** The entropy error of one process *)
Definition ent_err (G : gas) (aoa : R) (u : st) : R := let s := getEntropyFromConserved G (compute_freestream_state G aoa) in (getEntropyFromConserved G u - s) / s * ((getEntropyFromConserved G u - s) / s).
Lemma entropy_sum G aoa ne (A : arr R) (u : arr st) : (ne <= alen A)%nat -> (ne <= alen u)%nat ->
  entropy_local G aoa ne A u = Some (rsum (fun i => ent_err G aoa (aat u i) * aat A i) (seq 0 ne)).
Proof.
  intros LA LU. unfold entropy_local. cbv zeta.
  match goal with |- context [floop _ ?bb ?ss] => destruct (floop_inv _ (fun n (s : R) => s = rsum (fun i => ent_err G aoa (aat u i) * aat A i) (seq 0 n)) ne bb ss) as (s & E & P) end.
  - reflexivity.
  - intros i s Hi ->. rewrite !aget_ok by lia. cbn [bind]. eexists. split; [reflexivity|]. rewrite seq_snoc, rsum_app. cbn [rsum plus]. unfold ent_err. cbv zeta. lra.
  - rewrite E, P. reflexivity.
Qed.

(** ** Gradients *)
Lemma getGradients_ok S fl bc gs jg (u : arr st) (G0 : arr grad) : sm_ok S -> bcs_cover S fl bc -> alen u = (sm_ne S + sm_nc S)%nat -> (sm_ne S <= alen G0)%nat ->
  match gs with M_Resid.GLeastSquares V => WLS_ctor S = Some V | _ => True end ->
  exists ug G1, flow_getGradients S fl gs jg u G0 = Some G1 /\ compute_gradients S gs u ug G0 = Some G1 /\ alen ug = sm_nb S /\ alen G1 = alen G0 /\ forall k, (k < sm_nb S)%nat -> aat ug k = bghost S fl bc u k.
Proof.
  intros OK C Lu LG HV. unfold flow_getGradients.
  match goal with |- context [floop _ ?bb ?ss] => destruct (floop_inv _ (fun n (a : arr st) => alen a = sm_nb S /\ forall k, (k < n)%nat -> aat a k = bghost S fl bc u k) (sm_nb S) bb ss) as (ug & E & L & P) end.
  - split; [reflexivity|intros; lia].
  - intros k a Hk (L & P). assert (K : (k < sm_nf_all S)%nat) by (unfold sm_nf_all; lia). rewrite aget_ok by (rewrite (so_F _ OK); auto). cbn [bind]. pose proof (so_left _ OK k K).
    rewrite aget_ok by lia. cbn [bind]. unfold compute_boundary_state. rewrite aget_ok by (rewrite (so_M _ OK); auto). cbn [bind]. rewrite (C k Hk). cbn [bind]. rewrite aset_ok by lia.
    eexists. split; [reflexivity|]. cbn. split; [auto|]. intros q Hq. unfold upd. destruct (Nat.eqb_spec q k); subst; [reflexivity|apply P; lia].
  - rewrite E. cbn [bind]. assert (HC : exists G1, compute_gradients S gs u ug G0 = Some G1 /\ alen G1 = alen G0).
    { destruct gs; cbn [compute_gradients].
      - destruct (zero_ok S G0 LG) as (Z & Q & Q2 & _). unfold ZeroGradients in *. eauto.
      - destruct (gg_seen S u ug OK Lu L G0 LG) as (Z & Q & Q2 & _). eauto.
      - destruct (wls_seen S u ug OK Lu L V G0 HV LG) as (_ & Z & Q & Q2 & _). eauto. }
    destruct HC as (G1 & Q & Q2). exists ug, G1. auto.
Qed.

(** ** Sums over wall faces as sums over cells *)
(** the wall face of cell [i], as the cell sees it *)
Definition at_cell (S : smesh) (H : nat -> R) (i k : nat) : R := if ((k <? sm_nb S)%nat && (f_left (aat (sm_F S) k) =? i)%nat)%bool then H k else 0.
Definition cell_wall (S : smesh) (H : nat -> R) (i : nat) : R := rsum (fun f => at_cell S H i (at2 (sm_EF S) i f)) (seq 0 (aat (sm_nf S) i)).
Lemma sum_by_cells S (H : nat -> R) : sm_ok S -> rsum H (seq 0 (sm_nb S)) = rsum (cell_wall S H) (seq 0 (sm_ne S)).
Proof.
  intros OK. transitivity (rsum (fun i => rsum (at_cell S H i) (all_faces S)) (seq 0 (sm_ne S))).
  2:{ apply rsum_ext. intros i Hi. apply in_seq in Hi. unfold cell_wall. apply sum_by_faces; [auto|lia|]. intros k Hk A _. unfold at_cell. destruct (Nat.eqb_spec (f_left (aat (sm_F S) k)) i); [contradiction|]. rewrite andb_false_r. reflexivity. }
  rewrite rsum_swap. unfold all_faces, sm_nf_all. rewrite rsum_split3. rewrite (rsum_zero _ (seq (sm_nb S) _)), (rsum_zero _ (seq (sm_nb S + sm_ni S) _)).
  - rewrite !Rplus_0_r. apply rsum_ext. intros k Hk. apply in_seq in Hk. assert (K : (k < sm_nf_all S)%nat) by (unfold sm_nf_all; lia). pose proof (so_left _ OK k K).
    transitivity (rsum (fun i => if (i =? f_left (aat (sm_F S) k))%nat then H k else 0) (seq 0 (sm_ne S))).
    + rewrite (rsum_single (fun _ => H k)) by lia. reflexivity.
    + apply rsum_ext. intros i _. unfold at_cell. destruct (Nat.ltb_spec k (sm_nb S)); [|lia]. cbn [andb]. rewrite Nat.eqb_sym. reflexivity.
  - intros k Hk. apply in_seq in Hk. apply rsum_zero. intros i _. unfold at_cell. destruct (Nat.ltb_spec k (sm_nb S)); [lia|reflexivity].
  - intros k Hk. apply in_seq in Hk. apply rsum_zero. intros i _. unfold at_cell. destruct (Nat.ltb_spec k (sm_nb S)); [lia|reflexivity].
Qed.
(** sums over the wall faces *)
Definition on_wall (S : smesh) (tag : Z) (h : nat -> R) (k : nat) : R := if (tag_at S k =? tag)%Z then h k else 0.
Lemma walls_sum S tag (u : arr st) (gr : arr grad) (phi : wface -> R) : rsum phi (walls S u gr tag) = rsum (on_wall S tag (fun k => phi (wf_at S u gr k))) (seq 0 (sm_nb S)).
Proof. unfold walls, marked, marked_upto. rewrite rsum_map, rsum_filter. reflexivity. Qed.

(** ** Markers *)
Definition has_tag (tag : Z) (bf : bfrec) : bool := match btg bf with t :: _ => (t =? tag)%Z | [] => false end.
Lemma tag_built m hs X ghost S k bf t r : built m hs X ghost S -> nth_error (bfaces m) k = Some bf -> btg bf = t :: r -> (k < sm_nb S)%nat /\ tag_at S k = t.
Proof.
  intros B En Et. destruct (built_ok _ _ _ _ _ B) as (p & e & ni & s & il & TO & OK & E1 & E2 & _ & _ & _ & _ & _ & _ & _ & _ & _ & _ & _ & EB).
  assert (K : (k < nbface m)%nat) by (unfold nbface; apply nth_error_Some; congruence). split; [lia|].
  unfold tag_at, face_tag. rewrite EB, aget_ok by (rewrite (to_blen _ _ _ _ _ _ _ TO); auto). cbn [bind]. rewrite (to_btags _ _ _ _ _ _ _ TO k bf En), Et. reflexivity.
Qed.
Lemma filter_nth {A} (p : A -> bool) (d : A) l : List.length (filter (fun k => p (nth k l d)) (seq 0 (List.length l))) = List.length (filter p l).
Proof.
  rewrite <- (map_length (fun k => nth k l d)). f_equal.
  enough (H : forall q k, map (fun k => nth k (q ++ l) d) (filter (fun k => p (nth k (q ++ l) d)) (seq (List.length q) (List.length l))) = filter p l) by (apply (H [] 0%nat)).
  induction l as [|x l IH]; intros q k; [reflexivity|]. cbn [List.length seq filter]. rewrite app_nth2, Nat.sub_diag by lia. cbn [nth].
  specialize (IH (app q [x]) k). rewrite <- app_assoc in IH. cbn [app] in IH. rewrite app_length in IH. cbn [List.length] in IH. rewrite Nat.add_1_r in IH. destruct (p x); [|exact IH].
  cbn [map]. rewrite app_nth2, Nat.sub_diag by lia. cbn [nth]. f_equal. exact IH.
Qed.
Lemma marked_count m hs X ghost S tag : built m hs X ghost S -> (forall bf, In bf (bfaces m) -> btg bf <> []) -> List.length (marked S tag) = List.length (filter (has_tag tag) (bfaces m)).
Proof.
  intros B HT. rewrite <- (filter_nth (has_tag tag) (mkbf 0 0 [])). unfold marked, marked_upto. destruct (built_ok _ _ _ _ _ B) as (_ & _ & _ & _ & _ & _ & _ & _ & E2 & _). rewrite E2. unfold nbface. f_equal.
  apply filter_ext_in. intros k Hk. apply in_seq in Hk. destruct (nth_error (bfaces m) k) as [bf|] eqn:En; [|apply nth_error_None in En; lia]. rewrite (nth_error_nth _ _ _ En). unfold has_tag.
  destruct (btg bf) as [|t r] eqn:Et; [exfalso; eapply HT; [eapply nth_error_In; exact En|exact Et]|]. destruct (tag_built _ _ _ _ _ _ _ _ _ B En Et) as (_ & ->). reflexivity.
Qed.

(** ** All ranks *)
Section Ranks.
Variables (g : gmesh) (hs : list (nat * nat)) (dist : arr nat) (nr : nat) (lm : nat -> lmesh).
Variables (jc : nat -> nat -> list nat) (jr : nat -> nat -> list Z) (ji : nat -> nat -> nat) (jx : nat -> nat -> v2) (j0 : nat -> nat -> nat -> Z).
Variables (hsl : nat -> list (nat * nat)) (gh : nat -> nat -> v2) (S : nat -> smesh).
Hypothesis SR : split_run g hs dist nr lm jc jr ji jx j0 hsl gh S.
Variables (gh0 : nat -> v2) (W : smesh).
Hypothesis BW : built (g_m g) hs (g_X g) gh0 W.
Hypothesis CE : forall a k cf, (a < nr)%nat -> nth_error (conns (l_m (lm a))) k = Some cf -> gh a k = aat (sm_rc W) (Z.to_nat (cf_gelem cf)).
Notation el a l := (aat (l_eglob (lm a)) l).
Variable (fl : flow).
Hypothesis TC : tags_covered g fl.

Lemma rank_tags_some a bf : (a < nr)%nat -> In bf (bfaces (l_m (lm a))) -> btg bf <> [].
Proof.
  pose proof SR as [G Hd Hr RM SE BU D]. intros Ha Hb. apply In_nth_error in Hb. destruct Hb as (q & Eq). destruct (restr_facts g hs dist a (lm a) G Hd _ _ _ _ _ (RM a Ha)) as (_ & _ & _ & _ & _ & F6 & _).
  assert (T' : tiled (l_m (lm a)) (hsl a)) by apply (BU a Ha). destruct (gm_hosts _ _ (tl_good _ _ T')) as (LH & _).
  destruct (nth_error_some _ (hsl a) q) as ((l & f) & Eh). { assert (q < List.length (bfaces (l_m (lm a))))%nat by (apply nth_error_Some; congruence). unfold nbface in LH. lia. }
  destruct (F6 (hsl a) q bf l f T' Eq Eh) as (k & gb & P1 & _ & P3). rewrite P3. destruct (TC gb (nth_error_In _ _ P1)) as (t & r & b & Q & _). congruence.
Qed.

(** a boundary face seen from a cell has the marker it has in the whole mesh *)
Lemma same_tag a l f : (a < nr)%nat -> (l < nelem (l_m (lm a)))%nat -> (f < aat (sm_nf (S a)) l)%nat -> (at2 (sm_EF (S a)) l f < sm_nb (S a))%nat ->
  tag_at (S a) (at2 (sm_EF (S a)) l f) = tag_at W (at2 (sm_EF W) (el a l) f).
Proof.
  pose proof SR as [G Hd Hr RM SE BU D]. intros Ha Hl Hf Hk. pose proof (restr_sub g hs dist a (lm a) G Hd _ _ _ _ _ (RM a Ha)) as SM.
  destruct (counts g hs (lm a) SM gh0 W (S a) (hsl a) (gh a) BW (BU a Ha)) as (N1 & N2 & N3 & N4 & N5 & N6). destruct (N6 l Hl) as (Hi & N7 & _). pose proof Hf as Hf2. rewrite (N5 l Hl) in Hf, N7.
  destruct SM as (SER & F1 & F4 & F5 & F6). pose proof BW as (T & _). pose proof (BU a Ha) as (T' & _).
  destruct (built_ok _ _ _ _ _ (BU a Ha)) as (_ & _ & _ & _ & _ & _ & _ & _ & E2' & _).
  pose proof (edge_cases _ _ _ _ _ (BU a Ha) l f Hl Hf) as (_ & V'). pose proof (edge_cases _ _ _ _ _ BW (el a l) f ltac:(lia) ltac:(destruct (F1 l Hl) as (_ & A3 & _); lia)) as (_ & V). cbv zeta in V, V'.
  set (k' := at2 (sm_EF (S a)) l f) in *. set (k := at2 (sm_EF W) (el a l) f) in *.
  destruct V' as [(K & Eh & L & Ed)|[(K & _)|[(K & _)|(q & cf & K & _)]]]; try lia.
  destruct (nth_error_some _ (bfaces (l_m (lm a))) k') as (bf & Eb). { unfold nbface in E2'. lia. }
  destruct (F6 (hsl a) k' bf l f T' Eb Eh) as (p1 & gb & P1 & P2 & P3).
  assert (Et : exists t r, btg gb = t :: r) by (destruct (TC gb (nth_error_In _ _ P1)) as (t & r & b & Q & _); eauto). destruct Et as (t & r & Et). rewrite Et in P3.
  destruct (tag_built _ _ _ _ _ _ _ _ _ (BU a Ha) Eb P3) as (_ & ->).
  destruct V as [(K2 & Eh2 & L2 & _)|[(_ & _ & Ac & _)|[(_ & _ & Ac & _)|(q & cf & _ & _ & Ec & _)]]].
  - pose proof (tl_nodup _ _ T) as ND. apply nodup_app in ND. destruct ND as (ND & _). pose proof (nodup_nth_error _ _ _ _ ND P2 Eh2) as Q. rewrite Q in P1. destruct (tag_built _ _ _ _ _ _ _ _ _ BW P1 Et) as (_ & ->). reflexivity.
  - exfalso. eapply host_no_across; [exact T|exact P2|exact Ac].
  - exfalso. eapply host_no_across; [exact T|exact P2|exact Ac].
  - exfalso. eapply (no_conn g); [exact SER|eapply nth_error_In; exact Ec].
Qed.

(** sums over all cells of all ranks *)
Lemma all_cells (T : nat -> R) : rsum (fun a => rsum (fun l => T (el a l)) (seq 0 (sm_ne (S a)))) (seq 0 nr) = rsum T (seq 0 (sm_ne W)).
Proof.
  pose proof SR as [G Hd Hr RM SE BU D]. transitivity (rsum (fun a => rsum T (alist (l_eglob (lm a)))) (seq 0 nr)).
  - apply rsum_ext. intros a Ha. apply in_seq in Ha. unfold alist. rewrite rsum_map. destruct (local_sizes _ _ _ _ _ _ _ _ _ _ _ _ _ SR a ltac:(lia)) as (NE & _).
    destruct (restr_facts g hs dist a (lm a) G Hd _ _ _ _ _ (RM a ltac:(lia))) as (_ & _ & _ & _ & _ & _ & F7 & _). rewrite F7, NE. reflexivity.
  - rewrite <- rsum_flat_map. destruct (whole_sizes g hs dist nr lm jc jr ji jx j0 hsl gh S SR gh0 W BW) as (-> & _). apply rsum_perm. apply (C15_union g hs dist nr G Hd Hr lm jc jr ji jx j0 RM).
Qed.

Variables (u0 : arr st) (g0 : arr grad).
(** a sum over the wall faces of a rank, cell by cell *)
Lemma rank_walls_sum a (u : arr st) (gr : arr grad) tag phi : (a < nr)%nat -> (forall l, (l < sm_ne (S a))%nat -> aat u l = aat u0 (el a l) /\ aat gr l = aat g0 (el a l)) ->
  rsum phi (walls (S a) u gr tag) = rsum (fun l => cell_wall W (on_wall W tag (fun k => phi (wf_at W u0 g0 k))) (el a l)) (seq 0 (sm_ne (S a))).
Proof.
  pose proof SR as [G Hd Hr RM SE BU D]. intros Ha HU. rewrite walls_sum, sum_by_cells by (eapply built_sm; apply (BU a Ha)). apply rsum_ext. intros l Hl. apply in_seq in Hl.
  pose proof (restr_sub g hs dist a (lm a) G Hd _ _ _ _ _ (RM a Ha)) as SM. destruct (counts g hs (lm a) SM gh0 W (S a) (hsl a) (gh a) BW (BU a Ha)) as (N1 & N2 & N3 & N4 & N5 & N6). destruct (N6 l ltac:(lia)) as (Hi & N7 & _).
  destruct (covers g hs dist nr lm jc jr ji jx j0 hsl gh S SR gh0 W BW fl TC) as (bc & bcs & C & BC & BT & CC). destruct (CC a Ha) as (C' & BC').
  unfold cell_wall. rewrite N7. apply rsum_ext. intros f Hf. apply in_seq in Hf.
  destruct (same_view g hs (lm a) SM gh0 W (S a) (hsl a) (gh a) BW (BU a Ha) D fl bc (bcs a) BC BT BC' l f ltac:(lia) ltac:(lia)) as (_ & (_ & V2 & V3 & _) & V). cbv zeta in *. unfold at_cell.
  destruct V as [(K & K2 & _ & L & L2)|[(K & K2 & _)|(q & cf & K & _ & _ & _ & _ & _ & _ & K2 & _)]].
  - pose proof (same_tag a l f Ha ltac:(lia) ltac:(lia) K) as ET. rewrite L, L2, !Nat.eqb_refl. destruct (Nat.ltb_spec (at2 (sm_EF (S a)) l f) (sm_nb (S a))); [|lia]. destruct (Nat.ltb_spec (at2 (sm_EF W) (el a l) f) (sm_nb W)); [|lia]. cbn [andb].
    unfold on_wall. rewrite ET. destruct (_ =? tag)%Z; [|reflexivity]. f_equal. unfold wf_at, left_value. unfold out_normal in V3. rewrite L, L2 in *. rewrite !Nat.eqb_refl in V3. destruct (HU l ltac:(lia)) as (-> & ->). rewrite V2, V3. reflexivity.
  - destruct (Nat.ltb_spec (at2 (sm_EF (S a)) l f) (sm_nb (S a))); [lia|]. destruct (Nat.ltb_spec (at2 (sm_EF W) (el a l) f) (sm_nb W)); [lia|]. reflexivity.
  - destruct (Nat.ltb_spec (at2 (sm_EF (S a)) l f) (sm_nb (S a))); [lia|]. destruct (Nat.ltb_spec (at2 (sm_EF W) (el a l) f) (sm_nb W)); [lia|]. reflexivity.
Qed.
Lemma all_walls_sum (u : nat -> arr st) (gr : nat -> arr grad) tag phi : (forall a l, (a < nr)%nat -> (l < sm_ne (S a))%nat -> aat (u a) l = aat u0 (el a l) /\ aat (gr a) l = aat g0 (el a l)) ->
  rsum (fun a => rsum phi (walls (S a) (u a) (gr a) tag)) (seq 0 nr) = rsum phi (walls W u0 g0 tag).
Proof.
  intros HU. rewrite walls_sum, sum_by_cells by (eapply built_sm; exact BW). rewrite <- all_cells. apply rsum_ext. intros a Ha. apply in_seq in Ha. apply rank_walls_sum; [lia|]. intros l Hl. apply HU; lia.
Qed.
(** all wall faces are among the ranks' *)
Lemma rsum_one {A} (l : list A) : rsum (fun _ => 1) l = INR (List.length l).
Proof. induction l as [|x l IH]; [reflexivity|]. cbn [rsum List.length]. rewrite S_INR, IH. lra. Qed.
Lemma enough_room tag : (forall a, (a < nr)%nat -> (List.length (marked (S a) tag) <= sm_ne (S a))%nat) -> (List.length (marked W tag) <= sm_ne W)%nat.
Proof.
  intros H. apply INR_le. rewrite <- (seq_length (sm_ne W) 0), <- !rsum_one, <- (all_cells (fun _ => 1)).
  pose proof (all_walls_sum (fun a => mkarr (sm_ne (S a)) (fun l => aat u0 (el a l))) (fun a => mkarr (sm_ne (S a)) (fun l => aat g0 (el a l))) tag (fun _ => 1) ltac:(intros; split; reflexivity)) as Q.
  unfold walls in Q. rewrite !rsum_map in Q. rewrite <- Q. apply rsum_le. intros a Ha. apply in_seq in Ha. rewrite rsum_map, !rsum_one, seq_length. apply le_INR. apply H. lia.
Qed.
End Ranks.
