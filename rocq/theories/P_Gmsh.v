(** C21, C22: the Gmsh writer and reader. *)
From Coq Require Import List Arith ZArith Bool String Lia.
From Verif Require Import Base M_Gmsh Pf_Gmsh Pf_GmshW.
Import ListNotations.
Open Scope nat_scope.

(** ** Specification: what a mesh read from a file must hold *)
(** boundary face [i] of [g] is the record [r]: its nodes (numbered from 0) and its tags *)
Definition bface_is {C} (g : gmesh C) (i : nat) (r : grec) : Prop :=
  List.length (q_nodes r) = g_nnofa g /\ (forall j, j < g_nnofa g -> at2 (g_bface g) i j = (nth j (q_nodes r) 0 - 1)%Z) /\
  List.length (q_tags r) <= g_nbtag g /\ (forall j, j < List.length (q_tags r) -> at2 (g_bface g) i (g_nnofa g + j) = nth j (q_tags r) 0%Z).
(** cell [i] of [g] is the record [r] *)
Definition cell_is {C} (g : gmesh C) (i : nat) (r : grec) : Prop :=
  aat (g_nnode g) i = List.length (q_nodes r) /\ (forall j, j < List.length (q_nodes r) -> at2 (g_inpoel g) i j = (nth j (q_nodes r) 0 - 1)%Z) /\
  List.length (q_tags r) <= g_ndtag g /\ (forall j, j < List.length (q_tags r) -> at2 (g_regions g) i j = nth j (q_tags r) 0%Z).
(** files the reader can hold: right number of nodes per record, all linear or all quadratic, nodes and tags of a row at most 25 *)
Definition readable (rs : list grec) (q : nat) : Prop :=
  forall r r', In r rs -> In r' rs -> List.length (q_nodes r) = t_nn (q_ty r) /\ t_nofa (q_ty r) = q /\ t_nn (q_ty r) + List.length (q_tags r') <= 25.

Lemma etype_cases t : In (etype t) [(true, 2, 0, 2); (true, 3, 0, 3); (false, 3, 3, 2); (false, 4, 4, 2); (false, 6, 3, 3); (false, 8, 4, 3); (false, 9, 4, 3)].
Proof. unfold etype. repeat match goal with |- context [match ?x with _ => _ end] => is_var x; destruct x end; cbn; auto 10. Qed.
Ltac etypes t := pose proof (etype_cases t) as EC; unfold t_edge, t_nn, t_nofa in *; cbn [In] in EC; repeat (destruct EC as [EC|EC]; [rewrite <- EC in *; try discriminate; try lia|]); try contradiction.
Lemma nn_ge_nofa t : t_nofa t <= t_nn t.
Proof. etypes t. Qed.
Lemma nn_edge t : t_edge t = true -> t_nn t = t_nofa t.
Proof. intros H. etypes t. Qed.
Lemma nn_cell t : t_edge t = false -> t_nofa t < t_nn t.
Proof. intros H. etypes t. Qed.
Lemma tags_bound (p : grec -> bool) rs b : (forall r, In r rs -> List.length (q_tags r) <= b) -> list_max (map (fun r => List.length (q_tags r)) (filter p rs)) <= b.
Proof. intros H. apply list_max_le. apply Forall_forall. intros x Hx. apply in_map_iff in Hx. destruct Hx as (r & <- & Hr). apply filter_In in Hr. apply H, Hr. Qed.
Lemma readable_fits rs q : nedges rs < List.length rs -> readable rs q -> fits rs q.
Proof.
  intros Hn H. assert (X : forall r, In r rs -> t_nn (q_ty r) <= 25 /\ forall r', In r' rs -> List.length (q_tags r') <= 25 - t_nn (q_ty r)). { intros r Hr. split; [destruct (H r r Hr Hr); lia|]. intros r' Hr'. destruct (H r r' Hr Hr') as (? & ? & ?). lia. }
  split; [|split].
  - intros r Hr. destruct (H r r Hr Hr) as (? & ? & ?). split; auto.
  - destruct rs as [|r rs]; [cbn in Hn; lia|]. assert (Hr : In r (r :: rs)) by (left; auto). destruct (X r Hr) as (L & T). apply (tags_bound edge_rec) in T. unfold btags.
    destruct (H r r Hr Hr) as (_ & Q & _). pose proof (nn_ge_nofa (q_ty r)). lia.
  - intros i Hi. assert (Hr : In (rnth rs i) rs) by (apply nth_In; lia). destruct (X _ Hr) as (L & T). apply (tags_bound (fun r => negb (edge_rec r))) in T. unfold dtags. unfold st_nn. destruct (edge_rec (rnth rs i)); lia.
Qed.

Section T.
Context {C : Type}.

(** ** C22: when all boundary records come first every record ends up in its own list, with its own nodes and tags *)
Theorem C22_boundary_first : forall junkE junkI junkB junkR (junkC : nat -> nat -> C) jn bface0 hdr body pts bs cs w1 w2 tail q,
  List.length hdr = 4 -> List.concat body = file_body pts (bs ++ cs) [TS w1] [TS w2] ++ tail -> cs <> [] ->
  (forall r, In r bs -> edge_rec r = true) -> (forall r, In r cs -> edge_rec r = false) -> readable (bs ++ cs) q ->
  exists g, readGmsh2 junkE junkI junkB junkR junkC jn bface0 (hdr ++ body) = Some g /\
    g_nbface g = List.length bs /\ g_nelem g = List.length cs /\ g_npoin g = List.length pts /\ alen (g_nnode g) = List.length cs /\
    (forall i p, nth_error pts i = Some p -> at2 (g_coords g) i 0 = px p /\ at2 (g_coords g) i 1 = py p) /\
    (forall i r, nth_error bs i = Some r -> bface_is g i r) /\ (forall i r, nth_error cs i = Some r -> cell_is g i r).
Proof.
  intros junkE junkI junkB junkR junkC jn bface0 hdr body pts bs cs w1 w2 tail q Hh Hb Hcs Eb Ec Hr.
  destruct (split_edges bs cs Eb Ec) as (F1 & F2).
  assert (NE : nedges (bs ++ cs) = List.length bs) by (unfold nedges; rewrite F1; auto).
  assert (NL : nedges (bs ++ cs) < List.length (bs ++ cs)) by (rewrite NE, app_length; destruct cs; [congruence|cbn; lia]).
  pose proof (readable_fits _ _ NL Hr) as Fi.
  assert (BL : forall r, In r bs -> List.length (q_tags r) <= btags (bs ++ cs)). { intros r H. unfold btags. rewrite F1. apply list_max_ge. apply (in_map (fun r => List.length (q_tags r))). auto. }
  assert (DL : forall r, In r cs -> List.length (q_tags r) <= dtags (bs ++ cs)). { intros r H. unfold dtags. rewrite F2. apply list_max_ge. apply (in_map (fun r => List.length (q_tags r))). auto. }
  assert (X : exists d : Z * C * C * C, True \/ pts = []). { destruct pts as [|d ?]; [|exists d; auto]. exists (0%Z, junkC 0 0, junkC 0 0, junkC 0 0). auto. }
  destruct X as (d & _).
  destruct (readGmsh2_rows junkE junkI junkB junkR junkC jn bface0 hdr body pts (bs ++ cs) w1 w2 tail q d Hh Hb NL Fi) as (g & E & R). exists g. split; auto.
  rewrite NE in R. cbv zeta in R. rewrite app_length in R. replace (List.length bs + List.length cs - List.length bs) with (List.length cs) in R by lia.
  destruct R as (R1 & R2 & R3 & R4 & R5 & R6 & R7 & R8 & R9 & R10 & R11 & R12 & R13 & R14 & R15 & R16 & R17 & R18 & R19 & R20 & R21 & R22 & R23).
  split; auto. split; auto. split; auto. split; auto. split; [|split].
  - intros i p H. assert (i < List.length pts) by (apply nth_error_Some; rewrite H; congruence). rewrite <- (nth_error_nth _ _ d H). auto.
  - intros i r H. assert (Hi : i < List.length bs) by (apply nth_error_Some; rewrite H; congruence). assert (Ir : In r bs) by (eapply nth_error_In; eauto).
    assert (Rn : rnth (bs ++ cs) i = r). { unfold rnth. rewrite app_nth1 by auto. apply nth_error_nth. auto. }
    destruct (Hr r r) as (W & Q & _); [apply in_or_app; auto|apply in_or_app; auto|]. specialize (Eb r Ir).
    assert (TN : t_nn (q_ty r) = q). { rewrite <- Q. apply nn_edge. exact Eb. }
    unfold bface_is. rewrite R7, R8. split; [lia|]. split; [|split; [auto|]].
    + intros j Hj. rewrite R13 by auto. rewrite Rn. unfold rowv. rewrite (proj2 (Nat.ltb_lt _ _)) by lia. auto.
    + intros j Hj. specialize (BL r Ir). rewrite R14 by lia. rewrite Rn. unfold rowv. rewrite (proj2 (Nat.ltb_ge _ _)) by lia. rewrite (proj2 (Nat.ltb_lt _ _)) by lia. f_equal. lia.
  - intros i r H. assert (Hi : i < List.length cs) by (apply nth_error_Some; rewrite H; congruence). assert (Ir : In r cs) by (eapply nth_error_In; eauto).
    assert (Rn : rnth (bs ++ cs) (i + List.length bs) = r). { unfold rnth. rewrite app_nth2 by lia. replace (i + List.length bs - List.length bs) with i by lia. apply nth_error_nth. auto. }
    destruct (Hr r r) as (W & Q & _); [apply in_or_app; auto|apply in_or_app; auto|]. specialize (Ec r Ir).
    assert (SN : st_nn r = t_nn (q_ty r)) by (unfold st_nn; rewrite Ec; auto).
    assert (MX : t_nn (q_ty r) <= maxnn (bs ++ cs)). { rewrite <- SN. apply list_max_ge. apply in_map. apply in_or_app; auto. }
    unfold cell_is. rewrite R9. destruct (R17 i Hi) as (N & _). rewrite Rn in N. split; [lia|]. split; [|split; [auto|]].
    + intros j Hj. rewrite R22 by lia. rewrite Rn. rewrite (proj2 (Nat.ltb_lt _ _)) by lia. unfold rowv. rewrite (proj2 (Nat.ltb_lt _ _)) by lia. auto.
    + intros j Hj. specialize (DL r Ir). rewrite R23 by lia. rewrite Rn, SN. unfold rowv. rewrite (proj2 (Nat.ltb_ge _ _)) by lia. rewrite (proj2 (Nat.ltb_lt _ _)) by lia. f_equal. lia.
Qed.

(** ** C22: in any other order some cell is taken for a boundary face and some boundary face for a cell without nodes *)
Lemma misplaced rs : (forall bs cs, rs = bs ++ cs -> (exists r, In r bs /\ edge_rec r = false) \/ (exists r, In r cs /\ edge_rec r = true)) ->
  (exists i, i < nedges rs /\ edge_rec (rnth rs i) = false) /\ (exists k, nedges rs <= k < List.length rs /\ edge_rec (rnth rs k) = true).
Proof.
  intros H. pose proof (nedges_le rs) as L.
  set (a := firstn (nedges rs) rs). set (b := skipn (nedges rs) rs). assert (E : rs = a ++ b) by (unfold a, b; rewrite firstn_skipn; auto).
  assert (La : List.length a = nedges rs) by (unfold a; apply firstn_length_le; auto).
  assert (CT : forall l, nedges l + List.length (filter (fun r => negb (edge_rec r)) l) = List.length l). { intros l. unfold nedges. induction l as [|x l IH]; cbn; auto. destruct (edge_rec x); cbn; lia. }
  assert (NE : nedges rs = nedges a + nedges b) by (rewrite E at 1; unfold nedges; rewrite filter_app, app_length; auto).
  assert (BA : List.length (filter (fun r => negb (edge_rec r)) a) = nedges b) by (specialize (CT a); lia).
  assert (Ex : (exists r, In r a /\ edge_rec r = false) /\ (exists r, In r b /\ edge_rec r = true)).
  { destruct (H a b E) as [(r & I & F)|(r & I & F)].
    - split; [eauto|]. destruct (filter edge_rec b) as [|x l] eqn:Q.
      + exfalso. unfold nedges in BA. rewrite Q in BA. cbn in BA. assert (In r (filter (fun r => negb (edge_rec r)) a)) by (apply filter_In; rewrite F; auto). destruct (filter _ a); [auto|cbn in BA; lia].
      + exists x. apply filter_In. rewrite Q. left; auto.
    - split; [|eauto]. assert (G : In r (filter edge_rec b)) by (apply filter_In; auto). destruct (filter (fun r => negb (edge_rec r)) a) as [|x l] eqn:Q.
      + exfalso. cbn in BA. unfold nedges in BA. destruct (filter edge_rec b); [auto|cbn in BA; lia].
      + assert (Ix : In x (filter (fun r => negb (edge_rec r)) a)) by (rewrite Q; left; auto). apply filter_In in Ix. exists x. destruct Ix as (? & N). split; auto. destruct (edge_rec x); auto; discriminate. }
  destruct Ex as ((r & I & F) & (r' & I' & F')). split.
  - apply (In_nth a r nrec0) in I. destruct I as (i & Hi & <-). exists i. split; [lia|]. rewrite E. unfold rnth. rewrite app_nth1 by auto. auto.
  - apply (In_nth b r' nrec0) in I'. destruct I' as (i & Hi & <-). assert (LL : List.length rs = List.length a + List.length b) by (rewrite E at 1; apply app_length).
    exists (nedges rs + i). split; [lia|]. unfold rnth. rewrite E at 2. rewrite app_nth2 by lia. rewrite La. replace (nedges rs + i - nedges rs) with i by lia. auto.
Qed.

Theorem C22_other_order : forall junkE junkI junkB junkR (junkC : nat -> nat -> C) jn bface0 hdr body pts rs w1 w2 tail q,
  List.length hdr = 4 -> List.concat body = file_body pts rs [TS w1] [TS w2] ++ tail -> readable rs q ->
  (exists r, In r rs /\ edge_rec r = false) ->
  (* not a list of boundary records followed by a list of cell records *)
  (forall bs cs, rs = bs ++ cs -> (exists r, In r bs /\ edge_rec r = false) \/ (exists r, In r cs /\ edge_rec r = true)) ->
  exists g, readGmsh2 junkE junkI junkB junkR junkC jn bface0 (hdr ++ body) = Some g /\
    (exists i r, nth_error rs i = Some r /\ edge_rec r = false /\ i < g_nbface g /\ forall j, j < q -> at2 (g_bface g) i j = (nth j (q_nodes r) 0 - 1)%Z) /\
    (* the marker of that false boundary face is a node number of the cell *)
    (exists i r, nth_error rs i = Some r /\ edge_rec r = false /\ i < g_nbface g /\ (0 < g_nbtag g -> at2 (g_bface g) i q = nth q (q_nodes r) 0%Z)) /\
    (exists i r, nth_error rs (i + g_nbface g) = Some r /\ edge_rec r = true /\ i < g_nelem g /\ aat (g_nnode g) i = 0).
Proof.
  intros junkE junkI junkB junkR junkC jn bface0 hdr body pts rs w1 w2 tail q Hh Hb Hr (c & Ic & Fc) Ho.
  assert (NL : nedges rs < List.length rs). { clear -Ic Fc. induction rs as [|a l IH]; [destruct Ic|]. unfold nedges in *. cbn. destruct Ic as [->|I]; [rewrite Fc; pose proof (nedges_le l); unfold nedges in *; lia|]. destruct (edge_rec a); cbn; specialize (IH I); lia. }
  assert (X : exists d : Z * C * C * C, True). { exists (0%Z, junkC 0 0, junkC 0 0, junkC 0 0). auto. } destruct X as (d & _).
  destruct (readGmsh2_rows junkE junkI junkB junkR junkC jn bface0 hdr body pts rs w1 w2 tail q d Hh Hb NL (readable_fits _ _ NL Hr)) as (g & E & R). exists g. split; auto. cbv zeta in R.
  destruct R as (R1 & R2 & R3 & R4 & R5 & R6 & R7 & R8 & R9 & R10 & R11 & R12 & R13 & R14 & R15 & R16 & R17 & _).
  destruct (misplaced rs Ho) as ((i & Hi & Fi) & (k & Hk & Fk)). rewrite R5.
  assert (Ni : nth_error rs i = Some (rnth rs i)) by (apply nth_error_nth'; lia). assert (Nk : nth_error rs k = Some (rnth rs k)) by (apply nth_error_nth'; lia).
  assert (Ii : In (rnth rs i) rs) by (eapply nth_error_In; eauto). destruct (Hr _ _ Ii Ii) as (W & Q & _).
  assert (LT : q < t_nn (q_ty (rnth rs i))). { rewrite <- Q. apply nn_cell. exact Fi. }
  split; [|split].
  - exists i, (rnth rs i). split; auto. split; auto. split; auto. intros j Hj. rewrite R13 by auto. unfold rowv. rewrite (proj2 (Nat.ltb_lt _ _)) by lia. auto.
  - exists i, (rnth rs i). split; auto. split; auto. split; auto. rewrite R8. intros Hj. specialize (R14 i 0 Hi Hj). rewrite Nat.add_0_r in R14. rewrite R14. unfold rowv. rewrite (proj2 (Nat.ltb_lt _ _)) by lia. auto.
  - exists (k - nedges rs), (rnth rs k). replace (k - nedges rs + nedges rs) with k by lia. split; auto. split; auto. split; [lia|]. destruct (R17 (k - nedges rs)) as (N & _); [lia|]. rewrite N. replace (k - nedges rs + nedges rs) with k by lia. unfold st_nn. rewrite Fk. auto.
Qed.

(** ** C21: writing a mesh and reading it back *)
Theorem C21_round_trip : forall (c0 : C) m junkE junkI junkB junkR junkC jn bface0, mesh_ok m ->
  exists file g, writeGmsh2 c0 m = Some file /\ readGmsh2 junkE junkI junkB junkR junkC jn bface0 file = Some g /\
    g_npoin g = g_npoin m /\ (forall i, i < g_npoin m -> at2 (g_coords g) i 0 = at2 (g_coords m) i 0 /\ at2 (g_coords g) i 1 = at2 (g_coords m) i 1) /\
    g_nbface g = g_nbface m /\ g_nelem g = g_nelem m /\ g_nnofa g = g_nnofa m /\
    alen (g_nnode g) = g_nelem m /\ (forall i, i < g_nelem m -> aat (g_nnode g) i = aat (g_nnode m) i) /\
    (forall i j, i < g_nelem m -> j < aat (g_nnode m) i -> at2 (g_inpoel g) i j = at2 (g_inpoel m) i j) /\
    (forall i j, i < g_nbface m -> j < g_nnofa m + g_nbtag m -> at2 (g_bface g) i j = at2 (g_bface m) i j) /\
    (forall i j, i < g_nelem m -> j < g_ndtag m -> at2 (g_regions g) i j = at2 (g_regions m) i j) /\
    g_ndtag g = max 2 (g_ndtag m) /\ (0 < g_nbface m -> g_nbtag g = max 2 (g_nbtag m)) /\
    (* tags the writer makes up when there are fewer than two *)
    (forall i, i < g_nbface m -> g_nbtag m = 1 -> at2 (g_bface g) i (g_nnofa m + 1) = (1 + at2 (g_bface m) i (g_nnofa m))%Z) /\
    (forall i j, i < g_nbface m -> g_nbtag m = 0 -> j < 2 -> at2 (g_bface g) i (g_nnofa m + j) = 1%Z) /\
    (forall i, i < g_nelem m -> aat (g_nfael g) i = if (aat (g_nnode m) i =? 3) || (aat (g_nnode m) i =? 6) then 3 else 4).
Proof.
  intros c0 m junkE junkI junkB junkR junkC jn bface0 Ok.
  destruct (write_ok c0 m Ok) as (h1 & h2 & h3 & h4 & body & w1 & w2 & w3 & Ew & Eb).
  set (bs := map (brec m) (seq 0 (g_nbface m))). set (cs := map (crec m) (seq 0 (g_nelem m))).
  assert (Lb : List.length bs = g_nbface m) by (unfold bs; rewrite map_length, seq_length; auto). assert (Lc : List.length cs = g_nelem m) by (unfold cs; rewrite map_length, seq_length; auto).
  assert (Nb : forall i, i < g_nbface m -> nth_error bs i = Some (brec m i)). { intros i Hi. unfold bs. rewrite nth_error_map, nth_error_seq by auto. auto. }
  assert (Nc : forall i, i < g_nelem m -> nth_error cs i = Some (crec m i)). { intros i Hi. unfold cs. rewrite nth_error_map, nth_error_seq by auto. auto. }
  assert (Ib : forall r, In r bs -> exists i, i < g_nbface m /\ r = brec m i). { intros r H. apply in_map_iff in H. destruct H as (i & <- & H). apply in_seq in H. exists i. split; auto; lia. }
  assert (Icc : forall r, In r cs -> exists i, i < g_nelem m /\ r = crec m i). { intros r H. apply in_map_iff in H. destruct H as (i & <- & H). apply in_seq in H. exists i. split; auto; lia. }
  assert (Eb1 : forall r, In r bs -> edge_rec r = true). { intros r H. destruct (Ib r H) as (i & _ & ->). apply brec_edge. }
  assert (Ec1 : forall r, In r cs -> edge_rec r = false). { intros r H. destruct (Icc r H) as (i & Hi & ->). apply crec_edge; auto. }
  destruct (split_edges bs cs Eb1 Ec1) as (F1 & F2).
  assert (NE : nedges (bs ++ cs) = g_nbface m) by (unfold nedges; rewrite F1; auto).
  assert (NL : nedges (bs ++ cs) < List.length (bs ++ cs)) by (rewrite NE, app_length, Lb, Lc; pose proof (mo_ne m Ok); lia).
  assert (BT : 0 < g_nbface m -> btags (bs ++ cs) = max 2 (g_nbtag m)).
  { intros H. unfold btags. rewrite F1. apply list_max_const. { destruct bs; cbn in *; [lia|congruence]. } intros x Hx. apply in_map_iff in Hx. destruct Hx as (r & <- & Hr). destruct (Ib r Hr) as (i & _ & ->). apply btag_len. }
  assert (BT0 : g_nbface m = 0 -> btags (bs ++ cs) = 0). { intros H. unfold btags. rewrite F1. destruct bs; cbn in *; auto; lia. }
  assert (DT : dtags (bs ++ cs) = max 2 (g_ndtag m)).
  { unfold dtags. rewrite F2. apply list_max_const. { pose proof (mo_ne m Ok). destruct cs; cbn in *; [lia|congruence]. } intros x Hx. apply in_map_iff in Hx. destruct Hx as (r & <- & Hr). destruct (Icc r Hr) as (i & _ & ->). apply dtag_len. }
  assert (K : g_nnofa m = 2 \/ g_nnofa m = 3) by (destruct (mo_kind m Ok) as [(H & _)|(H & _)]; auto).
  assert (BB : forall i, t_nn (q_ty (brec m i)) = g_nnofa m /\ t_nofa (q_ty (brec m i)) = g_nnofa m) by (intros i; cbn; destruct K as [-> | ->]; cbn; auto).
  assert (Fi : fits (bs ++ cs) (g_nnofa m)).
  { split; [|split].
    - intros r Hr. apply in_app_or in Hr. destruct Hr as [Hr|Hr].
      + destruct (Ib r Hr) as (i & Hi & ->). destruct (BB i) as (B1 & B2). unfold wf_rec. rewrite B1. cbn [q_nodes q_tags brec]. rewrite map_length, seq_length, btag_len. split; auto. split; [apply (mo_bw m Ok)|auto].
      + destruct (Icc r Hr) as (i & Hi & ->). destruct (kind_cases m i Ok Hi) as (K1 & K2 & K3 & K4). unfold wf_rec. cbn [q_ty q_nodes q_tags crec]. rewrite K2, map_length, seq_length, dtag_len. split; auto. split; [apply (mo_dw m Ok); auto|auto].
    - pose proof (mo_bw m Ok). destruct (Nat.eq_dec (g_nbface m) 0) as [Z0|Z0]; [rewrite (BT0 Z0); lia|rewrite BT by lia; auto].
    - intros i Hi. rewrite NE in Hi. rewrite app_length, Lb, Lc in Hi. assert (Rn : rnth (bs ++ cs) i = crec m (i - g_nbface m)). { unfold rnth. rewrite app_nth2 by lia. rewrite Lb. apply nth_error_nth. apply Nc. lia. }
      rewrite Rn, DT. unfold st_nn. rewrite crec_edge by (auto; lia). destruct (kind_cases m (i - g_nbface m) Ok) as (K1 & K2 & K3 & K4); [lia|]. cbn [q_ty crec]. rewrite K2. apply (mo_dw m Ok). lia. }
  exists ([h1; h2; h3; h4] ++ body).
  destruct (readGmsh2_rows junkE junkI junkB junkR junkC jn bface0 [h1; h2; h3; h4] body (mpts c0 m) (bs ++ cs) w1 w2 [TS w3] (g_nnofa m) (0%Z, c0, c0, c0) eq_refl Eb NL Fi) as (g & E & R).
  exists g. split; auto. split; auto. cbv zeta in R. rewrite NE, app_length, Lb, Lc in R. replace (g_nbface m + g_nelem m - g_nbface m) with (g_nelem m) in R by lia.
  destruct R as (R1 & R2 & R3 & R4 & R5 & R6 & R7 & R8 & R9 & R10 & R11 & R12 & R13 & R14 & R15 & R16 & R17 & R18 & R19 & R20 & R21 & R22 & R23).
  assert (Lp : List.length (mpts c0 m) = g_npoin m) by (unfold mpts; rewrite map_length, seq_length; auto). rewrite Lp in *.
  assert (Rb : forall i, i < g_nbface m -> rnth (bs ++ cs) i = brec m i). { intros i Hi. unfold rnth. rewrite app_nth1 by lia. apply nth_error_nth. auto. }
  assert (Rc : forall i, i < g_nelem m -> rnth (bs ++ cs) (i + g_nbface m) = crec m i). { intros i Hi. unfold rnth. rewrite app_nth2 by lia. rewrite Lb. replace (i + g_nbface m - g_nbface m) with i by lia. apply nth_error_nth. auto. }
  assert (Sn : forall i, i < g_nelem m -> st_nn (crec m i) = aat (g_nnode m) i). { intros i Hi. unfold st_nn. rewrite crec_edge by auto. apply (kind_cases m i Ok Hi). }
  assert (Tn : forall i, i < g_nelem m -> t_nn (q_ty (crec m i)) = aat (g_nnode m) i). { intros i Hi. apply (kind_cases m i Ok Hi). }
  assert (nthm : forall (f : nat -> Z) n j, j < n -> nth j (map f (seq 0 n)) 0%Z = f j). { intros f n j Hj. apply nth_error_nth. rewrite nth_error_map, nth_error_seq by auto. auto. }
  assert (TB : forall i j, i < g_nbface m -> j < max 2 (g_nbtag m) -> at2 (g_bface g) i (g_nnofa m + j) = nth j (btag_list m i) 0%Z).
  { intros i j Hi Hj. rewrite R14; [|lia|rewrite BT by lia; lia]. rewrite Rb by auto. unfold rowv. destruct (BB i) as (-> & _). rewrite (proj2 (Nat.ltb_ge _ _)) by lia. cbn [q_tags brec]. rewrite btag_len. rewrite (proj2 (Nat.ltb_lt _ _)) by lia. f_equal. lia. }
  split; auto. split. { intros i Hi. rewrite (proj1 (R4 i Hi)), (proj2 (R4 i Hi)). unfold mpts. rewrite (nth_error_nth (map _ (seq 0 (g_npoin m))) i _ (x := ((Z.of_nat i + 1)%Z, at2 (g_coords m) i 0, at2 (g_coords m) i 1, c0))); [cbn; auto|]. rewrite nth_error_map, nth_error_seq by auto. auto. }
  split; auto. split; auto. split; auto. split; auto. split; [|split; [|split; [|split; [|split; [|split; [|split; [|split]]]]]]].
  - intros i Hi. destruct (R17 i Hi) as (N & _). rewrite N, Rc, Sn by auto. auto.
  - intros i j Hi Hj. assert (MX : aat (g_nnode m) i <= maxnn (bs ++ cs)). { rewrite <- Sn by auto. apply list_max_ge. apply in_map. apply in_or_app. right. eapply nth_error_In. apply Nc. auto. }
    rewrite R22 by lia. rewrite Rc, Sn by auto. rewrite (proj2 (Nat.ltb_lt _ _)) by lia. unfold rowv. rewrite Tn by auto. rewrite (proj2 (Nat.ltb_lt _ _)) by lia. cbn [q_nodes crec]. rewrite nthm by auto. lia.
  - intros i j Hi Hj. destruct (Nat.lt_ge_cases j (g_nnofa m)) as [L|L].
    + rewrite R13 by auto. rewrite Rb by auto. unfold rowv. destruct (BB i) as (-> & _). rewrite (proj2 (Nat.ltb_lt _ _)) by lia. cbn [q_nodes brec]. rewrite nthm by auto. lia.
    + replace j with (g_nnofa m + (j - g_nnofa m)) at 1 by lia. rewrite TB by lia. unfold btag_list. rewrite app_nth1 by (rewrite map_length, seq_length; lia). rewrite nthm by lia. f_equal. lia.
  - intros i j Hi Hj. rewrite R23 by lia. rewrite Rc, Sn by auto. unfold rowv. rewrite Tn by auto. rewrite (proj2 (Nat.ltb_ge _ _)) by lia. cbn [q_tags crec]. rewrite dtag_len. rewrite (proj2 (Nat.ltb_lt _ _)) by lia.
    unfold dtag_list. rewrite app_nth1 by (rewrite map_length, seq_length; lia). rewrite nthm by lia. f_equal. lia.
  - lia.
  - intros H. rewrite R8. auto.
  - intros i Hi H. rewrite TB by lia. unfold btag_list. rewrite app_nth2 by (rewrite map_length, seq_length; lia). rewrite map_length, seq_length, H. replace (g_nnofa m + 1 - 1) with (g_nnofa m) by lia. auto.
  - intros i j Hi H Hj. rewrite TB by lia. unfold btag_list. rewrite H. cbn. destruct j as [|[|j]]; auto; lia.
  - intros i Hi. destruct (R17 i Hi) as (_ & N). rewrite N, Rc by auto. unfold st_nf. rewrite crec_edge by auto. apply (kind_cases m i Ok Hi).
Qed.
End T.

(** ** A mesh with a triangle and a quadrilateral, five points and five boundary faces *)
Definition gx : gmesh Z := mkg 5 (mk2 5 2 (fun i j => Z.of_nat (10 * i + j))) 5 2 (mkarr 2 (fun i => if i =? 0 then 3 else 4)) (mkarr 2 (fun i => if i =? 0 then 3 else 4)) 4 4 2 1 1
  (mk2 2 4 (fun i j => nth j (if i =? 0 then [1; 4; 2]%Z else [0; 1; 2; 3]%Z) (-1)%Z))
  (mk2 5 3 (fun i j => nth j (nth i [[0; 1; 7]; [1; 4; 7]; [4; 2; 8]; [2; 3; 8]; [3; 0; 9]]%Z []) 0%Z)) (mk2 2 1 (fun _ _ => 3%Z)).
Example gx_ok : mesh_ok gx.
Proof.
  split; try (vm_compute; lia).
  - intros i Hi. destruct i as [|[|i]]; vm_compute; auto with arith; cbn in Hi; lia.
  - left. split; auto. intros i Hi. destruct i as [|[|i]]; cbn; auto; cbn in Hi; lia.
  - intros i Hi. destruct i as [|[|i]]; vm_compute; try lia; cbn in Hi; lia.
Qed.
Example gx_boundary_tags : match writeGmsh2 0%Z gx with Some f => match readGmsh2 (fun _ _ => (-77)%Z) (fun _ _ => (-78)%Z) (fun _ _ => (-79)%Z) (fun _ _ => (-80)%Z) (fun _ _ => (-81)%Z) 99 (mk2 0 0 (fun _ _ => 0%Z)) f with
  Some g => map (fun i => at2 (g_bface g) i 2) (seq 0 5) = [7; 7; 8; 8; 9]%Z /\ map (fun j => at2 (g_inpoel g) 0 j) (seq 0 4) = [1; 4; 2; -1]%Z | None => False end | None => False end.
Proof. vm_compute. auto. Qed.
(** a triangle before its three edges: the second hypothesis of C22_other_order holds, the reader takes the triangle for a boundary face with
    marker 3 *)
Definition rsx : list grec := [mkrec 1 2 [5] [1; 2; 3]; mkrec 2 1 [7] [1; 2]; mkrec 3 1 [7] [2; 3]; mkrec 4 1 [8] [3; 1]]%Z.
Example rsx_order : readable rsx 2 /\ forall bs cs, rsx = bs ++ cs -> (exists r, In r bs /\ edge_rec r = false) \/ (exists r, In r cs /\ edge_rec r = true).
Proof.
  split.
  - intros r r' H H'. cbn in H, H'. repeat destruct H as [<-|H]; repeat destruct H' as [<-|H']; try contradiction; vm_compute; repeat split; auto; lia.
  - intros [|b bs] cs E.
    + right. exists (mkrec 2 1 [7] [1; 2])%Z. cbn in E. subst cs. split; [cbn; auto|auto].
    + left. injection E as <- _. eexists. split; [left; reflexivity|auto].
Qed.
Example rsx_read : match readGmsh2 (fun _ _ => (-77)%Z) (fun _ _ => (-78)%Z) (fun _ _ => (-79)%Z) (fun _ _ => (-80)%Z) (fun _ _ => 0%Z) 99 (mk2 0 0 (fun _ _ => 0%Z))
    ([[]; []; []; []] ++ [file_body [(1, 0, 0, 0); (2, 1, 0, 0); (3, 0, 1, 0)]%Z rsx [TS "$EndNodes"%string] [TS "$Elements"%string]]) with
  Some g => g_nbface g = 3 /\ map (at2 (g_bface g) 0) (seq 0 3) = [0; 1; 3]%Z /\ aat (g_nnode g) 0 = 0 | None => False end.
Proof. vm_compute. auto. Qed.

Print Assumptions C22_boundary_first.
Print Assumptions C22_other_order.
Print Assumptions C21_round_trip.
