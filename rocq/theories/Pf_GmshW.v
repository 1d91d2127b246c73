(** Lemmas about the Gmsh writer: the file it produces as a list of records. *)
From Coq Require Import List Arith ZArith Bool Lia.
From Verif Require Import Base M_Gmsh Pf_Gmsh.
Import ListNotations.
Open Scope nat_scope.

Lemma olist_ok {A} (f : nat -> option A) (g : nat -> A) n : (forall i, i < n -> f i = Some (g i)) -> olist n f = Some (map g (seq 0 n)).
Proof.
  intros H. unfold olist. match goal with |- floop _ ?bb ?ss = _ => destruct (floop_inv _ (fun k l => l = map g (seq 0 k)) n bb ss) as (l & F & I) end; auto.
  - intros k l Hk ->. rewrite H by auto. cbn [bind]. eexists; split; [reflexivity|]. replace (k + 1) with (S k) by lia. rewrite seq_S, map_app. auto.
  - rewrite F, I. auto.
Qed.

Section W.
Context {C : Type} (c0 : C).
Notation tok := (tok C). Notation gmesh := (gmesh C).

(** A mesh as the program holds it: array sizes agree with the counts, faces and cells are all linear or all quadratic,
    and the reader's record table is wide enough *)
Record mesh_ok (m : gmesh) : Prop := { mo_pts : rows (g_coords m) = g_npoin m; mo_ptc : cols (g_coords m) = 2;
  mo_br : rows (g_bface m) = g_nbface m; mo_bc : cols (g_bface m) = g_nnofa m + g_nbtag m;
  mo_ir : rows (g_inpoel m) = g_nelem m; mo_nn : alen (g_nnode m) = g_nelem m; mo_ic : forall i, i < g_nelem m -> aat (g_nnode m) i <= cols (g_inpoel m);
  mo_rr : 0 < g_ndtag m -> rows (g_regions m) = g_nelem m; mo_rc : cols (g_regions m) = g_ndtag m;
  mo_kind : (g_nnofa m = 2 /\ forall i, i < g_nelem m -> In (aat (g_nnode m) i) [3; 4]) \/ (g_nnofa m = 3 /\ forall i, i < g_nelem m -> In (aat (g_nnode m) i) [6; 8; 9]);
  mo_ne : 0 < g_nelem m; mo_bw : g_nnofa m + max 2 (g_nbtag m) <= 25; mo_dw : forall i, i < g_nelem m -> aat (g_nnode m) i + max 2 (g_ndtag m) <= 25 }.

Definition btag_list (m : gmesh) i : list Z := map (fun k => at2 (g_bface m) i (g_nnofa m + k)) (seq 0 (g_nbtag m)) ++
  map (fun _ => if g_nbtag m =? 0 then 1%Z else (1 + at2 (g_bface m) i (g_nnofa m + g_nbtag m - 1)%nat)%Z) (seq 0 (max 2 (g_nbtag m) - g_nbtag m)).
Definition dtag_list (m : gmesh) i : list Z := map (fun k => at2 (g_regions m) i k) (seq 0 (g_ndtag m)) ++
  map (fun _ => if g_ndtag m =? 0 then 1%Z else (1 + at2 (g_regions m) i (g_ndtag m - 1)%nat)%Z) (seq 0 (max 2 (g_ndtag m) - g_ndtag m)).
Definition brec (m : gmesh) i : grec := mkrec (Z.of_nat i + 1) (if g_nnofa m =? 3 then 8%Z else 1%Z) (btag_list m i) (map (fun k => (at2 (g_bface m) i k + 1)%Z) (seq 0 (g_nnofa m))).
Definition crec (m : gmesh) i : grec := mkrec (Z.of_nat (g_nbface m + i) + 1) (elm_type (aat (g_nnode m) i) 2%Z) (dtag_list m i) (map (fun k => (at2 (g_inpoel m) i k + 1)%Z) (seq 0 (aat (g_nnode m) i))).
Definition mrecs (m : gmesh) : list grec := map (brec m) (seq 0 (g_nbface m)) ++ map (crec m) (seq 0 (g_nelem m)).
Definition mpts (m : gmesh) : list (Z * C * C * C) := map (fun i => ((Z.of_nat i + 1)%Z, at2 (g_coords m) i 0, at2 (g_coords m) i 1, c0)) (seq 0 (g_npoin m)).

Lemma max2 n : (if n <? 2 then 2 else n) = max 2 n.
Proof. destruct (Nat.ltb_spec n 2); lia. Qed.
Lemma btag_len m i : length (btag_list m i) = max 2 (g_nbtag m).
Proof. unfold btag_list. rewrite app_length, !map_length, !seq_length. lia. Qed.
Lemma dtag_len m i : length (dtag_list m i) = max 2 (g_ndtag m).
Proof. unfold dtag_list. rewrite app_length, !map_length, !seq_length. lia. Qed.

Lemma w_bface_ok m i : mesh_ok m -> i < g_nbface m -> w_bface m i = Some (enc (brec m i)).
Proof.
  intros [] Hi. unfold w_bface. rewrite max2.
  rewrite (olist_ok _ (fun k => TZ (at2 (g_bface m) i (g_nnofa m + k)))) by (intros k Hk; rewrite get2_ok by lia; auto). cbn [bind].
  rewrite (olist_ok _ (fun k => TZ (if g_nbtag m =? 0 then 1%Z else (1 + at2 (g_bface m) i (g_nnofa m + g_nbtag m - 1)%nat)%Z))).
  2:{ intros k Hk. destruct (Nat.eqb_spec (g_nbtag m) 0); auto. rewrite get2_ok by lia. auto. }
  cbn [bind]. rewrite (olist_ok _ (fun k => TZ (at2 (g_bface m) i k + 1)%Z)) by (intros k Hk; rewrite get2_ok by lia; auto). cbn [bind].
  unfold enc. cbn [q_id q_ty q_tags q_nodes brec]. rewrite btag_len. unfold btag_list. rewrite map_app, !map_map. rewrite <- !app_assoc. auto.
Qed.
Lemma elm_old m i ty : mesh_ok m -> i < g_nelem m -> elm_type (aat (g_nnode m) i) ty = elm_type (aat (g_nnode m) i) 2%Z.
Proof. intros [] Hi. destruct mo_kind0 as [(_ & K)|(_ & K)]; specialize (K i Hi); cbn in K; [destruct K as [E|[E|[]]]|destruct K as [E|[E|[E|[]]]]]; rewrite <- E; auto. Qed.
Lemma w_cell_ok m i : mesh_ok m -> i < g_nelem m -> w_cell m i (elm_type (aat (g_nnode m) i) 2%Z) = Some (enc (crec m i)).
Proof.
  intros [] Hi. unfold w_cell. rewrite max2. rewrite aget_ok by lia. cbn [bind].
  rewrite (olist_ok _ (fun k => TZ (at2 (g_regions m) i k))) by (intros k Hk; rewrite get2_ok by lia; auto). cbn [bind].
  rewrite (olist_ok _ (fun k => TZ (if g_ndtag m =? 0 then 1%Z else (1 + at2 (g_regions m) i (g_ndtag m - 1)%nat)%Z))).
  2:{ intros k Hk. destruct (Nat.eqb_spec (g_ndtag m) 0); auto. rewrite get2_ok by lia. auto. }
  cbn [bind]. rewrite (olist_ok _ (fun k => TZ (at2 (g_inpoel m) i k + 1)%Z)) by (intros k Hk; specialize (mo_ic0 i Hi); rewrite get2_ok by lia; auto). cbn [bind].
  unfold enc. cbn [q_id q_ty q_tags q_nodes crec]. rewrite dtag_len. unfold dtag_list. rewrite map_app, !map_map. rewrite <- !app_assoc. auto.
Qed.

Lemma write_ok m : mesh_ok m -> exists h1 h2 h3 h4 body w1 w2 w3, writeGmsh2 c0 m = Some ([h1; h2; h3; h4] ++ body) /\ concat body = file_body (mpts m) (mrecs m) [TS w1] [TS w2] ++ [TS w3].
Proof.
  intros Ok. unfold writeGmsh2.
  rewrite (olist_ok _ (fun i => pt_line ((Z.of_nat i + 1)%Z, at2 (g_coords m) i 0, at2 (g_coords m) i 1, c0))).
  2:{ intros i Hi. unfold w_point. rewrite get2_ok by (rewrite ?(mo_pts m Ok), ?(mo_ptc m Ok); lia). cbn [bind]. rewrite get2_ok by (rewrite ?(mo_pts m Ok), ?(mo_ptc m Ok); lia). auto. }
  cbn [bind]. rewrite (olist_ok _ (fun i => enc (brec m i))) by (intros; apply w_bface_ok; auto). cbn [bind].
  match goal with |- context [floop (g_nelem m) ?bb ?ss] => destruct (floop_inv _ (fun k (s : list (list tok) * Z) => fst s = map (fun i => enc (crec m i)) (seq 0 k)) (g_nelem m) bb ss) as ((cls & ty) & F & I) end; auto.
  { intros k (l & ty) Hk I. cbn [fst] in I. rewrite aget_ok by (rewrite (mo_nn m Ok); auto). cbn [bind]. rewrite elm_old, w_cell_ok by auto. cbn [bind]. eexists; split; [reflexivity|].
    cbn [fst]. replace (k + 1) with (S k) by lia. rewrite seq_S, map_app, I. auto. }
  rewrite F. cbn [bind fst] in *. subst cls. do 4 eexists. eexists. do 3 eexists. split; [cbn [app]; reflexivity|].
  unfold file_body, mpts, mrecs. rewrite !map_length, !app_length, !map_length, !seq_length, map_app, !map_map, !concat_app. cbn [concat app].
  rewrite !concat_app. cbn [concat app]. rewrite <- !app_assoc. cbn [app]. rewrite !app_nil_r || idtac. rewrite concat_app. cbn [concat app]. rewrite <- !app_assoc. cbn [app].
  f_equal. f_equal. f_equal. f_equal. rewrite Nat.add_comm. f_equal. 
  all: rewrite ?concat_app, <- ?app_assoc; cbn [concat app]; auto.
Qed.

Lemma mrecs_len m : length (mrecs m) = g_nbface m + g_nelem m.
Proof. unfold mrecs. rewrite app_length, !map_length, !seq_length. auto. Qed.
Lemma brec_edge m i : edge_rec (brec m i) = true.
Proof. unfold edge_rec, brec, t_edge. cbn. destruct (g_nnofa m =? 3); auto. Qed.
Lemma kind_cases m i : mesh_ok m -> i < g_nelem m -> let k := aat (g_nnode m) i in let t := elm_type k 2%Z in
  t_edge t = false /\ t_nn t = k /\ t_nofa t = g_nnofa m /\ t_nf t = (if (k =? 3) || (k =? 6) then 3 else 4).
Proof. intros [] Hi. destruct mo_kind0 as [(-> & K)|(-> & K)]; specialize (K i Hi); cbn in K; [destruct K as [E|[E|[]]]|destruct K as [E|[E|[E|[]]]]]; rewrite <- E; cbn; auto. Qed.
Lemma crec_edge m i : mesh_ok m -> i < g_nelem m -> edge_rec (crec m i) = false.
Proof. intros Ok Hi. apply (kind_cases m i Ok Hi). Qed.
Lemma filter_all {A} (p : A -> bool) l : (forall x, In x l -> p x = true) -> filter p l = l.
Proof. induction l; cbn; auto. intros H. rewrite H by auto. f_equal. apply IHl. auto. Qed.
Lemma filter_none {A} (p : A -> bool) l : (forall x, In x l -> p x = false) -> filter p l = [].
Proof. induction l; cbn; auto. intros H. rewrite H by auto. apply IHl. auto. Qed.
End W.

(** files with all boundary records first *)
Lemma split_edges bs cs : (forall r, In r bs -> edge_rec r = true) -> (forall r, In r cs -> edge_rec r = false) ->
  filter edge_rec (bs ++ cs) = bs /\ filter (fun r => negb (edge_rec r)) (bs ++ cs) = cs.
Proof.
  intros Hb Hc. rewrite !filter_app. rewrite (filter_all edge_rec bs), (filter_none edge_rec cs), (filter_none _ bs), (filter_all _ cs); auto.
  - rewrite app_nil_r. auto.
  - intros x Hx. rewrite Hc; auto.
  - intros x Hx. rewrite Hb; auto.
Qed.
Lemma list_max_const l k : l <> [] -> (forall x, In x l -> x = k) -> list_max l = k.
Proof.
  intros N H. apply Nat.le_antisymm.
  - apply list_max_le. apply Forall_forall. intros x Hx. rewrite (H x Hx). auto.
  - destruct l as [|a l]; [congruence|]. rewrite <- (H a) by (left; auto). apply list_max_ge. left; auto.
Qed.
