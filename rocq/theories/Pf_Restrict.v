(** Partitioning: restrictMeshToPartitions as a whole. *)
From Coq Require Import List Arith Lia ZArith Bool Permutation Sorted.
From Verif Require Import Base BaseR M_Mesh M_Part S_Mesh Pf_Esup Pf_Esuel Pf_Host Pf_Faces Pf_Topo Pf_Incid Pf_Full Pf_Lines Pf_Part.
Import ListNotations.
Open Scope nat_scope.

(** A global mesh on which compute_topological has run, with its coordinates and region markers. *)
Record global_ok (g : gmesh) (hs : list (nat * nat)) : Prop := {
  gl_tiled : tiled (g_m g) hs;
  gl_serial : conns (g_m g) = [];
  gl_topo : exists p e ni il, topo (g_m g) hs p e ni (g_t g) il;
  gl_X : alen (g_X g) = npoin (g_m g);
  gl_regs : alen (g_regs g) = nelem (g_m g) }.

Lemma edge_map (f : nat -> nat) c k : k < length c -> edge (map f c) k = (f (fst (edge c k)), f (snd (edge c k))).
Proof.
  intros H. unfold edge. rewrite map_length. cbn [fst snd]. rewrite !(map_nth_in _ _ f c _ 0 0); auto. apply Nat.mod_upper_bound. lia.
Qed.
Lemma edge_in c k : k < length c -> In (fst (edge c k)) c /\ In (snd (edge c k)) c.
Proof. intros H. unfold edge. cbn [fst snd]. split; apply nth_In; auto. apply Nat.mod_upper_bound. lia. Qed.
Lemma pair_eta (e : nat * nat) : e = (fst e, snd e). Proof. destruct e; auto. Qed.

Lemma in_combine_nth A B (l1 : list A) (l2 : list B) x y : In (x, y) (combine l1 l2) <-> exists q, nth_error l1 q = Some x /\ nth_error l2 q = Some y.
Proof.
  revert l2. induction l1 as [|x' l1 IH]; intros [|y' l2]; cbn.
  - split; [contradiction|]. intros ([|q] & ? & ?); discriminate.
  - split; [contradiction|]. intros ([|q] & ? & ?); discriminate.
  - split; [contradiction|]. intros ([|q] & ? & ?); discriminate.
  - rewrite IH. split.
    + intros [E|(q & A1 & B1)]. exists 0. inversion E; subst; auto. exists (S q); auto.
    + intros ([|q] & A1 & B1). left. cbn in *. congruence. right. exists q. auto.
Qed.

Section Restrict.
Variable g : gmesh.
Variable hs : list (nat * nat).
Hypothesis G : global_ok g hs.
Variable dist : arr nat.
Variable rank : nat.
Notation gm := (g_m g).
Notation cs := (cells (g_m g)).
Notation ne := (nelem (g_m g)).
Hypothesis Hd : alen dist = ne.
Let own := own g dist rank.
Let pts := pts g dist rank.
Let nl := length own.

Lemma gv : valid_cells (npoin gm) cs. Proof. apply (gm_valid _ _ (tl_good _ _ (gl_tiled _ _ G))). Qed.

(** the cell with local number l *)
Definition gc (l : nat) : nat := nth l own 0.
Lemma gc_own l : l < nl -> In (gc l) own. Proof. apply nth_In. Qed.
Lemma gc_lt l : l < nl -> gc l < ne. Proof. intros H. apply (own_in g dist rank). apply gc_own; auto. Qed.
Lemma gc_rank l : l < nl -> aat dist (gc l) = rank. Proof. intros H. apply (own_in g dist rank). apply gc_own; auto. Qed.
Lemma gc_inj l k : l < nl -> k < nl -> gc l = gc k -> l = k.
Proof. intros H1 H2 E. apply (proj1 (NoDup_nth own 0) (own_nodup g dist rank)); auto. Qed.
Lemma gc_onto i : i < ne -> aat dist i = rank -> idx own i < nl /\ gc (idx own i) = i.
Proof. intros H1 H2. apply idx_ok. apply (own_in g dist rank). auto. Qed.

Definition lcells : list (list nat) := map (fun i => map (idx pts) (cell cs i)) own.
Lemma lcells_len : length lcells = nl. Proof. unfold lcells. rewrite map_length. auto. Qed.
Lemma lcell l : l < nl -> cell lcells l = map (idx pts) (cell cs (gc l)).
Proof. intros H. unfold lcells, cell at 1. rewrite (map_nth_in _ _ (fun i => map (idx pts) (cell cs i)) own l [] 0); auto. Qed.
Lemma lcell_len l : l < nl -> length (cell lcells l) = length (cell cs (gc l)).
Proof. intros H. rewrite lcell, map_length; auto. Qed.
Lemma cell_pts l x : l < nl -> In x (cell cs (gc l)) -> In x pts.
Proof. intros H Hx. apply (pts_in g dist rank). exists (gc l). split; auto. apply gc_own; auto. Qed.

Lemma ledge l f : l < nl -> f < length (cell cs (gc l)) ->
  edge (cell lcells l) f = (idx pts (fst (edge (cell cs (gc l)) f)), idx pts (snd (edge (cell cs (gc l)) f))).
Proof. intros Hl Hf. rewrite lcell by auto. apply edge_map; auto. Qed.
Lemma edge_pts l f : l < nl -> f < length (cell cs (gc l)) -> In (fst (edge (cell cs (gc l)) f)) pts /\ In (snd (edge (cell cs (gc l)) f)) pts.
Proof. intros Hl Hf. destruct (edge_in _ _ Hf). split; eapply cell_pts; eauto. Qed.

Lemma idx_pair_inj (e e' : nat * nat) : In (fst e) pts -> In (snd e) pts -> In (fst e') pts -> In (snd e') pts ->
  (idx pts (fst e), idx pts (snd e)) = (idx pts (fst e'), idx pts (snd e')) -> e = e'.
Proof. intros A B C D E. inversion E. rewrite (pair_eta e), (pair_eta e'). f_equal; eapply idx_inj; eauto. Qed.

Lemma lsame l f k h : l < nl -> k < nl -> f < length (cell cs (gc l)) -> h < length (cell cs (gc k)) ->
  (same_edge (edge (cell lcells l) f) (edge (cell lcells k) h) <-> same_edge (edge (cell cs (gc l)) f) (edge (cell cs (gc k)) h)).
Proof.
  intros Hl Hk Hf Hh. rewrite !ledge by auto. destruct (edge_pts l f Hl Hf) as (A & B), (edge_pts k h Hk Hh) as (C & D).
  set (e := edge (cell cs (gc l)) f) in *. set (e' := edge (cell cs (gc k)) h) in *. unfold same_edge. cbn [fst snd]. split; intros [H|H].
  - left. apply idx_pair_inj; auto.
  - right. apply (idx_pair_inj e (snd e', fst e')); auto.
  - left. rewrite H. auto.
  - right. rewrite H. auto.
Qed.

Lemma lacross l f k : l < nl -> k < nl -> (across lcells l f k <-> across cs (gc l) f (gc k)).
Proof.
  intros Hl Hk. unfold across. rewrite lcells_len, !lcell_len by auto. pose proof (gc_lt l Hl). pose proof (gc_lt k Hk). split.
  - intros (_ & Hf & _ & Hne & h & Hh & S). split; auto. split; auto. split; auto. split. intros E. apply Hne. apply gc_inj; auto.
    exists h. split; auto. apply lsame in S; auto.
  - intros (_ & Hf & _ & Hne & h & Hh & S). split; auto. split; auto. split; auto. split. intros E. apply Hne. subst; auto.
    exists h. split; auto. apply lsame; auto.
Qed.
Lemma across_lt l f k : across lcells l f k -> l < nl /\ f < length (cell cs (gc l)) /\ k < nl.
Proof. intros (A & B & C & _). rewrite lcells_len in A, C. rewrite lcell_len in B by auto. auto. Qed.

Lemma lvalid : valid_cells (length pts) lcells.
Proof.
  intros c Hc. apply in_map_iff in Hc. destruct Hc as (i & <- & Hi). assert (Hi' := Hi). apply (own_in g dist rank) in Hi'. destruct Hi' as (Hi1 & _).
  destruct (cell_valid _ _ i gv Hi1) as (A & B & C).
  assert (P : forall x, In x (cell cs i) -> In x pts) by (intros x Hx; apply (pts_in g dist rank); eauto).
  rewrite map_length. split; auto. split.
  - clear -B P. induction (cell cs i) as [|x c IH]; cbn; [constructor|]. inversion B; subst. constructor.
    + intros Hx. apply in_map_iff in Hx. destruct Hx as (y & E & Hy). apply idx_inj in E. subst; auto. apply P; right; auto. apply P; left; auto.
    + apply IH; auto. intros y Hy. apply P. right; auto.
  - intros v Hv. apply in_map_iff in Hv. destruct Hv as (x & <- & Hx). apply idx_ok. auto.
Qed.
Lemma lconf : conforming lcells.
Proof.
  intros l f k k' A B. destruct (across_lt _ _ _ A) as (Hl & _ & Hk), (across_lt _ _ _ B) as (_ & _ & Hk').
  apply lacross in A; auto. apply lacross in B; auto. apply gc_inj; auto. eapply (gm_conf _ _ (tl_good _ _ (gl_tiled _ _ G))); eauto.
Qed.
Lemma lmax c : In c lcells -> length c <= maxnfael gm.
Proof.
  intros Hc. apply in_map_iff in Hc. destruct Hc as (i & <- & Hi). apply (own_in g dist rank) in Hi. rewrite map_length.
  apply (gm_max _ _ (tl_good _ _ (gl_tiled _ _ G))). apply nth_In. apply Hi.
Qed.
Lemma lorient : oriented lcells.
Proof.
  intros l f k h Hl Hk Hne Hf Hh S. rewrite lcells_len in Hl, Hk. rewrite lcell_len in Hf, Hh by auto.
  rewrite !ledge by auto. apply lsame in S; auto. cbn [fst snd].
  rewrite (tl_or _ _ (gl_tiled _ _ G) (gc l) f (gc k) h); auto. apply gc_lt; auto. apply gc_lt; auto. intros E; apply Hne. apply gc_inj; auto.
Qed.

(** boundary faces of this rank and their local hosts *)
Let ob := owned_bf g dist rank hs.
Definition lbl : list bfrec := map (fun x => rename_bf g dist rank (fst x)) ob.
Definition lhs : list (nat * nat) := map (fun x => (idx own (fst (snd x)), snd (snd x))) ob.
Lemma hosts : hosts_ok gm hs. Proof. apply (gm_hosts _ _ (tl_good _ _ (gl_tiled _ _ G))). Qed.
Lemma ob_in bf h : In (bf, h) ob <-> (exists q, nth_error (bfaces gm) q = Some bf /\ nth_error hs q = Some h) /\ aat dist (fst h) = rank.
Proof.
  unfold ob, owned_bf. rewrite filter_In, Nat.eqb_eq. cbn [snd fst]. apply and_iff_compat_r. apply in_combine_nth.
Qed.
Definition hosts' := proj2 hosts.
Lemma ob_host bf h : In (bf, h) ob -> let l := idx own (fst h) in
  l < nl /\ gc l = fst h /\ fst h < ne /\ snd h < length (cell cs (fst h)) /\ (b0 bf, b1 bf) = edge (cell cs (fst h)) (snd h).
Proof.
  intros H. apply ob_in in H. destruct H as ((q & A & B) & C). destruct (hosts' q bf h A B) as (_ & _ & D & E & _).
  destruct (gc_onto (fst h) D C). cbv zeta. repeat split; auto. apply (tl_bor _ _ (gl_tiled _ _ G) q); auto.
Qed.
Lemma lbor bf h : In (bf, h) ob -> (idx pts (b0 bf), idx pts (b1 bf)) = edge (cell lcells (idx own (fst h))) (snd h).
Proof.
  intros H. destruct (ob_host bf h H) as (A & B & C & D & E). cbv zeta in *. rewrite ledge; auto; rewrite ?B; auto. rewrite <- E. auto.
Qed.
Lemma lhosted bf h : In (bf, h) ob -> hosted lcells (idx pts (b0 bf)) (idx pts (b1 bf)) (idx own (fst h)) (snd h).
Proof.
  intros H. pose proof (lbor bf h H) as LB. destruct (ob_host bf h H) as (A & B & C & D & E). cbv zeta in *.
  split; [rewrite lcells_len; auto|]. split; [rewrite lcell_len; auto; rewrite B; auto|]. split; [left; exact LB|].
  intros k (K1 & K2 & K3). rewrite lcells_len in K1. rewrite lcell in K2, K3 by auto.
  apply in_map_iff in K2. destruct K2 as (x & X1 & X2). apply in_map_iff in K3. destruct K3 as (y & Y1 & Y2).
  assert (P : In (b0 bf) pts /\ In (b1 bf) pts).
  { destruct (edge_in _ _ D) as (P1 & P2). rewrite <- E in P1, P2. cbn [fst snd] in *. rewrite <- B in P1, P2. split; eapply (cell_pts (idx own (fst h))); auto. }
  apply idx_inj in X1; [|eapply cell_pts; eauto|tauto]. apply idx_inj in Y1; [|eapply cell_pts; eauto|tauto]. subst x y.
  apply gc_inj; auto. rewrite B. apply ob_in in H. destruct H as ((q & Q1 & Q2) & _). destruct (hosts' q bf h Q1 Q2) as (_ & _ & _ & _ & _ & U).
  apply U. split; auto. apply gc_lt; auto.
Qed.

Definition lm1 : umesh := mkmesh (length pts) lcells (maxnfael gm) lbl [].
Lemma lbl_nth k bf h : nth_error lbl k = Some bf -> nth_error lhs k = Some h -> exists x, In x ob /\ bf = rename_bf g dist rank (fst x) /\ h = (idx own (fst (snd x)), snd (snd x)).
Proof.
  unfold lbl, lhs. intros A B. rewrite nth_error_map in A, B. destruct (nth_error ob k) as [x|] eqn:E; cbn in *; [|discriminate].
  exists x. split. eapply nth_error_In; eauto. split; congruence.
Qed.
Lemma lhosts_ok cf : hosts_ok (mkmesh (length pts) lcells (maxnfael gm) lbl cf) lhs.
Proof.
  split. unfold nbface. cbn. unfold lhs, lbl. rewrite !map_length. auto.
  intros k bf h A B. cbn in A. destruct (lbl_nth k bf h A B) as ((bf0 & h0) & Hx & -> & ->). cbn [fst snd rename_bf b0 b1 cells npoin].
  pose proof (lhosted bf0 h0 Hx) as LH. assert (LB := lbor bf0 h0 Hx). destruct LH as (L1 & L2 & L3 & L4).
  destruct (cell_valid _ _ _ lvalid L1) as (V1 & V2 & V3). destruct (edge_in _ _ L2) as (I1 & I2). rewrite <- LB in I1, I2. cbn in I1, I2.
  split; [auto|]. split; [auto|]. split; auto.
Qed.

(** ** marked points *)
Definition on_bnd (v : nat) : Prop := exists bf, In bf lbl /\ (v = b0 bf \/ v = b1 bf).
Lemma mark_ok : exists B, markBoundaryPoints lm1 = Some B /\ alen B = length pts /\ forall v, v < length pts -> (aat B v = true <-> on_bnd v).
Proof.
  unfold markBoundaryPoints.
  match goal with |- context [floop _ ?bb ?ss] =>
    destruct (floop_inv _ (fun k (B : arr bool) => alen B = length pts /\ forall v, v < length pts -> (aat B v = true <-> exists bf, In bf (firstn k lbl) /\ (v = b0 bf \/ v = b1 bf))) (nbface lm1) bb ss) as (B & E & L & I) end.
  - split; auto. intros v Hv. cbn. split; [discriminate|]. intros (bf & [] & _).
  - intros i B Hi (L & I). cbn [nbface bfaces lm1] in Hi. destruct (nth_error_some _ lbl i Hi) as (bf & Eb).
    destruct (nth_error_some _ lhs i) as (h & Eh). { replace (length lhs) with (length lbl); [exact Hi|]. unfold lhs, lbl. rewrite !map_length. auto. }
    destruct (proj2 (lhosts_ok []) i bf h Eb Eh) as (B0 & B1 & _). cbn [npoin] in B0, B1. cbn [bfaces lm1]. rewrite Eb. cbn [bind].
    rewrite aset_ok by lia. cbn [bind]. rewrite aset_ok by (cbn; lia). eexists; split; [reflexivity|]. cbn [alen aat]. split; auto.
    intros v Hv. rewrite (firstn_snoc _ bf) by exact Hi. rewrite (nth_error_nth _ _ _ Eb). unfold upd.
    transitivity (v = b0 bf \/ v = b1 bf \/ aat B v = true).
    + destruct (Nat.eqb_spec v (b1 bf)); destruct (Nat.eqb_spec v (b0 bf)); intuition.
    + rewrite I by auto. split.
      * intros [H|[H|(bf' & H1 & H2)]]. exists bf. rewrite in_app_iff. cbn. auto. exists bf. rewrite in_app_iff. cbn. auto. exists bf'. rewrite in_app_iff. auto.
      * intros (bf' & H1 & H2). rewrite in_app_iff in H1. destruct H1 as [H1|[H1|[]]]. right; right; exists bf'; auto. subst bf'. tauto.
  - exists B. split; auto. split; auto. intros v Hv. rewrite I by auto. unfold nbface. cbn. rewrite firstn_all. reflexivity.
Qed.

(** ** the local tables *)
Lemma ltables j0 : exists p e E, elementsSurroundingPoints lm1 = Some (p, e) /\ elementsSurroundingElements lm1 p e j0 = Some E /\
  esuel_ok nl (maxnfael gm) lcells E.
Proof.
  destruct (esup_correct lm1) as (p & e & E1 & H1). { intros c v Hc Hv. eapply lvalid; eauto. }
  destruct (esuel_correct lm1 lvalid lconf lmax p e j0 H1) as (E & E2 & H2). exists p, e, E. split; auto. split; auto.
  replace nl with (nelem lm1) by (unfold nelem; cbn; apply lcells_len). exact H2.
Qed.

Section Conn.
Variable E : arr2 Z.
Hypothesis HE : esuel_ok nl (maxnfael gm) lcells E.
Variable B : arr bool.
Hypothesis HBl : alen B = length pts.
Hypothesis HB : forall v, v < length pts -> (aat B v = true <-> on_bnd v).

(** local face f of local cell l is written as a connectivity face *)
Definition keep (l f : nat) : bool :=
  ((at2 E l f =? -1)%Z) && negb (aat B (fst (edge (cell lcells l) f)) && aat B (snd (edge (cell lcells l) f))).
Lemma llen l : l < nl -> length (cell lcells l) <= maxnfael gm.
Proof. intros H. apply lmax. apply nth_In. rewrite lcells_len. auto. Qed.
Lemma lnode l f k : l < nl -> f < length (cell lcells l) -> k < 2 ->
  (i <- getNodeEIndex lm1 l f k ;; inpoel lm1 l i) = Some (if k =? 0 then fst (edge (cell lcells l) f) else snd (edge (cell lcells l) f)).
Proof.
  intros Hl Hf Hk. unfold getNodeEIndex. rewrite nnode_ok by (unfold nelem; cbn; rewrite lcells_len; auto). cbn [bind cells lm1].
  rewrite inpoel_ok; [|unfold nelem; cbn; rewrite lcells_len; auto|cbn [cells lm1]; apply Nat.mod_upper_bound; lia]. cbn [cells lm1].
  destruct k as [|[|k]]; [|reflexivity|lia]. rewrite Nat.add_0_r, Nat.mod_small by auto. reflexivity.
Qed.
Lemma ebound l f : l < nl -> f < length (cell lcells l) -> fst (edge (cell lcells l) f) < length pts /\ snd (edge (cell lcells l) f) < length pts.
Proof.
  intros Hl Hf. destruct (edge_in _ _ Hf). destruct (cell_valid _ _ l lvalid ltac:(rewrite lcells_len; auto)) as (_ & _ & V). auto.
Qed.
Lemma connIdx_ok : connFaceEIndices lm1 E B = Some (map (fun l => filter (keep l) (seq 0 (length (cell lcells l)))) (seq 0 nl)).
Proof.
  unfold connFaceEIndices. replace (nelem lm1) with nl by (unfold nelem; cbn; symmetry; apply lcells_len).
  match goal with |- floop _ ?bb ?ss = _ =>
    destruct (floop_inv _ (fun k out => out = map (fun l => filter (keep l) (seq 0 (length (cell lcells l)))) (seq 0 k)) nl bb ss) as (o & EE & I) end; auto.
  2:{ rewrite EE, I; auto. }
  intros l out Hl ->. rewrite nnode_ok by (unfold nelem; cbn; rewrite lcells_len; auto). cbn [bind cells lm1].
  match goal with |- context [floop (length ?c) ?bb ?ss] =>
    destruct (floop_inv _ (fun k lst => lst = filter (keep l) (seq 0 k)) (length c) bb ss) as (o & EE & I) end; auto.
  - intros f lst Hf ->. destruct HE as (R & C & HEE). pose proof (llen l Hl). rewrite get2_ok by (rewrite ?R, ?C; lia). cbn [bind].
    rewrite seq_app, filter_app. cbn [seq filter plus]. change (keep l f) with ((at2 E l f =? -1)%Z && negb (aat B (fst (edge (cell lcells l) f)) && aat B (snd (edge (cell lcells l) f)))). pose proof (lnode l f 0 Hl Hf ltac:(lia)) as N0. pose proof (lnode l f 1 Hl Hf ltac:(lia)) as N1.
    destruct (ebound l f Hl Hf) as (E0 & E1). change (0 =? 0) with true in N0. change (1 =? 0) with false in N1. cbv iota in N0, N1.
    destruct (at2 E l f =? -1)%Z; cbn [andb].
    + destruct (getNodeEIndex lm1 l f 0) as [k0|]; cbn [bind] in *; [|discriminate]. rewrite N0. cbn [bind]. rewrite aget_ok by (rewrite HBl; auto). cbn [bind].
      destruct (aat B (fst (edge (cell lcells l) f))); cbn [negb andb].
      * destruct (getNodeEIndex lm1 l f 1) as [k1|]; cbn [bind] in *; [|discriminate]. rewrite N1. cbn [bind]. rewrite aget_ok by (rewrite HBl; auto). cbn [bind].
        eexists; split; [reflexivity|]. destruct (aat B (snd (edge (cell lcells l) f))); cbn; rewrite ?app_nil_r; auto.
      * cbn [bind]. eexists; split; reflexivity.
    + eexists; split; [reflexivity|]. rewrite app_nil_r. auto.
  - rewrite EE. cbn [bind]. rewrite I. eexists; split; [reflexivity|]. rewrite seq_app, map_app. reflexivity.
Qed.

Lemma keep_spec l f : l < nl -> f < length (cell lcells l) -> (keep l f = true <->
  (~ exists k, across lcells l f k) /\ ~ (on_bnd (fst (edge (cell lcells l) f)) /\ on_bnd (snd (edge (cell lcells l) f)))).
Proof.
  intros Hl Hf. unfold keep. rewrite andb_true_iff, Z.eqb_eq. destruct HE as (_ & _ & HEE). pose proof (llen l Hl). destruct (HEE l f Hl ltac:(lia)) as (_ & H2). rewrite H2.
  destruct (ebound l f Hl Hf) as (E0 & E1). rewrite <- !HB by auto.
  destruct (aat B (fst _)), (aat B (snd _)); cbn; intuition.
Qed.

(** a kept face has a cell of another rank across *)
Lemma keep_global l f : l < nl -> f < length (cell lcells l) -> keep l f = true -> exists j, across cs (gc l) f j /\ aat dist j <> rank.
Proof.
  intros Hl Hf K. apply keep_spec in K; auto. destruct K as (K1 & K2). rewrite lcell_len in Hf by auto.
  destruct (tl_cover _ _ (gl_tiled _ _ G) (gc l) f (gc_lt l Hl) Hf) as [(j & A)|[A|(cf & A & _)]].
  - exists j. split; auto. intros Er. apply K1. assert (Hj : j < ne) by apply A. destruct (gc_onto j Hj Er) as (I1 & I2).
    exists (idx own j). apply lacross; auto. rewrite I2. auto.
  - exfalso. apply K2. apply In_nth_error in A. destruct A as (q & Eq). destruct (nth_error_some _ (bfaces gm) q) as (bf & Eb).
    { change (q < nbface gm). rewrite <- (proj1 hosts). apply nth_error_Some. congruence. }
    assert (Hx : In (bf, (gc l, f)) ob). { apply ob_in. split. exists q; auto. cbn. apply gc_rank; auto. }
    pose proof (lbor _ _ Hx) as LB. cbn [fst snd] in LB. replace (idx own (gc l)) with l in LB.
    2:{ symmetry. unfold gc. apply idx_nth; auto. apply (own_nodup g dist rank). }
    rewrite <- LB. cbn [fst snd]. assert (In (rename_bf g dist rank bf) lbl). { unfold lbl. apply in_map_iff. exists (bf, (gc l, f)). auto. }
    split; exists (rename_bf g dist rank bf); cbn; auto.
  - exfalso. rewrite (gl_serial _ _ G) in A. exact A.
Qed.

Lemma one_of_ok a b v : a < length pts -> b < length pts -> one_of pts a b v = Some ((nth a pts 0 =? v) || (nth b pts 0 =? v)).
Proof. intros Ha Hb. unfold one_of. rewrite (nth_error_nth' _ 0 Ha). cbn [bind]. destruct (nth a pts 0 =? v); auto. rewrite (nth_error_nth' _ 0 Hb). reflexivity. Qed.

Lemma gnode i f k : i < ne -> f < length (cell cs i) -> k < 2 ->
  (j <- getNodeEIndex gm i f k ;; inpoel gm i j) = Some (if k =? 0 then fst (edge (cell cs i) f) else snd (edge (cell cs i) f)).
Proof.
  intros Hl Hf Hk. unfold getNodeEIndex. rewrite nnode_ok by auto. cbn [bind].
  rewrite inpoel_ok; auto; [|apply Nat.mod_upper_bound; lia]. destruct k as [|[|k]]; [|reflexivity|lia]. rewrite Nat.add_0_r, Nat.mod_small by auto. reflexivity.
Qed.

Lemma gfind l f : l < nl -> f < length (cell cs (gc l)) -> let a := fst (edge (cell lcells l) f) in let b := snd (edge (cell lcells l) f) in
  ofind (length (cell cs (gc l))) (fun jgf =>
         v0 <- (k <- getNodeEIndex gm (gc l) jgf 0 ;; inpoel gm (gc l) k) ;; m0 <- one_of pts a b v0 ;;
         if m0 : bool then v1 <- (k <- getNodeEIndex gm (gc l) jgf 1 ;; inpoel gm (gc l) k) ;; one_of pts a b v1 else Some false) = Some (Some f).
Proof.
  intros Hl Hf a b. pose proof (gc_lt l Hl) as Hg. destruct (cell_valid _ _ _ gv Hg) as (V1 & V2 & V3). set (c := cell cs (gc l)) in *.
  destruct (ebound l f Hl ltac:(rewrite lcell_len; auto)) as (Ba & Bb). fold a b in Ba, Bb.
  assert (Pa : nth a pts 0 = fst (edge c f) /\ nth b pts 0 = snd (edge c f)).
  { unfold a, b. rewrite ledge by auto. cbn [fst snd]. destruct (edge_pts l f Hl Hf). split; apply idx_ok; auto. }
  set (q := fun jgf => let e := edge c jgf in ((nth a pts 0 =? fst e) || (nth b pts 0 =? fst e)) && ((nth a pts 0 =? snd e) || (nth b pts 0 =? snd e))).
  assert (Q : forall j, j < length c -> (v0 <- (k <- getNodeEIndex gm (gc l) j 0 ;; inpoel gm (gc l) k) ;; m0 <- one_of pts a b v0 ;;
         if m0 : bool then v1 <- (k <- getNodeEIndex gm (gc l) j 1 ;; inpoel gm (gc l) k) ;; one_of pts a b v1 else Some false) = Some (q j)).
  { intros j Hj. rewrite (gnode (gc l) j 0) by (auto; lia). cbn [bind]. change (0 =? 0) with true. change (1 =? 0) with false. cbv iota. rewrite one_of_ok by auto. cbn [bind]. fold c. unfold q. cbv zeta.
    destruct (_ || _); cbn [andb]; auto. rewrite (gnode (gc l) j 1) by (auto; lia). cbn [bind]. change (0 =? 0) with true. change (1 =? 0) with false. cbv iota. rewrite one_of_ok by auto. reflexivity. }
  assert (U : forall j, j < length c -> (q j = true <-> j = f)).
  { intros j Hj. unfold q. cbv zeta. destruct Pa as (-> & ->). rewrite andb_true_iff, !orb_true_iff, !Nat.eqb_eq. split.
    - intros (H1 & H2). pose proof (edge_distinct c f V1 V2 Hf). pose proof (edge_distinct c j V1 V2 Hj).
      apply (edge_unique c j f); auto. unfold same_edge. rewrite (pair_eta (edge c j)). destruct H1 as [H1|H1], H2 as [H2|H2]; try congruence.
      left. rewrite (pair_eta (edge c f)). congruence. right. congruence.
    - intros ->. auto. }
  destruct (ofind_spec (length c) _ q Q) as [(j & O1 & O2 & _ & O3)|(O & _)].
  - apply U in O2; auto. subst. exact O3.
  - specialize (O f Hf). exfalso. assert (q f = true) by (apply U; auto). congruence.
Qed.

(** the record written for a kept face *)
Definition crec (l f : nat) : cfrec :=
  let z := at2 (esuel (g_t g)) (gc l) f in
  mkcf l f (Z.of_nat (aat dist (Z.to_nat z))) z (Z.of_nat (at2 (elemface (g_t g)) (gc l) f)).
Lemma crec_ok L l f : alist L = own -> l < nl -> f < length (cell lcells l) -> keep l f = true ->
  conn_record g dist lm1 L pts l f = Some (Val (crec l f)).
Proof.
  intros EL Hl Hf K. assert (LL : alen L = nl) by (rewrite <- alist_length, EL; auto).
  assert (AL : aat L l = gc l). { unfold gc. rewrite <- EL. unfold alist. rewrite (map_nth_in _ _ (aat L) (seq 0 (alen L)) l 0 0) by (rewrite seq_length; lia). rewrite seq_nth by lia. auto. }
  destruct (keep_global l f Hl Hf K) as (j & A & Hr). pose proof (gc_lt l Hl) as Hg.
  destruct (gl_topo _ _ G) as (p & e & ni & il & T).
  assert (Hm : length (cell cs (gc l)) <= maxnfael gm). { apply (gm_max _ _ (tl_good _ _ (gl_tiled _ _ G))). apply nth_In. auto. }
  unfold conn_record. cbv zeta. rewrite aget_ok by lia. cbn [lift ebind]. rewrite AL. rewrite lcell_len in Hf by auto.
  rewrite get2_ok by (rewrite ?(to_efrows _ _ _ _ _ _ _ T), ?(to_efcols _ _ _ _ _ _ _ T); lia). cbn [lift ebind].
  rewrite (lnode l f 0) by (auto; rewrite ?lcell_len; auto). cbn [lift ebind]. change (0 =? 0) with true. change (1 =? 0) with false. cbv iota.
  rewrite (lnode l f 1) by (auto; rewrite ?lcell_len; auto). cbn [lift ebind]. change (0 =? 0) with true. change (1 =? 0) with false. cbv iota.
  rewrite nnode_ok by auto. cbn [lift ebind].
  rewrite (gfind l f Hl Hf). cbn [lift ebind].
  destruct (to_nbr _ _ _ _ _ _ _ T) as (R1 & R2 & R3). rewrite get2_ok by lia. cbn [lift ebind].
  destruct (R3 (gc l) f Hg Hf) as (z & Z1 & Z2). assert (Hj : j < ne) by apply A. apply (Z2 j Hj) in A. subst z.
  unfold crec. cbv zeta. rewrite Z1. destruct (Z.ltb_spec (Z.of_nat j) 0); [lia|]. rewrite Nat2Z.id. rewrite aget_ok by lia. cbn [lift ebind]. reflexivity.
Qed.

Definition cfaces : list cfrec := flat_map (fun l => map (crec l) (filter (keep l) (seq 0 (length (cell lcells l))))) (seq 0 nl).
Lemma cloop_ok L ci : alist L = own -> ci = map (fun l => filter (keep l) (seq 0 (length (cell lcells l)))) (seq 0 nl) ->
  eloop (length ci) (fun iel out =>
           l <-- lift (nth_error ci iel) ;;
           eloop (length l) (fun k out => f <-- lift (nth_error l k) ;; c <-- conn_record g dist lm1 L pts iel f ;; Some (Val (out ++ [c]))) out) []
  = Some (Val cfaces).
Proof.
  intros EL EC. assert (LC : length ci = nl) by (rewrite EC, map_length, seq_length; auto).
  match goal with |- eloop _ ?bb ?ss = _ =>
    destruct (eloop_inv _ (fun k out => out = flat_map (fun l => map (crec l) (filter (keep l) (seq 0 (length (cell lcells l))))) (seq 0 k)) (length ci) bb ss) as (o & EE & I) end; auto.
  2:{ rewrite EE, I, LC; auto. }
  intros l out Hl ->. rewrite LC in Hl. assert (EN : nth_error ci l = Some (filter (keep l) (seq 0 (length (cell lcells l))))).
  { rewrite EC, nth_error_map, nth_error_seq by auto. reflexivity. }
  rewrite EN. cbn [lift ebind]. set (fl := filter (keep l) (seq 0 (length (cell lcells l)))).
  match goal with |- context [eloop (length fl) ?bb ?ss] =>
    destruct (eloop_inv _ (fun k out => out = ss ++ map (crec l) (firstn k fl)) (length fl) bb ss) as (o & EE & I) end.
  - rewrite app_nil_r. auto.
  - intros k out Hk ->. rewrite (nth_error_nth' _ 0 Hk). cbn [lift ebind].
    assert (Hin : In (nth k fl 0) fl) by (apply nth_In; auto). apply filter_In in Hin. destruct Hin as (H1 & H2). apply in_seq in H1.
    rewrite (crec_ok L l _ EL Hl) by (auto; lia). cbn [ebind]. eexists; split; [reflexivity|].
    rewrite (firstn_snoc _ 0) by auto. rewrite map_app, app_assoc. reflexivity.
  - exists o. split; auto. rewrite I, firstn_all, seq_app, flat_map_app. cbn. rewrite app_nil_r. reflexivity.
Qed.

Lemma cfaces_in cf : In cf cfaces <-> exists l f, l < nl /\ f < length (cell lcells l) /\ keep l f = true /\ cf = crec l f.
Proof.
  unfold cfaces. rewrite in_flat_map. split.
  - intros (l & Hl & H). apply in_map_iff in H. destruct H as (f & <- & H). apply filter_In in H. destruct H as (H1 & H2). apply in_seq in Hl, H1. exists l, f. repeat split; auto; lia.
  - intros (l & f & Hl & Hf & K & ->). exists l. split; [apply in_seq; lia|]. apply in_map. apply filter_In. split; auto. apply in_seq; lia.
Qed.
Lemma cfaces_nodup : NoDup (map (fun cf => (cf_elem cf, cf_face cf)) cfaces).
Proof.
  unfold cfaces. assert (EQ : map (fun cf => (cf_elem cf, cf_face cf)) (flat_map (fun l => map (crec l) (filter (keep l) (seq 0 (length (cell lcells l))))) (seq 0 nl))
    = flat_map (fun l => map (fun f => (l, f)) (filter (keep l) (seq 0 (length (cell lcells l))))) (seq 0 nl)).
  { induction (seq 0 nl) as [|l r IH]; cbn; auto. rewrite map_app, IH, map_map. reflexivity. }
  rewrite EQ. apply NoDup_flat_map; [apply seq_NoDup| |].
  - intros l _. apply FinFun.Injective_map_NoDup. intros a b Q; inversion Q; auto. apply NoDup_filter, seq_NoDup.
  - intros x y z _ _ Hx Hy. apply in_map_iff in Hx, Hy. destruct Hx as (? & <- & _), Hy as (? & Q & _). inversion Q; auto.
Qed.
End Conn.

(** ** the whole restriction *)
Lemma restrict_ok jc jr ji jx j0 : exists E B lm, esuel_ok nl (maxnfael gm) lcells E /\ alen B = length pts /\ (forall v, v < length pts -> (aat B v = true <-> on_bnd v)) /\ restrictMesh g dist rank jc jr ji jx j0 = Some (Val lm) /\ l_m lm = mkmesh (length pts) lcells (maxnfael gm) lbl (cfaces E B) /\ alist (l_X lm) = map (aat (g_X g)) pts /\ alist (l_regs lm) = map (aat (g_regs g)) own /\ alist (l_eglob lm) = own /\ l_p2g lm = pts.
Proof.
  pose proof (gl_X _ _ G) as HX. pose proof (gl_regs _ _ G) as HR.
  destruct (ltables j0) as (p & e & E & E1 & E2 & HE). destruct mark_ok as (B & E3 & HB1 & HB2).
  unfold restrictMesh. rewrite (count_local_ok g dist rank Hd HX HR). cbn [lift ebind].
  destruct (extractInpoel_ok g dist rank Hd HX HR jc jr ji) as (C & Rg & L & E4 & C1 & C2 & C3). rewrite E4. cbn [lift ebind].
  destruct (extractPointCoords_ok g dist rank gv Hd HX HR C jx C1) as (mp & X & E5 & Hm & HX2). rewrite E5. cbn [lift ebind].
  destruct (renumber_ok g dist rank Hd HX HR mp Hm C C1) as (C' & E6 & HC'). rewrite E6. cbn [ebind].
  destruct (gl_topo _ _ G) as (pp & ee & ni & il & T).
  assert (HF : nbface gm <= alen (intfac (g_t g)) /\ forall q h, nth_error hs q = Some h -> f_left (aat (intfac (g_t g)) q) = fst h).
  { split. rewrite (to_len _ _ _ _ _ _ _ T). lia. intros q h Hq. destruct (to_ranges _ _ _ _ _ _ _ T) as (bl & cl & F1 & F2 & F3 & F4 & _).
    assert (q < nbface gm) by (rewrite <- (proj1 hosts); apply nth_error_Some; congruence).
    destruct (nth_error_some _ (bfaces gm) q) as (bf & Eb); auto. specialize (F4 q bf h Eb Hq).
    assert (K : nth_error (alist (intfac (g_t g))) q = Some (bface_entry gm q bf h)). { rewrite F1, nth_error_app1 by lia. auto. }
    unfold alist in K. rewrite nth_error_map, nth_error_seq in K by (rewrite (to_len _ _ _ _ _ _ _ T); lia). cbn in K. injection K as K. rewrite K. reflexivity. }
  rewrite (extractbfaces_ok g dist rank gv Hd HX HR mp Hm hs hosts (proj1 HF) (proj2 HF)). cbn [ebind].
  change (map (fun x : bfrec * (nat * nat) => rename_bf g dist rank (fst x)) (owned_bf g dist rank hs)) with lbl.
  rewrite HC'. change (map (fun i : nat => map (idx (Pf_Part.pts g dist rank)) (cell (cells gm) i)) (Pf_Part.own g dist rank)) with lcells.
  change (mkmesh (length (Pf_Part.pts g dist rank)) lcells (maxnfael gm) lbl []) with lm1.
  rewrite E1. cbn [lift ebind fst snd]. rewrite E2. cbn [lift ebind]. rewrite E3. cbn [lift ebind].
  rewrite (connIdx_ok E HE B HB1). cbn [lift ebind].
  fold pts. rewrite (cloop_ok E HE B HB1 HB2 L _ C3 eq_refl). cbn [ebind].
  eexists E, B, _. split; [exact HE|]. split; [exact HB1|]. split; [exact HB2|]. split; [reflexivity|]. cbn. auto 10.
Qed.
End Restrict.
