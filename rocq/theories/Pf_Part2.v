(** Restricted meshes: translation of boundary points, tiling, matching interfaces; adjacency lists. *)
From Coq Require Import List Arith Lia ZArith Bool Permutation Sorted.
From Verif Require Import Base BaseR M_Mesh M_Part S_Mesh Pf_Esup Pf_Esuel Pf_Host Pf_Faces Pf_Topo Pf_Incid Pf_Full Pf_Lines Pf_Part Pf_Restrict.
Import ListNotations.
Open Scope nat_scope.

(** v is an end of a physical boundary face whose host cell belongs to [rank] *)
Definition rank_bnd (g : gmesh) (hs : list (nat * nat)) (dist : arr nat) (rank v : nat) : Prop :=
  exists q bf h, nth_error (bfaces (g_m g)) q = Some bf /\ nth_error hs q = Some h /\ aat dist (fst h) = rank /\ (v = b0 bf \/ v = b1 bf).
(** face f of cell i (of this rank) is an interface with cell j of another rank *)
Definition interface (g : gmesh) (dist : arr nat) (rank i f j : nat) : Prop :=
  across (cells (g_m g)) i f j /\ aat dist i = rank /\ aat dist j <> rank.
(** the interface's points do not both lie on physical boundary faces of the rank *)
Definition seen (g : gmesh) (hs : list (nat * nat)) (dist : arr nat) (rank i f : nat) : Prop :=
  let e := edge (cell (cells (g_m g)) i) f in ~ (rank_bnd g hs dist rank (fst e) /\ rank_bnd g hs dist rank (snd e)).

Section R.
Variable g : gmesh.
Variable hs : list (nat * nat).
Hypothesis G : global_ok g hs.
Variable dist : arr nat.
Variable rank : nat.
Notation gm := (g_m g).
Notation cs := (cells (g_m g)).
Notation ne := (nelem (g_m g)).
Hypothesis Hd : alen dist = ne.
Notation own := (own g dist rank).
Notation pts := (pts g dist rank).
Notation nl := (length own).
Notation gc := (gc g dist rank).
Notation lcells := (lcells g dist rank).
Notation lhs := (lhs g hs dist rank).
Notation lbl := (lbl g hs dist rank).

Lemma on_bnd_global v : In v pts -> (on_bnd g hs dist rank (idx pts v) <-> rank_bnd g hs dist rank v).
Proof.
  intros Hv. unfold on_bnd. split.
  - intros (bf & Hb & Hv'). unfold Pf_Restrict.lbl in Hb. apply in_map_iff in Hb. destruct Hb as ((bf0 & h) & <- & Hx). cbn [fst] in *.
    assert (P : In (b0 bf0) pts /\ In (b1 bf0) pts).
    { destruct (ob_host g hs G dist rank bf0 h Hx) as (A & B & C & D & E). destruct (edge_in _ _ D) as (P1 & P2). rewrite <- E in P1, P2. cbn in P1, P2. rewrite <- B in P1, P2.
      split; eapply cell_pts; eauto. }
    apply ob_in in Hx. destruct Hx as ((q & Q1 & Q2) & Q3). exists q, bf0, h. split; auto. split; auto. split; auto.
    cbn in Hv'. destruct Hv' as [E|E]; apply idx_inj in E; tauto.
  - intros (q & bf & h & Q1 & Q2 & Q3 & Q4). exists (rename_bf g dist rank bf). split.
    + unfold Pf_Restrict.lbl. apply in_map_iff. exists (bf, h). split; auto. apply ob_in. split; eauto.
    + cbn. destruct Q4; subst; auto.
Qed.

Section K.
Variable E : arr2 Z.
Hypothesis HE : esuel_ok nl (maxnfael gm) lcells E.
Variable B : arr bool.
Hypothesis HBl : alen B = length pts.
Hypothesis HB : forall v, v < length pts -> (aat B v = true <-> on_bnd g hs dist rank v).

Lemma no_local l f : l < nl -> f < length (cell cs (gc l)) ->
  ((exists k, across lcells l f k) <-> exists j, across cs (gc l) f j /\ aat dist j = rank).
Proof.
  intros Hl Hf. split.
  - intros (k & A). destruct (across_lt g dist rank l f k A) as (_ & _ & Hk). exists (gc k). split. apply lacross; auto. apply gc_rank; auto.
  - intros (j & A & Hr). assert (Hj : j < ne) by apply A. destruct (gc_onto g dist rank j Hj Hr) as (I1 & I2). exists (idx own j). apply lacross; auto. rewrite I2; auto.
Qed.

Lemma keep_iff l f : l < nl -> f < length (cell cs (gc l)) ->
  (keep g dist rank E B l f = true <-> (exists j, interface g dist rank (gc l) f j) /\ seen g hs dist rank (gc l) f).
Proof.
  intros Hl Hf. assert (Hf' : f < length (cell lcells l)) by (rewrite lcell_len; auto).
  assert (OB : (on_bnd g hs dist rank (fst (edge (cell lcells l) f)) /\ on_bnd g hs dist rank (snd (edge (cell lcells l) f)) <->
    (rank_bnd g hs dist rank (fst (edge (cell cs (gc l)) f)) /\ rank_bnd g hs dist rank (snd (edge (cell cs (gc l)) f))))).
  { rewrite ledge by auto. cbn [fst snd]. destruct (edge_pts g dist rank l f Hl Hf). rewrite !on_bnd_global by auto. reflexivity. }
  split.
  - intros K. destruct (keep_global g hs G dist rank Hd E HE B HBl HB l f Hl Hf' K) as (j & A & Hr). split.
    + exists j. split; auto. split; auto. apply gc_rank; auto.
    + apply (keep_spec g hs G dist rank Hd E HE B HBl HB l f Hl Hf') in K. destruct K as (_ & K). unfold seen. cbv zeta. rewrite <- OB. exact K.
  - intros ((j & A & _ & Hr) & S). apply (keep_spec g hs G dist rank Hd E HE B HBl HB l f Hl Hf'). split.
    + rewrite no_local by auto. intros (j' & A' & Hr'). assert (j = j') by (eapply (gm_conf _ _ (tl_good _ _ (gl_tiled _ _ G))); eauto). congruence.
    + rewrite OB. exact S.
Qed.

(** the global face with number q *)
Definition gface (q : nat) : face := aat (intfac (g_t g)) q.

Lemma rec_iff cf : In cf (cfaces g dist rank E B) <->
  exists l f j, l < nl /\ interface g dist rank (gc l) f j /\ seen g hs dist rank (gc l) f /\
    cf = mkcf l f (Z.of_nat (aat dist j)) (Z.of_nat j) (Z.of_nat (at2 (elemface (g_t g)) (gc l) f)).
Proof.
  destruct (gl_topo _ _ G) as (p & e & ni & il & T). destruct (to_nbr _ _ _ _ _ _ _ T) as (_ & _ & R3).
  assert (NB : forall l f j, l < nl -> across cs (gc l) f j -> at2 (esuel (g_t g)) (gc l) f = Z.of_nat j).
  { intros l f j Hl A. assert (A' := A). destruct A' as (A1 & A2 & A3 & _). destruct (R3 (gc l) f A1 A2) as (z & Z1 & Z2). apply (Z2 j A3) in A. congruence. }
  rewrite (cfaces_in g dist rank Hd E B HBl). split.
  - intros (l & f & Hl & Hf & K & ->). rewrite lcell_len in Hf by auto. apply keep_iff in K; auto. destruct K as ((j & I) & S). exists l, f, j. split; auto. split; auto. split; auto.
    unfold crec. cbv zeta. rewrite (NB l f j Hl (proj1 I)), Nat2Z.id. reflexivity.
  - intros (l & f & j & Hl & I & S & ->). assert (Hf : f < length (cell cs (gc l))) by apply I. exists l, f. rewrite lcell_len by auto. split; auto. split; auto. split.
    + apply keep_iff; auto. split; eauto.
    + unfold crec. cbv zeta. rewrite (NB l f j Hl (proj1 I)), Nat2Z.id. reflexivity.
Qed.

Lemma lhs_in l f : In (l, f) lhs <-> l < nl /\ In (gc l, f) hs.
Proof.
  unfold Pf_Restrict.lhs. rewrite in_map_iff. split.
  - intros ((bf & h) & Eq & Hx). cbn in Eq. injection Eq as <- <-. destruct (ob_host g hs G dist rank bf h Hx) as (A & B1 & _). cbv zeta in *. split; auto. rewrite B1.
    apply ob_in in Hx. destruct Hx as ((q & _ & Q) & _). apply nth_error_In in Q. rewrite <- (pair_eta h). auto.
  - intros (Hl & Hin). apply In_nth_error in Hin. destruct Hin as (q & Eq). destruct (nth_error_some _ (bfaces gm) q) as (bf & Eb).
    { change (q < nbface gm). rewrite <- (proj1 (hosts g hs G)). apply nth_error_Some. congruence. }
    exists (bf, (gc l, f)). cbn. split. f_equal. unfold Pf_Restrict.gc. apply idx_nth; auto. apply own_nodup. apply ob_in. split; eauto. cbn. apply gc_rank; auto.
Qed.
Lemma lhs_nodup : NoDup lhs.
Proof.
  pose proof (tl_nodup _ _ (gl_tiled _ _ G)) as N. apply nodup_app in N. destruct N as (N & _). unfold Pf_Restrict.lhs, owned_bf.
  assert (L : length (bfaces gm) = length hs) by (symmetry; apply (hosts g hs G)).
  assert (I : forall h, In h hs -> fst h < ne).
  { intros h Hh. apply In_nth_error in Hh. destruct Hh as (q & Eq). destruct (nth_error_some _ (bfaces gm) q) as (bf & Eb). rewrite L; apply nth_error_Some; congruence.
    destruct (hosts' g hs G q bf h Eb Eq) as (_ & _ & D & _). exact D. }
  revert N L I. generalize (bfaces gm) as bl. generalize hs as hh. clear -Hd. induction hh as [|h hh IH]; intros [|bf bl] N L I; cbn; try constructor.
  cbn in L. inversion N; subst.
  assert (R : NoDup (map (fun x : bfrec * (nat * nat) => (idx own (fst (snd x)), snd (snd x))) (filter (fun x : bfrec * (nat * nat) => aat dist (fst (snd x)) =? rank) (combine bl hh)))).
  { apply IH; auto. intros; apply I; right; auto. }
  destruct (Nat.eqb_spec (aat dist (fst h)) rank) as [Er|Er]; cbn; auto. constructor; auto.
  intros Hin. apply in_map_iff in Hin. destruct Hin as ((bf' & h') & Eq & Hf). apply filter_In in Hf. destruct Hf as (Hf & Hr). cbn in *. apply Nat.eqb_eq in Hr.
  apply in_combine_r in Hf. assert (fst h' < ne) by (apply I; auto). assert (fst h < ne) by (apply I; auto). injection Eq as Q1 Q2.
  apply (idx_inj own) in Q1; try (apply own_in; auto). match goal with H : ~ In h hh |- _ => apply H end. rewrite (pair_eta h), <- Q1, <- Q2, <- (pair_eta h'). auto.
Qed.

Lemma local_tiled : (forall i f j, interface g dist rank i f j -> seen g hs dist rank i f) ->
  tiled (mkmesh (length pts) lcells (maxnfael gm) lbl (cfaces g dist rank E B)) lhs.
Proof.
  intros HS. set (m := mkmesh _ _ _ _ _).
  assert (CF : forall cf, In cf (conns m) -> cf_elem cf < nl /\ cf_face cf < length (cell cs (gc (cf_elem cf))) /\ exists j, interface g dist rank (gc (cf_elem cf)) (cf_face cf) j).
  { intros cf Hcf. apply rec_iff in Hcf. destruct Hcf as (l & f & j & Hl & I & S & ->). cbn. split; auto. split; [apply I|eauto]. }
  split.
  - split.
    + apply (lvalid g hs G dist rank).
    + apply (lconf g hs G dist rank).
    + apply (lmax g hs G dist rank).
    + apply (lhosts_ok g hs G dist rank).
    + intros cf Hcf. destruct (CF cf Hcf) as (C1 & C2 & _). unfold nelem. cbn [cells m]. rewrite lcells_len, lcell_len; auto.
  - apply (lorient g hs G dist rank).
  - intros k bf h Eb Eh. cbn in Eb. destruct (lbl_nth g hs dist rank k bf h Eb Eh) as ((bf0 & h0) & Hx & -> & ->). cbn [fst snd cells m rename_bf b0 b1].
    apply (lbor g hs G dist rank bf0 h0 Hx).
  - cbn [conns m]. assert (N := cfaces_nodup g dist rank E B). assert (NL := lhs_nodup).
    assert (D : forall x, In x lhs -> ~ In x (map (fun cf => (cf_elem cf, cf_face cf)) (cfaces g dist rank E B))).
    { intros (l & f) H1 H2. apply lhs_in in H1. destruct H1 as (Hl & H1). apply in_map_iff in H2. destruct H2 as (cf & Eq & H2). apply CF in H2. destruct H2 as (_ & _ & j & I & _).
      injection Eq as E1 E2. rewrite E1, E2 in I. apply In_nth_error in H1. destruct H1 as (q & Eq). destruct (nth_error_some _ (bfaces gm) q) as (bf & Eb).
      { change (q < nbface gm). rewrite <- (proj1 (hosts g hs G)). apply nth_error_Some. congruence. }
      destruct (hosts' g hs G q bf _ Eb Eq) as (_ & _ & D1 & D2 & D3 & D4). cbn [fst snd] in *. destruct I as (I1 & I2 & I3 & I4 & h & I5 & I6).
      apply I4. apply D4. split; auto. pose proof (same_edge_trans _ _ _ D3 I6) as S. destruct (edge_in _ _ I5). destruct S as [S|S]; pose proof (f_equal fst S) as F1; pose proof (f_equal snd S) as F2; cbn [fst snd] in F1, F2; split; congruence. }
    clear -N NL D. induction lhs as [|x r IH]; cbn; auto. inversion NL; subst. constructor.
    + rewrite in_app_iff. intros [H|H]; auto. apply (D x); auto. left; auto.
    + apply IH; auto. intros y Hy. apply D. right; auto.
  - intros cf k Hcf A. destruct (CF cf Hcf) as (C1 & C2 & j & I & _ & Hr). cbn [cells m] in A.
    assert (exists k, across lcells (cf_elem cf) (cf_face cf) k) by eauto. apply no_local in H; auto. destruct H as (j' & A' & Hr').
    assert (j = j') by (eapply (gm_conf _ _ (tl_good _ _ (gl_tiled _ _ G))); eauto). congruence.
  - intros l f Hl Hf. unfold nelem in Hl. cbn [cells m] in Hl, Hf |- *. rewrite lcells_len in Hl. rewrite lcell_len in Hf by auto.
    destruct (tl_cover _ _ (gl_tiled _ _ G) (gc l) f (gc_lt g dist rank l Hl) Hf) as [(j & A)|[A|(cf & A & _)]].
    + destruct (Nat.eq_dec (aat dist j) rank) as [Er|Er].
      * left. apply no_local; eauto.
      * right; right. assert (I : interface g dist rank (gc l) f j). { split; auto. split; auto. apply gc_rank; auto. }
        exists (mkcf l f (Z.of_nat (aat dist j)) (Z.of_nat j) (Z.of_nat (at2 (elemface (g_t g)) (gc l) f))). split; auto. cbn [conns m]. apply rec_iff. exists l, f, j. split; auto. split; auto. split; auto. eapply HS; eauto.
    + right; left. apply lhs_in. auto.
    + rewrite (gl_serial _ _ G) in A. destruct A.
Qed.
End K.
End R.

(** the two cells at a global face see the same face number *)
Lemma same_gface g hs (G : global_ok g hs) i f j : across (cells (g_m g)) i f j -> exists h, across (cells (g_m g)) j h i /\
  same_edge (edge (cell (cells (g_m g)) i) f) (edge (cell (cells (g_m g)) j) h) /\
  at2 (elemface (g_t g)) i f = at2 (elemface (g_t g)) j h.
Proof.
  intros A. assert (A' := A). destruct A' as (A1 & A2 & A3 & A4 & h & A5 & A6). exists h.
  assert (AB : across (cells (g_m g)) j h i). { repeat split; auto. exists f. split; auto. apply same_edge_sym; auto. }
  split; auto. split; auto.
  destruct (gl_topo _ _ G) as (p & e & ni & il & T). pose proof (gl_tiled _ _ G) as TT.
  pose proof (to_good _ _ _ _ _ _ _ T i f A1 A2) as G1. pose proof (to_good _ _ _ _ _ _ _ T j h A3 A5) as G2.
  destruct (to_nbr _ _ _ _ _ _ _ T) as (_ & _ & R3).
  destruct (R3 i f A1 A2) as (z & Z1 & Z2). apply (Z2 j A3) in A. subst z.
  destruct (R3 j h A3 A5) as (z & Z3 & Z4). apply (Z4 i A1) in AB. subst z.
  destruct G1 as (L1 & S1 & W1), G2 as (L2 & S2 & W2).
  set (s := g_t g) in *. set (q1 := at2 (elemface s) i f) in *. set (q2 := at2 (elemface s) j h) in *.
  assert (EQ : aat (intfac s) q1 = aat (intfac s) q2).
  { apply (origin_unique (g_m g) hs TT _ _ i f).
    - assert (Hin : In (aat (intfac s) q1) (alist (intfac s))) by (unfold alist; apply in_map; apply in_seq; lia).
      assert (K : exists e1, In (i, e1) (halves (nelem (g_m g)) (aat (intfac s) q1)) /\ same_edge e1 (edge (cell (cells (g_m g)) i) f)).
      { destruct W1 as [(W & _)|(W & _)].
        - exists (f_a (aat (intfac s) q1), f_b (aat (intfac s) q1)). split; auto. left. rewrite W. auto.
        - exists (f_b (aat (intfac s) q1), f_a (aat (intfac s) q1)). split. right. rewrite W. destruct (Nat.ltb_spec i (nelem (g_m g))); [left; auto|unfold nelem in *; lia].
          eapply same_edge_trans; [|exact S1]. right; auto. }
      destruct K as (e1 & K1 & K2). destruct (origin_of (g_m g) hs _ il TT (to_ranges _ _ _ _ _ _ _ T) _ i e1 Hin K1) as (f' & _ & Hf' & -> & O).
      destruct (cell_valid _ _ i (gm_valid _ _ (tl_good _ _ TT)) A1) as (V1 & V2 & _). apply edge_unique in K2; auto. subst; auto.
    - assert (Hin : In (aat (intfac s) q2) (alist (intfac s))) by (unfold alist; apply in_map; apply in_seq; lia).
      assert (K : exists e1, In (i, e1) (halves (nelem (g_m g)) (aat (intfac s) q2)) /\ same_edge e1 (edge (cell (cells (g_m g)) i) f)).
      { pose proof (same_edge_trans _ _ _ S2 (same_edge_sym _ _ A6)) as S3.
        destruct W2 as [(W & W')|(W & W')]; rewrite Z3 in W'; apply Nat2Z.inj in W'.
        - exists (f_b (aat (intfac s) q2), f_a (aat (intfac s) q2)). split. right. rewrite <- W'. destruct (Nat.ltb_spec i (nelem (g_m g))); [left; auto|unfold nelem in *; lia].
          eapply same_edge_trans; [|exact S3]. right; auto.
        - exists (f_a (aat (intfac s) q2), f_b (aat (intfac s) q2)). split; auto. left. rewrite <- W'. auto. }
      destruct K as (e1 & K1 & K2). destruct (origin_of (g_m g) hs _ il TT (to_ranges _ _ _ _ _ _ _ T) _ i e1 Hin K1) as (f' & _ & Hf' & -> & O).
      destruct (cell_valid _ _ i (gm_valid _ _ (tl_good _ _ TT)) A1) as (V1 & V2 & _). apply edge_unique in K2; auto. subst; auto. }
  assert (ND : NoDup (alist (intfac s))) by (apply (F_nodup (g_m g) hs _ il TT (to_ranges _ _ _ _ _ _ _ T))).
  apply (proj1 (NoDup_nth _ (aat (intfac s) 0)) ND); rewrite ?alist_length; auto.
  unfold alist. rewrite !map_nth, !seq_nth by auto. exact EQ.
Qed.

(** ** adjacency lists *)
Section Adj.
Variable m : umesh.
Variable E : arr2 Z.
Notation ne := (nelem m).
Hypothesis HE : nbr_ok m E.
Hypothesis Hmax : forall i, i < ne -> length (cell (cells m) i) <= maxnfael m.

Definition reals_from (i k n : nat) : list Z := filter (is_real ne) (map (at2 E i) (seq k n)).
Definition reals (i : nat) : list Z := reals_from i 0 (length (cell (cells m) i)).

Lemma fill_ok i : i < ne -> forall n k fuel iloc st,
  k + n = length (cell (cells m) i) -> n <= fuel -> iloc + length (reals_from i k n) <= alen st ->
  exists st', adj_fill E ne i (iloc + length (reals_from i k n)) fuel k iloc st = Some st' /\ alen st' = alen st /\
    aslice st' iloc (iloc + length (reals_from i k n)) = reals_from i k n /\
    forall t, t < iloc \/ iloc + length (reals_from i k n) <= t -> aat st' t = aat st t.
Proof.
  intros Hi. destruct HE as (R & C & _). pose proof (Hmax i Hi) as HM. induction n as [|n IH]; intros k fuel iloc st Hk Hf Hs.
  - cbn in *. rewrite Nat.add_0_r in *. destruct fuel; cbn; (destruct (Nat.ltb_spec iloc iloc); [lia|]); exists st; unfold aslice; rewrite Nat.sub_diag; auto.
  - destruct fuel as [|fuel]; [lia|]. unfold reals_from in *. cbn [seq map filter] in *. destruct (is_real ne (at2 E i k)) eqn:B.
    + cbn [length] in *. cbn [adj_fill]. destruct (Nat.ltb_spec iloc (iloc + S (length (filter (is_real ne) (map (at2 E i) (seq (S k) n)))))); [|lia].
      rewrite get2_ok by lia. cbn [bind]. rewrite B. rewrite aset_ok by lia. cbn [bind].
      destruct (IH (S k) fuel (iloc + 1) (mkarr (alen st) (upd (aat st) iloc (at2 E i k)))) as (st' & A1 & A2 & A3 & A4); [lia|lia|cbn; lia|].
      set (rl := filter (is_real ne) (map (at2 E i) (seq (S k) n))) in *. replace (iloc + S (length rl)) with (iloc + 1 + length rl) by lia. rewrite Nat.add_1_r in A1 at 1. replace (k + 1) with (S k) by lia.
      exists st'. replace (S iloc + length rl) with (iloc + 1 + length rl) in A1 by lia. split; [exact A1|]. split; auto. split.
      * unfold aslice in *. replace (iloc + 1 + length rl - iloc) with (S (length rl)) by lia. cbn [seq map]. f_equal.
        rewrite A4 by lia. cbn. apply upd_eq. replace (iloc + 1 + length rl - (iloc + 1)) with (length rl) in A3 by lia. rewrite <- Nat.add_1_r. exact A3.
      * intros t Ht. rewrite A4 by lia. cbn. apply upd_ne. lia.
    + cbn [adj_fill]. destruct (Nat.ltb_spec iloc (iloc + length (filter (is_real ne) (map (at2 E i) (seq (S k) n))))).
      * rewrite get2_ok by lia. cbn [bind]. rewrite B. replace (k + 1) with (S k) by lia. apply IH; auto; lia.
      * exists st. split; auto. split; auto. split; auto. unfold aslice. destruct (filter (is_real ne) (map (at2 E i) (seq (S k) n))); cbn in *; [|lia]. replace (iloc + 0 - iloc) with 0 by lia. reflexivity.
Qed.

Definition offs (k : nat) : nat := list_sum (map (fun i => length (reals i)) (seq 0 k)).
Lemma offs_S k : offs (k + 1) = offs k + length (reals k).
Proof. unfold offs. rewrite seq_app, map_app, list_sum_app. cbn. lia. Qed.
Lemma offs_mono a b : a <= b -> offs a <= offs b.
Proof. induction 1; auto. replace (S m0) with (m0 + 1) by lia. rewrite offs_S. lia. Qed.

Lemma adj_ok jp js : exists p st, getCellAdjLists m E jp js = Some (p, st) /\ alen p = ne + 1 /\ (forall i, i <= ne -> aat p i = offs i) /\ alen st = offs ne /\
  forall i, i < ne -> aslice st (aat p i) (aat p (i + 1)) = reals i.
Proof.
  unfold getCellAdjLists. cbv zeta. rewrite aset_ok by (cbn; lia). cbn [bind alen aat].
  assert (HEE := HE). destruct HEE as (R & C & _).
  match goal with |- context [floop ne ?bb ?ss] =>
    destruct (floop_inv _ (fun k (p : arr nat) => alen p = ne + 1 /\ aat p 0 = 0 /\ forall i, i < k -> aat p (i + 1) = length (reals i)) ne bb ss) as (p1 & E1 & L1 & Z1 & I1) end.
  - cbn. split; auto. split; [apply upd_eq|]. intros; lia.
  - intros i p Hi (L & Z & I). rewrite nnode_ok by auto. cbn [bind]. pose proof (Hmax i Hi).
    match goal with |- context [floop (length ?c) ?bb ?ss] =>
      destruct (floop_inv _ (fun k n => n = length (reals_from i 0 k)) (length c) bb ss) as (n & E2 & I2) end; auto.
    + intros j n Hj ->. rewrite get2_ok by lia. cbn [bind]. eexists; split; [reflexivity|]. unfold reals_from. rewrite seq_app, map_app, filter_app, app_length. cbn. destruct (is_real _ _); cbn; lia.
    + rewrite E2. cbn [bind]. rewrite aset_ok by lia. eexists; split; [reflexivity|]. cbn. split; auto. split. rewrite upd_ne by lia; auto.
      intros k Hk. unfold upd. destruct (Nat.eqb_spec (k + 1) (i + 1)). assert (k = i) by lia. subst. auto. apply I. lia.
  - rewrite E1. cbn [bind]. destruct (scan_ok p1) as (p2 & E2 & L2 & I2). rewrite E2. cbn [bind].
    assert (P : forall i, i <= ne -> aat p2 i = offs i).
    { intros i Hi. rewrite I2 by lia. clear -Hi Z1 I1. rewrite Nat.add_1_r. cbn [seq map list_sum]. rewrite Z1. change (list_sum (map (aat p1) (seq 1 i)) = offs i).
      unfold offs. f_equal. rewrite <- (map_map S (aat p1)) with (l := seq 0 i) || rewrite <- seq_shift, map_map. apply map_ext_in. intros k Hk. apply in_seq in Hk. rewrite <- I1 by lia. f_equal. lia. }
    rewrite aget_ok by lia. cbn [bind]. rewrite P by lia.
    match goal with |- context [floop ne ?bb ?ss] =>
      destruct (floop_inv _ (fun k (st : arr Z) => alen st = offs ne /\ forall i, i < k -> aslice st (offs i) (offs (i + 1)) = reals i) ne bb ss) as (st & E3 & L3 & I3) end.
    + split; auto. intros; lia.
    + intros i st Hi (L & I). rewrite !aget_ok by lia. cbn [bind]. rewrite !P by lia. rewrite offs_S.
      pose proof (offs_mono (i + 1) ne ltac:(lia)). rewrite offs_S in H.
      destruct (fill_ok i Hi (length (cell (cells m) i)) 0 (maxnfael m) (offs i) st) as (st' & F1 & F2 & F3 & F4); auto. fold (reals i). lia.
      fold (reals i) in *. exists st'. split; auto. split; [congruence|]. intros k Hk. destruct (Nat.eq_dec k i) as [->|].
      * rewrite offs_S. exact F3.
      * rewrite <- I by lia. unfold aslice. apply map_ext_in. intros t Ht. apply in_seq in Ht. pose proof (offs_mono k (k + 1) ltac:(lia)). pose proof (offs_mono (k + 1) i ltac:(lia)). apply F4. lia.
    + rewrite E3. cbn [bind]. exists p2, st. split; auto. split; [congruence|]. split; auto. split; auto. intros i Hi. rewrite !P by lia. auto.
Qed.

Lemma reals_in i j : i < ne -> j < ne -> (In (Z.of_nat j) (reals i) <-> exists f, across (cells m) i f j).
Proof.
  intros Hi Hj. destruct HE as (_ & _ & H). unfold reals, reals_from. rewrite filter_In, in_map_iff. split.
  - intros ((f & Ef & Hf) & _). apply in_seq in Hf. exists f. destruct (H i f Hi ltac:(lia)) as (z & Z1 & Z2). apply Z2; auto. rewrite Z1 in Ef. lia.
  - intros (f & A). assert (A' := A). destruct A' as (_ & Hf & _). destruct (H i f Hi Hf) as (z & Z1 & Z2). apply (Z2 j Hj) in A. subst z. split.
    + exists f. split; auto. apply in_seq. lia.
    + unfold is_real. apply andb_true_iff. rewrite Z.leb_le, Z.ltb_lt. lia.
Qed.
Lemma reals_range i z : In z (reals i) -> exists j, j < ne /\ z = Z.of_nat j.
Proof. intros H. apply filter_In in H. destruct H as (_ & H). unfold is_real in H. apply andb_true_iff in H. rewrite Z.leb_le, Z.ltb_lt in H. exists (Z.to_nat z). lia. Qed.
Lemma reals_len i : length (reals i) = length (filter (fun f => is_real ne (at2 E i f)) (seq 0 (length (cell (cells m) i)))).
Proof. unfold reals, reals_from. induction (seq 0 _) as [|f l IH]; cbn; auto. destruct (is_real _ _); cbn; auto. Qed.
End Adj.
