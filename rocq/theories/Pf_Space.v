(** The structure of the data built by [setup], and the effect of the face loops. *)
From Coq Require Import Reals Lra List Arith Lia Permutation ZArith.
From Verif Require Import Base BaseR BaseSum M_Mesh M_Geom S_Mesh S_Geom Pf_Esup Pf_Esuel Pf_Host Pf_Faces Pf_Topo Pf_Incid Pf_Geom Pf_Full M_Space.
Import ListNotations.
Open Scope R_scope.

Definition outer_pt (S : smesh) (k : nat) : v2 := if (k <? sm_nb S)%nat then aat (sm_rcbp S) k else aat (sm_rc S) (f_right (aat (sm_F S) k)).

Record sm_ok (S : smesh) : Prop := {
  so_F : alen (sm_F S) = sm_nf_all S; so_M : alen (sm_M S) = sm_nf_all S; so_A : alen (sm_A S) = sm_ne S;
  so_rc : alen (sm_rc S) = (sm_ne S + sm_nc S)%nat; so_rcbp : alen (sm_rcbp S) = sm_nb S; so_gr : alen (sm_gr S) = sm_nf_all S;
  so_nf : alen (sm_nf S) = sm_ne S;
  so_left : forall k, (k < sm_nf_all S)%nat -> (f_left (aat (sm_F S) k) < sm_ne S)%nat;
  so_phy : forall k, (k < sm_nb S)%nat -> f_right (aat (sm_F S) k) = (sm_ne S + sm_nc S + k)%nat;
  so_int : forall k, (sm_nb S <= k < sm_nb S + sm_ni S)%nat -> (f_left (aat (sm_F S) k) < f_right (aat (sm_F S) k) < sm_ne S)%nat;
  so_con : forall k, (sm_nb S + sm_ni S <= k < sm_nf_all S)%nat -> f_right (aat (sm_F S) k) = (sm_ne S + (k - sm_nb S - sm_ni S))%nat;
  so_pts : forall k, (k < sm_nf_all S)%nat -> (f_a (aat (sm_F S) k) < alen (sm_X S) /\ f_b (aat (sm_F S) k) < alen (sm_X S))%nat;
  so_mid : forall k, (k < sm_nf_all S)%nat -> aat (sm_gr S) k = face_mid (aat (sm_X S) (f_a (aat (sm_F S) k))) (aat (sm_X S) (f_b (aat (sm_F S) k)));
  so_bp : forall k, (k < sm_nb S)%nat -> aat (sm_rcbp S) k = vsub (vscal 2 (aat (sm_gr S) k)) (aat (sm_rc S) (f_left (aat (sm_F S) k)));
  so_met : forall k, (k < sm_nf_all S)%nat -> aat (sm_M S) k = face_metric (aat (sm_X S) (f_a (aat (sm_F S) k))) (aat (sm_X S) (f_b (aat (sm_F S) k)));
  so_tab : rows (sm_EF S) = sm_ne S /\ rows (sm_ES S) = sm_ne S /\ forall i, (i < sm_ne S)%nat -> (aat (sm_nf S) i <= cols (sm_EF S) /\ aat (sm_nf S) i <= cols (sm_ES S))%nat;
  so_ef : forall i f, (i < sm_ne S)%nat -> (f < aat (sm_nf S) i)%nat ->
    (at2 (sm_EF S) i f < sm_nf_all S)%nat /\ let fc := aat (sm_F S) (at2 (sm_EF S) i f) in
    (f_left fc = i /\ at2 (sm_ES S) i f = Z.of_nat (f_right fc)) \/ (f_right fc = i /\ at2 (sm_ES S) i f = Z.of_nat (f_left fc));
  so_sur : forall k i, (k < sm_nf_all S)%nat -> (i < sm_ne S)%nat -> f_left (aat (sm_F S) k) = i \/ f_right (aat (sm_F S) k) = i ->
    exists f, (f < aat (sm_nf S) i)%nat /\ at2 (sm_EF S) i f = k;
  so_inj : forall i f g, (i < sm_ne S)%nat -> (f < aat (sm_nf S) i)%nat -> (g < aat (sm_nf S) i)%nat -> at2 (sm_EF S) i f = at2 (sm_EF S) i g -> f = g }.

(** closed cells: the outward face vectors of every real cell add up to zero *)
Definition cells_closed (S : smesh) : Prop := forall i, (i < sm_ne S)%nat ->
  vsum (fun k => outward i (aat (sm_F S) k) (aat (sm_M S) k)) (seq 0 (sm_nf_all S)) = vzero.

Lemma get_mid_ok X fc : (f_a fc < alen X)%nat -> (f_b fc < alen X)%nat -> get_mid X fc = Some (face_mid (aat X (f_a fc)) (aat X (f_b fc))).
Proof. intros. unfold get_mid. rewrite !aget_ok by auto. reflexivity. Qed.

Lemma face_centres_ok X F : (forall k, (k < alen F)%nat -> (f_a (aat F k) < alen X)%nat /\ (f_b (aat F k) < alen X)%nat) ->
  exists G, face_centres X F = Some G /\ alen G = alen F /\ forall k, (k < alen F)%nat -> aat G k = face_mid (aat X (f_a (aat F k))) (aat X (f_b (aat F k))).
Proof.
  intros H. unfold face_centres.
  match goal with |- context [floop _ ?bb ?ss] =>
    destruct (floop_inv _ (fun i (G : arr v2) => alen G = alen F /\ forall k, (k < i)%nat -> aat G k = face_mid (aat X (f_a (aat F k))) (aat X (f_b (aat F k)))) (alen F) bb ss) as (G & E & L & I) end.
  - split; [reflexivity|]. intros; lia.
  - intros i G Hi (L & I). rewrite aget_ok by auto. cbn [bind]. rewrite get_mid_ok by (apply H; auto). cbn [bind]. rewrite aset_ok by lia.
    eexists; split; [reflexivity|]. cbn. split; auto. intros k Hk. unfold upd. destruct (Nat.eqb_spec k i); [subst; reflexivity|]. apply I. lia.
  - eauto.
Qed.

Lemma ghost_ok X F rc nb jb : (nb <= alen F)%nat -> (forall k, (k < nb)%nat -> (f_a (aat F k) < alen X)%nat /\ (f_b (aat F k) < alen X)%nat /\ (f_left (aat F k) < alen rc)%nat) ->
  exists G, ghost_about_midpoint X F rc nb jb = Some G /\ alen G = nb /\ forall k, (k < nb)%nat ->
    aat G k = vsub (vscal 2 (face_mid (aat X (f_a (aat F k))) (aat X (f_b (aat F k))))) (aat rc (f_left (aat F k))).
Proof.
  intros Hn H. unfold ghost_about_midpoint.
  match goal with |- context [floop _ ?bb ?ss] =>
    destruct (floop_inv _ (fun i (G : arr v2) => alen G = nb /\ forall k, (k < i)%nat -> aat G k = vsub (vscal 2 (face_mid (aat X (f_a (aat F k))) (aat X (f_b (aat F k))))) (aat rc (f_left (aat F k)))) nb bb ss) as (G & E & L & I) end.
  - split; [reflexivity|]. intros; lia.
  - intros i G Hi (L & I). destruct (H i Hi) as (H1 & H2 & H3). rewrite aget_ok by lia. cbn [bind]. rewrite get_mid_ok by auto. cbn [bind].
    rewrite aget_ok by auto. cbn [bind]. rewrite aset_ok by lia.
    eexists; split; [reflexivity|]. cbn. split; auto. intros k Hk. unfold upd. destruct (Nat.eqb_spec k i); [subst; reflexivity|]. apply I. lia.
  - eauto.
Qed.

Lemma nth_alist {A} (a : arr A) k : (k < alen a)%nat -> nth_error (alist a) k = Some (aat a k).
Proof.
  intros H. unfold alist. rewrite nth_error_map.
  assert (E : nth_error (seq 0 (alen a)) k = Some k).
  { rewrite (nth_error_nth' _ 0%nat) by (rewrite seq_length; auto). rewrite seq_nth by auto. reflexivity. }
  rewrite E. reflexivity.
Qed.

(** a permutation image of a list without repetitions: equal values of [flat_map] come from one place *)
Lemma flat_map_place {A B} (h : A -> list B) : forall l, NoDup (flat_map h l) -> forall j k x a b,
  nth_error l j = Some a -> nth_error l k = Some b -> In x (h a) -> In x (h b) -> j = k.
Proof.
  induction l as [|y l IH]; intros N j k x a b Ej Ek Ha Hb; [destruct j; discriminate|].
  cbn in N. apply nodup_app in N. destruct N as (N1 & N2 & N3).
  destruct j as [|j], k as [|k]; auto; cbn in Ej, Ek.
  - inversion Ej; subst. exfalso. apply (N3 x Ha). apply in_flat_map. exists b. split; auto. eapply nth_error_In; eauto.
  - inversion Ek; subst. exfalso. apply (N3 x Hb). apply in_flat_map. exists a. split; auto. eapply nth_error_In; eauto.
  - f_equal. eapply IH; eauto.
Qed.

Section Setup.
Variables (m : umesh) (hs : list (nat * nat)) (X : arr v2) (ghost : nat -> v2).
Variables (j0 : nat -> nat -> Z) (jf : nat -> face) (je : nat -> nat -> nat) (jt : nat -> list Z) (jm : nat -> fmet) (ja : nat -> R) (jc jb : nat -> v2).
Hypothesis T : tiled m hs.
Hypothesis H34 : forall c, In c (cells m) -> (length c = 3 \/ length c = 4)%nat.
Hypothesis LX : alen X = npoin m.

Theorem setup_ok : exists p e ni s il S,
  compute_topological m j0 jf je jt = Some (Val (p, e, (ni, s))) /\ topo m hs p e ni s il /\
  setup m X ghost j0 jf je jt jm ja jc jb = Some (Val S) /\ sm_ok S /\
  sm_ne S = nelem m /\ sm_nb S = nbface m /\ sm_ni S = ni /\ sm_nc S = nconnface m /\ sm_F S = intfac s /\ sm_X S = X /\
  (forall i, (i < nelem m)%nat -> aat (sm_A S) i = polygon_area (map (aat X) (cell (cells m) i))) /\
  (forall i, (i < nelem m)%nat -> let c := cell (cells m) i in
      aat (sm_rc S) i = mkv (vx (vsum (aat X) c) / INR (length c)) (vy (vsum (aat X) c) / INR (length c))) /\
  (forall k, (k < nconnface m)%nat -> aat (sm_rc S) (nelem m + k)%nat = ghost k) /\
  (forall i, (i < nelem m)%nat -> aat (sm_nf S) i = length (cell (cells m) i)) /\
  (forall i f, (i < nelem m)%nat -> (f < length (cell (cells m) i))%nat -> good m (alen (intfac s)) s i f) /\
  sm_EF S = elemface s /\ sm_ES S = esuel s /\ sm_bt S = btags s.
Proof.
  destruct (topo_full m hs T j0 jf je jt) as (p & e & ni & s & il & TT & TO).
  pose proof (tl_good _ _ T) as G. pose proof (gm_valid _ _ G) as Hv. pose proof (to_ranges _ _ _ _ _ _ _ TO) as HR.
  assert (Hin : forall k, (k < alen (intfac s))%nat -> In (aat (intfac s) k) (alist (intfac s))).
  { intros k Hk. unfold alist. apply in_map. apply in_seq. lia. }
  assert (Hb : forall k, (k < alen (intfac s))%nat -> (f_a (aat (intfac s) k) < alen X)%nat /\ (f_b (aat (intfac s) k) < alen X)%nat).
  { intros k Hk. destruct (face_points m hs _ il T HR _ (Hin k Hk)) as (j & f & Hj & Hf & El & Ee).
    destruct (cell_valid _ _ j Hv Hj) as (_ & _ & Hn).
    destruct (edge_in _ _ j f Hv Hj Hf) as (I1 & I2). rewrite <- Ee in I1, I2. rewrite LX. split; apply Hn; auto. }
  assert (Hl : forall k, (k < alen (intfac s))%nat -> (f_left (aat (intfac s) k) < nelem m)%nat).
  { intros k Hk. destruct (face_points m hs _ il T HR _ (Hin k Hk)) as (j & f & Hj & Hf & El & Ee). subst j. auto. }
  destruct (face_data_ok X (intfac s) jm Hb) as (M & EM & LM & IM).
  destruct (areas_ok m X ja) as (A & EA & LA & IA).
  { intros c Hc. split; auto. rewrite LX. intros v Hvv. apply (Hv c Hc); auto. }
  destruct (centres_ok m X jc) as (C & EC & LC & IC).
  { intros c Hc v Hvv. rewrite LX. apply (Hv c Hc); auto. }
  set (rc := mkarr (nelem m + nconnface m) (fun i => if (i <? nelem m)%nat then aat C i else ghost (i - nelem m)%nat)).
  destruct (face_centres_ok X (intfac s) Hb) as (gr & EG & LG & IG).
  pose proof (to_len _ _ _ _ _ _ _ TO) as TL.
  destruct (ghost_ok X (intfac s) rc (nbface m) jb) as (rb & EB & LB & IB).
  { rewrite TL. lia. }
  { intros k Hk. destruct (Hb k ltac:(lia)). specialize (Hl k ltac:(lia)). split; auto. split; auto. cbn. lia. }
  eexists p, e, ni, s, il, _. split; [exact TT|]. split; [exact TO|]. split.
  { unfold setup. rewrite TT, EM. cbn [bind]. rewrite EA. cbn [bind]. unfold spatial_ctor. rewrite EC. cbn [bind]. fold rc. rewrite EG. cbn [bind]. rewrite EB. reflexivity. }
  pose proof HR as (bl & cl & EF & Lb & Lc & Hbl & Hcl & Hnd & Hil).
  pose proof (to_ni _ _ _ _ _ _ _ TO) as NI.
  assert (Fat : forall k fc, nth_error (bl ++ il ++ cl) k = Some fc -> aat (intfac s) k = fc).
  { intros k fc E. rewrite <- EF in E. assert (k < length (alist (intfac s)))%nat by (apply nth_error_Some; congruence).
    unfold alist in H. rewrite map_length, seq_length in H. rewrite nth_alist in E by auto. inversion E; auto. }
  pose proof (halves_perm m hs _ il T HR) as PH.
  assert (NDH : NoDup (flat_map (halves (nelem m)) (alist (intfac s)))).
  { apply (Permutation_NoDup (Permutation_sym PH)). eapply cell_edges_nodup; eauto. }
  (* face bounded by cell i and its edge number *)
  assert (HK : forall k i, (k < alen (intfac s))%nat -> (i < nelem m)%nat -> f_left (aat (intfac s) k) = i \/ f_right (aat (intfac s) k) = i ->
     exists f, (f < length (cell (cells m) i))%nat /\ In (i, edge (cell (cells m) i) f) (halves (nelem m) (aat (intfac s) k)) /\
               same_edge (f_a (aat (intfac s) k), f_b (aat (intfac s) k)) (edge (cell (cells m) i) f)).
  { intros k i Hk Hi W. set (fc := aat (intfac s) k) in *.
    destruct W as [W|W].
    - destruct (origin_of m hs _ il T HR fc i (f_a fc, f_b fc) (Hin k Hk)) as (f & _ & Hf & E & _).
      { rewrite <- W. left; reflexivity. }
      exists f. split; auto. rewrite <- E. split; [rewrite <- W; left; reflexivity|left; reflexivity].
    - assert (Hh : In (i, (f_b fc, f_a fc)) (halves (nelem m) fc)).
      { unfold halves. rewrite W. destruct (Nat.ltb_spec i (nelem m)); [|lia]. right; left; reflexivity. }
      destruct (origin_of m hs _ il T HR fc i (f_b fc, f_a fc) (Hin k Hk) Hh) as (f & _ & Hf & E & _).
      exists f. split; auto. rewrite <- E. split; auto. right; reflexivity. }
  pose proof (to_good _ _ _ _ _ _ _ TO) as GD.
  assert (EFeq : forall i f k, (i < nelem m)%nat -> (f < length (cell (cells m) i))%nat -> (k < alen (intfac s))%nat ->
     In (i, edge (cell (cells m) i) f) (halves (nelem m) (aat (intfac s) k)) -> at2 (elemface s) i f = k).
  { intros i f k Hi Hf Hk Hh. destruct (GD i f Hi Hf) as (L & Se & W).
    destruct (HK (at2 (elemface s) i f) i L Hi) as (g & Hg & Hh' & Se'). { destruct W as [[W _]|[W _]]; auto. }
    assert (g = f).
    { destruct (cell_valid _ _ i Hv Hi) as (N3 & ND & _). eapply edge_unique; eauto. apply same_edge_trans with (f_a (aat (intfac s) (at2 (elemface s) i f)), f_b (aat (intfac s) (at2 (elemface s) i f))); auto.
      apply same_edge_sym; auto. }
    subst g. eapply (flat_map_place (halves (nelem m))); [exact NDH| | |exact Hh'|exact Hh]; apply nth_alist; auto. }
  cbn [sm_ne sm_nb sm_ni sm_nc sm_F sm_X sm_A sm_rc sm_nf sm_EF sm_ES sm_bt].
  split.
  { assert (NA : sm_nf_all (mksm (nelem m) (nbface m) ni (nconnface m) (intfac s) M A X rc rb gr (elemface s) (esuel s)
               (mkarr (nelem m) (fun i => length (nth i (cells m) []))) (btags s)) = alen (intfac s)).
    { unfold sm_nf_all. cbn. lia. }
    split; try rewrite NA; cbn [sm_ne sm_nb sm_ni sm_nc sm_F sm_M sm_X sm_A sm_rc sm_rcbp sm_gr sm_nf sm_EF sm_ES alen aat rc]; auto.
    - intros k Hk. destruct (nth_error_some _ (bfaces m) k ltac:(exact Hk)) as (bf & Ebf).
      destruct (nth_error_some _ hs k) as (h & Eh). { destruct G as [_ _ _ [Lh _] _]. fold (nbface m) in Lh. lia. }
      rewrite (Fat k (bface_entry m k bf h)). reflexivity.
      rewrite nth_error_app1 by lia. apply (Hbl k bf h); auto.
    - intros k Hk. destruct (nth_error_some _ il (k - nbface m)) as (fc & Efc). { lia. }
      rewrite (Fat k fc). 2:{ rewrite nth_error_app2 by lia. rewrite nth_error_app1 by lia. rewrite Lb. auto. }
      assert (Hfc : In fc il) by (eapply nth_error_In; eauto). apply Hil in Hfc. destruct Hfc as (f & Ac & Hlt & _).
      split; auto. destruct Ac as (_ & _ & Ac & _). exact Ac.
    - intros k Hk. destruct (nth_error_some _ (conns m) (k - nbface m - ni)) as (cf & Ecf). { fold (nconnface m). lia. }
      rewrite (Fat k (conn_entry m (k - nbface m - ni) cf)). reflexivity.
      rewrite nth_error_app2 by lia. rewrite nth_error_app2 by lia. rewrite Lb, <- NI. apply Hcl. auto.
    - intros k Hk. rewrite IB by auto. rewrite IG by lia. reflexivity.
    - destruct (to_nbr _ _ _ _ _ _ _ TO) as (R1 & C1 & _). pose proof (to_efrows _ _ _ _ _ _ _ TO). pose proof (to_efcols _ _ _ _ _ _ _ TO).
      split; auto. split; auto. intros i Hi. rewrite C1, H0. pose proof (gm_max _ _ G) as Hm. fold (cell (cells m) i).
      assert (length (cell (cells m) i) <= maxnfael m)%nat; [|lia]. apply Hm. apply nth_In; auto.
    - intros i f Hi Hf. destruct (GD i f Hi Hf) as (L & Se & W). split; auto.
    - intros k i Hk Hi W. destruct (HK k i Hk Hi W) as (f & Hf & Hh & _). exists f. split; auto.
    - intros i f g Hi Hf Hg E. fold (cell (cells m) i) in Hf, Hg.
      destruct (GD i f Hi Hf) as (L1 & Se1 & _). destruct (GD i g Hi Hg) as (L2 & Se2 & _). rewrite <- E in Se2.
      destruct (cell_valid _ _ i Hv Hi) as (N3 & ND & _). eapply edge_unique; eauto. eapply same_edge_trans; [apply same_edge_sym; exact Se1|exact Se2]. }
  repeat (split; [reflexivity|]). split; auto. split.
  { intros i Hi. cbn. destruct (Nat.ltb_spec i (nelem m)); [|lia]. apply IC; auto. }
  split.
  { intros k Hk. cbn. destruct (Nat.ltb_spec (nelem m + k) (nelem m)); [lia|]. f_equal. lia. }
  split; [reflexivity|]. split; [exact GD|]. repeat split; reflexivity.
Qed.
End Setup.

(** ** accumulation *)
Section Acc.
Context {T : Type} (plus : T -> T -> T).
Definition additive (phi : T -> R) : Prop := forall a b, phi (plus a b) = phi a + phi b.

(** what a list of increments adds to entry [i] *)
Definition added (phi : T -> R) (l : list (inc T)) (i : nat) : R := rsum (fun p => if (fst p =? i)%nat then phi (snd p) else 0) l.

Lemma add_all_ok : forall l (A : arr T), (forall p, In p l -> (fst p < alen A)%nat) ->
  exists A', add_all plus l A = Some A' /\ alen A' = alen A /\
    (forall phi, additive phi -> forall i, phi (aat A' i) = phi (aat A i) + added phi l i) /\
    (forall i, (forall p, In p l -> fst p <> i) -> aat A' i = aat A i).
Proof.
  induction l as [|[j x] l IH]; intros A H; cbn [add_all ofold].
  - exists A. split; auto. split; auto. split; auto. intros. unfold added. cbn. lra.
  - unfold add_at at 1. cbn [fst snd]. pose proof (H (j, x) ltac:(left; auto)) as Hj. cbn in Hj.
    rewrite aget_ok by auto. cbn [bind]. rewrite aset_ok by auto. cbn [bind].
    destruct (IH (mkarr (alen A) (upd (aat A) j (plus (aat A j) x)))) as (A' & E & L & P & Q). { intros p Hp. cbn. apply H. right; auto. }
    exists A'. split; [exact E|]. split; [exact L|]. split.
    + intros phi Hphi i. rewrite P by auto. cbn [aat]. unfold added. cbn [rsum fst snd]. unfold upd. rewrite (Nat.eqb_sym i j).
      destruct (Nat.eqb_spec j i); [subst; rewrite Hphi|]; lra.
    + intros i Hi. rewrite Q. cbn. apply upd_ne. intro; subst. apply (Hi (j, x)); [left; auto|reflexivity]. intros p Hp. apply Hi. right; auto.
Qed.

Lemma acc_loop_ok lo hi body (A : arr T) (L : nat -> list (inc T)) : (lo <= hi)%nat ->
  (forall k, (lo <= k < hi)%nat -> body k = Some (L k) /\ forall p, In p (L k) -> (fst p < alen A)%nat) ->
  exists A', acc_loop plus lo hi body A = Some A' /\ alen A' = alen A /\
    (forall phi, additive phi -> forall i, phi (aat A' i) = phi (aat A i) + rsum (fun k => added phi (L k) i) (seq lo (hi - lo))) /\
    (forall i, (forall k p, (lo <= k < hi)%nat -> In p (L k) -> fst p <> i) -> aat A' i = aat A i).
Proof.
  intros Hlh H. unfold acc_loop.
  match goal with |- context [frange lo hi ?bb ?ss] =>
    destruct (frange_inv _ (fun j (B : arr T) => alen B = alen A /\
     (forall phi, additive phi -> forall i, phi (aat B i) = phi (aat A i) + rsum (fun k => added phi (L k) i) (seq lo (j - lo))) /\
     (forall i, (forall k p, (lo <= k < hi)%nat -> In p (L k) -> fst p <> i) -> aat B i = aat A i)) lo hi bb ss Hlh) as (A' & E & L' & P & Q) end.
  - split; auto. split; auto. intros phi _ i. rewrite Nat.sub_diag. cbn. lra.
  - intros j B Hj (LB & P & Q). destruct (H j Hj) as (Eb & Hp). rewrite Eb. cbn [bind].
    destruct (add_all_ok (L j) B) as (B' & E & LB' & P' & Q'). { intros p Hin. rewrite LB. auto. }
    exists B'. split; [exact E|]. split; [lia|]. split.
    + intros phi Hphi i. rewrite P', P by auto. replace (j + 1 - lo)%nat with (S (j - lo)) by lia. rewrite seq_S, rsum_app. cbn [rsum]. replace (lo + (j - lo))%nat with j by lia. lra.
    + intros i Hi. rewrite Q'. apply Q; auto. intros p Hin. apply (Hi j p); auto.
  - exists A'. auto.
Qed.
End Acc.

Lemma seq_split3 a b c : seq 0 (a + b + c) = seq 0 a ++ seq a b ++ seq (a + b) c.
Proof. rewrite !seq_app, <- app_assoc. reflexivity. Qed.

Lemma rsum_split3 (f : nat -> R) a b c : rsum f (seq 0 (a + b + c)) = rsum f (seq 0 a) + (rsum f (seq a b) + rsum f (seq (a + b) c)).
Proof. rewrite seq_split3, !rsum_app. reflexivity. Qed.

(** [S] is the discretisation set up on a valid mesh with the given connectivity ghost centres. *)
Definition built (m : umesh) (hs : list (nat * nat)) (X : arr v2) (ghost : nat -> v2) (S : smesh) : Prop :=
  tiled m hs /\ (forall c, In c (cells m) -> (length c = 3 \/ length c = 4)%nat) /\ alen X = npoin m /\
  exists j0 jf je jt jm ja jc jb, setup m X ghost j0 jf je jt jm ja jc jb = Some (Val S).

Lemma built_ok m hs X ghost S : built m hs X ghost S -> exists p e ni s il,
  topo m hs p e ni s il /\ sm_ok S /\
  sm_ne S = nelem m /\ sm_nb S = nbface m /\ sm_ni S = ni /\ sm_nc S = nconnface m /\ sm_F S = intfac s /\ sm_X S = X /\
  (forall i, (i < nelem m)%nat -> aat (sm_A S) i = polygon_area (map (aat X) (cell (cells m) i))) /\
  (forall i, (i < nelem m)%nat -> let c := cell (cells m) i in
      aat (sm_rc S) i = mkv (vx (vsum (aat X) c) / INR (length c)) (vy (vsum (aat X) c) / INR (length c))) /\
  (forall k, (k < nconnface m)%nat -> aat (sm_rc S) (nelem m + k)%nat = ghost k) /\
  (forall i, (i < nelem m)%nat -> aat (sm_nf S) i = length (cell (cells m) i)) /\
  (forall i f, (i < nelem m)%nat -> (f < length (cell (cells m) i))%nat -> good m (alen (intfac s)) s i f) /\
  sm_EF S = elemface s /\ sm_ES S = esuel s /\ sm_bt S = btags s.
Proof.
  intros (T & H34 & LX & j0 & jf & je & jt & jm & ja & jc & jb & E).
  destruct (setup_ok m hs X ghost j0 jf je jt jm ja jc jb T H34 LX) as (p & e & ni & s & il & S' & _ & TO & E' & Q).
  rewrite E in E'. inversion E'; subst S'. exists p, e, ni, s, il. split; auto.
Qed.

Lemma built_sm m hs X ghost S : built m hs X ghost S -> sm_ok S.
Proof. intros B. destruct (built_ok _ _ _ _ _ B) as (p & e & ni & s & il & _ & H & _). exact H. Qed.

Definition distinct_pts (m : umesh) (X : arr v2) : Prop :=
  forall i f, (i < nelem m)%nat -> (f < length (cell (cells m) i))%nat ->
    aat X (fst (edge (cell (cells m) i) f)) <> aat X (snd (edge (cell (cells m) i) f)).

Lemma built_closed m hs X ghost S : built m hs X ghost S -> distinct_pts m X -> cells_closed S.
Proof.
  intros B D. pose proof B as (T & _). destruct (built_ok _ _ _ _ _ B) as (p & e & ni & s & il & TO & OK & E1 & E2 & E3 & E4 & E5 & E6 & _).
  intros i Hi. rewrite E1 in Hi. pose proof (so_F _ OK) as LF. rewrite <- LF. 
  pose proof (to_ranges _ _ _ _ _ _ _ TO) as HR. rewrite E5 in *.
  apply (closed m hs X (intfac s) il (sm_M S) i T HR Hi D).
  intros k Hk. pose proof (so_met _ OK k) as Q. rewrite E5, E6 in Q. apply Q. lia.
Qed.

(** the points of every face are distinct *)
Lemma built_distinct m hs X ghost S : built m hs X ghost S -> distinct_pts m X -> forall k, (k < sm_nf_all S)%nat ->
  aat (sm_X S) (f_a (aat (sm_F S) k)) <> aat (sm_X S) (f_b (aat (sm_F S) k)).
Proof.
  intros B D k Hk. pose proof B as (T & _). destruct (built_ok _ _ _ _ _ B) as (p & e & ni & s & il & TO & OK & E1 & E2 & E3 & E4 & E5 & E6 & _).
  pose proof (so_F _ OK) as LF. rewrite E5, E6 in *. pose proof (to_ranges _ _ _ _ _ _ _ TO) as HR.
  destruct (face_points m hs _ il T HR (aat (intfac s) k)) as (i & f & Hi & Hf & Ei & Ee).
  { unfold alist. apply in_map. apply in_seq. lia. }
  specialize (D i f Hi Hf). rewrite <- Ee in D. exact D.
Qed.
