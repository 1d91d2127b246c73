(** compute_topological as a whole, idempotence of the orientation fix, and an example mesh. *)
From Coq Require Import List Arith Lia ZArith Bool.
From Verif Require Import Base M_Mesh S_Mesh Pf_Esup Pf_Esuel Pf_Host Pf_Faces.
Import ListNotations.

(** Everything the topology theorems assume about a mesh. *)
Record good_mesh (m : umesh) (hs : list (nat * nat)) : Prop := {
  gm_valid : valid_cells (npoin m) (cells m);
  gm_conf : conforming (cells m);
  gm_max : forall c, In c (cells m) -> length c <= maxnfael m;
  gm_hosts : hosts_ok m hs;
  gm_conns : forall cf, In cf (conns m) -> cf_elem cf < nelem m /\ cf_face cf < length (cell (cells m) (cf_elem cf)) }.

Lemma topo_ok : forall m hs, good_mesh m hs -> forall j0 jf je jt, exists p e E s,
  let il := ibl (cells m) (at2 E) (ifs (cells m)) in
  elementsSurroundingPoints m = Some (p, e) /\
  elementsSurroundingElements m p e j0 = Some E /\
  compute_topological m j0 jf je jt = Some (Val (p, e, (length il, s))) /\
  esup_ok (npoin m) (cells m) p e /\ esuel_ok (nelem m) (maxnfael m) (cells m) E /\
  alen (intfac s) = nbface m + length il + nconnface m /\
  (forall q bf h, nth_error (bfaces m) q = Some bf -> nth_error hs q = Some h ->
     aat (intfac s) q = bface_entry m q bf h /\ aat (btags s) q = btg bf) /\
  (forall k, k < length il -> aat (intfac s) (nbface m + k) = nth k il (mkface 0 0 0 0)) /\
  (forall q cf, nth_error (conns m) q = Some cf -> aat (intfac s) (nbface m + length il + q) = conn_entry m q cf) /\
  (oriented (cells m) -> forall i f, i < nelem m -> f < length (cell (cells m) i) ->
     ((exists j, across (cells m) i f j) \/ In (i, f) hs \/
      (exists cf, In cf (conns m) /\ (cf_elem cf, cf_face cf) = (i, f))) ->
     good m (nbface m + length il + nconnface m) s i f).
Proof.
  intros m hs [Hv Hcf Hm Hh Hcn] j0 jf je jt.
  destruct (esup_correct m) as (p & e & E0 & Hes). { intros c v Hc Hvv. apply (Hv c Hc); auto. }
  destruct (esuel_correct m Hv Hcf Hm p e j0 Hes) as (E & E1 & HE).
  destruct (faceConnectivity_ok m Hv Hm p e Hes E HE hs Hh Hcn jf je jt) as (s & E2 & R).
  exists p, e, E, s. cbv zeta. split; [exact E0|]. split; [exact E1|]. split.
  - unfold compute_topological. rewrite E0. cbn [lift ebind fst snd]. rewrite E1. cbn [lift ebind]. rewrite E2. reflexivity.
  - split; [exact Hes|]. split; [exact HE|]. exact R.
Qed.

Lemma orientation_idem : forall m hs m', valid_cells (npoin m) (cells m) -> hosts_ok m hs ->
  correctBoundaryFaceOrientation m = Some (Val m') -> correctBoundaryFaceOrientation m' = Some (Val m').
Proof.
  intros m hs m' Hv Hh H. destruct (correct_orientation m hs Hv Hh) as (bl & E & L & I).
  rewrite E in H. inversion H; subst m'. clear H.
  set (m' := mkmesh (npoin m) (cells m) (maxnfael m) bl (conns m)).
  assert (Hh' : hosts_ok m' hs).
  { destruct Hh as (Lh & Hh). split; [cbn; unfold nbface; cbn; congruence|]. cbn [bfaces npoin cells m'].
    intros k bf h Ek Eh. assert (Hk : k < nbface m) by (rewrite <- Lh; apply nth_error_Some; congruence).
    destruct (nth_error_some _ (bfaces m) k Hk) as (bf0 & E0). rewrite (I k bf0 h E0 Eh) in Ek. inversion Ek; subst bf.
    destruct (Hh k bf0 h E0 Eh) as (B0 & B1 & Hi & Hf & Se & U). cbn [orient b0 b1].
    assert (Q : (b0 bf0, b1 bf0) = edge (cell (cells m) (fst h)) (snd h) \/ (b1 bf0, b0 bf0) = edge (cell (cells m) (fst h)) (snd h)).
    { destruct (edge (cell (cells m) (fst h)) (snd h)) as [x y]. destruct Se as [Se|Se]; cbn in Se; inversion Se; auto. }
    unfold hosted. destruct Q as [Q|Q]; rewrite <- Q; cbn [fst snd].
    - do 4 (split; [auto|]). split; [left; auto|]. auto.
    - do 4 (split; [auto|]). split; [left; auto|]. intros j (J1 & J2 & J3). apply U. split; auto. }
  destruct (correct_orientation m' hs Hv Hh') as (bl' & E' & L' & I').
  rewrite E'. cbn [npoin cells maxnfael conns m']. do 2 f_equal. unfold m'. f_equal.
  assert (L2 : nbface m' = nbface m) by (unfold nbface, m'; cbn; exact L).
  apply (nth_ext _ _ (mkbf 0 0 []) (mkbf 0 0 [])). rewrite L'. rewrite L2. auto.
  intros k Hk. rewrite L', L2 in Hk.
  destruct (nth_error_some _ (bfaces m) k Hk) as (bf0 & E0).
  destruct Hh as (Lh & _). destruct (nth_error_some _ hs k) as (h & Eh); [lia|].
  pose proof (I k bf0 h E0 Eh) as K1. pose proof (I' k _ h K1 Eh) as K2.
  rewrite (nth_error_nth _ _ _ K1), (nth_error_nth _ _ _ K2). reflexivity.
Qed.

(** ** An example: two triangles and a quadrilateral in a row, one connectivity face. *)
Definition exm : umesh := mkmesh 6 [[0;1;2]; [0;2;3]; [1;4;5;2]] 4
  [mkbf 0 1 [1%Z]; mkbf 1 4 [2%Z]; mkbf 4 5 [2%Z]; mkbf 5 2 [3%Z]; mkbf 3 2 [3%Z]] [mkcf 1 2 0 0 0].
Definition exh : list (nat * nat) := [(0,0); (2,0); (2,1); (2,2); (1,1)].

Ltac below_cases k := destruct k as [|[|[|[|k]]]]; cbn in *; try lia.

Lemma ex_across : forall i f j, across (cells exm) i f j ->
  In (i, f, j) [(0,1,2); (0,2,1); (1,0,0); (2,3,0)].
Proof.
  intros i f j (H1 & H2 & H3 & H4 & g & H5 & H6). revert H2 H5 H6. unfold same_edge, edge, cell. cbn in H1, H3.
  destruct i as [|[|[|i]]]; try lia; destruct j as [|[|[|j]]]; try lia; cbn; intros H2 H5 H6;
    destruct f as [|[|[|[|f]]]]; try lia; destruct g as [|[|[|[|g]]]]; try lia; cbn in H6;
    destruct H6 as [H6|H6]; try discriminate; tauto.
Qed.
Lemma ex_conf : conforming (cells exm).
Proof.
  intros i f j j' A B. apply ex_across in A, B. cbn in A, B.
  repeat match goal with H : _ \/ _ |- _ => destruct H | H : False |- _ => destruct H end; congruence.
Qed.
Lemma ex_valid : valid_cells (npoin exm) (cells exm).
Proof.
  intros c Hc. cbn in Hc. destruct Hc as [<-|[<-|[<-|[]]]].
  all: split; [cbn; lia|split; [repeat constructor; cbn; intuition discriminate|]].
  all: intros v Hv; cbn in Hv |- *; repeat destruct Hv as [<-|Hv]; lia.
Qed.
Lemma ex_both : forall a b j, has_both (cells exm) a b j -> j < 3 /\ In a (cell (cells exm) j) /\ In b (cell (cells exm) j).
Proof. intros a b j (H1 & H2 & H3). auto. Qed.
Lemma ex_good : good_mesh exm exh.
Proof.
  split.
  - exact ex_valid.
  - exact ex_conf.
  - intros c Hc. cbn in Hc. cbn. intuition (subst; cbn; lia).
  - split; [reflexivity|]. intros k bf h Eb Eh.
    destruct k as [|[|[|[|[|k]]]]]; cbn in Eb, Eh; try (destruct k; discriminate); inversion Eb; inversion Eh; subst; cbn [b0 b1 fst snd];
    (split; [cbn; lia|split; [cbn; lia|split; [cbn; lia|split; [cbn; lia|split; [unfold same_edge; cbn; tauto|
    intros j Hb; apply ex_both in Hb; destruct Hb as (Hj & Ha & Hb); destruct j as [|[|[|j]]]; try lia; cbn in Ha, Hb; intuition discriminate]]]]]).
  - intros cf [<-|[]]. cbn. lia.
Qed.
Lemma ex_oriented : oriented (cells exm).
Proof.
  intros i f j g H1 H3 Hij H2 H5 H6. revert H2 H5 H6. unfold same_edge, edge, cell. cbn in H1, H3.
  destruct i as [|[|[|i]]]; try lia; destruct j as [|[|[|j]]]; try lia; cbn; intros H2 H5 H6;
    destruct f as [|[|[|[|f]]]]; try lia; destruct g as [|[|[|[|g]]]]; try lia; cbn in H6 |- *;
    destruct H6 as [H6|H6]; try discriminate; auto.
Qed.
