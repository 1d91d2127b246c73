(** A decision procedure for [tiled], used only to show that concrete example meshes meet the hypotheses. *)
From Coq Require Import List Arith Lia ZArith Bool.
From Verif Require Import Base M_Mesh S_Mesh Pf_Esuel Pf_Host Pf_Topo Pf_Incid.
Import ListNotations.
Open Scope nat_scope.

Definition eqe (e e' : nat * nat) : bool := (fst e =? fst e') && (snd e =? snd e').
Definition sameb (e e' : nat * nat) : bool := eqe e e' || eqe e (snd e', fst e').
Lemma eqe_ok e e' : eqe e e' = true <-> e = e'.
Proof. destruct e, e'. unfold eqe. cbn. rewrite andb_true_iff, !Nat.eqb_eq. split. intros (-> & ->); auto. intros H; inversion H; auto. Qed.
Lemma sameb_ok e e' : sameb e e' = true <-> same_edge e e'.
Proof. unfold sameb, same_edge. rewrite orb_true_iff, !eqe_ok. reflexivity. Qed.
Definition below (n : nat) (p : nat -> bool) : bool := forallb p (seq 0 n).
Definition some (n : nat) (p : nat -> bool) : bool := existsb p (seq 0 n).
Lemma below_ok n p : below n p = true <-> forall i, i < n -> p i = true.
Proof. unfold below. rewrite forallb_forall. split; intros H i Hi. apply H, in_seq; lia. apply in_seq in Hi. apply H; lia. Qed.
Lemma some_ok n p : some n p = true <-> exists i, i < n /\ p i = true.
Proof. unfold some. rewrite existsb_exists. split; intros (i & Hi & H); exists i; [apply in_seq in Hi|]; split; auto; try lia. apply in_seq; lia. Qed.
Definition acrossb (cs : list (list nat)) (i f j : nat) : bool :=
  (i <? length cs) && (f <? length (cell cs i)) && (j <? length cs) && negb (j =? i) &&
  some (length (cell cs j)) (fun h => sameb (edge (cell cs i) f) (edge (cell cs j) h)).
Lemma acrossb_ok cs i f j : acrossb cs i f j = true <-> across cs i f j.
Proof.
  unfold acrossb, across. rewrite !andb_true_iff, !Nat.ltb_lt, negb_true_iff, Nat.eqb_neq, some_ok. setoid_rewrite sameb_ok. tauto.
Qed.
Fixpoint nodupb (l : list nat) : bool := match l with [] => true | x :: r => negb (existsb (Nat.eqb x) r) && nodupb r end.
Lemma nodupb_ok l : nodupb l = true -> NoDup l.
Proof.
  induction l as [|x l IH]; cbn; intros H; constructor; apply andb_true_iff in H; destruct H as (H1 & H2); auto.
  intros Hx. apply negb_true_iff in H1. assert (existsb (Nat.eqb x) l = true) by (apply existsb_exists; exists x; split; auto; apply Nat.eqb_refl). congruence.
Qed.
Fixpoint nodupe (l : list (nat * nat)) : bool := match l with [] => true | x :: r => negb (existsb (eqe x) r) && nodupe r end.
Lemma nodupe_ok l : nodupe l = true -> NoDup l.
Proof.
  induction l as [|x l IH]; cbn; intros H; constructor; apply andb_true_iff in H; destruct H as (H1 & H2); auto.
  intros Hx. apply negb_true_iff in H1. assert (existsb (eqe x) l = true) by (apply existsb_exists; exists x; split; auto; apply eqe_ok; auto). congruence.
Qed.
Definition memb (x : nat) (l : list nat) : bool := existsb (Nat.eqb x) l.
Lemma memb_ok x l : memb x l = true <-> In x l.
Proof. unfold memb. rewrite existsb_exists. split. intros (y & H & E). apply Nat.eqb_eq in E. subst; auto. intros H. exists x. split; auto. apply Nat.eqb_refl. Qed.

Definition validb (m : umesh) : bool :=
  forallb (fun c => (3 <=? length c) && nodupb c && forallb (fun v => v <? npoin m) c && (length c <=? maxnfael m)) (cells m).
Definition confb (cs : list (list nat)) : bool :=
  below (length cs) (fun i => below (length (cell cs i)) (fun f => below (length cs) (fun j => below (length cs) (fun k =>
    negb (acrossb cs i f j && acrossb cs i f k) || (j =? k))))).
Definition orientb (cs : list (list nat)) : bool :=
  below (length cs) (fun i => below (length (cell cs i)) (fun f => below (length cs) (fun j => below (length (cell cs j)) (fun h =>
    (i =? j) || negb (sameb (edge (cell cs i) f) (edge (cell cs j) h)) || eqe (edge (cell cs j) h) (snd (edge (cell cs i) f), fst (edge (cell cs i) f)))))).
Definition hostb (m : umesh) (x : bfrec * (nat * nat)) : bool :=
  let '(bf, h) := x in let cs := cells m in
  (b0 bf <? npoin m) && (b1 bf <? npoin m) && (fst h <? length cs) && (snd h <? length (cell cs (fst h))) &&
  eqe (b0 bf, b1 bf) (edge (cell cs (fst h)) (snd h)) &&
  below (length cs) (fun j => (j =? fst h) || negb (memb (b0 bf) (cell cs j) && memb (b1 bf) (cell cs j))).
Definition ce (cf : cfrec) : nat * nat := (cf_elem cf, cf_face cf).
Definition tiledb (m : umesh) (hs : list (nat * nat)) : bool :=
  let cs := cells m in
  validb m && confb cs && orientb cs && (length hs =? nbface m) && forallb (hostb m) (combine (bfaces m) hs) &&
  nodupe (hs ++ map ce (conns m)) &&
  forallb (fun cf => (cf_elem cf <? length cs) && (cf_face cf <? length (cell cs (cf_elem cf))) && below (length cs) (fun j => negb (acrossb cs (cf_elem cf) (cf_face cf) j))) (conns m) &&
  below (length cs) (fun i => below (length (cell cs i)) (fun f => some (length cs) (fun j => acrossb cs i f j) || existsb (eqe (i, f)) hs || existsb (eqe (i, f)) (map ce (conns m)))).

Lemma nth_combine A B (l1 : list A) (l2 : list B) q x y : nth_error l1 q = Some x -> nth_error l2 q = Some y -> In (x, y) (combine l1 l2).
Proof. revert l2 q. induction l1 as [|a l1 IH]; intros [|b l2] [|q] H1 H2; cbn in *; try discriminate. left; congruence. right. eauto. Qed.

Lemma tiledb_ok m hs : tiledb m hs = true -> tiled m hs.
Proof.
  unfold tiledb. cbv zeta. rewrite !andb_true_iff. intros (((((((H1 & H2) & H3) & H4) & H5) & H6) & H7) & H8).
  apply Nat.eqb_eq in H4. unfold validb in H1. rewrite forallb_forall in H1, H5, H7.
  assert (HB : forall k bf h, nth_error (bfaces m) k = Some bf -> nth_error hs k = Some h -> hostb m (bf, h) = true) by (intros; apply H5; eapply nth_combine; eauto).
  split.
  - split.
    + intros c Hc. specialize (H1 c Hc). rewrite !andb_true_iff, !Nat.leb_le, forallb_forall in H1. destruct H1 as (((A & B) & C) & D). split; auto. split. apply nodupb_ok; auto. intros v Hv. apply Nat.ltb_lt. auto.
    + intros i f j j' A B. assert (A' := A). destruct A' as (A1 & A2 & A3 & _). assert (B' := B). destruct B' as (_ & _ & B3 & _).
      unfold confb in H2. rewrite below_ok in H2. specialize (H2 i A1). rewrite below_ok in H2. specialize (H2 f A2). rewrite below_ok in H2. specialize (H2 j A3). rewrite below_ok in H2. specialize (H2 j' B3).
      apply acrossb_ok in A, B. rewrite A, B in H2. cbn in H2. apply Nat.eqb_eq; auto.
    + intros c Hc. specialize (H1 c Hc). rewrite !andb_true_iff, !Nat.leb_le in H1. tauto.
    + split; auto. intros k bf h Eb Eh. specialize (HB k bf h Eb Eh). unfold hostb in HB. rewrite !andb_true_iff, !Nat.ltb_lt, eqe_ok, below_ok in HB.
      destruct HB as (((((A & B) & C) & D) & E) & F). split; auto. split; auto. split; auto. split; auto. split. left; auto.
      intros j (J1 & J2 & J3). specialize (F j J1). apply memb_ok in J2, J3. rewrite J2, J3 in F. cbn in F. rewrite orb_false_r in F. apply Nat.eqb_eq; auto.
    + intros cf Hcf. specialize (H7 cf Hcf). rewrite !andb_true_iff, !Nat.ltb_lt in H7. tauto.
  - intros i f j h Hi Hj Hne Hf Hh S. unfold orientb in H3. rewrite below_ok in H3. specialize (H3 i Hi). rewrite below_ok in H3. specialize (H3 f Hf). rewrite below_ok in H3. specialize (H3 j Hj). rewrite below_ok in H3. specialize (H3 h Hh).
    apply sameb_ok in S. rewrite S in H3. apply Nat.eqb_neq in Hne. rewrite Hne in H3. cbn in H3. apply eqe_ok. auto.
  - intros k bf h Eb Eh. specialize (HB k bf h Eb Eh). unfold hostb in HB. rewrite !andb_true_iff, eqe_ok in HB. tauto.
  - apply nodupe_ok in H6. exact H6.
  - intros cf j Hcf A. specialize (H7 cf Hcf). rewrite !andb_true_iff, below_ok in H7. destruct H7 as (_ & H7). assert (Hj : j < length (cells m)) by apply A. specialize (H7 j Hj). apply acrossb_ok in A. rewrite A in H7. discriminate.
  - intros i f Hi Hf. rewrite below_ok in H8. specialize (H8 i Hi). rewrite below_ok in H8. specialize (H8 f Hf). rewrite !orb_true_iff, some_ok, !existsb_exists in H8.
    destruct H8 as [[(j & _ & A)|(x & X1 & X2)]|(x & X1 & X2)].
    + left. exists j. apply acrossb_ok; auto.
    + apply eqe_ok in X2. subst. auto.
    + apply eqe_ok in X2. subst. right; right. apply in_map_iff in X1. destruct X1 as (cf & E & Hcf). exists cf. auto.
Qed.
