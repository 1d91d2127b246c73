(** C107: which preconditioner getPC finds. C108: in which steps the AMG interpolation is computed anew. *)
From Coq Require Import List String Bool ZArith Arith Lia.
From Verif Require Import Base M_Solver.
Import ListNotations.

(** ** Specification *)
(** the solvers directly inside a preconditioner *)
Definition inside (p : pct) : list pct := match p with Plain _ _ => [] | Blocks _ _ l => l | Levels _ _ c l => c :: l | Inner _ q => [q] end.
(** [q] is [p] or inside it, below no preconditioner of type [ty] *)
Inductive reached (ty : string) : pct -> pct -> Prop :=
| r_here p : reached ty p p
| r_in p q r : type_of p <> ty -> In q (inside p) -> reached ty q r -> reached ty p r.
Definition has (ty : string) (p : pct) : Prop := exists q, reached ty p q /\ type_of q = ty.
(** one subdomain on this process wherever the search passes block preconditioners *)
Definition single (ty : string) (p : pct) : Prop := forall q, reached ty p q -> type_of q <> ty -> match q with Blocks _ _ l => List.length l = 1 | _ => True end.
(** the first occurrence in the order in which solvers are nested and levels are numbered: solvers inside are looked at one after the other, and the first in which the type occurs counts *)
Inductive first_occ (ty : string) : pct -> pct -> Prop :=
| f_here p : type_of p = ty -> first_occ ty p p
| f_in p l1 q l2 r : type_of p <> ty -> inside p = l1 ++ q :: l2 -> (forall x, In x l1 -> ~ has ty x) -> first_occ ty q r -> first_occ ty p r.
(** the occurrence on the coarse level, otherwise on the finest level that has one *)
Inductive finest_occ (ty : string) : pct -> pct -> Prop :=
| n_here p : type_of p = ty -> finest_occ ty p p
| n_in p q r : type_of p <> ty -> inside p = [q] -> finest_occ ty q r -> finest_occ ty p r
| n_coarse i g c l r : type_of (Levels i g c l) <> ty -> finest_occ ty c r -> finest_occ ty (Levels i g c l) r
| n_finer i g c l1 q l2 r : type_of (Levels i g c (l1 ++ q :: l2)) <> ty -> ~ has ty c -> (forall x, In x l2 -> ~ has ty x) -> finest_occ ty q r -> finest_occ ty (Levels i g c (l1 ++ q :: l2)) r.
(** no multigrid with the type on two levels other than the coarse one, unless the coarse one has it *)
Definition one_level (ty : string) (p : pct) : Prop := forall q, reached ty p q ->
  match q with Levels _ _ c l => has ty c \/ (forall l1 x l2, l = l1 ++ x :: l2 -> has ty x -> forall y, In y l1 -> ~ has ty y) | _ => True end.

(** ** Proofs *)
Fixpoint tree_ind (Q : pct -> Prop) (HP : forall i t, Q (Plain i t)) (HB : forall i a l, Forall Q l -> Q (Blocks i a l)) (HL : forall i g c l, Q c -> Forall Q l -> Q (Levels i g c l)) (HI : forall i q, Q q -> Q (Inner i q)) (p : pct) : Q p :=
  let all := fix all (l : list pct) : Forall Q l := match l with [] => Forall_nil Q | x :: r => Forall_cons x (tree_ind Q HP HB HL HI x) (all r) end in
  match p with Plain i t => HP i t | Blocks i a l => HB i a l (all l) | Levels i g c l => HL i g c l (tree_ind Q HP HB HL HI c) (all l) | Inner i q => HI i q (tree_ind Q HP HB HL HI q) end.
Fixpoint go (ty : string) (l : list pct) (g : option nat) : exc (option nat) := match l with [] => Val g | q :: r => match getPC ty q g with Exn => Exn | Val h => go ty r h end end.
Lemma getPC_eq ty p f : getPC ty p f = if String.eqb (type_of p) ty then Val (Some (pid p)) else
  match p with Plain _ _ => Val f | Blocks _ _ l => match l with [q] => getPC ty q f | _ => Exn end
  | Levels _ _ c l => match getPC ty c f with Exn => Exn | Val g => match go ty l g with Exn => Exn | Val h => getPC ty c h end end | Inner _ q => getPC ty q f end.
Proof.
  destruct p as [| |i g c l|]; try reflexivity. cbn [getPC]. destruct (String.eqb _ ty); [reflexivity|]. destruct (getPC ty c f) as [x|]; [|reflexivity].
  match goal with |- match ?F l x with _ => _ end = _ => assert (H : forall l x, F l x = go ty l x) end.
  { clear. induction l as [|q r IH]; intros x; cbn [go]; [reflexivity|]. destruct (getPC ty q x); [apply IH|reflexivity]. }
  rewrite H. reflexivity.
Qed.
Lemma has_in ty p q : type_of p <> ty -> In q (inside p) -> has ty q -> has ty p.
Proof. intros N I (r & R & T). exists r. split; [|exact T]. eapply r_in; eauto. Qed.
Lemma single_in ty p q : single ty p -> type_of p <> ty -> In q (inside p) -> single ty q.
Proof. intros H N I r R. apply H. eapply r_in; eauto. Qed.
Lemma none_in ty p q : ~ has ty p -> type_of p <> ty -> In q (inside p) -> ~ has ty q.
Proof. intros H N I Q. apply H. eapply has_in; eauto. Qed.
Lemma no_type ty p : ~ has ty p -> type_of p <> ty.
Proof. intros H E. apply H. exists p. split; [constructor|exact E]. Qed.

(** everything about one call: with single blocks there is no error; without an occurrence *pcfound is left; otherwise the finest occurrence is returned *)
Definition good (ty : string) (p : pct) : Prop := single ty p -> (~ has ty p /\ forall f, getPC ty p f = Val f) \/ (exists q, finest_occ ty p q /\ forall f, getPC ty p f = Val (Some (pid q))).
Lemma finest_has ty p q : finest_occ ty p q -> reached ty p q /\ type_of q = ty.
Proof.
  induction 1 as [p E|p q r N I H (R & T)|i g c l r N H (R & T)|i g c l1 q l2 r N C L H (R & T)]; (split; [|assumption]).
  - constructor.
  - eapply r_in; eauto. rewrite I. left. reflexivity.
  - eapply r_in; eauto. left. reflexivity.
  - eapply r_in; eauto. right. apply in_or_app. right. left. reflexivity.
Qed.
Lemma go_ok ty l : Forall (fun q => single ty q) l -> Forall (good ty) l ->
  ((forall q, In q l -> ~ has ty q) /\ forall f, go ty l f = Val f) \/ (exists l1 q l2 r, l = l1 ++ q :: l2 /\ (forall x, In x l2 -> ~ has ty x) /\ finest_occ ty q r /\ forall f, go ty l f = Val (Some (pid r))).
Proof.
  induction l as [|q l IH]; intros S G. { left. split; [intros q []|reflexivity]. }
  inversion S; inversion G; subst. destruct IH as [(N & E)|(l1 & x & l2 & r & -> & N & O & E)]; auto.
  - destruct (H5 H1) as [(Nq & Eq)|(r & O & Eq)].
    + left. split; [intros x [<-|Hx]; auto|]. intros f. cbn [go]. rewrite Eq. apply E.
    + right. exists [], q, l, r. split; [reflexivity|]. split; [exact N|]. split; [exact O|]. intros f. cbn [go]. rewrite Eq. apply E.
  - right. exists (q :: l1), x, l2, r. split; [reflexivity|]. split; [exact N|]. split; [exact O|]. intros f. cbn [go]. destruct (H5 H1) as [(_ & Eq)|(r' & _ & Eq)]; rewrite Eq; apply E.
Qed.
Lemma none_here ty p : type_of p <> ty -> (forall q, In q (inside p) -> ~ has ty q) -> ~ has ty p.
Proof. intros N H (r & R & T). inversion R; subst; [contradiction|]. apply (H q); auto. exists r. auto. Qed.
Lemma getPC_good ty p : good ty p.
Proof.
  induction p as [i t|i a l IH|i g c l IHc IH|i q IH] using tree_ind; intros S; try rewrite Forall_forall in IH.
  all: match goal with |- context [~ has ?t ?p] => destruct (string_dec (type_of p) t) as [E|N]; [right; exists p; split; [constructor; exact E|intros f; rewrite getPC_eq; apply String.eqb_eq in E; rewrite E; reflexivity]|] end.
  all: assert (NE := N); apply String.eqb_neq in NE.
  - left. split; [apply none_here; [exact N|intros q []]|]. intros f. rewrite getPC_eq, NE. reflexivity.
  - pose proof (S _ (r_here _ _) N) as L. cbn in L. destruct l as [|q [|x l]]; try discriminate. assert (Sq : single ty q) by (apply (single_in _ _ _ S N); left; reflexivity).
    destruct (IH q (or_introl eq_refl) Sq) as [(Nq & Eq)|(r & O & Eq)].
    + left. split; [apply none_here; [exact N|intros x [<-|[]]; exact Nq]|]. intros f. rewrite getPC_eq, NE. apply Eq.
    + right. exists r. split; [eapply n_in; eauto; reflexivity|]. intros f. rewrite getPC_eq, NE. apply Eq.
  - assert (Sc : single ty c) by (apply (single_in _ _ _ S N); left; reflexivity).
    destruct (go_ok ty l) as [(Nl & El)|(l1 & q & l2 & r & -> & N2 & O & El)].
    { apply Forall_forall. intros q Hq. apply (single_in _ _ _ S N). right. exact Hq. } { apply Forall_forall. exact IH. }
    + destruct (IHc Sc) as [(Nq & Eq)|(r & O & Eq)].
      * left. split; [apply none_here; [exact N|intros x [<-|Hx]; auto]|]. intros f. rewrite getPC_eq, NE, Eq, El, Eq. reflexivity.
      * right. exists r. split; [apply n_coarse; auto|]. intros f. rewrite getPC_eq, NE, Eq, El, Eq. reflexivity.
    + destruct (IHc Sc) as [(Nq & Eq)|(r' & O' & Eq)].
      * right. exists r. split; [apply n_finer; auto|]. intros f. rewrite getPC_eq, NE, Eq, El, Eq. reflexivity.
      * right. exists r'. split; [apply n_coarse; auto|]. intros f. rewrite getPC_eq, NE, Eq, El, Eq. reflexivity.
  - assert (Sq : single ty q) by (apply (single_in _ _ _ S N); left; reflexivity). destruct (IH Sq) as [(Nq & Eq)|(r & O & Eq)].
    + left. split; [apply none_here; [exact N|intros x [<-|[]]; exact Nq]|]. intros f. rewrite getPC_eq, NE. apply Eq.
    + right. exists r. split; [eapply n_in; eauto; reflexivity|]. intros f. rewrite getPC_eq, NE. apply Eq.
Qed.

(** ** Theorems: C107 *)
(** With one subdomain per process the search succeeds; it returns an occurrence, if there is one (on the coarse level, otherwise on the finest level that has one), and otherwise leaves *pcfound as it was. *)
Theorem C107_search : forall ty p, single ty p ->
  (has ty p -> exists q, reached ty p q /\ type_of q = ty /\ finest_occ ty p q /\ forall f, getPC ty p f = Val (Some (pid q))) /\ (~ has ty p -> forall f, getPC ty p f = Val f).
Proof.
  intros ty p S. destruct (getPC_good ty p S) as [(N & E)|(q & O & E)].
  - split; [contradiction|auto].
  - split; [|intros H; destruct H; destruct (finest_has _ _ _ O); exists q; auto]. intros _. exists q. destruct (finest_has _ _ _ O). auto.
Qed.
(** With another number of subdomains anywhere on the way it reports an error. *)
Lemma go_err ty l q : In q l -> (forall f, getPC ty q f = Exn) -> forall f, go ty l f = Exn.
Proof.
  induction l as [|x l IH]; intros I E f; [destruct I|]. cbn [go]. destruct I as [->|I]; [rewrite E; reflexivity|]. destruct (getPC ty x f); [|reflexivity]. apply IH; auto.
Qed.
Theorem C107_subdomains : forall ty p q i a l, reached ty p q -> q = Blocks i a l -> type_of q <> ty -> List.length l <> 1 -> forall f, getPC ty p f = Exn.
Proof.
  intros ty p q i a l R. induction R as [p|p q r N I R IH]; intros -> Nq L f; rewrite getPC_eq.
  - apply String.eqb_neq in Nq. rewrite Nq. destruct l as [|x [|y l]]; try reflexivity. cbn in L. lia.
  - apply String.eqb_neq in N. rewrite N. specialize (IH eq_refl Nq L). destruct p as [|j b m|j b c m|j x]; cbn [inside] in I; [destruct I| | |].
    + destruct m as [|x [|y m]]; try reflexivity. destruct I as [->|[]]. apply IH.
    + destruct I as [->|I]; [rewrite IH; reflexivity|]. destruct (getPC ty c f); [|reflexivity]. rewrite (go_err ty m q I IH). reflexivity.
    + destruct I as [->|[]]. apply IH.
Qed.
(** What is documented, the first occurrence, is what it returns if no two finer levels of a multigrid have it, or the coarse one has it *)
Lemma finest_first ty p q : finest_occ ty p q -> one_level ty p -> first_occ ty p q.
Proof.
  induction 1 as [p E|p q r N I H IH|i g c l r N H IH|i g c l1 q l2 r N C L H IH]; intros O.
  - constructor. exact E.
  - apply f_in with (l1 := []) (q := q) (l2 := []); try (intros x []); auto. apply IH. intros x Hx. apply O. apply r_in with q; auto. rewrite I. left. reflexivity.
  - apply f_in with (l1 := []) (q := c) (l2 := l); try (intros x []); auto. apply IH. intros x Hx. apply O. apply r_in with c; auto. left. reflexivity.
  - pose proof (O _ (r_here _ _)) as Q. cbn beta iota in Q. destruct Q as [Q|Q]; [contradiction|]. apply f_in with (l1 := c :: l1) (q := q) (l2 := l2); [exact N|reflexivity| |].
    + intros x [<-|Hx]; [exact C|]. apply (Q l1 q l2 eq_refl); [|exact Hx]. exists r. apply finest_has. exact H.
    + apply IH. intros x Hx. apply O. apply r_in with q; auto. right. apply in_or_app. right. left. reflexivity.
Qed.
Theorem C107_first_partial : forall ty p, single ty p -> one_level ty p -> has ty p -> exists q, first_occ ty p q /\ forall f, getPC ty p f = Val (Some (pid q)).
Proof. intros ty p S O H. destruct (proj1 (C107_search ty p S) H) as (q & _ & _ & F & E). exists q. split; [apply finest_first; auto|exact E]. Qed.
(** the first occurrence is one and only one, so this determines the result *)
Lemma first_has ty p q : first_occ ty p q -> has ty p.
Proof. induction 1 as [p E|p l1 q l2 r N I L H IH]; [exists p; split; [constructor|exact E]|]. eapply has_in; eauto. rewrite I. apply in_or_app. right. left. reflexivity. Qed.
Lemma split_first (B : pct -> Prop) l1 x l2 l1' x' l2' : l1 ++ x :: l2 = l1' ++ x' :: l2' -> (forall y, In y l1 -> ~ B y) -> (forall y, In y l1' -> ~ B y) -> B x -> B x' -> x = x'.
Proof.
  revert l1'. induction l1 as [|y l1 IH]; intros [|y' l1'] E H H' Bx Bx'; cbn in E; injection E; intros.
  - assumption.
  - subst. destruct (H' y' (or_introl eq_refl) Bx).
  - subst. destruct (H x' (or_introl eq_refl) Bx').
  - eapply IH; eauto; intros; [apply H|apply H']; right; assumption.
Qed.
Theorem C107_first_unique : forall ty p q q', first_occ ty p q -> first_occ ty p q' -> q = q'.
Proof.
  intros ty p q q' H. revert q'. induction H as [p E|p l1 q l2 r N I L H IH]; intros q' H'; inversion H' as [? E'|? k1 x k2 ? N' I' L' H'']; subst; try contradiction; try congruence.
  apply IH. replace q with x; [exact H''|]. rewrite I in I'. symmetry in I'. eapply split_first; eauto; eapply first_has; eauto.
Qed.
(** ... but not in general: in a multigrid with Jacobi smoothers on levels 1 and 2 it returns that of level 2. And whether the type was found cannot be seen from the call: it succeeds with *pcfound never assigned. *)
Definition three_levels : pct := Inner 10 (Levels 11 true (Plain 12 "lu") [Blocks 13 false [Plain 14 "jacobi"]; Plain 15 "jacobi"]).
Lemma three_single ty : single ty three_levels.
Proof.
  intros q R _. assert (Hq : In q [three_levels; Levels 11 true (Plain 12 "lu") [Blocks 13 false [Plain 14 "jacobi"]; Plain 15 "jacobi"]; Plain 12 "lu"; Blocks 13 false [Plain 14 "jacobi"]; Plain 14 "jacobi"; Plain 15 "jacobi"]).
  { repeat (inversion R as [|? ? ? ? I R']; subst; [cbn; auto 8|]; clear R; rename R' into R; cbn in I; repeat (destruct I as [<-|I]); try contradiction).
    all: inversion R as [|? ? ? ? I R']; subst; [cbn; auto 8|]; cbn in I; repeat (destruct I as [<-|I]); try contradiction. }
  cbn in Hq. repeat (destruct Hq as [<-|Hq]; [exact Logic.I || reflexivity|]). contradiction.
Qed.
Theorem C107_first_refuted : exists p ty q, single ty p /\ first_occ ty p q /\ forall f, exists r, getPC ty p f = Val (Some r) /\ r <> pid q.
Proof.
  exists three_levels, "jacobi"%string, (Plain 14 "jacobi"). split; [apply three_single|]. split.
  - apply f_in with (l1 := []) (q := Levels 11 true (Plain 12 "lu") [Blocks 13 false [Plain 14 "jacobi"]; Plain 15 "jacobi"]) (l2 := []); [discriminate|reflexivity|intros x []|].
    apply f_in with (l1 := [Plain 12 "lu"]) (q := Blocks 13 false [Plain 14 "jacobi"]) (l2 := [Plain 15 "jacobi"]); [discriminate|reflexivity| |].
    + intros x [<-|[]]. apply none_here; [discriminate|intros q []].
    + apply f_in with (l1 := []) (q := Plain 14 "jacobi") (l2 := []); [discriminate|reflexivity|intros x []|]. constructor. reflexivity.
  - intros f. exists 15. split; [reflexivity|discriminate].
Qed.
Theorem C107_unset : exists p ty, single ty p /\ ~ has ty p /\ getPC ty p None = Val None.
Proof.
  exists three_levels, "ilu"%string. split; [apply three_single|]. split; [|reflexivity]. intros H.
  assert (N : ~ has "ilu" three_levels); [|exact (N H)].
  apply none_here; [discriminate|]. intros ? [<-|[]]. apply none_here; [discriminate|]. intros ? [<-|[<-|[<-|[]]]]; (apply none_here; [discriminate|]); try (intros ? []; fail).
  intros ? [<-|[]]. apply none_here; [discriminate|intros ? []].
Qed.
(** a case of C107_first_partial: point-block Jacobi on the subdomain of this process *)
Example C107_example : let p := Blocks 1 true [Inner 2 (Levels 3 false (Plain 4 "jacobi") [Plain 5 "jacobi"; Plain 6 "jacobi"])] in
  single "jacobi" p /\ one_level "jacobi" p /\ has "jacobi" p /\ getPC "jacobi" p None = Val (Some 4).
Proof.
  intros p. assert (Hq : forall q, reached "jacobi" p q -> q = p \/ In q (inside p) \/ exists x, In x (inside p) /\ (In q (inside x) \/ exists y, In y (inside x) /\ In q (inside y))).
  { intros q R. inversion R as [|? x ? _ I R']; subst; [left; reflexivity|right]. inversion R' as [|? y ? _ I' R'']; subst; [left; exact I|right]. exists x. split; [exact I|]. inversion R'' as [|? z ? _ I'' R3]; subst; [left; exact I'|right]. exists y. split; [exact I'|].
    cbn in I. destruct I as [<-|[]]. cbn in I'. destruct I' as [<-|[]]. inversion R3 as [|? w ? Nz I3]; subst; [exact I''|]. exfalso. apply Nz. cbn in I''. destruct I'' as [<-|[<-|[<-|[]]]]; reflexivity. }
  assert (C : has "jacobi" (Plain 4 "jacobi")) by (eexists; split; [constructor|reflexivity]).
  split; [|split; [|split; [|reflexivity]]].
  - intros q R _. destruct (Hq q R) as [->|[I|(x & I & [I'|(y & I' & I'')])]]; [reflexivity| | |]; cbn in I; destruct I as [<-|[]]; [exact Logic.I| |]; cbn in I'; destruct I' as [<-|[]]; [exact Logic.I|]. cbn in I''. destruct I'' as [<-|[<-|[<-|[]]]]; exact Logic.I.
  - intros q R. destruct (Hq q R) as [->|[I|(x & I & [I'|(y & I' & I'')])]]; [exact Logic.I| | |]; cbn in I; destruct I as [<-|[]]; [exact Logic.I| |]; cbn in I'; destruct I' as [<-|[]]; [left; exact C|]. cbn in I''. destruct I'' as [<-|[<-|[<-|[]]]]; exact Logic.I.
  - eapply has_in with (q := Inner 2 _); [discriminate|left; reflexivity|]. eapply has_in with (q := Levels 3 _ _ _); [discriminate|left; reflexivity|]. eapply has_in with (q := Plain 4 _); [discriminate|left; reflexivity|exact C].
Qed.
(** ** Axioms *)
Print Assumptions C107_search.
Print Assumptions C107_subdomains.
Print Assumptions C107_first_partial.
Print Assumptions C107_first_unique.
Print Assumptions C107_first_refuted.
Print Assumptions C107_unset.

(** ** Theorems: C108 *)
(** In the (k+1)-th step the interpolation is reused unless k+1 is among the first three numbers given *)
Lemma calls_nth rec n : forall step k, k < n -> nth_error (amg_calls rec n step false) k = Some (negb (existsb (Z.eqb (Z.of_nat (step + k) + 1)) rec)).
Proof.
  induction n as [|n IH]; intros step k Hk; [lia|]. cbn [amg_calls]. unfold amg_step. destruct k as [|k].
  - rewrite Nat.add_0_r. destruct (existsb _ rec); reflexivity.
  - replace (step + Datatypes.S k) with (Datatypes.S step + k) by lia. destruct (existsb (Z.eqb (Z.of_nat step + 1)) rec); cbn [nth_error]; apply IH; lia.
Qed.
Lemma nth_first {T} n : forall i (l : list T), i < n -> nth_error (firstn n l) i = nth_error l i.
Proof. induction n as [|n IH]; intros i [|x l] H; try lia; [destruct i; reflexivity|]. destruct i; cbn; [reflexivity|]. apply IH. lia. Qed.
Theorem C108_schedule : forall given n k, k < n -> exists reuse, nth_error (amg_run given n) k = Some reuse /\
  (reuse = false <-> exists l i, given = Some l /\ i < 3 /\ nth_error l i = Some (Z.of_nat (k + 1))).
Proof.
  intros given n k Hk. unfold amg_run. rewrite calls_nth by exact Hk. eexists. split; [reflexivity|]. rewrite negb_false_iff, existsb_exists. cbn [Nat.add]. replace (Z.of_nat (k + 1)) with (Z.of_nat k + 1)%Z by lia. split.
  - intros (x & I & E). apply Z.eqb_eq in E. subst x. destruct given as [l|]; cbn [optional_intArray] in I; [|destruct I]. apply In_nth_error in I. destruct I as (i & E). exists l, i. split; [reflexivity|].
    assert (L : i < 3). { assert (L : i < List.length (firstn 3 l)) by (apply nth_error_Some; rewrite E; discriminate). rewrite firstn_length in L. lia. } split; [exact L|]. rewrite nth_first in E by exact L. exact E.
  - intros (l & i & -> & Hi & E). exists (Z.of_nat k + 1)%Z. split; [|apply Z.eqb_refl]. cbn [optional_intArray]. apply nth_error_In with (n := i). rewrite nth_first by exact Hi. exact E.
Qed.
(** So a fourth number is without effect *)
Theorem C108_fourth_refuted : exists l n k, k < n /\ In (Z.of_nat (k + 1)) l /\ nth_error (amg_run (Some l) n) k = Some true.
Proof. exists [1; 10; 20; 30]%Z, 30, 29. split; [lia|]. split; [cbn; auto|reflexivity]. Qed.
Print Assumptions C108_schedule.
Print Assumptions C108_fourth_refuted.
