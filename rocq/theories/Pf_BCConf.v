(** Proofs about naming, parsing and creating boundary conditions *)
From Coq Require Import Reals List String ZArith Bool Lia Arith.
From Verif Require Import BaseR M_Gas M_BC M_BCConf.
Import ListNotations.

Lemma bctype_eqb_spec a b : reflect (a = b) (bctype_eqb a b).
Proof. destruct a, b; cbn; constructor; congruence. Qed.

Lemma name_of_type t : exists s, left_find bcTypeMap t = Some s /\ right_at bcTypeMap s = Some t.
Proof. destruct t; eexists; split; vm_compute; reflexivity. Qed.

Lemma type_of_name s t : right_at bcTypeMap s = Some t -> left_find bcTypeMap t = Some s.
Proof.
  unfold right_at. set (m := bcTypeMap). vm_compute in m. unfold m. cbn [find snd fst].
  repeat match goal with |- context [String.eqb ?a s] => destruct (String.eqb_spec a s) as [<-|] end;
    intros [= <-]; vm_compute; reflexivity.
Qed.

(** ** Parsing *)
Lemma parse_some fuel : forall t i l, parse_loop fuel t i = POk l ->
  (forall k, (k < List.length l)%nat -> exists s, get_sec t (i + k) = Some s /\ parse_sec s = nth_error l k) /\
  get_sec t (i + List.length l) = None.
Proof.
  induction fuel as [|f IH]; intros t i l; cbn [parse_loop]; [discriminate|].
  destruct (get_sec t i) as [s|] eqn:E.
  - destruct (parse_sec s) as [c|] eqn:P; [|discriminate].
    destruct (parse_loop f t (S i)) as [l'| |] eqn:L; try discriminate. intros [= <-].
    destruct (IH t (S i) l' L) as [A B]. cbn [List.length]. split.
    + intros [|k] Hk.
      * rewrite Nat.add_0_r. exists s. cbn. auto.
      * replace (i + S k)%nat with (S i + k)%nat by lia. cbn [nth_error]. apply A. lia.
    + replace (i + S (List.length l'))%nat with (S i + List.length l')%nat by lia. exact B.
  - intros [= <-]. cbn. rewrite Nat.add_0_r. split; [intros; lia|exact E].
Qed.

Lemma get_sec_in t i s : get_sec t i = Some s -> In i (map fst t).
Proof.
  induction t as [|[j u] r IH]; cbn; [discriminate|]. destruct (Nat.eqb_spec j i); [auto|]. intros H; right; auto.
Qed.

Lemma parse_fuel_gen fuel : forall t i, parse_loop fuel t i = PFuel -> forall k, (k < fuel)%nat -> exists s, get_sec t (i + k) = Some s.
Proof.
  induction fuel as [|f IH]; intros t i H k Hk; [lia|]. cbn [parse_loop] in H.
  destruct (get_sec t i) as [s|] eqn:E; [|discriminate]. destruct (parse_sec s); [|discriminate].
  destruct (parse_loop f t (S i)) eqn:L; try discriminate.
  destruct k as [|k]; [rewrite Nat.add_0_r; eauto|]. replace (i + S k)%nat with (S i + k)%nat by lia. apply (IH t (S i) L). lia.
Qed.

Lemma parse_fuel t : parse_BC_options t <> PFuel.
Proof.
  unfold parse_BC_options. intros H.
  assert (A : incl (seq 0 (S (List.length t))) (map fst t)).
  { intros k Hk. apply in_seq in Hk. destruct (parse_fuel_gen _ _ _ H k ltac:(lia)) as [s E]. cbn in E. eapply get_sec_in; eauto. }
  assert (B := NoDup_incl_length (seq_NoDup (S (List.length t)) 0) A). rewrite seq_length, map_length in B. lia.
Qed.

(** ** Creation *)
Lemma mfind_mset m k b j : mfind (mset m k b) j = if Z.eqb k j then Some b else mfind m j.
Proof.
  induction m as [|[i c] r IH]; cbn [mset mfind]; [destruct (Z.eqb k j); reflexivity|].
  destruct (Z.eqb_spec i k) as [->|]; cbn [mfind].
  - destruct (Z.eqb k j); reflexivity.
  - rewrite IH. destruct (Z.eqb_spec i j), (Z.eqb_spec k j); congruence.
Qed.

Lemma create_periodic uinf conf : forall m, (exists c, In c conf /\ fb_type c = PERIODIC_BC) ->
  forall r, create_loop uinf conf m <> COk r.
Proof.
  induction conf as [|c r IH]; intros m (x & Hx & Tx) q; [destruct Hx|]. cbn [create_loop].
  destruct Hx as [->|Hx].
  - unfold create_flowBC; cbn [bc_type]. rewrite Tx. discriminate.
  - destruct (create_flowBC _ _); try discriminate. apply IH. eauto.
Qed.

(** the last entry with a given marker *)
Definition last_with (k : Z) (conf : list fbcconf) : option fbcconf := find (fun c => Z.eqb (fb_tag c) k) (rev conf).

Lemma find_app {A} (f : A -> bool) a b : find f (a ++ b) = match find f a with Some x => Some x | None => find f b end.
Proof. induction a as [|x a IH]; cbn; [reflexivity|]. destruct (f x); auto. Qed.

Lemma create_lookup uinf conf : forall m r, create_loop uinf conf m = COk r -> forall k,
  match last_with k conf with
  | Some c => exists b, create_flowBC uinf (mkbcconf (fb_tag c) (fb_type c) (fb_vals c)) = BcOk b /\ mfind r k = Some b
  | None => mfind r k = mfind m k
  end.
Proof.
  unfold last_with. induction conf as [|c q IH]; intros m r H k; cbn [create_loop] in H.
  - injection H as <-. reflexivity.
  - destruct (create_flowBC uinf _) as [b| |] eqn:E; try discriminate. specialize (IH _ _ H k).
    cbn [rev]. rewrite find_app. destruct (find _ (rev q)) as [x|] eqn:F; [exact IH|].
    rewrite mfind_mset in IH. cbn [find]. destruct (Z.eqb (fb_tag c) k); [eauto|exact IH].
Qed.

Definition enough_vals (c : fbcconf) : Prop :=
  match fb_type c with
  | ADIABATIC_WALL_BC => (1 <= List.length (fb_vals c))%nat
  | ISOTHERMAL_WALL_BC | SUBSONIC_INFLOW_BC => (2 <= List.length (fb_vals c))%nat
  | _ => True
  end.

Lemma create_ok uinf conf : forall m, (forall c, In c conf -> fb_type c <> PERIODIC_BC /\ enough_vals c) ->
  exists r, create_loop uinf conf m = COk r.
Proof.
  induction conf as [|c q IH]; intros m H; cbn [create_loop]; [eauto|].
  destruct (H c (or_introl eq_refl)) as [A B]. unfold enough_vals in B.
  unfold create_flowBC. cbn [bc_type bc_vals].
  destruct (fb_type c); try congruence; try (apply IH; intros; apply H; right; auto).
  all: destruct (fb_vals c) as [|v1 [|v2 l]]; cbn in B; try lia; apply IH; intros; apply H; right; auto.
Qed.

Lemma create_ub_or_throw uinf conf m : (exists c, In c conf /\ (fb_type c = PERIODIC_BC \/ ~ enough_vals c)) ->
  forall r, create_loop uinf conf m <> COk r.
Proof.
  revert m. induction conf as [|c q IH]; intros m (x & Hx & Tx) r; [destruct Hx|]. cbn [create_loop].
  destruct Hx as [->|Hx].
  - unfold create_flowBC, enough_vals in *; cbn [bc_type bc_vals].
    destruct (fb_type x); destruct Tx as [Tx|Tx]; try congruence; try tauto;
      destruct (fb_vals x) as [|v1 [|v2 l]]; cbn in Tx; try discriminate; exfalso; apply Tx; lia.
  - destruct (create_flowBC _ _); try discriminate. apply IH. eauto.
Qed.

Lemma nth_error_ext_local {A} (a b : list A) : (forall k, nth_error a k = nth_error b k) -> a = b.
Proof.
  revert b. induction a as [|x a IH]; intros [|y b] H; auto.
  - specialize (H 0%nat); discriminate.
  - specialize (H 0%nat); discriminate.
  - pose proof (H 0%nat) as H0. cbn in H0. injection H0 as <-. f_equal. apply IH. intros k. exact (H (S k)).
Qed.

Lemma parse_no_throw fuel : forall t i k, get_sec t (i + k) = None ->
  (forall j, (j < k)%nat -> exists s, get_sec t (i + j) = Some s /\ parse_sec s <> None) -> parse_loop fuel t i <> PThrow.
Proof.
  induction fuel as [|f IH]; intros t i k Hk H; cbn [parse_loop]; [discriminate|].
  destruct k as [|k]; [rewrite Nat.add_0_r in Hk; rewrite Hk; discriminate|].
  destruct (H 0%nat ltac:(lia)) as (s & S1 & S2). rewrite Nat.add_0_r in S1. rewrite S1.
  destruct (parse_sec s); [|congruence].
  assert (K := IH t (S i) k ltac:(replace (S i + k)%nat with (i + S k)%nat by lia; exact Hk)
    ltac:(intros j Hj; replace (S i + j)%nat with (i + S j)%nat by lia; apply H; lia)).
  destruct (parse_loop f t (S i)); congruence.
Qed.
