(** Property C23: the Vec handlers return exactly what they borrowed. *)
From Coq Require Import List Arith Bool Lia.
From Verif Require Import Base M_Handler Pf_Handler.
Import ListNotations.

(** For every program without copies whose PETSc calls succeed: no array is returned that is not held, the results (exceptions, pointers) are those
    of the specification, and the outstanding borrows are exactly those of the handlers that are attached. *)
Theorem C23_handlers : forall fails prog s o, (forall n, fails n = false) -> shrun prog [] = Some (s, o) ->
  exists w, hrun fails prog world0 = Some (w, o) /\ (forall k, arrs w k = due k s) /\ (forall v, locs w v = due_local v s).
Proof. intros fails prog s o NF H. destruct (hrun_sim fails NF prog world0 [] s o hsim0 H) as (w & E & S). exists w. split; auto. split; apply S. Qed.
Print Assumptions C23_handlers.

(** after all handlers are restored or destroyed nothing is borrowed *)
Theorem C23_all_returned : forall fails prog s o, (forall n, fails n = false) -> shrun prog [] = Some (s, o) -> (forall p, In p s -> s_vec (snd p) = None) ->
  exists w, hrun fails prog world0 = Some (w, o) /\ (forall k, arrs w k = 0) /\ (forall v, locs w v = 0).
Proof.
  intros fails prog s o NF H D. destruct (C23_handlers fails prog s o NF H) as (w & E & A & L). exists w. split; auto. split; intros k; rewrite ?A, ?L; unfold due, due_local; clear -D.
  - induction s as [|p s IH]; cbn; auto. unfold holds_key at 1. rewrite (D p (or_introl eq_refl)). apply IH. intros; apply D; right; auto.
  - induction s as [|p s IH]; cbn; auto. unfold holds_local at 1. rewrite (D p (or_introl eq_refl)). apply IH. intros; apply D; right; auto.
Qed.
Print Assumptions C23_all_returned.

(** Setting a Vec on an attached handler throws and changes nothing, in any state. *)
Theorem C23_attached_throws : forall fails w x v h u, lookup x (hs w) = Some h -> h_vec h = Some u ->
  exists w', hstep fails (SetVec x v) w = Some (w', Threw) /\ lookup x (hs w') = Some h /\ arrs w' = arrs w /\ locs w' = locs w /\ forall y, y <> x -> lookup y (hs w') = lookup y (hs w).
Proof.
  intros fails w x v h u H Hv. cbn. rewrite H. cbn. unfold setVec. rewrite Hv. eexists; split; [reflexivity|]. cbn. unfold lookup at 1. cbn. rewrite Nat.eqb_refl. cbn. split; auto. split; auto. split; auto.
  intros y N. unfold lookup, remove_h. cbn. destruct (Nat.eqb_spec x y); [congruence|]. clear -N. f_equal. induction (hs w) as [|p l IH]; cbn; auto.
  destruct (Nat.eqb_spec (fst p) x) as [E|]; cbn; [destruct (Nat.eqb_spec (fst p) y); [congruence|auto]|]. destruct (fst p =? y); auto.
Qed.
Print Assumptions C23_attached_throws.

(** The classes can be copied, and a copy returns the array a second time. *)
Theorem C23_copy_refuted : forall fails g ro v, (forall n, fails n = false) -> hrun fails [CtorVec 0 g ro v; CopyH 1 0; Destroy 1; Destroy 0] world0 = None.
Proof.
  intros fails g ro v NF. assert (KR : forall k, key_eqb k k = true) by (intros k; destruct (key_eqb_spec k k); congruence).
  destruct g; repeat (cbv -[key_eqb upd]; rewrite ?NF, ?KR, ?upd_eq); reflexivity.
Qed.
Print Assumptions C23_copy_refuted.

(** When getting the array fails the handler nevertheless considers itself attached: its destruction returns an array it never got. *)
Theorem C23_failed_get_refuted : forall fails g ro v, fails 0 = true -> hrun fails [Ctor0 0 g ro; SetVec 0 v; Destroy 0] world0 = None.
Proof. intros fails g ro v F. destruct g; cbn; unfold setVec, get_local, get_array; cbn; rewrite F; cbn; reflexivity. Qed.
Print Assumptions C23_failed_get_refuted.
(** Ghosted handlers do so already in their constructor: the destructor of the base class returns the array of the global vector. *)
Theorem C23_failed_ghosted_ctor_refuted : forall fails ro v, fails 0 = true \/ fails 1 = true -> hrun fails [CtorVec 0 true ro v] world0 = None.
Proof.
  intros fails ro v F. cbn. unfold setVec, get_local, get_array; cbn. destruct (fails 0) eqn:F0; cbn; [reflexivity|]. destruct F as [F|F]; [discriminate|]. rewrite F. reflexivity.
Qed.
Print Assumptions C23_failed_ghosted_ctor_refuted.

Example C23_ex : shrun [CtorVec 0 true false 7; Ctor0 1 false true; SetVec 1 7; SetVec 0 8; GetArray 0; Restore 0; GetArray 0; SetVec 0 8; Destroy 0; Destroy 1] []
  = Some ([], [Done; Done; Done; Threw; Ptr (Some (mkkey 7 true false)); Done; Ptr None; Done; Done; Done]).
Proof. reflexivity. Qed.
