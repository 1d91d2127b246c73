(** C96: the case driver. *)
From Coq Require Import Reals Lra List String ZArith Bool Arith Lia Permutation.
From Verif Require Import Base BaseR BaseSum M_Gas M_Space M_Resid M_Ode S_Ode Pf_Ode P_Ode P_Ode2 M_BC M_BCConf M_Ctl M_Case.
Import ListNotations.
Open Scope nat_scope.
Open Scope string_scope.

Section P.
Context {U L F : Type} (solve : bool -> bool -> sconf -> bool -> option nluk -> U -> sout U L) (o : fpopts) (mf : bool) (fnl : U -> Z -> F).
Notation world := (world U L).

(** ** Specification *)
(** implicit stepping, and the update scheme it uses *)
Definition is_implicit : Prop := o_ptype o = "IMPLICIT".
Definition nlu_ok : Prop := is_implicit -> o_nlu o = "FULL" \/ o_nlu o = "ROBUST_FLOW" /\ (0 < o_minnl o <= 1)%R.
Definition the_update : option nluk := if String.eqb (o_ptype o) "IMPLICIT" then if String.eqb (o_nlu o) "FULL" then Some NFull else Some (NRobust (o_minnl o)) else None.
(** the two solves: the first with the first-order discretization and the starter's settings *)
Definition run1 (u : U) : sout U L := solve (String.eqb (o_ptype o) "IMPLICIT") false (mksconf (o_fcfl0 o) (o_fcfl1 o) (o_ftol o) (o_fmaxit o)) (o_lognres o) the_update u.
Definition run2 (u : U) : sout U L := solve (String.eqb (o_ptype o) "IMPLICIT") true (mksconf (o_cfl0 o) (o_cfl1 o) (o_tol o) (o_maxit o)) (o_lognres o) the_update u.
(** the starter is switched off, or it returns, or it does not reach its tolerance *)
Definition starter_passes (u : U) : Prop := o_starter o = 0%Z \/ so_end (run1 u) = Some (inl 0%Z) \/ so_end (run1 u) = Some (inr Tolerance_error).
(** the state from which the main solve starts, and the vectors the starter leaves *)
Definition start_u (u : U) : U := if Z.eqb (o_starter o) 0 then u else so_u (run1 u).
Definition start_vecs (u : U) : nat := if Z.eqb (o_starter o) 0 then 0 else so_vecs (run1 u).
Definition main_run (u : U) : sout U L := run2 (start_u u).
Definition converges (u : U) : Prop := so_end (main_run u) = Some (inl 0%Z) /\ td_conv (so_td (main_run u)) = true.
(** it ends without convergence: at the step limit, by a numerical error, or by returning with converged = false *)
Definition fails (u : U) : Prop := so_end (main_run u) = Some (inr Tolerance_error) \/ so_end (main_run u) = Some (inr Numerical_error) \/
  so_end (main_run u) = Some (inl 0%Z) /\ td_conv (so_td (main_run u)) = false.
(** linear solver and update scheme *)
Definition lin_objs : list obj := (OKsp :: (if mf then [OMfMat] else []) ++ [OMat])%list.
Definition upd_objs : list obj := if String.eqb (o_ptype o) "IMPLICIT" then [ONlu] else [].
Definition vecs (k : nat) : list obj := repeat OVec k.

(** ** Evaluation *)
Lemma rm_vecs k x l l' : x <> OVec -> rm x l = Some l' -> rm x (vecs k ++ l)%list = Some (vecs k ++ l')%list.
Proof. intros N E. induction k as [|k IH]; cbn [vecs repeat app rm]; auto. destruct (obj_eq OVec x); [congruence|]. unfold vecs in IH. rewrite IH. reflexivity. Qed.
Lemma implicit_eqb : implicit o = String.eqb (o_ptype o) "IMPLICIT". Proof. reflexivity. Qed.
Lemma make_nlu_ok (w : world) : nlu_ok -> make_nlu o w = (Ret the_update, mkw (w_u w) (upd_objs ++ w_live w)%list (w_files w)).
Proof.
  unfold nlu_ok, is_implicit, make_nlu, the_update, upd_objs. rewrite implicit_eqb. destruct (String.eqb_spec (o_ptype o) "IMPLICIT") as [E|E].
  - intros H. destruct (H E) as [H1|(H1 & H2)]; unfold create_nonlinearUpdate; rewrite H1; cbn [String.eqb Ascii.eqb Bool.eqb]; [reflexivity|].
    rewrite (proj2 (P_Ode2.C75_constructor (o_minnl o)) H2). reflexivity.
  - intros _. destruct w; reflexivity.
Qed.
Lemma make_nlu_bad (w : world) : ~ nlu_ok -> make_nlu o w = (Thr Other_error, w).
Proof.
  unfold nlu_ok, is_implicit, make_nlu. rewrite implicit_eqb. destruct (String.eqb_spec (o_ptype o) "IMPLICIT") as [E|E]; [|intros H; contradiction H; intros; contradiction].
  intros H. unfold create_nonlinearUpdate. destruct (String.eqb_spec (o_nlu o) "FULL") as [N|N]; [contradiction H; auto|]. destruct (String.eqb_spec (o_nlu o) "ROBUST_FLOW") as [N'|N']; [|reflexivity].
  destruct (FlowSimpleUpdate_ctor (o_minnl o)) as [m|] eqn:C; [|reflexivity]. contradiction H. intros _. right. split; auto. apply P_Ode2.C75_constructor.
  unfold FlowSimpleUpdate_ctor in *. destruct (Rle_dec (o_minnl o) 0); [discriminate|]. destruct (Rlt_dec 1 (o_minnl o)); [discriminate|]. congruence.
Qed.
Lemma setup_eval (w : world) : setupImplicitSolver mf w = (Ret tt, mkw (w_u w) (lin_objs ++ w_live w)%list (w_files w)).
Proof. unfold setupImplicitSolver, lin_objs, mbind, new, ret. destruct mf; reflexivity. Qed.
Lemma del_eval (w : world) x l : rm x (w_live w) = Some l -> del x w = (Ret tt, mkw (w_u w) l (w_files w)).
Proof. unfold del. intros ->. reflexivity. Qed.
Lemma destroy_eval (u : U) k l (f : list (file L U)) : isol_destroy mf (mkw u (vecs k ++ lin_objs ++ l)%list f) = (Ret tt, mkw u (vecs k ++ l)%list f).
Proof.
  unfold isol_destroy, mbind, lin_objs. rewrite (del_eval _ OKsp (vecs k ++ (if mf then [OMfMat] else []) ++ OMat :: l)%list) by (apply rm_vecs; [discriminate|]; cbn; rewrite <- app_assoc; reflexivity). cbn [w_u w_live w_files].
  rewrite (del_eval _ OMat (vecs k ++ (if mf then [OMfMat] else []) ++ l)%list) by (apply rm_vecs; [discriminate|]; destruct mf; reflexivity). cbn [w_u w_live w_files].
  destruct mf; [|reflexivity]. rewrite (del_eval _ OMfMat (vecs k ++ l)%list) by (apply rm_vecs; [discriminate|reflexivity]). reflexivity.
Qed.
Lemma del_upd_eval (u : U) k l (f : list (file L U)) : del_if (implicit o) ONlu (mkw u (vecs k ++ upd_objs ++ l)%list f) = (Ret tt, mkw u (vecs k ++ l)%list f).
Proof.
  unfold del_if, upd_objs. rewrite implicit_eqb. destruct (String.eqb (o_ptype o) "IMPLICIT"); [|reflexivity]. rewrite (del_eval _ ONlu (vecs k ++ l)%list) by (apply rm_vecs; [discriminate|reflexivity]). reflexivity.
Qed.

Lemma starter_eval (w : world) : nlu_ok -> starter_passes (w_u w) ->
  execute_starter solve o mf w = (Ret 0%Z, mkw (start_u (w_u w)) (vecs (start_vecs (w_u w)) ++ w_live w)%list (w_files w)).
Proof.
  intros N S1. unfold execute_starter. unfold mbind at 1. cbn [new]. unfold mbind at 1. rewrite setup_eval. unfold mbind at 1. rewrite make_nlu_ok by auto. cbn [w_u w_live w_files].
  unfold starter_passes, start_u, start_vecs in *. destruct (Z.eqb_spec (o_starter o) 0) as [Z0|Z0].
  - unfold mbind at 1, ret at 1. unfold mbind at 1, ret at 1. cbn [Z.eqb negb del_if]. unfold mbind at 1, ret at 1.
    pose proof (del_upd_eval (w_u w) 0 (lin_objs ++ OStartProb :: w_live w)%list (w_files w)) as D1. pose proof (destroy_eval (w_u w) 0 (OStartProb :: w_live w) (w_files w)) as D2. cbn [vecs repeat app] in D1, D2.
    unfold mbind at 1. rewrite D1. unfold mbind at 1. rewrite D2. unfold mbind at 1. rewrite (del_eval _ OStartProb (w_live w)%list) by reflexivity. destruct w; reflexivity.
  - destruct S1 as [S1|S1]; [contradiction|]. unfold mbind at 1, new at 1. cbn [w_u w_live w_files].
    match goal with |- mbind ?c _ ?w1 = _ => assert (CE : c w1 = (Ret 0%Z, mkw (so_u (run1 (w_u w))) (vecs (so_vecs (run1 (w_u w))) ++ OTime :: upd_objs ++ lin_objs ++ OStartProb :: w_live w)%list (w_files w))) end.
    { unfold catch, mbind, call_solve. cbn [w_u w_live w_files]. fold (run1 (w_u w)). rewrite implicit_eqb. fold (start_conf o).
      change (solve (String.eqb (o_ptype o) "IMPLICIT") false (start_conf o) (o_lognres o) the_update (w_u w)) with (run1 (w_u w)).
      destruct S1 as [E|E]; rewrite E; reflexivity. }
    unfold mbind at 1. rewrite CE. cbn [Z.eqb negb del_if].
    unfold mbind at 1. rewrite (del_eval _ OTime (vecs (so_vecs (run1 (w_u w))) ++ upd_objs ++ lin_objs ++ OStartProb :: w_live w)%list) by (apply rm_vecs; [discriminate|reflexivity]). cbn [w_u w_live w_files].
    unfold mbind at 1. rewrite del_upd_eval. unfold mbind at 1. rewrite destroy_eval. unfold mbind at 1. rewrite (del_eval _ OStartProb (vecs (so_vecs (run1 (w_u w))) ++ w_live w)%list) by (apply rm_vecs; [discriminate|reflexivity]).
    reflexivity.
Qed.
Lemma nlu_dec : {nlu_ok} + {~ nlu_ok}.
Proof.
  unfold nlu_ok, is_implicit. destruct (string_dec (o_ptype o) "IMPLICIT") as [E|E]; [|left; intros; contradiction].
  destruct (string_dec (o_nlu o) "FULL") as [E1|E1]; [left; auto|]. destruct (string_dec (o_nlu o) "ROBUST_FLOW") as [E2|E2]; [|right; intros H; destruct (H E) as [|(? & _)]; contradiction].
  destruct (Rlt_dec 0 (o_minnl o)) as [A|A]; [destruct (Rle_dec (o_minnl o) 1) as [B|B]|]; [left; auto| |]; right; intros H; destruct (H E) as [|(_ & ? & ?)]; contradiction.
Qed.
Lemma starter_bad (w : world) : ~ nlu_ok -> fst (execute_starter solve o mf w) = Thr Other_error /\ w_files (snd (execute_starter solve o mf w)) = w_files w.
Proof.
  intros N. unfold execute_starter, mbind. cbn [new]. rewrite setup_eval, make_nlu_bad by auto. cbn. auto.
Qed.
Lemma starter_unf (w : world) : nlu_ok -> o_starter o <> 0%Z -> let s := run1 (w_u w) in let w' := mkw (so_u s) (vecs (so_vecs s) ++ OTime :: upd_objs ++ lin_objs ++ OStartProb :: w_live w)%list (w_files w) in
  match so_end s with
  | Some (inl z) => z <> 0%Z -> execute_starter solve o mf w = (Ret z, w')
  | Some (inr e) => e <> Tolerance_error -> execute_starter solve o mf w = (Thr e, w')
  | None => execute_starter solve o mf w = (UB, w') end.
Proof.
  intros N Z0 s w'. set (w1 := mkw (w_u w) (OTime :: upd_objs ++ lin_objs ++ OStartProb :: w_live w)%list (w_files w)).
  assert (H : execute_starter solve o mf w = mbind (catch (mbind (call_solve solve o (implicit o) false (start_conf o) the_update) (fun r => ret (fst r))) is_tol (ret 0%Z)) (fun code =>
     if negb (Z.eqb code 0) then ret code else mbind (del_if true OTime) (fun _ => mbind (del_if (implicit o) ONlu) (fun _ => mbind (isol_destroy mf) (fun _ => mbind (del OStartProb) (fun _ => ret 0%Z))))) w1).
  { unfold execute_starter. unfold mbind at 1. cbn [new]. unfold mbind at 1. rewrite setup_eval. unfold mbind at 1. rewrite make_nlu_ok by auto. apply Z.eqb_neq in Z0. rewrite Z0. reflexivity. }
  assert (CE : catch (mbind (call_solve solve o (implicit o) false (start_conf o) the_update) (fun r => ret (fst r))) is_tol (ret 0%Z) w1 =
     match so_end s with None => (UB, w') | Some (inl z) => (Ret z, w') | Some (inr e) => if is_tol e then (Ret 0%Z, w') else (Thr e, w') end).
  { unfold catch, mbind, call_solve, w1. cbn [w_u w_live w_files]. rewrite implicit_eqb.
    change (solve (String.eqb (o_ptype o) "IMPLICIT") false (start_conf o) (o_lognres o) the_update (w_u w)) with s. unfold w'. destruct (so_end s) as [[z|e]|]; reflexivity. }
  destruct (so_end s) as [[z|e]|]; [intros Nz|intros T|]; rewrite H; clear H; unfold mbind at 1; rewrite CE; clear CE.
  - apply Z.eqb_neq in Nz. rewrite Nz. reflexivity.
  - destruct e; try reflexivity. congruence.
  - reflexivity.
Qed.
Lemma starter_fail (w : world) : nlu_ok -> o_starter o <> 0%Z -> match so_end (run1 (w_u w)) with
  | Some (inl z) => z <> 0%Z -> fst (execute_starter solve o mf w) = Ret z
  | Some (inr e) => e <> Tolerance_error -> fst (execute_starter solve o mf w) = Thr e
  | None => fst (execute_starter solve o mf w) = UB end.
Proof.
  intros N Z0. pose proof (starter_unf w N Z0) as H. cbv zeta in H. destruct (so_end (run1 (w_u w))) as [[z|e]|]; [intros Q; rewrite (H Q); reflexivity|intros Q; rewrite (H Q); reflexivity|rewrite H; reflexivity].
Qed.
(** the main solve from a world [w] *)
Lemma main_eval (w : world) : nlu_ok -> let s := run2 (w_u w) in
  match so_end s with
  | Some (inl z) => if Z.eqb z 0 then execute_main solve o mf w = (Ret (so_td s), mkw (so_u s) (vecs (so_vecs s) ++ w_live w)%list (w_files w))
                    else fst (execute_main solve o mf w) = Thr Other_error /\ w_files (snd (execute_main solve o mf w)) = w_files w
  | Some (inr e) => if is_num e then execute_main solve o mf w = (Ret (mktd false (td_steps (so_td s)) (td_hist (so_td s))), mkw (so_u s) (vecs (so_vecs s) ++ upd_objs ++ lin_objs ++ w_live w)%list (w_files w))
                    else fst (execute_main solve o mf w) = Thr e /\ w_files (snd (execute_main solve o mf w)) = w_files w
  | None => fst (execute_main solve o mf w) = UB /\ w_files (snd (execute_main solve o mf w)) = w_files w
  end.
Proof.
  intros N s. set (w1 := mkw (w_u w) (OTime :: upd_objs ++ lin_objs ++ w_live w)%list (w_files w)).
  assert (H : execute_main solve o mf w = match call_solve solve o (implicit o) true (main_conf o) the_update w1 with
    | (Thr e, w') => if is_num e then mbind (del OTime) (fun _ => ret (mktd false (td_steps (so_td s)) (td_hist (so_td s)))) w' else (Thr e, w')
    | (UB, w') => (UB, w')
    | (Ret (code, td), w') => if negb (Z.eqb code 0) then (Thr Other_error, w')
        else mbind (del OTime) (fun _ => mbind (del_if (implicit o) ONlu) (fun _ => mbind (isol_destroy mf) (fun _ => ret td))) w'
    end).
  { unfold execute_main. unfold mbind at 1. rewrite setup_eval. unfold mbind at 1. rewrite make_nlu_ok by auto. reflexivity. }
  rewrite H. clear H. unfold call_solve. rewrite implicit_eqb. change (solve (String.eqb (o_ptype o) "IMPLICIT") true (main_conf o) (o_lognres o) the_update (w_u w1)) with s. cbn [w1 w_u w_live w_files].
  destruct (so_end s) as [[z|e]|]; [| |auto].
  - destruct (Z.eqb_spec z 0) as [->|Nz]; cbn [negb]; [|auto].
    fold (vecs (so_vecs s)). unfold mbind at 1. rewrite (del_eval _ OTime (vecs (so_vecs s) ++ upd_objs ++ lin_objs ++ w_live w)%list) by (apply rm_vecs; [discriminate|reflexivity]). cbn [w_u w_live w_files].
    unfold mbind at 1. rewrite <- implicit_eqb, del_upd_eval. unfold mbind at 1. rewrite destroy_eval. reflexivity.
  - destruct (is_num e); auto. fold (vecs (so_vecs s)). unfold mbind at 1. rewrite (del_eval _ OTime (vecs (so_vecs s) ++ upd_objs ++ lin_objs ++ w_live w)%list) by (apply rm_vecs; [discriminate|reflexivity]). reflexivity.
Qed.

(** ** Theorems *)
(** *** The starter *)
(** If the starter is off, converges or stops at its step limit, it returns normally, has destroyed everything it made except vectors of a solver that
    threw, and the main solve starts from the state it reached. All other errors leave it. *)
Theorem C96_starter : forall w : world, nlu_ok -> (starter_passes (w_u w) ->
    execute_starter solve o mf w = (Ret 0%Z, mkw (start_u (w_u w)) (vecs (start_vecs (w_u w)) ++ w_live w)%list (w_files w))) /\
  (forall e, o_starter o <> 0%Z -> so_end (run1 (w_u w)) = Some (inr e) -> e <> Tolerance_error -> fst (execute_starter solve o mf w) = Thr e).
Proof.
  intros w N. split; [apply starter_eval, N|]. intros e Z0 E T. pose proof (starter_fail w N Z0) as H. rewrite E in H. auto.
Qed.

(** *** The two solves together *)
Definition after_starter (w : world) : world := mkw (start_u (w_u w)) (vecs (start_vecs (w_u w)) ++ w_live w)%list (w_files w).
Lemma execute_start (w : world) hist rank : nlu_ok -> starter_passes (w_u w) -> execute solve o mf hist rank w =
  mbind (execute_main solve o mf) (fun td => if negb (td_conv td) then thr Tolerance_error
    else if hist && Nat.eqb rank 0 then
      if (td_steps td <=? List.length (td_hist td))%nat then mbind (put (FHistory (firstn (td_steps td) (td_hist td)))) (fun _ => mbind (put FTiming) (fun _ => ret 0%Z)) else ub
    else ret 0%Z) (after_starter w).
Proof. intros N S1. unfold execute. unfold mbind at 1. rewrite starter_eval by auto. reflexivity. Qed.
(** history lines for the steps made *)
Definition hist_ok (u : U) (hist : bool) (rank : nat) : Prop := hist = true -> rank = 0 -> td_steps (so_td (main_run u)) <= List.length (td_hist (so_td (main_run u))).
Definition hist_files (u : U) (hist : bool) (rank : nat) : list (file L U) :=
  if hist && Nat.eqb rank 0 then [FHistory (firstn (td_steps (so_td (main_run u))) (td_hist (so_td (main_run u)))); FTiming] else [].
Lemma execute_converged (w : world) hist rank : nlu_ok -> starter_passes (w_u w) -> converges (w_u w) -> hist_ok (w_u w) hist rank ->
  execute solve o mf hist rank w = (Ret 0%Z, mkw (so_u (main_run (w_u w))) (vecs (so_vecs (main_run (w_u w))) ++ vecs (start_vecs (w_u w)) ++ w_live w)%list (w_files w ++ hist_files (w_u w) hist rank)%list).
Proof.
  intros N S1 (E & C) K. rewrite execute_start by auto. pose proof (main_eval (after_starter w) N) as H. cbv zeta in H. change (run2 (w_u (after_starter w))) with (main_run (w_u w)) in H. rewrite E in H. cbn [Z.eqb] in H.
  unfold mbind at 1. rewrite H, C. cbn [negb]. unfold hist_files, hist_ok in *. cbn [after_starter w_u w_live w_files]. destruct hist; cbn [andb]; [|rewrite app_nil_r; reflexivity].
  destruct (Nat.eqb_spec rank 0) as [R0|R0]; [|rewrite app_nil_r; reflexivity]. specialize (K eq_refl R0). apply Nat.leb_le in K. rewrite K. unfold mbind, put, ret. cbn [w_u w_live w_files]. rewrite <- app_assoc. reflexivity.
Qed.
(** what is left behind when the main solve fails: the solver's objects if it threw *)
Definition failed_objs (u : U) : list obj := match so_end (main_run u) with Some (inr _) => (upd_objs ++ lin_objs)%list | _ => [] end.
Lemma execute_failed (w : world) hist rank : nlu_ok -> starter_passes (w_u w) -> fails (w_u w) ->
  execute solve o mf hist rank w = (Thr Tolerance_error, mkw (so_u (main_run (w_u w))) (vecs (so_vecs (main_run (w_u w))) ++ failed_objs (w_u w) ++ vecs (start_vecs (w_u w)) ++ w_live w)%list (w_files w)).
Proof.
  intros N S1 Fl. rewrite execute_start by auto. pose proof (main_eval (after_starter w) N) as H. cbv zeta in H. change (run2 (w_u (after_starter w))) with (main_run (w_u w)) in H.
  unfold failed_objs. destruct Fl as [E|[E|(E & C)]]; rewrite E in *; cbn [Z.eqb is_num] in H; unfold mbind; rewrite H; cbn [td_conv negb thr after_starter w_u w_live w_files]; try rewrite C; try rewrite <- app_assoc; reflexivity.
Qed.
Lemma execute_ret (w : world) hist rank w' : execute solve o mf hist rank w = (Ret 0%Z, w') -> nlu_ok /\ starter_passes (w_u w) /\ converges (w_u w).
Proof.
  intros H. destruct nlu_dec as [N|N].
    2:{ exfalso. destruct (starter_bad w N) as (B & _). unfold execute, mbind in H. destruct (execute_starter solve o mf w) as (r & w1). cbn in B. subst r. discriminate. }
    assert (S1 : starter_passes (w_u w)).
    { unfold starter_passes. destruct (Z.eq_dec (o_starter o) 0) as [Z0|Z0]; auto. pose proof (starter_fail w N Z0) as B. unfold execute, mbind in H. destruct (execute_starter solve o mf w) as (r & w1). cbn [fst] in B.
      destruct (so_end (run1 (w_u w))) as [[z|e]|]; [| |subst r; discriminate].
      - destruct (Z.eq_dec z 0) as [->|Nz]; auto. rewrite B in H by auto. apply Z.eqb_neq in Nz. rewrite Nz in H. discriminate.
      - destruct e; auto; rewrite B in H by discriminate; discriminate. }
    split; auto. split; auto. rewrite execute_start in H by auto. pose proof (main_eval (after_starter w) N) as Me. cbv zeta in Me. change (run2 (w_u (after_starter w))) with (main_run (w_u w)) in Me.
    unfold converges. destruct (so_end (main_run (w_u w))) as [[z|e]|] eqn:E.
    - destruct (Z.eqb_spec z 0) as [->|Nz].
      + split; auto. unfold mbind at 1 in H. rewrite Me in H. destruct (td_conv (so_td (main_run (w_u w)))); auto. discriminate.
      + exfalso. unfold mbind at 1 in H. destruct (execute_main solve o mf (after_starter w)) as (r & w1). cbn in Me. destruct Me as (-> & _). discriminate.
    - exfalso. unfold mbind at 1 in H. destruct (is_num e) eqn:Ie; [rewrite Me in H; discriminate|]. destruct (execute_main solve o mf (after_starter w)) as (r & w1). cbn in Me. destruct Me as (-> & _). discriminate.
    - exfalso. unfold mbind at 1 in H. destruct (execute_main solve o mf (after_starter w)) as (r & w1). cbn in Me. destruct Me as (-> & _). discriminate.
Qed.
(** [execute] returns normally exactly if the starter passes and the main solve converges; then the state is that of the main solve. *)
Theorem C96_execute : forall (w : world) hist rank, hist_ok (w_u w) hist rank -> ((exists w', execute solve o mf hist rank w = (Ret 0%Z, w')) <-> nlu_ok /\ starter_passes (w_u w) /\ converges (w_u w)) /\
  (forall w', execute solve o mf hist rank w = (Ret 0%Z, w') -> w_u w' = so_u (main_run (w_u w)) /\ w_files w' = (w_files w ++ hist_files (w_u w) hist rank)%list).
Proof.
  intros w hist rank K. split; [split; [intros (w' & H); eapply execute_ret; eauto|]|].
  - intros (N & S1 & C). eexists. apply execute_converged; auto.
  - intros w' H. destruct (execute_ret w hist rank w' H) as (N & S1 & C). rewrite execute_converged in H by auto. injection H as <-. auto.
Qed.
(** It throws Tolerance_error if the main solve ends in any of the three ways of failing. *)
Theorem C96_tolerance : forall (w : world) hist rank, nlu_ok -> starter_passes (w_u w) -> fails (w_u w) ->
  exists w', execute solve o mf hist rank w = (Thr Tolerance_error, w') /\ w_u w' = so_u (main_run (w_u w)) /\ w_files w' = w_files w.
Proof. intros w hist rank N S1 Fl. rewrite execute_failed by auto. eauto. Qed.

(** *** run_output *)
Definition out_files (u : U) (surf vtu : bool) (size : nat) : list (file L U) :=
  if Nat.eqb size 1 then ((if surf then [FSurface (so_u (main_run u))] else []) ++ (if vtu then [FVtu (so_u (main_run u))] else []) ++ (if String.eqb (o_volreq o) "YES" then [FVolume (so_u (main_run u))] else []))%list else [].
Lemma output_eval (w1 : world) u0 surf vtu size wall rest l2 : o_lwalls o = wall :: rest -> w_u w1 = so_u (main_run u0) -> rm OProb (w_live w1) = Some l2 ->
  finish o fnl surf vtu size w1 = (Ret (fnl (so_u (main_run u0)) wall), mkw (so_u (main_run u0)) l2 (w_files w1 ++ out_files u0 surf vtu size)%list).
Proof.
  intros Ew Eu El. unfold finish, write_files, out_files. rewrite Ew. unfold mbind, get_u, put, ret. rewrite Eu.
  destruct w1 as [u1 l1 f1]. cbn [w_u w_live w_files] in *. subst u1. destruct (Nat.eqb size 1).
  - destruct surf, vtu, (String.eqb (o_volreq o) "YES"); cbn [w_u w_live w_files app]; unfold del; cbn [w_u w_live w_files]; rewrite El; cbn [w_u w_live w_files]; rewrite <- ?app_assoc, ?app_nil_r; reflexivity.
  - unfold del. cbn [w_u w_live w_files]. rewrite El, app_nil_r. reflexivity.
Qed.
Lemma rm_prob k l l' : ~ In OProb l -> rm OProb (vecs k ++ l ++ OProb :: l')%list = Some (vecs k ++ l ++ l')%list.
Proof.
  intros N. apply rm_vecs; [discriminate|]. induction l as [|x l IH]; cbn [app rm]; auto. destruct (obj_eq x OProb) as [->|_]; [contradiction N; cbn; auto|]. rewrite IH; auto. intros I0. apply N. cbn. auto.
Qed.
Lemma not_in_vecs k : ~ In OProb (vecs k). Proof. intros I0. apply repeat_spec in I0. discriminate. Qed.
(** It returns the functionals of the state that the main solve leaves, whether or not that solve converged. *)
Theorem C96_run_output : forall (w : world) surf vtu rank size wall rest, nlu_ok -> starter_passes (w_u w) -> o_lwalls o = wall :: rest ->
  (converges (w_u w) -> hist_ok (w_u w) (o_lognres o) rank ->
    run_output solve o mf fnl surf vtu rank size w = (Ret (fnl (so_u (main_run (w_u w))) wall),
      mkw (so_u (main_run (w_u w))) (vecs (so_vecs (main_run (w_u w))) ++ vecs (start_vecs (w_u w)) ++ w_live w)%list ((w_files w ++ hist_files (w_u w) (o_lognres o) rank) ++ out_files (w_u w) surf vtu size)%list)) /\
  (fails (w_u w) ->
    run_output solve o mf fnl surf vtu rank size w = (Ret (fnl (so_u (main_run (w_u w))) wall),
      mkw (so_u (main_run (w_u w))) (vecs (so_vecs (main_run (w_u w))) ++ failed_objs (w_u w) ++ vecs (start_vecs (w_u w)) ++ w_live w)%list (w_files w ++ out_files (w_u w) surf vtu size)%list)).
Proof.
  intros w surf vtu rank size wall rest N S1 Ew. split.
  - intros C K. unfold run_output. unfold mbind at 1. cbn [new]. unfold mbind at 1. unfold catch. rewrite execute_converged by auto. cbn [Z.eqb negb]. erewrite output_eval; eauto.
    cbn [w_live w_u w_files]. apply rm_prob, not_in_vecs.
  - intros Fl. unfold run_output. unfold mbind at 1. cbn [new]. unfold mbind at 1. unfold catch. rewrite execute_failed by auto. cbn [is_tol ret Z.eqb negb]. erewrite output_eval; eauto.
    cbn [w_live w_u w_files]. rewrite !app_assoc. rewrite <- (app_assoc _ (failed_objs (w_u w))), <- app_assoc. rewrite rm_prob; [rewrite !app_assoc; reflexivity|].
    intros I0. apply in_app_or in I0. destruct I0 as [I0|I0]; [|exact (not_in_vecs _ I0)]. unfold failed_objs, upd_objs, lin_objs in I0.
    destruct (so_end (main_run (w_u w))) as [[|]|]; try contradiction. apply in_app_or in I0. destruct (String.eqb (o_ptype o) "IMPLICIT"), mf; cbn in I0; intuition discriminate.
Qed.
(** An empty list of wall boundaries: undefined behaviour after the whole solve (lwalls[0]). *)
Theorem C96_no_walls_refuted : forall (w : world) surf vtu rank size, nlu_ok -> starter_passes (w_u w) -> fails (w_u w) \/ converges (w_u w) /\ hist_ok (w_u w) (o_lognres o) rank -> o_lwalls o = [] ->
  fst (run_output solve o mf fnl surf vtu rank size w) = UB.
Proof.
  intros w surf vtu rank size N S1 H Ew. unfold run_output. unfold mbind at 1. cbn [new]. unfold mbind at 1. unfold catch.
  assert (G : forall w1 : world, fst (finish o fnl surf vtu size w1) = UB).
  { intros w1. unfold finish, write_files. rewrite Ew. unfold mbind, get_u, put, ret, ub. destruct (Nat.eqb size 1), surf, vtu, (String.eqb (o_volreq o) "YES"); reflexivity. }
  destruct H as [Fl|(C & K)].
  - rewrite execute_failed by auto. cbn [is_tol ret Z.eqb negb]. apply G.
  - rewrite execute_converged by auto. cbn [Z.eqb negb]. apply G.
Qed.
(** *** run: the code is zero exactly if the main solve converges; failure leaves as Tolerance_error *)
Theorem C96_run : forall (w : world) rank, nlu_ok -> starter_passes (w_u w) ->
  (converges (w_u w) -> run solve o mf rank w = (Ret 0%Z, mkw (so_u (main_run (w_u w))) (vecs (so_vecs (main_run (w_u w))) ++ vecs (start_vecs (w_u w)) ++ w_live w)%list (w_files w))) /\
  (fails (w_u w) -> run solve o mf rank w = (Thr Tolerance_error, mkw (so_u (main_run (w_u w))) (vecs (so_vecs (main_run (w_u w))) ++ failed_objs (w_u w) ++ vecs (start_vecs (w_u w)) ++ OProb :: w_live w)%list (w_files w))).
Proof.
  intros w rank N S1. split.
  - intros C. unfold run. unfold mbind at 1. cbn [new]. unfold mbind at 1. rewrite execute_converged by (auto; intros Z; discriminate). cbn [Z.eqb negb]. unfold mbind.
    erewrite del_eval by (cbn [w_live w_u]; apply rm_prob, not_in_vecs). cbn. rewrite app_nil_r. reflexivity.
  - intros Fl. unfold run. unfold mbind at 1. cbn [new]. unfold mbind at 1. rewrite execute_failed by auto. reflexivity.
Qed.
(** *** The program: its exit status is 0 whether or not the solve converged *)
Theorem C96_exit_status_refuted : forall (w : world) rank size, nlu_ok -> starter_passes (w_u w) -> o_lwalls o <> [] ->
  fails (w_u w) \/ converges (w_u w) /\ hist_ok (w_u w) (o_lognres o) rank -> fst (steady_main solve o mf fnl rank size w) = Ret 0%Z.
Proof.
  intros w rank size N S1 Ew H. destruct (o_lwalls o) as [|wall rest] eqn:El; [contradiction|]. destruct (C96_run_output w true true rank size wall rest N S1 El) as (A & B).
  unfold steady_main, mbind. destruct H as [Fl|(C & K)]; [rewrite (B Fl)|rewrite (A C K)]; reflexivity.
Qed.
End P.
Print Assumptions C96_starter.
Print Assumptions C96_execute.
Print Assumptions C96_tolerance.
Print Assumptions C96_run_output.
Print Assumptions C96_no_walls_refuted.
Print Assumptions C96_run.
Print Assumptions C96_exit_status_refuted.

(** ** With the solvers of the code *)
Section Q.
Context (n : nat) (A : arr R) (Rf : bool -> arr st -> option (exc rout)) (glob : nat -> nat) (Jf : bool -> arr st -> option (exc bmat))
        (ksp : nat -> bmat -> arr R -> arr st -> arr st -> arr st * nat) (G : gas) (at_throw : arr st -> arr st) {F : Type} (fnl : arr st -> Z -> F) (o : fpopts) (mf : bool).
Notation slv := (ode_solve n A Rf glob Jf ksp G at_throw).
Notation world := (world (arr st) logline).
Notation mrun := (main_run slv o).

(** A solve that returns has converged, unless it was not allowed any steps; the log then has a line for each step. *)
Lemma log_spec cfl0 run rs cf its N : List.length (m_log (mon_at n A cfl0 run rs cf its N)) = N /\ forall k l, nth_error (m_log (mon_at n A cfl0 run rs cf its N)) k = Some l -> lg_step l = k + 1.
Proof.
  unfold mon_at. cbn [m_log]. rewrite map_length, seq_length. split; auto. intros k l Hk. rewrite nth_error_map in Hk. destruct (nth_error (seq 0 N) k) as [i|] eqn:Q; [|discriminate]. cbn in Hk. injection Hk as <-.
  assert (k < N) by (rewrite <- (seq_length N 0); apply nth_error_Some; congruence). apply nth_error_nth with (d := 0) in Q. rewrite seq_nth in Q by auto. unfold log_at. cbn [lg_step]. lia.
Qed.
Lemma solve_returns (imp main : bool) c lg up u z : so_end (slv imp main c lg up u) = Some (inl z) -> z = 0%Z /\ so_vecs (slv imp main c lg up u) = 0 /\
  exists s conv, (if imp then be_solve n A c (Rf main) glob (Jf main) ksp (relax_of G up) u false else fe_solve n A c (Rf main) u false) = Some (SReturn s conv) /\
    slv imp main c lg up u = mkso (m_u s) (Some (inl 0%Z)) 0 (mktd conv (m_step s) (if lg then m_log s else [])) /\ (conv = true <-> (0 < maxiter c)%Z) /\
    (conv = true -> List.length (m_log s) = m_step s /\ forall k l, nth_error (m_log s) k = Some l -> lg_step l = k + 1).
Proof.
  intros E. unfold ode_solve in *. cbv zeta in *.
  destruct (if imp then _ else _) as [[s conv|e]|] eqn:Er in *; cbn [so_end] in E; try discriminate. injection E as <-. split; auto. split; [reflexivity|]. exists s, conv. do 2 (split; [reflexivity|]).
  destruct imp.
  - unfold be_solve in Er. cbv zeta in Er. destruct (Z.leb_spec (maxiter c) 0) as [Hm|Hm]; [injection Er as <- <-; split; [split; [discriminate|lia]|discriminate]|].
    destruct (steady_loop _ _ _ _) as [q|] eqn:EL; [|discriminate]. destruct (loop_result n A c (Rf main) 0.25 0.3 (be_upd n A glob (Jf main) ksp (relax_of G up)) 0 u q Hm EL) as (N & run & rs & cf & its & R0 & M & Fi & C & _ & P).
    destruct q as [s'|e]; [|discriminate]. destruct P as (_ & -> & _). destruct (_ =? 0)%nat; [discriminate|]. destruct (_ && _); [|destruct (_ <=? _)%Z; discriminate]. injection Er as <- <-. split; [split; auto|]. intros _. apply log_spec.
  - unfold fe_solve in Er. cbv zeta in Er. destruct (Z.leb_spec (maxiter c) 0) as [Hm|Hm]; [injection Er as <- <-; split; [split; [discriminate|lia]|discriminate]|].
    destruct (steady_loop _ _ _ _) as [q|] eqn:EL; [|discriminate]. destruct (loop_result n A c (Rf main) 0.3 0.25 (fe_upd n A c) (cflinit c) u q Hm EL) as (N & run & rs & cf & its & R0 & M & Fi & C & _ & P).
    destruct q as [s'|e]; [|discriminate]. destruct P as (_ & -> & _). destruct (_ =? _)%Z; [discriminate|]. injection Er as <- <-. split; [split; auto|]. intros _. apply log_spec.
Qed.
(** With residual history switched on there are enough lines. *)
Lemma hist_ok_on u rank : converges slv o u -> hist_ok slv o u (o_lognres o) rank.
Proof.
  intros (E & C) Hl _. unfold main_run, run2 in *. destruct (solve_returns _ _ _ _ _ _ _ E) as (_ & _ & s & conv & _ & Es & _ & L). rewrite Es in *. cbn [so_td td_steps td_hist td_conv] in *. subst conv. rewrite Hl. destruct (L eq_refl) as (-> & _). auto.
Qed.
(** [execute] returning normally means: the main solve made fewer steps than allowed, at least one allowed, and met the tolerance in its last evaluation
    (or, explicit only, the first residual was zero or the tolerance was 1 or more). *)
Theorem C96_converged : forall (w w' : world) rank, execute slv o mf (o_lognres o) rank w = (Ret 0%Z, w') -> let c := mksconf (o_cfl0 o) (o_cfl1 o) (o_tol o) (o_maxit o) in
  exists N run rs cf its, run 0 = start_u slv o (w_u w) /\ w_u w' = run N /\ (Z.of_nat N < o_maxit o)%Z /\
  steps n A c (Rf true) (if String.eqb (o_ptype o) "IMPLICIT" then 0.25 else 0.3)%R (if String.eqb (o_ptype o) "IMPLICIT" then 0.3 else 0.25)%R
    (if String.eqb (o_ptype o) "IMPLICIT" then be_upd n A glob (Jf true) ksp (relax_of G (the_update o)) else fe_upd n A c) (if String.eqb (o_ptype o) "IMPLICIT" then 0%R else o_cfl0 o) N run rs cf its /\
  ((exists k, N = k + 1 /\ norm_at n A rs 0 <> 0%R /\ (rel_at n A rs k <= o_tol o)%R) \/
   o_ptype o <> "IMPLICIT" /\ (N = 0 /\ (1 <= o_tol o)%R \/ N = 1 /\ norm_at n A rs 0 = 0%R)).
Proof.
  intros w w' rank H c.
  destruct (execute_ret slv o mf w _ rank w' H) as (N0 & S1 & C). pose proof (hist_ok_on (w_u w) rank C) as K. rewrite execute_converged in H by auto. injection H as <-. cbn [w_u].
  destruct C as (E & C). unfold main_run, run2 in *. destruct (solve_returns _ _ _ _ _ _ _ E) as (_ & _ & s & conv & Er & Es & Cv & _). rewrite Es in C |- *. cbn [so_td td_conv so_u] in C |- *. subst conv. fold c in Er, Cv.
  pose proof (proj1 Cv eq_refl) as Hm. destruct (String.eqb_spec (o_ptype o) "IMPLICIT") as [I0|I0].
  - destruct (C72_backward _ _ _ _ _ _ _ _ _ _ _ Hm Er) as (N & run & rs & cf & its & R0 & _ & _ & _ & D & _ & Eu & _ & M & k & Hk). exists N, run, rs, cf, its. do 4 (split; [assumption|]). left. exists k. exact Hk.
  - destruct (C72_forward _ _ _ _ _ _ _ Hm Er) as (N & run & rs & cf & its & R0 & _ & _ & _ & D & _ & Eu & _ & M & Hk). exists N, run, rs, cf, its. do 4 (split; [assumption|]). destruct Hk as [Hk|[Hk|Hk]]; auto.
Qed.
(** The history file has one line per step, numbered from 1. *)
Theorem C96_history : forall (w w' : world), o_lognres o = true -> execute slv o mf true 0 w = (Ret 0%Z, w') ->
  exists h, w_files w' = (w_files w ++ [FHistory h; FTiming])%list /\ List.length h = td_steps (so_td (mrun (w_u w))) /\ forall k l, nth_error h k = Some l -> lg_step l = k + 1.
Proof.
  intros w w' Hl H. destruct (execute_ret slv o mf w _ 0 w' H) as (N0 & S1 & C). pose proof (hist_ok_on (w_u w) 0 C) as K. rewrite Hl in K. rewrite execute_converged in H by auto. injection H as <-. cbn [w_files]. unfold hist_files. cbn [andb]. change (Nat.eqb 0 0) with true. cbv iota.
  destruct C as (E & C). unfold main_run, run2 in *. destruct (solve_returns _ _ _ _ _ _ _ E) as (_ & _ & s & conv & Er & Es & _ & L). rewrite Es in C |- *. idtac. cbn [so_td td_conv td_steps td_hist] in C |- *. subst conv. rewrite Hl.
  destruct (L eq_refl) as (L1 & L2). rewrite <- L1, firstn_all. eexists. split; [reflexivity|]. auto.
Qed.
(** Asking [execute] for the history when it was not recorded reads past the end of an empty vector. *)
Theorem C96_unrecorded_history_refuted : forall w : world, o_lognres o = false -> nlu_ok o -> starter_passes slv o (w_u w) -> converges slv o (w_u w) -> 0 < td_steps (so_td (mrun (w_u w))) ->
  fst (execute slv o mf true 0 w) = UB.
Proof.
  intros w Hl N S1 (E & C) P. rewrite execute_start by auto. pose proof (main_eval slv o mf (after_starter slv o w) N) as Me. cbv zeta in Me. change (run2 slv o (w_u (after_starter slv o w))) with (mrun (w_u w)) in Me. rewrite E in Me. cbn [Z.eqb] in Me.
  unfold mbind at 1. rewrite Me, C. cbn [negb andb Nat.eqb]. unfold main_run, run2 in *. destruct (solve_returns _ _ _ _ _ _ _ E) as (_ & _ & s & conv & Er & Es & _ & _). rewrite Es in P |- *. cbn [so_td td_steps td_hist] in P |- *. rewrite Hl.
  destruct (Nat.leb_spec (m_step s) (List.length (@nil logline))) as [Q|_]; [cbn in Q; lia|reflexivity].
Qed.
(** A case without permitted steps counts as not converged, and gives the functionals of the state it started with. *)
Theorem C96_no_steps : forall (w : world) surf vtu rank size wall rest, (o_maxit o <= 0)%Z -> nlu_ok o -> starter_passes slv o (w_u w) -> o_lwalls o = wall :: rest ->
  (forall hist, fst (execute slv o mf hist rank w) = Thr Tolerance_error) /\ fst (run_output slv o mf fnl surf vtu rank size w) = Ret (fnl (start_u slv o (w_u w)) wall).
Proof.
  intros w surf vtu rank size wall rest Hm N S1 Ew.
  assert (E : mrun (w_u w) = mkso (start_u slv o (w_u w)) (Some (inl 0%Z)) 0 (mktd false 0 [])).
  { unfold main_run, run2. generalize (start_u slv o (w_u w)) as u. intros u. unfold ode_solve, be_solve, fe_solve. cbn [maxiter]. destruct (Z.leb_spec (o_maxit o) 0); [|lia]. destruct (String.eqb (o_ptype o) "IMPLICIT"), (o_lognres o); reflexivity. }
  assert (Fl : fails slv o (w_u w)) by (unfold fails; rewrite E; cbn; auto). split.
  - intros hist. rewrite execute_failed by auto. reflexivity.
  - destruct (C96_run_output slv o mf fnl w surf vtu rank size wall rest N S1 Ew) as (_ & B). rewrite (B Fl), E. reflexivity.
Qed.
(** Nothing is left behind exactly if neither solver threw. *)
Theorem C96_leaks : forall (w w' : world) surf vtu rank size wall rest, nlu_ok o -> starter_passes slv o (w_u w) -> o_lwalls o = wall :: rest -> fails slv o (w_u w) \/ converges slv o (w_u w) ->
  run_output slv o mf fnl surf vtu rank size w = (Ret (fnl (so_u (mrun (w_u w))) wall), w') ->
  (w_live w' = w_live w <-> (forall e, so_end (mrun (w_u w)) <> Some (inr e)) /\ (o_starter o = 0%Z \/ forall e, so_end (run1 slv o (w_u w)) <> Some (inr e))) /\
  (forall e, so_end (mrun (w_u w)) = Some (inr e) -> exists l, w_live w' = (l ++ w_live w)%list /\ In OKsp l /\ In OMat l /\ In OVec l /\ (mf = true -> In OMfMat l) /\ (o_ptype o = "IMPLICIT" -> In ONlu l)).
Proof.
  intros w w' surf vtu rank size wall rest N S1 Ew Cs H.
  assert (VT : forall im mn c lg up u e, so_end (slv im mn c lg up u) = Some (inr e) -> exists k, so_vecs (slv im mn c lg up u) = S k).
  { intros im mn c lg up u e. unfold ode_solve. cbv zeta. destruct (if im then _ else _) as [[s conv|e']|] eqn:Er; cbn [so_end so_vecs]; try discriminate. intros _.
    destruct (Z.leb_spec (maxiter c) 0) as [Hm|Hm]; [|destruct im; eauto]. exfalso. destruct im; unfold be_solve, fe_solve in Er; destruct (Z.leb_spec (maxiter c) 0); try lia; discriminate. }
  assert (L : w_live w' = (vecs (so_vecs (mrun (w_u w))) ++ failed_objs slv o mf (w_u w) ++ vecs (start_vecs slv o (w_u w)) ++ w_live w)%list).
  { destruct (C96_run_output slv o mf fnl w surf vtu rank size wall rest N S1 Ew) as (Ac & B). destruct Cs as [Fl|C].
    - rewrite (B Fl) in H. injection H as <-. reflexivity.
    - rewrite (Ac C (hist_ok_on (w_u w) rank C)) in H. injection H as <-. cbn [w_live]. unfold failed_objs. destruct C as (-> & _). reflexivity. }
  clear H. split.
  - assert (LL : forall a b c, (a ++ b ++ c ++ w_live w)%list = w_live w <-> a = [] /\ b = [] /\ c = []).
    { intros a b c. split; [|intros (-> & -> & ->); reflexivity]. intros Q. apply (f_equal (@List.length obj)) in Q. rewrite !app_length in Q. destruct a, b, c; cbn in Q; try lia. auto. }
    rewrite L, LL. split.
    + intros (V1 & V2 & V3). split.
      * intros e E. unfold main_run, run2 in *. destruct (VT _ _ _ _ _ _ _ E) as (k & Vk). rewrite Vk in V1. discriminate.
      * unfold start_vecs in V3. destruct (Z.eqb_spec (o_starter o) 0) as [Z0|Z0]; auto. right. intros e E. unfold run1 in *. destruct (VT _ _ _ _ _ _ _ E) as (k & Vk). rewrite Vk in V3. discriminate.
    + intros (T1 & T2). split; [|split].
      * assert (E : so_end (mrun (w_u w)) = Some (inl 0%Z)) by (destruct Cs as [[E|[E|(E & _)]]|(E & _)]; auto; exfalso; eapply T1; eauto).
        unfold main_run, run2 in *. destruct (solve_returns _ _ _ _ _ _ _ E) as (_ & -> & _). reflexivity.
      * unfold failed_objs. destruct (so_end (mrun (w_u w))) as [[z|e]|]; auto. exfalso. eapply T1; eauto.
      * unfold start_vecs. destruct (Z.eqb_spec (o_starter o) 0) as [Z0|Z0]; auto. destruct T2 as [T2|T2]; [contradiction|]. destruct S1 as [S1|[S1|S1]]; [contradiction| |exfalso; eapply T2; eauto].
        unfold run1 in *. destruct (solve_returns _ _ _ _ _ _ _ S1) as (_ & -> & _). reflexivity.
  - intros e E. exists (vecs (so_vecs (mrun (w_u w))) ++ failed_objs slv o mf (w_u w) ++ vecs (start_vecs slv o (w_u w)))%list. split; [rewrite L, <- !app_assoc; reflexivity|].
    unfold failed_objs. rewrite E. unfold lin_objs, upd_objs. assert (Vk : exists k, so_vecs (mrun (w_u w)) = S k) by (unfold main_run, run2 in *; eapply VT; eauto). destruct Vk as (k & ->).
    split; [|split; [|split; [|split]]]; try intros Q; repeat (rewrite in_app_iff); cbn; try (destruct mf; cbn; tauto); try (rewrite Q; cbn; tauto); auto.
Qed.
End Q.
Print Assumptions C96_converged.
Print Assumptions C96_history.
Print Assumptions C96_unrecorded_history_refuted.
Print Assumptions C96_no_steps.
Print Assumptions C96_leaks.

(** ** Both outcomes occur: du/dt = -u/2 in one cell (P_Ode.v), tolerance 1/3, explicit. With 5 permitted steps [execute] returns after 3 and writes 3 history lines;
    with 3 permitted steps it throws, but the program still ends with status 0. *)
Definition ex_opts (N : Z) (wall : list Z) : fpopts := mkopts "" "" "" "EULER" "HLLC" "" "LEASTSQUARES" "NONE" "EXPLICIT" "" "" "NO" "STEADY" "" "FULL"
  1 10 (1/3) 0 0 0 0 0 XInf 0 XInf 1.4 0 0 0 0 0 N 0 0 0 0 0 0 [] 0%Z true false false false false wall [].
Definition ex_world : world (arr st) logline := mkw (halves 0) [] [].
Definition ex_ksp (n : nat) (M : bmat) (d : arr R) (r u : arr st) : arr st * nat := (u, 0).
Definition ex_slv (G : gas) := ode_solve 1 one_cell (fun _ => halving) (fun i => i) (fun _ _ => None) ex_ksp G (fun u => u).
Lemma ex_start G N l : nlu_ok (ex_opts N l) /\ starter_passes (ex_slv G) (ex_opts N l) (w_u ex_world).
Proof. split; [intros I0; discriminate I0|left; reflexivity]. Qed.
Lemma ex_conv G l : converges (ex_slv G) (ex_opts 5 l) (w_u ex_world) /\ td_steps (so_td (main_run (ex_slv G) (ex_opts 5 l) (w_u ex_world))) = 3.
Proof.
  destruct C72_ex as ((s & E & Es) & _). unfold converges, main_run, run2, start_u, ex_slv, ode_solve. cbn [o_ptype o_starter ex_opts Z.eqb String.eqb Ascii.eqb Bool.eqb].
  change (mksconf _ _ _ _) with (half_conf 5). cbn [w_u ex_world]. cbv zeta. rewrite E. cbn. auto.
Qed.
Lemma ex_fail G l : so_end (main_run (ex_slv G) (ex_opts 3 l) (w_u ex_world)) = Some (inr Tolerance_error).
Proof.
  destruct C72_ex as (_ & E & _). unfold main_run, run2, start_u, ex_slv, ode_solve. cbn [o_ptype o_starter ex_opts Z.eqb String.eqb Ascii.eqb Bool.eqb].
  change (mksconf _ _ _ _) with (half_conf 3). cbn [w_u ex_world]. cbv zeta. rewrite E. reflexivity.
Qed.
Example C96_example : forall (G : gas),
  (exists w' h, execute (ex_slv G) (ex_opts 5 [2%Z]) false true 0 ex_world = (Ret 0%Z, w') /\ w_files w' = [FHistory h; FTiming] /\ List.length h = 3 /\ w_live w' = []) /\
  fst (execute (ex_slv G) (ex_opts 3 [2%Z]) false true 0 ex_world) = Thr Tolerance_error /\
  fst (steady_main (ex_slv G) (ex_opts 3 [2%Z]) false (fun u _ => u) 0 1 ex_world) = Ret 0%Z /\
  w_live (snd (run_output (ex_slv G) (ex_opts 3 [2%Z]) false (fun u _ => u) true true 0 1 ex_world)) = [OVec; OVec; OKsp; OMat] /\
  fst (run_output (ex_slv G) (ex_opts 5 []) false (fun u _ => u) true true 0 1 ex_world) = UB.
Proof.
  intros G. destruct (ex_start G 5 [2%Z]) as (N5 & S5). destruct (ex_start G 3 [2%Z]) as (N3 & S3). destruct (ex_conv G [2%Z]) as (C5 & T5). pose proof (ex_fail G [2%Z]) as F3.
  assert (Fl : fails (ex_slv G) (ex_opts 3 [2%Z]) (w_u ex_world)) by (left; exact F3). split; [|split; [|split; [|split]]].
  - assert (Ex : exists w', execute (ex_slv G) (ex_opts 5 [2%Z]) false true 0 ex_world = (Ret 0%Z, w')) by (apply C96_execute; [apply hist_ok_on|]; auto).
    destruct Ex as (w' & Ex). destruct (C96_history 1 one_cell (fun _ => halving) (fun i => i) (fun _ _ => None) ex_ksp G (fun u => u) (ex_opts 5 [2%Z]) false ex_world w' eq_refl Ex) as (h & Ew & Lh & _). exists w', h. split; auto. split; auto. split; [rewrite Lh; exact T5|].
    rewrite execute_converged in Ex; auto; [|apply hist_ok_on; auto]. injection Ex as <-. cbn [w_live start_vecs ex_opts o_starter Z.eqb vecs repeat ex_world app].
    assert (V : so_vecs (main_run (ex_slv G) (ex_opts 5 [2%Z]) (halves 0)) = 0).
    { unfold main_run, run2, start_u, ex_slv, ode_solve. cbn [o_ptype o_starter ex_opts Z.eqb String.eqb Ascii.eqb Bool.eqb]. change (mksconf _ _ _ _) with (half_conf 5). destruct C72_ex as ((s & E & _) & _). cbv zeta. rewrite E. reflexivity. }
    cbn. unfold vecs. change (so_vecs _) with (so_vecs (main_run (ex_slv G) (ex_opts 5 [2%Z]) (halves 0))). rewrite V. reflexivity.
  - rewrite execute_failed by auto. reflexivity.
  - apply C96_exit_status_refuted; auto. discriminate.
  - destruct (C96_run_output (ex_slv G) (ex_opts 3 [2%Z]) false (fun u _ => u) ex_world true true 0 1 2%Z [] N3 S3 eq_refl) as (_ & B). rewrite (B Fl). cbn [snd w_live]. unfold failed_objs. rewrite F3.
    cbn [w_live ex_world]. assert (V : so_vecs (main_run (ex_slv G) (ex_opts 3 [2%Z]) (halves 0)) = 2).
    { unfold main_run, run2, start_u, ex_slv, ode_solve. cbn [o_ptype o_starter ex_opts Z.eqb String.eqb Ascii.eqb Bool.eqb]. change (mksconf _ _ _ _) with (half_conf 3). destruct C72_ex as (_ & E & _). cbv zeta. rewrite E. reflexivity. }
    change (so_vecs _) with (so_vecs (main_run (ex_slv G) (ex_opts 3 [2%Z]) (halves 0))). rewrite V. reflexivity.
  - destruct (ex_start G 5 []) as (N0 & S0). apply C96_no_walls_refuted; auto. right. destruct (ex_conv G []) as (C0 & _). split; auto. apply hist_ok_on. auto.
Qed.
Print Assumptions C96_example.
