(** Model of the case driver: utilities/casesolvers.cpp 71-428 (FlowCase, SteadyFlowCase) and of main() in src/fvens_steady.cpp 15-57.

    Exceptions are those of M_Ode.v: Tolerance_error, Numerical_error (of which Tolerance_error is a subclass, aerrorhandling.hpp 18-31) and anything else.
    PETSc calls other than those inside the solvers succeed; the writers of files succeed (exportSurfaceData's exceptions are caught in the code anyway);
    BLASTed is left out (USE_BLASTED not defined), as are timings and what is printed. The heap is the list of live objects. *)
From Coq Require Import Reals List String ZArith Bool Arith.
From Verif Require Import Base BaseR BaseSum M_Gas M_Space M_Resid M_Ode M_Ctl.
Import ListNotations.
Open Scope nat_scope.
Open Scope string_scope.

(** objects on the heap: spatial discretizations, matrices (assembled and matrix-free), KSP, ODE solvers, update schemes, vectors of the solvers *)
Inductive obj := OProb | OStartProb | OMat | OMfMat | OKsp | OTime | ONlu | OVec.
Definition obj_eq (a b : obj) : {a = b} + {a <> b}. Proof. decide equality. Defined.
(** what reaches files: residual history (its lines), timing, surface data, VTU, volume data *)
Inductive file (L U : Type) := FHistory (lines : list L) | FTiming | FSurface (u : U) | FVtu (u : U) | FVolume (u : U).
Arguments FHistory {L U}. Arguments FTiming {L U}. Arguments FSurface {L U}. Arguments FVtu {L U}. Arguments FVolume {L U}.

(** result of a piece of code: normal, an exception, undefined behaviour *)
Inductive res (A : Type) := Ret (a : A) | Thr (e : oerr) | UB.
Arguments Ret {A}. Arguments Thr {A}. Arguments UB {A}.

Section Case.
Context {U L F : Type}.
Record world := mkw { w_u : U; w_live : list obj; w_files : list (file L U) }.
Definition M (A : Type) := world -> res A * world.
Definition ret {A} (a : A) : M A := fun w => (Ret a, w).
Definition thr {A} (e : oerr) : M A := fun w => (Thr e, w).
Definition ub {A} : M A := fun w => (UB, w).
Definition mbind {A B} (x : M A) (k : A -> M B) : M B := fun w => match x w with (Ret a, w') => k a w' | (Thr e, w') => (Thr e, w') | (UB, w') => (UB, w') end.
Notation "x <=- e ;; k" := (mbind e (fun x => k)) (at level 100, e at next level, right associativity).
(** new; delete of an object that is not there is undefined *)
Definition new (o : obj) : M unit := fun w => (Ret tt, mkw (w_u w) (o :: w_live w) (w_files w)).
Fixpoint rm (o : obj) (l : list obj) : option (list obj) :=
  match l with [] => None | x :: r => if obj_eq x o then Some r else match rm o r with Some r' => Some (x :: r') | None => None end end.
Definition del (o : obj) : M unit := fun w => match rm o (w_live w) with Some l => (Ret tt, mkw (w_u w) l (w_files w)) | None => (UB, w) end.
Definition put (f : file L U) : M unit := fun w => (Ret tt, mkw (w_u w) (w_live w) (w_files w ++ [f])).
Definition get_u : M U := fun w => (Ret (w_u w), w).
(** catch clauses *)
Definition catch {A} (x : M A) (p : oerr -> bool) (h : M A) : M A := fun w => match x w with (Thr e, w') => if p e then h w' else (Thr e, w') | r => r end.
Definition is_tol (e : oerr) : bool := match e with Tolerance_error => true | _ => false end.
Definition is_num (e : oerr) : bool := match e with Tolerance_error | Numerical_error => true | Other_error => false end.

(** TimingData: the members used here *)
Record timing := mktd { td_conv : bool; td_steps : nat; td_hist : list L }.
(** What a call of SteadySolver::solve does: the state it leaves in u, how it ends (code or exception; [None]: undefined behaviour), the vectors it leaves
    undestroyed, and the timing data of the solver object after it. *)
Record sout := mkso { so_u : U; so_end : option (Z + oerr); so_vecs : nat; so_td : timing }.
(** [solve implicit main conf lognres update u]: the steady solvers, aodesolver.cpp; [main]: with the discretization of the main solve rather than the first-order one *)
Context (solve : bool -> bool -> sconf -> bool -> option nluk -> U -> sout).
Context (o : fpopts) (mf : bool).

Definition call_solve (implicit main : bool) (c : sconf) (up : option nluk) : M (Z * timing) := fun w =>
  let s := solve implicit main c (o_lognres o) up (w_u w) in
  let w' := mkw (so_u s) (repeat OVec (so_vecs s) ++ w_live w)%list (w_files w) in
  match so_end s with None => (UB, w') | Some (inl z) => (Ret (z, so_td s), w') | Some (inr e) => (Thr e, w') end.

(** casesolvers.cpp 166-202 setupImplicitSolver, setupKSP *)
Definition setupImplicitSolver : M unit := _ <=- new OMat ;; _ <=- (if mf then new OMfMat else ret tt) ;; new OKsp.
(** casesolvers.hpp 133-141 LinearProblemLHS::destroy *)
Definition isol_destroy : M unit := _ <=- del OKsp ;; _ <=- del OMat ;; if mf then del OMfMat else ret tt.
Definition implicit : bool := String.eqb (o_ptype o) "IMPLICIT".
(** SteadySolverConfig of the two solves, 247-251 and 325-329 *)
Definition start_conf : sconf := mksconf (o_fcfl0 o) (o_fcfl1 o) (o_ftol o) (o_fmaxit o).
Definition main_conf : sconf := mksconf (o_cfl0 o) (o_cfl1 o) (o_tol o) (o_maxit o).
(** afactory.cpp 284-294 with the constructor of FlowSimpleUpdate: [None] throws *)
Definition make_nlu : M (option nluk) :=
  if implicit then match create_nonlinearUpdate o with
                   | None => thr Other_error
                   | Some (NRobust m) => match FlowSimpleUpdate_ctor m with Exn => thr Other_error | Val _ => _ <=- new ONlu ;; ret (Some (NRobust m)) end
                   | Some NFull => _ <=- new ONlu ;; ret (Some NFull) end
  else ret None.
(** delete of a pointer that may be null *)
Definition del_if (b : bool) (x : obj) : M unit := if b then del x else ret tt.
(** 225-314; the returned code *)
Definition execute_starter : M Z :=
  _ <=- new OStartProb ;; _ <=- setupImplicitSolver ;; up <=- make_nlu ;;
  _ <=- (if Z.eqb (o_starter o) 0 then ret tt else new OTime) ;;
  code <=- (if Z.eqb (o_starter o) 0 then ret 0%Z
            else catch (r <=- call_solve implicit false start_conf up ;; ret (fst r)) is_tol (ret 0%Z)) ;;
  if negb (Z.eqb code 0) then ret code    (* CHKERRQ *)
  else _ <=- del_if (negb (Z.eqb (o_starter o) 0)) OTime ;; _ <=- del_if implicit ONlu ;; _ <=- isol_destroy ;; _ <=- del OStartProb ;; ret 0%Z.
(** 316-386. In the catch clause the timing data are those of the solver object. *)
Definition execute_main : M timing :=
  _ <=- setupImplicitSolver ;; up <=- make_nlu ;; _ <=- new OTime ;;
  fun w =>
    let s := solve implicit true main_conf (o_lognres o) up (w_u w) in
    match call_solve implicit true main_conf up w with
    | (Thr e, w') => if is_num e then (_ <=- del OTime ;; ret (mktd false (td_steps (so_td s)) (td_hist (so_td s)))) w' else (Thr e, w')
    | (UB, w') => (UB, w')
    | (Ret (code, td), w') => if negb (Z.eqb code 0) then (Thr Other_error, w')
        else (_ <=- del OTime ;; _ <=- del_if implicit ONlu ;; _ <=- isol_destroy ;; ret td) w'
    end.
(** 388-428. td.convhis[istp], a std::vector, for istp < td.num_timesteps. *)
Definition execute (outhist : bool) (rank : nat) : M Z :=
  code <=- execute_starter ;;
  if negb (Z.eqb code 0) then thr Other_error
  else td <=- execute_main ;;
    if negb (td_conv td) then thr Tolerance_error
    else if outhist && Nat.eqb rank 0 then
      if (td_steps td <=? List.length (td_hist td))%nat then _ <=- put (FHistory (firstn (td_steps td) (td_hist td))) ;; _ <=- put FTiming ;; ret 0%Z
      else ub
    else ret 0%Z.
(** 75-84 run. prob is not deleted if execute throws or returns a code. *)
Definition run (rank : nat) : M Z :=
  _ <=- new OProb ;; code <=- execute false rank ;; if negb (Z.eqb code 0) then ret code else _ <=- del OProb ;; ret 0%Z.
(** 86-164 run_output. [fnl u wall]: entropy of the whole field and the functionals on the boundary with marker [wall]. *)
Context (fnl : U -> Z -> F).
Definition write_files (surf vtu : bool) (size : nat) (u : U) : M unit :=
  if Nat.eqb size 1 then
    _ <=- (if surf then put (FSurface u) else ret tt) ;; _ <=- (if vtu then put (FVtu u) else ret tt) ;;
    (if String.eqb (o_volreq o) "YES" then put (FVolume u) else ret tt)
  else ret tt.
Definition finish (surf vtu : bool) (size : nat) : M F :=
  u <=- get_u ;; _ <=- write_files surf vtu size u ;;
  match o_lwalls o with
  | [] => ub
  | wall :: _ => _ <=- del OProb ;; ret (fnl u wall)
  end.
Definition run_output (surf vtu : bool) (rank size : nat) : M F :=
  _ <=- new OProb ;;
  code <=- catch (execute (o_lognres o) rank) is_tol (ret 0%Z) ;;
  if negb (Z.eqb code 0) then thr Other_error else finish surf vtu size.
(** fvens_steady.cpp 35-57, after reading the options: the exit status. The initial state is in the world. *)
Definition steady_main (rank size : nat) : M Z := _ <=- run_output true true rank size ;; ret 0%Z.
End Case.
Arguments world : clear implicits. Arguments timing : clear implicits. Arguments sout : clear implicits.

(** The steady solvers of M_Ode.v as [solve]. [at_throw]: the state left when a solver throws in the middle of a step, about which nothing is known.
    Timing data start with converged = false (aodesolver.cpp 69-73); history lines are kept only if lognres is set (240-241, 546-549). (after an exception inside the loop those data are taken as empty; nothing uses them). Vectors: lines 149-150
    and 378-380; they are destroyed on normal return only, and not created for maxiter <= 0. *)
Section Ode.
Context (n : nat) (A : arr R) (Rf : bool -> arr st -> option (exc rout)) (glob : nat -> nat) (Jf : bool -> arr st -> option (exc bmat))
        (ksp : nat -> bmat -> arr R -> arr st -> arr st -> arr st * nat) (G : gas) (at_throw : arr st -> arr st).
Definition relax_of (k : option nluk) (du u : st) : R := match k with Some (NRobust m) => FlowSimpleUpdate_factor G m du u | _ => FullUpdate_factor du u end.
Definition loop_of (implicit main : bool) (c : sconf) (up : option nluk) (u : arr st) : option stp :=
  if implicit then steady_loop c (steady_body n A c (Rf main) 0.25 0.3 (be_upd n A glob (Jf main) ksp (relax_of up))) (Z.to_nat (maxiter c)) (mkmon u 0 1 1 1 0 0 [])
  else steady_loop c (steady_body n A c (Rf main) 0.3 0.25 (fe_upd n A c)) (Z.to_nat (maxiter c)) (mkmon u 0 1 1 1 (cflinit c) 0 []).
Definition ode_solve (implicit main : bool) (c : sconf) (lognres : bool) (up : option nluk) (u : arr st) : sout (arr st) logline :=
  let r := if implicit then be_solve n A c (Rf main) glob (Jf main) ksp (relax_of up) u false else fe_solve n A c (Rf main) u false in
  let left := match loop_of implicit main c up u with Some (SNext s) => s | _ => mkmon (at_throw u) 0 1 1 1 0 0 [] end in
  let hist s := if lognres then m_log s else [] in
  let vecs := if (maxiter c <=? 0)%Z then 0 else if implicit then 3 else 2 in
  match r with
  | None => mkso (at_throw u) None vecs (mktd false 0 [])
  | Some (SReturn s conv) => mkso (m_u s) (Some (inl 0%Z)) 0 (mktd conv (m_step s) (hist s))
  | Some (SThrow e) => mkso (m_u left) (Some (inr e)) vecs (mktd false (m_step left) (hist left))
  end.
End Ode.
