(** Model of an implicit run on several MPI ranks: aodesolver.cpp 301-329 (addPseudoTimeTerm) and 364-638 (SteadyBackwardEulerSolver::solve) as
    the ranks execute them together, within a case (casesolvers.cpp 225-386).

    Simplifications: those of M_Dist.v, M_Ode.v and M_Case.v. The one distributed matrix is a function of global block rows and columns.
    KSPSolve is an arbitrary function of the step number and of the system it is given: the matrix, and by block number the right-hand side,
    the time terms and the state (the last two for a matrix-free operator). That its result does not depend on how the blocks are distributed
    over the ranks is an assumption of this model: it is so for a linear solver run to convergence or with a preconditioner that does
    not depend on the distribution, not for block Jacobi or additive Schwarz with one block per rank. *)
From Coq Require Import Reals List String Arith ZArith Bool.
From Verif Require Import Base BaseR BaseSum M_Gas M_Flux M_Visc M_BC M_BCConf M_Mesh M_Geom M_Part M_Space M_Grad M_Recon M_Resid M_Ode M_Ctl M_Case M_Start M_Dist.
Import ListNotations.
Open Scope nat_scope.

(** the linear solver: solution by block number, and its number of iterations *)
Definition lsolver := nat -> bmat -> (nat -> R) -> (nat -> st) -> (nat -> st) -> (nat -> st) * nat.
(** a vector of one process, by block number *)
Definition blocks {T} (d : T) (n : nat) (a : arr T) (b : nat) : T := if b <? n then aat a b else d.
(** the same solver on one process, in the form M_Ode.v uses *)
Definition one_ksp (n : nat) (ls : lsolver) (k : nat) (M : bmat) (dtm : arr R) (u r : arr st) : arr st * nat :=
  let x := ls k M (blocks 0%R n dtm) (blocks szero n u) (blocks szero n r) in (mkarr n (fst x), snd x).
(** what assemble_jacobian (aspatial.cpp 242-340) leaves in the zeroed matrix on one process; a null flux is undefined behaviour *)
Definition jac_flow (sp : spatial) : option flow := f <- sp_flux sp ;; _ <- sp_jac sp ;; Some (sp_flow sp f).
Definition one_jac (S : smesh) (sp : spatial) (u : arr st) : option (exc bmat) :=
  fl <- jac_flow sp ;; A <- assemble_jacobian S fl u (fun i => i) None (fun _ _ => mat0) ;; Some (Val A).

Section Imp.
Context (nr : nat) (lm : nat -> lmesh) (S : nat -> smesh).
(** a distributed vector by block number (only own entries), and the first block of a rank (VecGetOwnershipRange) *)
Definition gather {T} (d : T) (x : nat -> arr T) (b : nat) : T := match slot (fun a => nelem (l_m (lm a))) nr b with Some (q, l) => aat (x q) l | None => d end.
Definition first (r : nat) : nat := list_sum (map (fun a => nelem (l_m (lm a))) (seq 0 r)).

(** aodesolver.cpp 452 on all ranks, after MatZeroEntries; as [assemble_ranks] of M_Dist.v *)
Definition ranks_jac (sp : nat -> spatial) (u : nat -> arr st) : option bmat :=
  floop nr (fun r A => fl <- jac_flow (sp r) ;; assemble_jacobian (S r) fl (u r) (arow nr (lm r)) (acol nr (lm r)) A) (fun _ _ => mat0).
(** 301-329 on all ranks: each turns its time steps into Vol/(CFL dt) and adds them to its rows of the one matrix. Rows are given by
    gglobalElemIndex whatever the number of ranks. *)
Definition ranks_pseudo_time (cfl : nat -> R) (dtm : nat -> arr R) (M : bmat) : option ((nat -> arr R) * bmat) :=
  floop nr (fun r s => x <- add_pseudo_time (sm_ne (S r)) (sm_A (S r)) (aat (l_eglob (lm r))) (cfl r) (dtm r) (snd s) ;;
    Some (fun q => if q =? r then fst x else fst s q, snd x)) (dtm, M).

Context (second : bool) (sp : nat -> spatial) (wk : nat -> work) (c : sconf) (ls : lsolver) (relax : st -> st -> R).
(** one pass of the loop 416-565 by all ranks *)
Definition imp_body (x : nat -> mon) : option (nat -> mon) :=
  let u := fun r => m_u (x r) in
  let cfl := fun r => let s := x r in expResidualRamp (cflinit c) (cflfin c) (m_cfl s) (m_old s / m_resi s)%R 0.25 0.3 in
  out <- ranks_residual nr lm S second sp wk u ;;
  rv <- reverse nr lm S (fun r => with_ghosts S r (ro_res (out r))) ;;
  J <- ranks_jac sp u ;;
  d <- all_of (mkarr 0 (fun _ => 0%R)) nr (fun r => ro_dt (out r)) ;;
  '(dtm, M) <- ranks_pseudo_time cfl d J ;;
  let x1 := ls (m_step (x 0)) M (gather 0%R dtm) (gather szero u) (gather szero rv) in
  u1 <- all_of (mkarr 0 (fun _ => szero)) nr (fun r => be_update (sm_ne (S r)) relax (u r) (mkarr (sm_ne (S r)) (fun l => fst x1 (first r + l)))) ;;
  u2 <- forward nr lm S u1 ;;
  let resi := sqrt (rsum (fun r => local_energy S r (rv r)) (seq 0 nr)) in
  Some (fun r =>
    let s := x r in
    let init := if m_step s =? 0 then resi else m_init s in
    mkmon (u2 r) (m_step s + 1) resi (m_resi s) init (cfl r) (m_lin s + snd x1) (m_log s ++ [mklog (m_step s + 1) resi init (cfl r)])).
(** the loop; ranks that go on wait in the next exchange for those that do not *)
Fixpoint imp_loop (fuel : nat) (x : nat -> mon) : option (nat -> mon) :=
  match fuel with
  | 0 => Some x
  | Datatypes.S k =>
      if forallb (fun r => steady_cont c (x r)) (seq 0 nr) then y <- imp_body x ;; imp_loop k y
      else if forallb (fun r => negb (steady_cont c (x r))) (seq 0 nr) then Some x else None
  end.
(** 364-638 on every rank; without a step line 573 is undefined behaviour *)
Definition imp_solve (lognres : bool) (u : nat -> arr st) : option (nat -> sout (arr st) logline) :=
  if (maxiter c <=? 0)%Z then Some (fun r => mkso (u r) (Some (inl 0%Z)) 0 (mktd false 0 []))
  else x <- imp_loop (Z.to_nat (maxiter c)) (fun r => mkmon (u r) 0 1%R 1%R 1%R 0%R 0 []) ;;
    Some (fun r => let s := x r in let h := if lognres then m_log s else [] in
      if m_step s =? 0 then mkso (m_u s) None 3 (mktd false 0 [])
      else if (Z.of_nat (m_step s) <? maxiter c)%Z && rel_le (m_resi s) (m_init s) (tol c) then mkso (m_u s) (Some (inl 0%Z)) 0 (mktd true (m_step s) h)
      else mkso (m_u s) (Some (inr (if (maxiter c <=? Z.of_nat (m_step s))%Z then Tolerance_error else Numerical_error))) 3 (mktd false (m_step s) h)).
End Imp.
(** casesolvers.cpp 225-386: the starter, if there is one, then the main solve. A starter that ends with anything but a code or
    Tolerance_error ends the program ([None]). [up]: the update scheme; the gas of the scheme is that of the discretization (afactory.cpp 284-294). *)
Definition passes (r : sout (arr st) logline) : bool := match so_end r with Some (inl z) => (z =? 0)%Z | Some (inr Tolerance_error) => true | _ => false end.
Definition imp_run (nr : nat) (lm : nat -> lmesh) (S : nat -> smesh) (o : fpopts) (ls : lsolver) (up : option nluk) (spm sps : nat -> spatial) (wk : bool -> nat -> work) (u : nat -> arr st)
    : option (nat -> sout (arr st) logline) :=
  let relax := relax_of (sp_gas (spm 0)) up in
  u1 <- (if (o_starter o =? 0)%Z then Some u
         else x <- imp_solve nr lm S false sps (wk false) (start_conf o) ls relax (o_lognres o) u ;;
              if forallb (fun r => passes (x r)) (seq 0 nr) then Some (fun r => so_u (x r)) else None) ;;
  imp_solve nr lm S (o_order2 o) spm (wk true) (main_conf o) ls relax (o_lognres o) u1.
