(** Model of src/ode/aodesolver.cpp and src/ode/nonlinearrelaxation.cpp: CFL ramps, the steady
    forward and backward Euler solvers, the TVD Runge-Kutta solver and update relaxation.

    Simplifications: reals for floats. A division by a zero initial residual is treated as IEEE
    arithmetic does ([rel_gt], [rel_le]); whether the computed residual norm is finite is a flag of
    the residual evaluation, because reals are always finite. The steady solvers are seen over
    all ranks together (the ghost updates and MPI_Allreduce make the steps of all ranks agree; the
    aliased buffers of the MPI_Allreduce at line 527 are taken to work in place), the TVDRK solver
    per rank, because it does not communicate. Timings and output are left out. *)
From Coq Require Import Reals List Arith ZArith Bool.
From Verif Require Import Base BaseR BaseSum M_Gas M_Space M_Resid.
Import ListNotations.
Open Scope R_scope.

(** ** CFL ramps *)

(** 88-108 linearRamp *)
Definition linearRamp (cstart cend : R) (itstart itend itcur : Z) : R :=
  if (itcur <? itstart)%Z then cstart
  else if (itcur <? itend)%Z then
    if (itend - itstart <=? 0)%Z then cend
    else cstart + (cend - cstart) / IZR (itend - itstart) * IZR (itcur - itstart)
  else cend.

(** std::pow on arguments [x >= 0] with positive exponent *)
Definition powr (x y : R) : R := if Rle_dec x 0 then 0 else Rpower x y.

(** 111-120 expResidualRamp *)
Definition expResidualRamp (cflmin cflmax prevcfl resratio paramup paramdown : R) : R :=
  let newcfl := if Rlt_dec 1 resratio then prevcfl * powr resratio paramup else prevcfl * powr resratio paramdown in
  if Rlt_dec newcfl cflmin then cflmin else if Rlt_dec cflmax newcfl then cflmax else newcfl.

(** ** Steady solvers *)

(** aodesolver.hpp SteadySolverConfig: the members the solvers read *)
Record sconf := mksconf { cflinit : R; cflfin : R; tol : R; maxiter : Z }.

(** What compute_residual leaves: residual, time steps, and whether the norm computed from the
    residual is finite. *)
Record rout := mkrout { rt_r : arr st; rt_dt : arr R; rt_fin : bool }.

(** A line of the convergence history (SteadyStepMonitor): step, resi, initres, curCFL. *)
Record logline := mklog { lg_step : nat; lg_resi : R; lg_init : R; lg_cfl : R }.

(** Variables of the solve loops. *)
Record mon := mkmon { m_u : arr st; m_step : nat; m_resi : R; m_old : R; m_init : R; m_cfl : R; m_lin : nat; m_log : list logline }.

(** Exceptions: Numerical_error, Tolerance_error, anything thrown below. *)
Inductive oerr := Numerical_error | Tolerance_error | Other_error.
Inductive stp := SNext (s : mon) | SErr (e : oerr).
(** Result of solve: normal return with the final variables and tdata.converged, or an exception. *)
Inductive sres := SReturn (s : mon) (converged : bool) | SThrow (e : oerr).

(** [resi/initres > tol] and [resi/initres <= tol] in IEEE arithmetic, [resi >= 0]: a quotient by
    zero is +inf, or NaN for 0/0, and comparisons with NaN are false. *)
Definition rel_gt (resi init tol : R) : bool :=
  if Req_EM_T init 0 then if Req_EM_T resi 0 then false else true else if Rlt_dec tol (resi / init) then true else false.
Definition rel_le (resi init tol : R) : bool :=
  if Req_EM_T init 0 then false else if Rle_dec (resi / init) tol then true else false.

Section Steady.
Context (n : nat) (A : arr R) (c : sconf) (Rf : arr st -> option (exc rout)).

(** 212-230, 512-529: sqrt of the sum of the squared last residual components times the areas *)
Definition res_norm (r : arr st) : R :=
  sqrt (rsum (fun i => s3 (aat r i) * s3 (aat r i) * aat A i) (seq 0 n)).

(** One pass of the loops 171-250 and 416-565. [up], [down]: exponents of the CFL ramp; [upd]: how
    this solver updates the solution with the step number, CFL, state and residual, and the linear
    iterations it needs. *)
Definition steady_body (up down : R) (upd : nat -> R -> arr st -> rout -> option (exc (arr st * nat))) (s : mon) : option stp :=
  match Rf (m_u s) with
  | None => None | Some Exn => Some (SErr Other_error)
  | Some (Val ro) =>
    let cfl := expResidualRamp (cflinit c) (cflfin c) (m_cfl s) (m_old s / m_resi s) up down in
    match upd (m_step s) cfl (m_u s) ro with
    | None => None | Some Exn => Some (SErr Other_error)
    | Some (Val (u', its)) =>
      if rt_fin ro then
        let resi := res_norm (rt_r ro) in
        let init := if (m_step s =? 0)%nat then resi else m_init s in
        Some (SNext (mkmon u' (m_step s + 1) resi (m_resi s) init cfl (m_lin s + its)
                           (m_log s ++ [mklog (m_step s + 1) resi init cfl])))
      else Some (SErr Numerical_error)
    end
  end.

(** loop conditions 171 and 416 *)
Definition steady_cont (s : mon) : bool :=
  rel_gt (m_resi s) (m_init s) (tol c) && (Z.of_nat (m_step s) <? maxiter c)%Z.

(** the while loops; [fuel] passes suffice when it is [maxiter] (Pf_Ode.steady_exit) *)
Fixpoint steady_loop (body : mon -> option stp) (fuel : nat) (s : mon) : option stp :=
  match fuel with
  | O => Some (SNext s)
  | Datatypes.S k => if steady_cont s then
      match body s with Some (SNext s') => steady_loop body k s' | r => r end else Some (SNext s)
  end.

(** ** Forward Euler *)

(** 189-206: every cell adds cflinit * dt / area * residual *)
Definition fe_update (u : arr st) (ro : rout) : option (arr st) :=
  floop n (fun i u => ui <- aget u i ;; d <- aget (rt_dt ro) i ;; a <- aget A i ;; r <- aget (rt_r ro) i ;;
    aset u i (sadd ui (sscal (cflinit c * d * 1 / a) r))) u.

Definition fe_upd (_ : nat) (_ : R) (u : arr st) (ro : rout) : option (exc (arr st * nat)) :=
  u' <- fe_update u ro ;; Some (Val (u', 0%nat)).

(** 136-282 SteadyForwardEulerSolver::solve. [conv0]: tdata.converged before the call. *)
Definition fe_solve (u : arr st) (conv0 : bool) : option sres :=
  let s0 := mkmon u 0 1 1 1 (cflinit c) 0 [] in
  if (maxiter c <=? 0)%Z then Some (SReturn s0 conv0)
  else match steady_loop (steady_body 0.3 0.25 fe_upd) (Z.to_nat (maxiter c)) s0 with
  | None => None | Some (SErr e) => Some (SThrow e)
  | Some (SNext s) => if (Z.of_nat (m_step s) =? maxiter c)%Z then Some (SThrow Tolerance_error) else Some (SReturn s true)
  end.

(** ** Backward Euler *)

Definition mdiag (d : R) : mat4 := mkm (mks d 0 0 0) (mks 0 d 0 0) (mks 0 0 d 0) (mks 0 0 0 d).

(** 301-329 addPseudoTimeTerm; [glob]: gglobalElemIndex *)
Definition add_pseudo_time (glob : nat -> nat) (cfl : R) (dtm : arr R) (M : bmat) : option (arr R * bmat) :=
  floop n (fun i s => d <- aget (fst s) i ;; a <- aget A i ;;
    dtm' <- aset (fst s) i (a / (cfl * d)) ;; d' <- aget dtm' i ;;
    Some (dtm', mat_add (snd s) (glob i) (glob i) (mdiag d'))) (dtm, M).

(** a scalar matrix of PETSc; MatSetValues(M,1,&i,1,&j,&x,ADD_VALUES) *)
Definition smat := nat -> nat -> R.
Definition smat_add (M : smat) (i j : nat) (x : R) : smat :=
  fun p q => if (p =? i)%nat && (q =? j)%nat then M p q + x else M p q.
(** 332-361 addPseudoTimeTerm_slow *)
Definition add_pseudo_time_slow (glob : nat -> nat) (cfl : R) (dtm : arr R) (M : smat) : option (arr R * smat) :=
  floop n (fun i s => d <- aget (fst s) i ;; a <- aget A i ;;
    dtm' <- aset (fst s) i (a / (cfl * d)) ;; d' <- aget dtm' i ;;
    M' <- floop 4 (fun v M => Some (smat_add M (glob i * 4 + v) (glob i * 4 + v) d')) (snd s) ;;
    Some (dtm', M')) (dtm, M).

(** 492-507: u += omega du cell by cell *)
Definition be_update (relax : st -> st -> R) (u du : arr st) : option (arr st) :=
  floop n (fun i u => ui <- aget u i ;; d <- aget du i ;; aset u i (sadd ui (sscal (relax d ui) d))) u.

(** 447-507: assembly, pseudo-time term, linear solve and update. [Jf u]: what assemble_jacobian
    puts in the zeroed matrix; [ksp k M dtm u b]: what KSPSolve returns in step [k] and its number
    of iterations (with a matrix-free operator it depends on dtm and u as well). *)
Definition be_upd (glob : nat -> nat) (Jf : arr st -> option (exc bmat)) (ksp : nat -> bmat -> arr R -> arr st -> arr st -> arr st * nat)
    (relax : st -> st -> R) (k : nat) (cfl : R) (u : arr st) (ro : rout) : option (exc (arr st * nat)) :=
  match Jf u with
  | None => None | Some Exn => Some Exn
  | Some (Val J) =>
    '(dtm, M) <- add_pseudo_time glob cfl (rt_dt ro) J ;;
    let '(du, its) := ksp k M dtm u (rt_r ro) in
    u' <- be_update relax u du ;; Some (Val (u', its))
  end.

(** 364-638 SteadyBackwardEulerSolver::solve. Line 573 converts total_lin_iters / (double) step to
    int, which is undefined behaviour for step = 0. *)
Definition be_solve (glob : nat -> nat) (Jf : arr st -> option (exc bmat)) (ksp : nat -> bmat -> arr R -> arr st -> arr st -> arr st * nat)
    (relax : st -> st -> R) (u : arr st) (conv0 : bool) : option sres :=
  let s0 := mkmon u 0 1 1 1 0 0 [] in
  if (maxiter c <=? 0)%Z then Some (SReturn s0 conv0)
  else match steady_loop (steady_body 0.25 0.3 (be_upd glob Jf ksp relax)) (Z.to_nat (maxiter c)) s0 with
  | None => None | Some (SErr e) => Some (SThrow e)
  | Some (SNext s) =>
    if (m_step s =? 0)%nat then None
    else if (Z.of_nat (m_step s) <? maxiter c)%Z && rel_le (m_resi s) (m_init s) (tol c) then Some (SReturn s true)
    else if (maxiter c <=? Z.of_nat (m_step s))%Z then Some (SThrow Tolerance_error)
    else Some (SThrow Numerical_error)
  end.
End Steady.

(** ** Update relaxation *)

(** nonlinearrelaxation.cpp 17-22: the constructor throws for factors outside (0,1] *)
Definition FlowSimpleUpdate_ctor (mf : R) : exc R :=
  if Rle_dec mf 0 then Exn else if Rlt_dec 1 mf then Exn else Val mf.

(** 24-38 getLocalRelaxationFactor; a quotient by zero is not distinguished (theorems assume
    positive density and pressure) *)
Definition FlowSimpleUpdate_factor (G : gas) (mf : R) (du u : st) : R :=
  let p := getPressureFromConserved G u in
  let dp := Rabs (getDeltaPressureFromConserved G u du) / p in
  let drho := Rabs (s0 du) / s0 u in
  let danger := Rmax dp drho in
  if Rlt_dec danger (1 - mf) then 1 - danger else mf.
(** nonlinearrelaxation.hpp FullUpdate *)
Definition FullUpdate_factor (du u : st) : R := 1.

(** ** TVD Runge-Kutta *)

(** 45-67 initialize_TVDRK_Coeffs: row and column as in the code; for other orders the matrix
    stays uninitialised *)
Definition tvdrk_coeffs (order : nat) (junk : nat -> nat -> R) (i j : nat) : R :=
  match order, i, j with
  | 1%nat, 0%nat, 0%nat => 1 | 1%nat, 0%nat, 1%nat => 0 | 1%nat, 0%nat, 2%nat => 1
  | 2%nat, 0%nat, 0%nat => 1 | 2%nat, 0%nat, 1%nat => 0 | 2%nat, 0%nat, 2%nat => 1
  | 2%nat, 1%nat, 0%nat => 0.5 | 2%nat, 1%nat, 1%nat => 0.5 | 2%nat, 1%nat, 2%nat => 0.5
  | 3%nat, 0%nat, 0%nat => 1 | 3%nat, 0%nat, 1%nat => 0 | 3%nat, 0%nat, 2%nat => 1
  | 3%nat, 1%nat, 0%nat => 0.75 | 3%nat, 1%nat, 1%nat => 0.25 | 3%nat, 1%nat, 2%nat => 0.25
  | 3%nat, 2%nat, 0%nat => 0.3333333333333333 | 3%nat, 2%nat, 1%nat => 0.6666666666666667 | 3%nat, 2%nat, 2%nat => 0.6666666666666667
  | _, _, _ => junk i j
  end.

Section TVDRK.
(** [n] own cells of this rank, areas [A]; [Rf u res]: compute_residual of this rank at the local
    array [u] (own cells, then ghost cells), adding to the local array [res] (whose ghost part is
    not cleared, 707-710), with the time steps. *)
Context (n : nat) (A : arr R) (cfl : R) (cf : nat -> nat -> R) (order : nat) (Rf : arr st -> arr st -> option (exc rout)).

(** std::min_element over dtm[0..n) for n > 0; for n = 0 the code dereferences the end iterator *)
Definition min_dt (dt : arr R) : option R :=
  match n with
  | O => None
  | Datatypes.S k => d0 <- aget dt 0 ;; frange 1 n (fun i m => d <- aget dt i ;; Some (if Rlt_dec d m then d else m)) d0
  end.

(** 707-710 *)
Definition clear_own (res : arr st) : option (arr st) := floop n (fun i r => aset r i szero) res.

(** 727-736 *)
Definition stage_update (istage : nat) (dtmin : R) (u ust res : arr st) : option (arr st) :=
  floop n (fun i ust => ui <- aget u i ;; si <- aget ust i ;; r <- aget res i ;; a <- aget A i ;;
    aset ust i (ssub (sadd (sscal (cf istage 0%nat) ui) (sscal (cf istage 1%nat) si)) (sscal (cf istage 2%nat * dtmin * cfl / a) r))) ust.

(** stage variables: ustage, rvec, dtmin *)
Record stg := mkstg { g_u : arr st; g_r : arr st; g_dt : R }.
(** 703-737: one stage; Numerical_error for a dtmin that is not finite *)
Definition tvdrk_stage (u : arr st) (istage : nat) (s : stg) : option (exc stg) :=
  match clear_own (g_r s) with
  | None => None
  | Some r0 =>
    match Rf u r0 with
    | None => None | Some Exn => Some Exn
    | Some (Val ro) =>
      dm <- (if (istage =? 0)%nat then min_dt (rt_dt ro) else Some (g_dt s)) ;;
      if rt_fin ro then
        us <- stage_update istage dm u (g_u s) (rt_r ro) ;; Some (Val (mkstg us (rt_r ro) dm))
      else Some Exn
    end
  end.

(** state between time steps: uvec, ustage, rvec, time *)
Record tv := mktv { t_u : arr st; t_s : arr st; t_r : arr st; t_time : R }.
(** 739-742: u = ustage in the own cells *)
Definition copy_own (us u : arr st) : option (arr st) := floop n (fun i u => x <- aget us i ;; aset u i x) u.
(** 699-752: one time step *)
Definition tvdrk_step (s : tv) : option (exc tv) :=
  match eloop order (tvdrk_stage (t_u s)) (mkstg (t_s s) (t_r s) 0) with
  | None => None | Some Exn => Some Exn
  | Some (Val g) => u' <- copy_own (g_u g) (t_u s) ;; Some (Val (mktv u' (g_u g) (g_r g) (t_time s + g_dt g * cfl)))
  end.

(** 672-690: before the first step *)
Definition tvdrk_start (u r js : arr st) : option tv := us <- copy_own u js ;; Some (mktv u us r 0).
(** 697: the loop, at most [fuel] steps of it; the code has no such bound *)
Fixpoint tvdrk_run (finaltime : R) (fuel : nat) (s : tv) : option (exc tv) :=
  match fuel with
  | O => Some (Val s)
  | Datatypes.S k => if Rle_dec (t_time s) (finaltime - 1e-12) then ebind (tvdrk_step s) (tvdrk_run finaltime k) else Some (Val s)
  end.
End TVDRK.

(** ** The residual of FlowFV as the solvers call it (177-185: residual zeroed, first order; the
    contents of the work arrays before the call are arbitrary) *)
Definition flow_eval (S : smesh) (fl : flow) (ul0 ur0 : arr st) (G : arr grad) (dt0 : arr R) (u : arr st) : option (exc rout) :=
  match compute_residual1 S fl u ul0 ur0 (mkarr (sm_ne S) (fun _ => szero)) G (Some dt0) with
  | Some out => match ro_dt out with Some d => Some (Val (mkrout (ro_res out) d true)) | None => None end
  | None => None
  end.
