(** Model of an explicit run on several MPI ranks: the numbering of ghosted PETSc vectors (alinalg.cpp 8-29), the exchanges around
    the residual (flow_spatial.cpp 636-816), and the forward Euler loop as the ranks execute it together (aodesolver.cpp 136-282).

    Simplifications: those of M_Part.v, M_Resid.v, M_Ode.v and M_Start.v. Communication is collective: a step of the model is taken by all
    ranks, each with its own variables; the ranks may not disagree on whether to go on ([None]: some wait for ever). A function over ranks
    or ghost cells stands for the values held by each. The exchange of face states is taken at the level of what C19 proves of
    L2TraceVector. What other PETSc calls do (zeroing, duplicating, destroying vectors) is left out. *)
From Coq Require Import Reals List String Arith ZArith Bool.
From Verif Require Import Base BaseR BaseSum M_Gas M_Flux M_Visc M_BC M_BCConf M_Mesh M_Geom M_Part M_Space M_Grad M_Recon M_Resid M_Ode M_Ctl M_Case M_Start.
Import ListNotations.
Open Scope nat_scope.

(** every one of [n] values, or none; [d] stands beyond *)
Definition all_of {T} (d : T) (n : nat) (f : nat -> option T) : option (nat -> T) :=
  if forallb (fun r => match f r with Some _ => true | None => false end) (seq 0 n)
  then Some (fun r => if r <? n then match f r with Some x => x | None => d end else d) else None.

(** ** The numbering of distributed vectors *)
(** VecCreateMPI and VecCreateGhostBlock number the blocks of rank 0 first, then those of rank 1, and so on. [ne r]: local size of rank [r].
    Rank and position of block [b], counted from rank [r]; [None]: there is no such block (PETSc reports an error) *)
Fixpoint slot_from (ne : nat -> nat) (k r b : nat) : option (nat * nat) :=
  match k with 0 => None | Datatypes.S k' => if b <? ne r then Some (r, b) else slot_from ne k' (r + 1) (b - ne r) end.
Definition slot (ne : nat -> nat) (nr b : nat) : option (nat * nat) := slot_from ne nr 0 b.

Section Dist.
Context (nr : nat) (lm : nat -> lmesh).
(** alinalg.cpp 20-26 with getConnectivityGlobalIndices (mesh.cpp 764-772): ghost block [k] of rank [r] is the block whose number is column 3 of
    connface *)
Definition own (r k : nat) : option (nat * nat) :=
  cf <- nth_error (conns (l_m (lm r))) k ;;
  if (cf_gelem cf <? 0)%Z then None else slot (fun a => nelem (l_m (lm a))) nr (Z.to_nat (cf_gelem cf)).

(** ** Exchanges *)
Context (S : nat -> smesh).
(** what the ghost blocks of rank [r] receive in VecGhostUpdate(INSERT_VALUES, SCATTER_FORWARD) *)
Definition ghosts {T} (d : T) (x : nat -> arr T) (r : nat) : option (nat -> T) :=
  all_of d (sm_nc (S r)) (fun k => o <- own r k ;; if snd o <? sm_ne (S (fst o)) then aget (x (fst o)) (snd o) else None).
Definition set_ghosts {T} (r : nat) (gg : nat -> T) (a : arr T) : arr T :=
  mkarr (alen a) (fun i => if i <? sm_ne (S r) then aat a i else gg (i - sm_ne (S r))).
Definition forward (x : nat -> arr st) : option (nat -> arr st) :=
  gg <- all_of (fun _ => szero) nr (ghosts szero x) ;; Some (fun r => set_ghosts r (gg r) (x r)).
(** VecGhostUpdate(ADD_VALUES, SCATTER_REVERSE): the ghost blocks are added to the blocks they stand for *)
Definition reverse (x : nat -> arr st) : option (nat -> arr st) :=
  all_of (mkarr 0 (fun _ => szero)) nr (fun r =>
    floop nr (fun q a => floop (sm_nc (S q)) (fun k a =>
      o <- own q k ;;
      if fst o =? r then v <- aget (x q) (sm_ne (S q) + k) ;; w <- aget a (snd o) ;; aset a (snd o) (sadd w v) else Some a) a) (x r)).
(** updateSharedFacesBegin, updateSharedFacesEnd: connectivity face [k] of rank [r] receives the left state of the face with the same
    number on the rank it names *)
Definition peer (r k : nat) : option (nat * nat) :=
  cf <- nth_error (conns (l_m (lm r))) k ;;
  if (cf_rank cf <? 0)%Z || (Z.of_nat nr <=? cf_rank cf)%Z then None else
  let q := Z.to_nat (cf_rank cf) in
  j <- ofind (List.length (conns (l_m (lm q)))) (fun i => c <- nth_error (conns (l_m (lm q))) i ;; Some ((cf_rank c =? Z.of_nat r)%Z && (cf_gface c =? cf_gface cf)%Z)) ;;
  j' <- j ;; Some (q, j').
Definition shared (ul : nat -> arr st) (r : nat) : option (nat -> st) :=
  all_of szero (sm_nc (S r)) (fun k => p <- peer r k ;; aget (ul (fst p)) (sm_nb (S (fst p)) + sm_ni (S (fst p)) + snd p)).

(** ** The residual *)
(** flow_spatial.cpp 650-713: up to the gradients *)
Record gpart := mkgp { gp_l : arr st; gp_r : arr st; gp_b : arr st; gp_p : arr st; gp_g : arr grad }.
Definition grad_part (S : smesh) (fl : flow) (gs : gradscheme) (u ul0 ur0 : arr st) (G0 : arr grad) (jp : nat -> st) : option gpart :=
  let g := fl_gas fl in
  ul1 <- boundary_left S u ul0 ;;
  ur1 <- compute_boundary_states S fl ul1 ur0 ;;
  ur2 <- convert (getPrimitiveFromConserved_inplace g) 0 (sm_nb S) ur1 ;;
  up <- floop (sm_ne S + sm_nc S) (fun i a => x <- aget u i ;; aset a i (getPrimitiveFromConserved g x)) (mkarr (sm_ne S + sm_nc S) jp) ;;
  G1 <- compute_gradients S gs up (mkarr (sm_nb S) (aat ur2)) G0 ;;
  Some (mkgp ul1 ur2 (mkarr (sm_nb S) (aat ur1)) up G1).
(** 714-745: up to the start of the exchange of face states; [gg]: gradients received (before the reconstruction by WENO only) *)
Record fpart := mkfp { fp_l : arr st; fp_r : arr st; fp_g : arr grad }.
Definition face_part (S : smesh) (fl : flow) (rs : recscheme) (gg : nat -> grad) (p : gpart) : option fpart :=
  let g := fl_gas fl in
  let G2 := if is_weno rs then ghost_gradients S gg (gp_g p) else gp_g p in
  '(ul3, ur3) <- compute_face_values S rs (gp_p p) (mkarr (sm_nb S) (aat (gp_r p))) G2 (gp_l p, gp_r p) ;;
  ul4 <- convert (getConservedFromPrimitive_inplace g) (sm_nb S + sm_ni S) (sm_nf_all S) ul3 ;;
  Some (mkfp ul4 ur3 G2).
(** 747-816: the rest; [rf]: face states received *)
Definition flux_part (S : smesh) (fl : flow) (rs : recscheme) (gg : nat -> grad) (rf : nat -> st) (u res : arr st) (dt : option (arr R)) (p : gpart) (q : fpart) : option resout :=
  let g := fl_gas fl in
  ul5 <- convert (getConservedFromPrimitive_inplace g) (sm_nb S) (sm_nb S + sm_ni S) (fp_l q) ;;
  ur5 <- convert (getConservedFromPrimitive_inplace g) (sm_nb S) (sm_nb S + sm_ni S) (fp_r q) ;;
  ul <- convert (getConservedFromPrimitive_inplace g) 0 (sm_nb S) ul5 ;;
  ur6 <- compute_boundary_states S fl ul ur5 ;;
  let ur := recv_faces S rf ur6 in
  let G := if is_weno rs then fp_g q else ghost_gradients S gg (fp_g q) in
  res' <- compute_fluxes S fl true u G ul ur (gp_b p) res ;;
  dt' <- maybe_dt S fl ul ur dt ;;
  Some (mkro res' ul ur G dt').

(** One evaluation by all ranks; [sp], [w]: discretization and work arrays of each; all have the same template parameter ([second]).
    flow_spatial.cpp 636-816 as called in aodesolver.cpp 173-184 *)
Context (second : bool) (sp : nat -> spatial) (wk : nat -> work).
Definition no_out : resout := mkro (mkarr 0 (fun _ => szero)) (mkarr 0 (fun _ => szero)) (mkarr 0 (fun _ => szero)) (mkarr 0 (fun _ => grad0)) None.
Definition no_gp : gpart := mkgp (mkarr 0 (fun _ => szero)) (mkarr 0 (fun _ => szero)) (mkarr 0 (fun _ => szero)) (mkarr 0 (fun _ => szero)) (mkarr 0 (fun _ => grad0)).
Definition no_fp : fpart := mkfp (mkarr 0 (fun _ => szero)) (mkarr 0 (fun _ => szero)) (mkarr 0 (fun _ => grad0)).
Definition zero_res (r : nat) : arr st := mkarr (sm_ne (S r)) (fun _ => szero).
Definition ranks_residual (u : nat -> arr st) : option (nat -> resout) :=
  if second then
    p <- all_of no_gp nr (fun r => f <- sp_flux (sp r) ;; grad_part (S r) (sp_flow (sp r) f) (sp_grad (sp r)) (u r) (wk_l (wk r)) (wk_r (wk r)) (wk_g (wk r)) (wk_p (wk r))) ;;
    gg <- all_of (fun _ => grad0) nr (ghosts grad0 (fun r => gp_g (p r))) ;;
    q <- all_of no_fp nr (fun r => f <- sp_flux (sp r) ;; rs <- sp_rec (sp r) ;; face_part (S r) (sp_flow (sp r) f) rs (gg r) (p r)) ;;
    rf <- all_of (fun _ => szero) nr (shared (fun r => fp_l (q r))) ;;
    all_of no_out nr (fun r => f <- sp_flux (sp r) ;; rs <- sp_rec (sp r) ;; flux_part (S r) (sp_flow (sp r) f) rs (gg r) (rf r) (u r) (zero_res r) (Some (wk_dt (wk r))) (p r) (q r))
  else all_of no_out nr (fun r => f <- sp_flux (sp r) ;; compute_residual1 (S r) (sp_flow (sp r) f) (u r) (wk_l (wk r)) (wk_r (wk r)) (zero_res r) (wk_g (wk r)) (Some (wk_dt (wk r)))).
(** rvec after the call: its ghost blocks keep the zeros they were given (aodesolver.cpp 173-181) *)
Definition with_ghosts (r : nat) (a : arr st) : arr st := mkarr (sm_ne (S r) + sm_nc (S r)) (fun i => if i <? sm_ne (S r) then aat a i else szero).

(** ** The forward Euler loop *)
Context (c : sconf).
(** aodesolver.cpp 212-222 *)
Definition local_energy (r : nat) (res : arr st) : R := rsum (fun i => s3 (aat res i) * s3 (aat res i) * aat (sm_A (S r)) i)%R (seq 0 (sm_ne (S r))).
(** one pass of the loop 171-250 by all ranks. The norm is finite in the reals, so nothing is thrown. *)
Definition ranks_body (x : nat -> mon) : option (nat -> mon) :=
  out <- ranks_residual (fun r => m_u (x r)) ;;
  rv <- reverse (fun r => with_ghosts r (ro_res (out r))) ;;
  u1 <- all_of (mkarr 0 (fun _ => szero)) nr (fun r => d <- ro_dt (out r) ;; fe_update (sm_ne (S r)) (sm_A (S r)) c (m_u (x r)) (mkrout (rv r) d true)) ;;
  u2 <- forward u1 ;;
  let glres := rsum (fun r => local_energy r (rv r)) (seq 0 nr) in
  let resi := sqrt glres in
  Some (fun r =>
    let s := x r in
    let cfl := expResidualRamp (cflinit c) (cflfin c) (m_cfl s) (m_old s / m_resi s) 0.3 0.25 in
    let init := if m_step s =? 0 then resi else m_init s in
    mkmon (u2 r) (m_step s + 1) resi (m_resi s) init cfl (m_lin s) (m_log s ++ [mklog (m_step s + 1) resi init cfl])).
(** the loop; ranks that go on wait in the next exchange for those that do not *)
Fixpoint ranks_loop (fuel : nat) (x : nat -> mon) : option (nat -> mon) :=
  match fuel with
  | 0 => Some x
  | Datatypes.S k =>
      if forallb (fun r => steady_cont c (x r)) (seq 0 nr) then y <- ranks_body x ;; ranks_loop k y
      else if forallb (fun r => negb (steady_cont c (x r))) (seq 0 nr) then Some x else None
  end.
(** 136-282 SteadyForwardEulerSolver::solve on every rank: final state, how it ends, the vectors not destroyed, timing data *)
Definition ranks_solve (lognres : bool) (u : nat -> arr st) : option (nat -> sout (arr st) logline) :=
  if (maxiter c <=? 0)%Z then Some (fun r => mkso (u r) (Some (inl 0%Z)) 0 (mktd false 0 []))
  else x <- ranks_loop (Z.to_nat (maxiter c)) (fun r => mkmon (u r) 0 1%R 1%R 1%R (cflinit c) 0 []) ;;
    Some (fun r => let s := x r in let h := if lognres then m_log s else [] in
      if (Z.of_nat (m_step s) =? maxiter c)%Z then mkso (m_u s) (Some (inr Tolerance_error)) 2 (mktd false (m_step s) h)
      else mkso (m_u s) (Some (inl 0%Z)) 0 (mktd true (m_step s) h)).
End Dist.
(** casesolvers.cpp 225-311 and 313-420: starter, then main solve, for an explicit case. [sps], [spm]: the discretizations of the ranks *)
Definition ranks_starter (nr : nat) (lm : nat -> lmesh) (S : nat -> smesh) (o : fpopts) (sps : nat -> spatial) (wk : nat -> work) (u : nat -> arr st) : option (nat -> sout (arr st) logline) :=
  ranks_solve nr lm S false sps wk (mksconf (o_fcfl0 o) (o_fcfl1 o) (o_ftol o) (o_fmaxit o)) (o_lognres o) u.
Definition ranks_run (nr : nat) (lm : nat -> lmesh) (S : nat -> smesh) (o : fpopts) (spm sps : nat -> spatial) (wk : bool -> nat -> work) (u : nat -> arr st) : option (nat -> sout (arr st) logline) :=
  u1 <- (if (o_starter o =? 0)%Z then Some u else x <- ranks_starter nr lm S o sps (wk false) u ;; Some (fun r => so_u (x r))) ;;
  ranks_solve nr lm S (o_order2 o) spm (wk true) (mksconf (o_cfl0 o) (o_cfl1 o) (o_tol o) (o_maxit o)) (o_lognres o) u1.

(** ** The implicit matrix *)
(** aspatial.cpp 246-250, 265, 284-285, 320-321: the global numbers of the cells of a rank (mesh.cpp gglobalElemIndex) if
    there is more than one rank, else their own numbers *)
Definition arow (nr : nat) (lm : lmesh) (i : nat) : nat := if (1 <? nr)%nat then aat (l_eglob lm) i else i.
Definition acol (nr : nat) (lm : lmesh) : option (nat -> nat) :=
  if (1 <? nr)%nat then Some (fun k => match nth_error (conns (l_m lm)) k with Some cf => Z.to_nat (cf_gelem cf) | None => 0%nat end) else None.
(** aspatial.cpp 242-340 on every rank of the communicator of [A]: all add into the one matrix (ADD_VALUES), in any order;
    here in the order of the ranks *)
Definition assemble_ranks (nr : nat) (lm : nat -> lmesh) (S : nat -> smesh) (fl : flow) (x : nat -> arr st) (A : bmat) : option bmat :=
  floop nr (fun r A => assemble_jacobian (S r) fl (x r) (arow nr (lm r)) (acol nr (lm r)) A) A.
