(** Model of how a case starts: the initial state (casesolvers.cpp 50-69) and the spatial discretizations made from the
    configuration (casesolvers.cpp 38-48, afactory.cpp 240-276, flow_spatial.cpp 33-58 and 313-338), put together with the
    residual (M_Resid.v), the steady solvers (M_Ode.v) and the case driver (M_Case.v), for one process.

    Simplifications: those of these files. The Reynolds and Prandtl numbers of an inviscid case are not numbers (infinity and NaN,
    controlparser.cpp 136-137); an arbitrary function [jr] gives the real that stands for them. Null pointers are [None]; a call through
    one is undefined behaviour. *)
From Coq Require Import Reals List String ZArith Bool Arith.
From Verif Require Import Base BaseR BaseSum M_Gas M_Flux M_Visc M_BC M_BCConf M_Mesh M_Geom M_Space M_Grad M_Recon M_Resid M_Ode M_Ctl M_Case.
Import ListNotations.
Open Scope nat_scope.

Definition xval (jr : xreal -> R) (x : xreal) : R := match x with XR r => r | _ => jr x end.
(** the IdealGasPhysics objects: flow_spatial.cpp 42, casesolvers.cpp 55, afactory.cpp 287 *)
Definition gas_of (jr : xreal -> R) (p : physconf) : gas := mkgas (pc_gam p) (pc_Minf p) (pc_Tinf p) (xval jr (pc_Re p)) (xval jr (pc_Pr p)).

(** ** The initial state *)
(** component [j] of a std::array<freal,NVARS> *)
Definition comp (u : st) (j : nat) : option R :=
  match j with 0 => Some (s0 u) | 1 => Some (s1 u) | 2 => Some (s2 u) | 3 => Some (s3 u) | _ => None end.
(** casesolvers.cpp 50-69 initializeSystemVector; alinalg.cpp 17-29: the local array has NVARS entries for every cell and every
    connectivity ghost cell; [junk]: its contents before the loop *)
Definition initializeSystemVector (S : smesh) (G : gas) (alpha : R) (junk : nat -> R) : option (arr R) :=
  let uinf := compute_freestream_state G alpha in
  floop (sm_ne S + sm_nc S) (fun i u => floop 4 (fun j u => x <- comp uinf j ;; aset u (i * 4 + j) x) u)
        (mkarr ((sm_ne S + sm_nc S) * 4) junk).
(** the same array seen as one state per cell, as in M_Resid.v *)
Definition states (u : arr R) : arr st := mkarr (alen u / 4) (fun i => mks (aat u (i * 4)) (aat u (i * 4 + 1)) (aat u (i * 4 + 2)) (aat u (i * 4 + 3))).

(** ** The spatial discretization *)
Definition flux_of (k : fluxk) : fluxname :=
  match k with FVanLeer => VANLEER | FRoe => ROE | FHLL => HLL | FHLLC => HLLC | FLLF => LLF | FAUSM => AUSM | FAUSMPlus => AUSMPLUS end.
(** the gradient scheme with what its constructor computes *)
Definition grad_of (S : smesh) (k : gradk) : option gradscheme :=
  match k with M_Ctl.GZero => Some M_Resid.GZero | M_Ctl.GGreenGauss => Some M_Resid.GGreenGauss | M_Ctl.GLeastSquares => V <- WLS_ctor S ;; Some (M_Resid.GLeastSquares V) end.
Definition rec_of (m : umesh) (X : arr v2) (k : reck) : option recscheme :=
  match k with
  | M_Ctl.RLinear => Some M_Resid.RLinear | M_Ctl.RWENO p => Some (M_Resid.RWENO p) | RVanAlbada => Some RAlbada | RBarthJespersen => Some RBJ
  | RVenkatakrishnan p => cl <- venkat_ctor m X ;; Some (RVenkat p cl)
  end.
(** FlowFV after construction. Only the second-order one uses gradients and reconstruction. *)
Record spatial := mksp { sp_gas : gas; sp_flux : option fluxname; sp_jac : option fluxname; sp_visc : bool; sp_cvisc : bool;
                         sp_bcs : list (Z * flowbc); sp_order2 : bool; sp_grad : gradscheme; sp_rec : option recscheme }.
(** [None]: undefined behaviour in a constructor; [Exn]: an exception *)
Definition make_spatial (jr : xreal -> R) (m : umesh) (X : arr v2) (S : smesh) (p : physconf) (n : numconf) : option (exc spatial) :=
  let sc := create_flowSpatialDiscretization p n in let G := gas_of jr p in
  gs <- grad_of S (sc_grad sc) ;;
  rs <- (match sc_rec sc with None => Some None | Some k => r <- rec_of m X k ;; Some (Some r) end) ;;
  match create_const_flowBCs (compute_freestream_state G (pc_aoa p)) (pc_bc p) with
  | CUB => None | CThrow => Some Exn
  | COk bcs => Some (Val (mksp G (option_map flux_of (sc_flux sc)) (option_map flux_of (sc_jac sc)) (pc_visc p) (sc_cvisc sc) bcs (sc_order2 sc) gs rs))
  end.

(** ** The residual as the solvers call it: aodesolver.cpp 171-185 and 416-432, rvec zeroed and time steps requested *)
(** contents of the work arrays before the call *)
Record work := mkwk { wk_l : arr st; wk_r : arr st; wk_g : arr grad; wk_p : nat -> st; wk_dt : arr R }.
Definition sp_flow (sp : spatial) (f : fluxname) : flow :=
  mkflow (sp_gas sp) f (match sp_jac sp with Some j => j | None => f end) (sp_visc sp) (sp_cvisc sp) (sp_bcs sp).
Definition spatial_eval (S : smesh) (sp : spatial) (w : work) (u : arr st) : option (exc rout) :=
  f <- sp_flux sp ;;
  let fl := sp_flow sp f in let res := mkarr (sm_ne S) (fun _ => szero) in
  out <- (if sp_order2 sp then rs <- sp_rec sp ;;
            compute_residual2 S fl (sp_grad sp) rs (fun _ => grad0) (fun _ => szero) u (wk_l w) (wk_r w) res (wk_g w) (wk_p w) (Some (wk_dt w))
          else compute_residual1 S fl u (wk_l w) (wk_r w) res (wk_g w) (Some (wk_dt w))) ;;
  d <- ro_dt out ;; Some (Val (mkrout (ro_res out) d true)).

(** casesolvers.cpp 38-48 and 225-236: the discretizations of the main solve and of the starter *)
Definition main_spatial (jr : xreal -> R) (m : umesh) (X : arr v2) (S : smesh) (o : fpopts) : option (exc spatial) :=
  make_spatial jr m X S (extract_spatial_physics_config o) (extract_spatial_numerics_config o).
Definition start_spatial (jr : xreal -> R) (m : umesh) (X : arr v2) (S : smesh) (o : fpopts) : option (exc spatial) :=
  make_spatial jr m X S (extract_spatial_physics_config o) (firstorder_spatial_numerics_config o).
(** the steady solvers on this mesh *)
Definition case_solve (S : smesh) (spm sps : spatial) (wk : bool -> work) (glob : nat -> nat) (Jf : bool -> arr st -> option (exc bmat))
    (ksp : nat -> bmat -> arr R -> arr st -> arr st -> arr st * nat) (at_throw : arr st -> arr st) :=
  ode_solve (sm_ne S) (sm_A S) (fun main => spatial_eval S (if main then spm else sps) (wk main)) glob Jf ksp (sp_gas spm) at_throw.
