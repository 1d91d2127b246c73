(** Model of the flow residual, the local time step, the local Jacobians and the assembly of the
    Jacobian matrix: src/spatial/flow_spatial.cpp and aspatial.cpp.

    Simplifications: those of M_Space.v, M_Flux.v, M_Visc.v, M_BC.v and M_Recon.v. The threaded
    loops are run in order by one thread (C55 shows that the order does not matter where the
    updates are atomic). The residual vector holds one state per real cell; [u] holds one state per
    real cell followed by one per connectivity ghost cell, with ghost entries already updated. *)
From Coq Require Import Reals List Arith ZArith Bool.
From Verif Require Import Base BaseR M_Gas M_Flux M_Visc M_BC M_BCConf M_Mesh M_Geom M_Space M_Grad M_Recon.
Import ListNotations.
Open Scope R_scope.

(** The members of FlowFV_base and FlowFV these functions read: gas, numerical flux (inviflux),
    numerical flux used for the Jacobian (jiflux), viscous_sim, constVisc, boundary conditions. *)
Record flow := mkflow { fl_gas : gas; fl_flux : fluxname; fl_jflux : fluxname; fl_visc : bool; fl_cst : bool; fl_bcs : list (Z * flowbc) }.

(** bcs.at(m->gbtags(iface,0)): [None] if the tag has no boundary condition (std::out_of_range is
    thrown inside a parallel region: the program terminates) *)
Definition face_bc (S : smesh) (fl : flow) (k : nat) : option flowbc :=
  t <- aget (sm_bt S) k ;; z <- nth_error t 0 ;; mfind (fl_bcs fl) z.

(** flow_spatial.cpp 85-93 compute_boundary_state *)
Definition compute_boundary_state (S : smesh) (fl : flow) (k : nat) (ins : st) : option st :=
  met <- aget (sm_M S) k ;; b <- face_bc S fl k ;; Some (ghost_state (fl_gas fl) b ins (fm_n met)).

(** 73-83 compute_boundary_states: from left to right values of the physical boundary faces *)
Definition compute_boundary_states (S : smesh) (fl : flow) (ul ur : arr st) : option (arr st) :=
  floop (sm_nb S) (fun k ur => ins <- aget ul k ;; gs <- compute_boundary_state S fl k ins ;; aset ur k gs) ur.

(** 518-549, the flux through face [k] integrated over the face. [second] is secondOrderRequested;
    for first order the gradients are not read (null pointer in the code). *)
Definition face_flux (S : smesh) (fl : flow) (second : bool) (u : arr st) (G : arr grad) (ul ur ug : arr st) (k : nat) : option st :=
  met <- aget (sm_M S) k ;; fc <- aget (sm_F S) k ;;
  l <- aget ul k ;; r <- aget ur k ;;
  let n := fm_n met in let len := fm_len met in
  let fluxes := sscal len (get_flux (fl_flux fl) (fl_gas fl) l r n) in
  if fl_visc fl then
    rcl <- aget (sm_rc S) (f_left fc) ;; rcr <- far_centre S k fc ;;
    ucl <- aget u (f_left fc) ;; ucr <- far_value S u ug k fc ;;
    gl <- (if second then aget G (f_left fc) else Some grad0) ;;
    gr <- (if second then (if (k <? sm_nb S)%nat then aget G (f_left fc) else aget G (f_right fc)) else Some grad0) ;;
    Some (sadd fluxes (sscal len (compute_viscous_flux (fl_gas fl) second (fl_cst fl) n rcl rcr ucl ucr gl gr l r)))
  else Some fluxes.

(** 551-561: the increments of the residual made by one face *)
Definition flux_incs (S : smesh) (fl : flow) (second : bool) (u : arr st) (G : arr grad) (ul ur ug : arr st) (k : nat) : option (list (inc st)) :=
  f <- face_flux S fl second u G ul ur ug k ;; fc <- aget (sm_F S) k ;;
  Some ((f_left fc, sneg f) :: if (f_right fc <? sm_ne S)%nat then [(f_right fc, f)] else []).

(** 488-563 FlowFV::compute_fluxes *)
Definition compute_fluxes (S : smesh) (fl : flow) (second : bool) (u : arr st) (G : arr grad) (ul ur ug : arr st) (res : arr st) : option (arr st) :=
  acc_loop sadd 0 (sm_nf_all S) (flux_incs S fl second u G ul ur ug) res.

(** 590-618 the two contributions of a face to the integral of the spectral radius *)
Definition max_real (a b : R) : R := if Rltb a b then b else a.
Definition specrad (fl : flow) (viscarea : option R) (u : st) (n : v2) (len : R) : R :=
  let c := getSoundSpeedFromConserved (fl_gas fl) u in
  let vn := dot2 (mom u) n / s0 u in
  let inv := (Rabs vn + c) * len in
  match viscarea with
  | Some area => if fl_visc fl then
      let mu := if fl_cst fl then getConstantViscosityCoeff (fl_gas fl) else getViscosityCoeffFromConserved (fl_gas fl) u in
      let co := max_real (4 / (3 * s0 u)) (gam (fl_gas fl) / s0 u) in
      inv + co * mu / Prn (fl_gas fl) * len * len / area else inv
  | None => inv
  end.
Definition specrad_incs (S : smesh) (fl : flow) (ul ur : arr st) (k : nat) : option (list (inc R)) :=
  met <- aget (sm_M S) k ;; fc <- aget (sm_F S) k ;; l <- aget ul k ;; r <- aget ur k ;;
  al <- aget (sm_A S) (f_left fc) ;;
  let si := specrad fl (Some al) l (fm_n met) (fm_len met) in
  if (f_right fc <? sm_ne S)%nat then
    ar <- aget (sm_A S) (f_right fc) ;;
    Some [(f_left fc, si); (f_right fc, specrad fl (Some ar) r (fm_n met) (fm_len met))]
  else Some [(f_left fc, si)].

(** 566-634 FlowFV::compute_max_timestep *)
Definition compute_max_timestep (S : smesh) (fl : flow) (ul ur : arr st) (dt : arr R) : option (arr R) :=
  integ <- acc_loop Rplus 0 (sm_nf_all S) (specrad_incs S fl ul ur) (aconst (sm_ne S) 0) ;;
  floop (sm_ne S) (fun i dt => a <- aget (sm_A S) i ;; w <- aget integ i ;; q <- rdiv a w ;; aset dt i q) dt.

(** What one call of compute_residual leaves behind: the residual, the face states in uface, the
    gradients and, if asked for, the time steps. *)
Record resout := mkro { ro_res : arr st; ro_left : arr st; ro_right : arr st; ro_grad : arr grad; ro_dt : option (arr R) }.

Definition maybe_dt (S : smesh) (fl : flow) (ul ur : arr st) (dt : option (arr R)) : option (option (arr R)) :=
  match dt with None => Some None | Some d => d' <- compute_max_timestep S fl ul ur d ;; Some (Some d') end.

(** 656-666: left values of the physical boundary faces *)
Definition boundary_left (S : smesh) (u : arr st) (ul : arr st) : option (arr st) :=
  floop (sm_nb S) (fun k ul => fc <- aget (sm_F S) k ;; ui <- aget u (f_left fc) ;; aset ul k ui) ul.

(** 756-774: face values of first order *)
Definition first_order_faces (S : smesh) (u : arr st) (s : faces2) : option faces2 :=
  frange (sm_nb S) (sm_nf_all S) (fun k s =>
    fc <- aget (sm_F S) k ;; ui <- aget u (f_left fc) ;; uj <- aget u (f_right fc) ;;
    l <- aset (fst s) k ui ;; r <- aset (snd s) k uj ;; Some (l, r)) s.

(** 636-816 compute_residual with secondOrderRequested = false; [ul0], [ur0]: contents of uface
    before the call; [res]: contents of rvec before the call (the callers set it to zero) *)
Definition compute_residual1 (S : smesh) (fl : flow) (u ul0 ur0 res : arr st) (G : arr grad) (dt : option (arr R)) : option resout :=
  ul1 <- boundary_left S u ul0 ;;
  '(ul, ur2) <- first_order_faces S u (ul1, ur0) ;;
  ur <- compute_boundary_states S fl ul ur2 ;;
  res' <- compute_fluxes S fl false u G ul ur (mkarr (sm_nb S) (aat ur)) res ;;
  dt' <- maybe_dt S fl ul ur dt ;;
  Some (mkro res' ul ur G dt').

(** The gradient scheme (gradcomp) and the reconstruction (lim). *)
Inductive gradscheme := GZero | GGreenGauss | GLeastSquares (V : arr mat2).
Inductive recscheme := RLinear | RWENO (lambda : R) | RBJ | RVenkat (K : R) (cl : arr R) | RAlbada.
Definition compute_gradients (S : smesh) (gs : gradscheme) (u ug : arr st) (G : arr grad) : option (arr grad) :=
  match gs with GZero => ZeroGradients S G | GGreenGauss => GreenGauss S u ug G | GLeastSquares V => WLS_gradients S V u ug G end.
Definition compute_face_values (S : smesh) (rs : recscheme) (u ug : arr st) (G : arr grad) (s : faces2) : option faces2 :=
  match rs with
  | RLinear => LinearUnlimited S u G s | RWENO lambda => WENO S lambda u G s | RBJ => BarthJespersen S u G s
  | RVenkat K cl => Venkatakrishnan S K cl u G s | RAlbada => MUSCLVanAlbada S u ug G s end.
Definition is_weno (rs : recscheme) : bool := match rs with RWENO _ => true | _ => false end.

(** update of the ghost entries of gradvec: [gg k] is the gradient of the neighbour's cell *)
Definition ghost_gradients (S : smesh) (gg : nat -> grad) (G : arr grad) : arr grad :=
  mkarr (alen G) (fun i => if (i <? sm_ne S)%nat then aat G i else gg (i - sm_ne S)%nat).
(** updateSharedFaces: right values of the connectivity faces, received from the neighbours *)
Definition recv_faces (S : smesh) (rf : nat -> st) (ur : arr st) : arr st :=
  mkarr (alen ur) (fun k => if (sm_nb S + sm_ni S <=? k)%nat then rf (k - sm_nb S - sm_ni S)%nat else aat ur k).

(** convert entries lo <= k < hi in place *)
Definition convert (f : st -> st) (lo hi : nat) (a : arr st) : option (arr st) :=
  frange lo hi (fun k a => x <- aget a k ;; aset a k (f x)) a.

(** 636-816 compute_residual with secondOrderRequested = true. [gg], [rf]: what the neighbours
    send (gradients of ghost cells, left states of the shared faces). The view [ug] of the right
    states of the boundary faces is read before the reconstruction writes any right state of such
    a face (none does), so it is modelled by a copy. *)
Definition compute_residual2 (S : smesh) (fl : flow) (gs : gradscheme) (rs : recscheme) (gg : nat -> grad) (rf : nat -> st)
    (u ul0 ur0 res : arr st) (G0 : arr grad) (jp : nat -> st) (dt : option (arr R)) : option resout :=
  let g := fl_gas fl in
  ul1 <- boundary_left S u ul0 ;;
  ur1 <- compute_boundary_states S fl ul1 ur0 ;;
  let ubcell := mkarr (sm_nb S) (aat ur1) in
  ur2 <- convert (getPrimitiveFromConserved_inplace g) 0 (sm_nb S) ur1 ;;
  up <- floop (sm_ne S + sm_nc S) (fun i a => x <- aget u i ;; aset a i (getPrimitiveFromConserved g x)) (mkarr (sm_ne S + sm_nc S) jp) ;;
  let ug := mkarr (sm_nb S) (aat ur2) in
  G1 <- compute_gradients S gs up ug G0 ;;
  let G2 := if is_weno rs then ghost_gradients S gg G1 else G1 in
  '(ul3, ur3) <- compute_face_values S rs up ug G2 (ul1, ur2) ;;
  ul4 <- convert (getConservedFromPrimitive_inplace g) (sm_nb S + sm_ni S) (sm_nf_all S) ul3 ;;
  ul5 <- convert (getConservedFromPrimitive_inplace g) (sm_nb S) (sm_nb S + sm_ni S) ul4 ;;
  ur5 <- convert (getConservedFromPrimitive_inplace g) (sm_nb S) (sm_nb S + sm_ni S) ur3 ;;
  ul <- convert (getConservedFromPrimitive_inplace g) 0 (sm_nb S) ul5 ;;
  ur6 <- compute_boundary_states S fl ul ur5 ;;
  let ur := recv_faces S rf ur6 in
  let G := if is_weno rs then G2 else ghost_gradients S gg G2 in
  res' <- compute_fluxes S fl true u G ul ur ubcell res ;;
  dt' <- maybe_dt S fl ul ur dt ;;
  Some (mkro res' ul ur G dt').

(** ** Jacobians *)

(** anumericalflux.cpp: dispatch of get_jacobian; VanLeer throws (256), AUSMPlus leaves its outputs
    unset (559) *)
Definition get_jacobian (f : fluxname) (G : gas) (ul ur : st) (n : v2) : option jacs :=
  match f with
  | LLF => Some (llf_jac G ul ur n) | AUSM => Some (ausm_jac G ul ur n) | ROE => Some (roe_jac G ul ur n)
  | HLL => Some (hll_jac G ul ur n) | HLLC => Some (hllc_jac G ul ur n)
  | VANLEER => None | AUSMPLUS => None
  end.

Definition mscal (a : R) (m : mat4) : mat4 := mkm (sscal a (r0 m)) (sscal a (r1 m)) (sscal a (r2 m)) (sscal a (r3 m)).
Definition mmul (a b : mat4) : mat4 :=
  mkmat (fun i j => mget a i I0 * mget b I0 j + mget a i I1 * mget b I1 j + mget a i I2 * mget b I2 j + mget a i I3 * mget b I3 j).
Definition msub (a b : mat4) : mat4 := mkmat (fun i j => mget a i j - mget b i j).

(** inviscid plus viscous face Jacobian, 832-836 and 859-865 *)
Definition face_jac (S : smesh) (fl : flow) (k : nat) (ul ur : st) : option jacs :=
  met <- aget (sm_M S) k ;; fc <- aget (sm_F S) k ;;
  J <- get_jacobian (fl_jflux fl) (fl_gas fl) ul ur (fm_n met) ;;
  if fl_visc fl then
    rcl <- aget (sm_rc S) (f_left fc) ;; rcr <- far_centre S k fc ;;
    let '(a, b) := compute_viscous_flux_jacobian (fl_gas fl) (fl_cst fl) (fm_n met) rcl rcr ul ur (dfdl J) (dfdr J) in
    Some (mkjacs a b)
  else Some J.

(** 818-839 compute_local_jacobian_interior *)
Definition local_jacobian_interior (S : smesh) (fl : flow) (k : nat) (ul ur : st) : option (mat4 * mat4) :=
  met <- aget (sm_M S) k ;; J <- face_jac S fl k ul ur ;;
  Some (mscal (fm_len met) (dfdl J), mscal (fm_len met) (dfdr J)).

(** 841-875 compute_local_jacobian_boundary *)
Definition local_jacobian_boundary (S : smesh) (fl : flow) (k : nat) (ul : st) : option mat4 :=
  met <- aget (sm_M S) k ;; b <- face_bc S fl k ;;
  gj <- ghost_jac (fl_gas fl) b ul (fm_n met) ;;
  J <- face_jac S fl k ul (g_s gj) ;;
  Some (mscal (fm_len met) (msub (dfdl J) (mmul (dfdr J) (g_d gj)))).

(** A block matrix of PETSc; MatSetValuesBlocked(A,1,&i,1,&j,b,ADD_VALUES). A column of -1 is
    ignored by PETSc (columns of connectivity ghost cells in a serial assembly). *)
Definition bmat := nat -> nat -> mat4.
Definition mplus (a b : mat4) : mat4 := mkmat (fun i j => mget a i j + mget b i j).
Definition mat_add (A : bmat) (i j : nat) (b : mat4) : bmat :=
  fun p q => if (p =? i)%nat && (q =? j)%nat then mplus (A p q) b else A p q.

(** aspatial.cpp 242-340 Spatial::assemble_jacobian; [row i] is the global index of real cell [i],
    [col k] that of the cell beyond connectivity face [k] (column 3 of connface), [None] when not
    distributed; [lb], [li]: compute_local_jacobian_boundary, compute_local_jacobian_interior of the
    derived class *)
Definition assemble_with (S : smesh) (lb : nat -> st -> option mat4) (li : nat -> st -> st -> option (mat4 * mat4))
    (u : arr st) (row : nat -> nat) (col : option (nat -> nat)) (A : bmat) : option bmat :=
  A <- floop (sm_nb S) (fun k A =>
    fc <- aget (sm_F S) k ;; ul <- aget u (f_left fc) ;; left <- lb k ul ;;
    Some (mat_add A (row (f_left fc)) (row (f_left fc)) (mscal (-1) left))) A ;;
  A <- frange (sm_nb S) (sm_nb S + sm_ni S) (fun k A =>
    fc <- aget (sm_F S) k ;; ul <- aget u (f_left fc) ;; ur <- aget u (f_right fc) ;;
    LU <- li k ul ur ;;
    let l := row (f_left fc) in let r := row (f_right fc) in
    Some (mat_add (mat_add (mat_add (mat_add A r l (fst LU)) l r (snd LU)) l l (mscal (-1) (fst LU))) r r (mscal (-1) (snd LU)))) A ;;
  frange (sm_nb S + sm_ni S) (sm_nf_all S) (fun k A =>
    fc <- aget (sm_F S) k ;; ul <- aget u (f_left fc) ;; ur <- aget u (f_right fc) ;;
    LU <- li k ul ur ;;
    let l := row (f_left fc) in
    let A1 := match col with Some c => mat_add A l (c (k - sm_nb S - sm_ni S)%nat) (snd LU) | None => A end in
    Some (mat_add A1 l l (mscal (-1) (fst LU)))) A.
(** for FlowFV *)
Definition assemble_jacobian (S : smesh) (fl : flow) (u : arr st) (row : nat -> nat) (col : option (nat -> nat)) (A : bmat) : option bmat :=
  assemble_with S (local_jacobian_boundary S fl) (local_jacobian_interior S fl) u row col A.
