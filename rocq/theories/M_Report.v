(** Model of what a flow case reports (src/utilities/casesolvers.cpp 85-164, run_output) on one or several processes.

    Simplifications: those of M_Out.v, M_Start.v and M_Dist.v. Only the values returned in FlowSolutionFunctionals are computed here (files and
    exceptions: M_Case.v). [phy] (119) is built from the options the discretization was built from, so its gas is that of the discretization.
    The conditions are looked up as in M_Resid.v. A case whose flux could not be created does not get here (its null pointer is used before). *)
From Coq Require Import Reals List Arith ZArith Bool.
From Verif Require Import Base BaseR BaseSum M_Gas M_Mesh M_Geom M_Space M_Grad M_Resid M_Out M_Start M_Dist.
Import ListNotations.
Open Scope R_scope.

(** flow_spatial.cpp 95-112 getGradients; [u]: owned and ghost values; [jg]: contents of the new array ug; [G]: the array passed in *)
Definition flow_getGradients (S : smesh) (fl : flow) (gs : gradscheme) (jg : nat -> st) (u : arr st) (G : arr grad) : option (arr grad) :=
  ug <- floop (sm_nb S) (fun k ug => fc <- aget (sm_F S) k ;; x <- aget u (f_left fc) ;; b <- compute_boundary_state S fl k x ;; aset ug k b) (mkarr (sm_nb S) jg) ;;
  compute_gradients S gs u ug G.

(** FlowSolutionFunctionals (casesolvers.hpp 22-28): mesh size, entropy error, lift, pressure drag and friction drag *)
Record report := mkreport { rp_h : R; rp_ent : R; rp_cl : R; rp_cdp : R; rp_cdf : R }.
(** 94: 1/pow(m.gnelem(), 1/NDIM) *)
Definition mesh_size (S : smesh) : R := 1 / Rpower (INR (sm_ne S)) (1 / 2).

(** 144-153: the surface data of one process. [jG], [jo]: contents of [grad] and [output] after resize *)
Definition local_surface (S : smesh) (sp : spatial) (aoa : R) (wall : Z) (jg : nat -> st) (jG : nat -> grad) (jo : nat -> srow) (u : arr st) : option surf :=
  f <- sp_flux sp ;;
  G <- flow_getGradients S (sp_flow sp f) (sp_grad sp) jg u (mkarr (sm_ne S) jG) ;;
  if (sm_ne S <=? alen u)%nat then surface_local (sp_gas sp) S aoa (mkarr (sm_ne S) (aat u)) G wall (mkarr (sm_ne S) jo) else None.
(** 94-160, after execute; [wall]: opts.lwalls[0] *)
Definition ranks_report (nr : nat) (S : nat -> smesh) (sp : nat -> spatial) (aoa : R) (wall : Z) (jg : nat -> nat -> st) (jG : nat -> nat -> grad) (jo : nat -> nat -> srow) (u : nat -> arr st) : option (nat -> report) :=
  e <- all_of 0 nr (fun r => entropy_local (sp_gas (sp r)) aoa (sm_ne (S r)) (sm_A (S r)) (u r)) ;;
  s <- all_of (mksurf 0 (mkarr 0 (fun _ => mksrow 0 0 0 0)) 0 0 0 0) nr (fun r => local_surface (S r) (sp r) aoa wall (jg r) (jG r) (jo r) (u r)) ;;
  c <- surface_reduce (map s (seq 0 nr)) ;;
  let '(cl, dp, df) := c in
  Some (fun r => mkreport (mesh_size (S r)) (compute_entropy_cell (map e (seq 0 nr))) cl dp df).
(** a run on one process *)
Definition serial_report (S : smesh) (sp : spatial) (aoa : R) (wall : Z) (jg : nat -> st) (jG : nat -> grad) (jo : nat -> srow) (u : arr st) : option report :=
  r <- ranks_report 1 (fun _ => S) (fun _ => sp) aoa wall (fun _ => jg) (fun _ => jG) (fun _ => jo) (fun _ => u) ;; Some (r 0%nat).
