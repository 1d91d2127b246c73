(** Model of the control file: utilities/controlparser.cpp 36-240, utilities/controlparser.hpp 19-70, and of the factories utilities/afactory.cpp 29-294.
    Simplifications. Boost's INFO parser is not modelled: the file is the property tree it gives. The translators of property_tree from text to
    double, int and bool, and the extraction of lists of numbers, are parameters ([rd], [ri], [rb], [rds], [ris]). Numbers are reals, with
    infinity and NaN apart where the code writes 1.0/0.0 and 0.0/0.0. Exceptions of property_tree (missing path, text that does not
    translate) and of bimap::at are one outcome, [CBad]. Messages on the standard output are left out. *)
From Coq Require Import Reals List String Ascii ZArith Bool Arith.
From Verif Require Import BaseR M_Gas M_BC M_BCConf.
Import ListNotations.
Open Scope string_scope.

(** ** The property tree *)
Inductive ptree := PNode (data : string) (children : list (string * ptree)).
Definition p_data (t : ptree) : string := let (d, _) := t in d.
Definition p_children (t : ptree) : list (string * ptree) := let (_, c) := t in c.
(** basic_ptree::find: the first child with the name *)
Definition p_find (k : string) (l : list (string * ptree)) : option ptree :=
  match find (fun p => String.eqb (fst p) k) l with Some p => Some (snd p) | None => None end.
(** get_child_optional; a path is given as the list of its parts *)
Fixpoint get_child (t : ptree) (path : list string) : option ptree :=
  match path with [] => Some t | k :: r => match p_find k (p_children t) with Some c => get_child c r | None => None end end.
(** get_optional<std::string> *)
Definition get_str (t : ptree) (path : list string) : option string :=
  match get_child t path with Some c => Some (p_data c) | None => None end.

(** boost::to_upper_copy in the classic locale *)
Definition upper_ascii (c : ascii) : ascii :=
  let n := nat_of_ascii c in if ((97 <=? n) && (n <=? 122))%nat then ascii_of_nat (n - 32) else c.
Fixpoint to_upper (s : string) : string := match s with EmptyString => EmptyString | String c t => String (upper_ascii c) (to_upper t) end.

(** std::to_string of a non-negative int *)
Definition digit (n : nat) : ascii := ascii_of_nat (48 + n mod 10).
Fixpoint dec_fuel (fuel n : nat) (acc : string) : string :=
  match fuel with O => acc | S f => let acc := String (digit n) acc in if (n <? 10)%nat then acc else dec_fuel f (n / 10) acc end.
Definition to_dec (n : nat) : string := dec_fuel (S n) n "".

(** ** Outcomes *)
Inductive cout (A : Type) := COut (a : A) | CBad | CUnsupported | CAbort.
Arguments COut {A} a. Arguments CBad {A}. Arguments CUnsupported {A}. Arguments CAbort {A}.
Definition cbind {A B} (x : cout A) (k : A -> cout B) : cout B :=
  match x with COut a => k a | CBad => CBad | CUnsupported => CUnsupported | CAbort => CAbort end.
Notation "x <~ e ;; k" := (cbind e (fun x => k)) (at level 100, e at next level, right associativity).
Definition need {A} (x : option A) : cout A := match x with Some a => COut a | None => CBad end.

Inductive xreal := XR (r : R) | XInf | XNaN.

(** controlparser.hpp 21-70 FlowParserOptions (init_soln_file, constvisc and soln_init_type, which nothing reads or writes, are left out) *)
Record fpopts := mkopts {
  o_meshfile : string; o_vtu : string; o_log : string; o_flowtype : string; o_invflux : string; o_invfluxjac : string; o_grad : string; o_lim : string;
  o_ptype : string; o_surf : string; o_vol : string; o_volreq : string; o_sim : string; o_tint : string; o_nlu : string;
  o_cfl0 : R; o_cfl1 : R; o_tol : R; o_fcfl0 : R; o_fcfl1 : R; o_ftol : R; o_Minf : R; o_alpha : R; o_Re : xreal; o_Tinf : R; o_Pr : xreal; o_gam : R;
  o_limpar : R; o_ftime : R; o_dt : R; o_pcfl : R; o_minnl : R;
  o_maxit : Z; o_ramp0 : Z; o_ramp1 : Z; o_fmaxit : Z; o_framp0 : Z; o_framp1 : Z; o_torder : Z;
  o_bc : list fbcconf; o_starter : Z; o_lognres : bool; o_wlin : bool; o_cvisc : bool; o_visc : bool; o_order2 : bool; o_lwalls : list Z; o_lothers : list Z }.

Section Parse.
(** the translators *)
Context (rd : string -> option R) (ri : string -> option Z) (rb : string -> option bool) (rds : string -> list R) (ris : string -> list Z).

(** infopts.get<T>(path) *)
Definition get_as {A} (tr : string -> option A) (t : ptree) (path : list string) : option A :=
  match get_str t path with Some s => tr s | None => None end.
(** infopts.get(path, default) *)
Definition get_def {A} (tr : string -> option A) (t : ptree) (path : list string) (d : A) : A := match get_as tr t path with Some a => a | None => d end.
(** 36-39 *)
Definition get_upper (t : ptree) (path : list string) : option string := match get_str t path with Some s => Some (to_upper s) | None => None end.

(** 261-280: the fields of one section "bcN" as M_BCConf.v wants them *)
Definition bc_section (t : ptree) (i : nat) : option bcsec :=
  let p := ["bc"; "bc" ++ to_dec i] in
  match get_str t p with
  | None => None
  | Some _ => Some (mkbcsec (get_str t (p ++ ["type"])%list) (get_as ri t (p ++ ["marker"])%list)
                     (match get_str t (p ++ ["boundary_values"])%list with Some s => Some (rds s) | None => None end)
                     (match get_str t (p ++ ["options"])%list with Some s => Some (ris s) | None => None end))
  end.
(** 248-294: the loop over the sections. The fuel is the number of entries of the bc section, more than there can be numbered sections. *)
Fixpoint bc_loop (fuel : nat) (t : ptree) (ibc : nat) : cout (list fbcconf) :=
  match fuel with
  | O => CBad
  | S f => match bc_section t ibc with
           | None => COut []
           | Some s => c <~ need (parse_sec s) ;; l <~ bc_loop f t (S ibc) ;; COut (c :: l)
           end
  end.
Definition bc_fuel (t : ptree) : nat := match get_child t ["bc"] with Some c => S (List.length (p_children c)) | None => 1 end.
Definition parse_bcs (t : ptree) : cout (list fbcconf) := bc_loop (bc_fuel t) t 0.

(** what the command line gives: mesh_file, write_final_linear_system (boost::program_options), -fvens_log_file_prefix (PETSc) *)
Record cmdline := mkcmd { c_mesh : option string; c_wlin : option bool; c_log : option string }.

(** 124-138: viscous, Tinf, Reinf, Pr, constant viscosity *)
Definition parse_phys (t : ptree) (flowtype : string) : cout (bool * R * xreal * xreal * bool) :=
  if String.eqb flowtype "NAVIERSTOKES" || String.eqb flowtype "RANS" then
    Tinf <~ need (get_as rd t ["flow_conditions"; "freestream_temperature"]) ;;
    Re <~ need (get_as rd t ["flow_conditions"; "freestream_Reynolds_number"]) ;;
    Pr <~ need (get_as rd t ["flow_conditions"; "Prandtl_number"]) ;;
    let cv := get_def rb t ["flow_conditions"; "use_constant_viscosity"] false in
    if String.eqb flowtype "RANS" then CUnsupported else COut (true, Tinf, XR Re, XR Pr, cv)
  else COut (false, 298%R, XInf, XNaN, false).

(** 165-176: final time, integrator, order, CFL, time step *)
Definition parse_time (t : ptree) (j : fpopts) (sim : string) : cout (R * string * Z * R * R) :=
  if String.eqb sim "UNSTEADY" then
    ft <~ need (get_as rd t ["time"; "final_time"]) ;;
    ti <~ need (get_upper t ["time"; "time_integrator"]) ;;
    tor <~ need (get_as ri t ["time"; "temporal_order"]) ;;
    if String.eqb ti "TVDRK" then c <~ need (get_as rd t ["time"; "physical_cfl"]) ;; COut (ft, ti, tor, c, o_dt j)
    else d <~ need (get_as rd t ["time"; "physical_time_step"]) ;; COut (ft, ti, tor, o_pcfl j, d)
  else COut (o_ftime j, "NONE", o_torder j, o_pcfl j, o_dt j).

(** 190-196: usestarter and the settings of the starter *)
Definition parse_starter (t : ptree) (j : fpopts) : cout (Z * R * R * R * Z) :=
  match get_child t ["pseudotime"; "initialization"] with
  | Some _ =>
    a <~ need (get_as rd t ["pseudotime"; "initialization"; "cfl_min"]) ;;
    b <~ need (get_as rd t ["pseudotime"; "initialization"; "cfl_max"]) ;;
    c <~ need (get_as rd t ["pseudotime"; "initialization"; "tolerance"]) ;;
    d <~ need (get_as ri t ["pseudotime"; "initialization"; "max_timesteps"]) ;;
    COut (1%Z, a, b, c, d)
  | None => COut (o_starter j, o_fcfl0 j, o_fcfl1 j, o_ftol j, o_fmaxit j)
  end.

(** 198-206: Jacobian flux, update scheme, smallest relaxation factor *)
Definition parse_impl (t : ptree) (j : fpopts) (ptype invflux : string) : cout (string * string * R) :=
  if String.eqb ptype "IMPLICIT" then
    fj <~ need (get_upper t ["Jacobian_inviscid_flux"]) ;;
    let fj := if String.eqb fj "CONSISTENT" then invflux else fj in
    nu <~ need (get_upper t ["pseudotime"; "nonlinear_update_scheme"]) ;;
    COut (fj, nu, get_def rd t ["pseudotime"; "min_nonlinear_relaxation_factor"] (1/5)%R)
  else COut ("", "", o_minnl j).

(** 60-216 parse_flow_controlfile. [j]: what the memory of the options holds before; strings and vectors are constructed empty. The
    number PI of aconstants.hpp is taken to be pi. *)
Definition parse_flow_controlfile (argc : nat) (j : fpopts) (t : ptree) (cmd : cmdline) : cout fpopts :=
  if (argc <? 2)%nat then CAbort else
  mesh <~ need (get_str t ["io"; "mesh_file"]) ;;
  let mesh := match c_mesh cmd with Some s => s | None => mesh end in
  let wlin := match c_wlin cmd with Some b => b | None => false end in
  vtu <~ need (get_str t ["io"; "solution_output_file"]) ;;
  log <~ need (get_str t ["io"; "log_file_prefix"]) ;;
  lognres <~ need (get_as rb t ["io"; "convergence_history_required"]) ;;
  flowtype <~ need (get_upper t ["flow_conditions"; "flow_type"]) ;;
  gamma <~ need (get_as rd t ["flow_conditions"; "adiabatic_index"]) ;;
  aoa <~ need (get_as rd t ["flow_conditions"; "angle_of_attack"]) ;;
  minf <~ need (get_as rd t ["flow_conditions"; "freestream_Mach_number"]) ;;
  phys <~ parse_phys t flowtype ;;
  let '(visc, Tinf, Re, Pr, cv) := phys in
  bcs <~ parse_bcs t ;;
  let lw := match get_str t ["bc"; "listof_output_wall_boundaries"] with Some s => ris s | None => [] end in
  let lo := match get_str t ["bc"; "listof_output_other_boundaries"] with Some s => ris s | None => [] end in
  surf <~ (if (0 <? List.length lo)%nat || (0 <? List.length lw)%nat then need (get_str t ["bc"; "surface_output_file_prefix"]) else COut "") ;;
  let '(vol, volreq) := match get_str t ["bc"; "volume_output_file_prefix"] with Some s => (s, "YES") | None => ("", "NO") end in
  sim <~ need (get_upper t ["time"; "simulation_type"]) ;;
  tm <~ parse_time t j sim ;;
  let '(ft, ti, tor, pc, dt) := tm in
  invflux <~ need (get_upper t ["spatial_discretization"; "inviscid_flux"]) ;;
  gm <~ need (get_upper t ["spatial_discretization"; "gradient_method"]) ;;
  let order2 := if String.eqb gm "NONE" then false else true in
  lim <~ need (get_upper t ["spatial_discretization"; "limiter"]) ;;
  ptype <~ need (get_upper t ["pseudotime"; "pseudotime_stepping_type"]) ;;
  cfl0 <~ need (get_as rd t ["pseudotime"; "main"; "cfl_min"]) ;;
  cfl1 <~ need (get_as rd t ["pseudotime"; "main"; "cfl_max"]) ;;
  tol <~ need (get_as rd t ["pseudotime"; "main"; "tolerance"]) ;;
  maxit <~ need (get_as ri t ["pseudotime"; "main"; "max_timesteps"]) ;;
  str <~ parse_starter t j ;;
  let '(us, f0, f1, ftol, fmax) := str in
  im <~ parse_impl t j ptype invflux ;;
  let '(fj, nu, mn) := im in
  let log := match c_log cmd with Some s => s | None => log end in
  COut (mkopts mesh vtu log flowtype invflux fj gm lim ptype surf vol volreq sim ti nu cfl0 cfl1 tol f0 f1 ftol minf (PI / 180 * aoa)%R Re Tinf Pr gamma
    (o_limpar j) ft dt pc mn maxit (o_ramp0 j) (o_ramp1 j) fmax (o_framp0 j) (o_framp1 j) tor bcs us lognres wlin cv visc order2 lw lo).
End Parse.

(** ** Configurations *)
(** flow_spatial.hpp 33-55 *)
Record physconf := mkphys { pc_gam : R; pc_Minf : R; pc_Tinf : R; pc_Re : xreal; pc_Pr : xreal; pc_aoa : R; pc_visc : bool; pc_cvisc : bool; pc_bc : list fbcconf }.
Record numconf := mknum { nc_flux : string; nc_jac : string; nc_grad : string; nc_rec : string; nc_par : R; nc_order2 : bool }.
(** controlparser.cpp 218-225 *)
Definition extract_spatial_physics_config (o : fpopts) : physconf :=
  mkphys (o_gam o) (o_Minf o) (o_Tinf o) (o_Re o) (o_Pr o) (o_alpha o) (o_visc o) (o_cvisc o) (o_bc o).
(** 227-232 *)
Definition extract_spatial_numerics_config (o : fpopts) : numconf := mknum (o_invflux o) (o_invfluxjac o) (o_grad o) (o_lim o) (o_limpar o) (o_order2 o).
(** 234-239 *)
Definition firstorder_spatial_numerics_config (o : fpopts) : numconf := mknum (o_invflux o) (o_invfluxjac o) "NONE" "NONE" 1 false.

(** ** Factories. A null pointer is [None]. *)
Inductive fluxk := FVanLeer | FRoe | FHLL | FHLLC | FLLF | FAUSM | FAUSMPlus.
(** afactory.cpp 30-84 *)
Definition create_inviscidflux (ty : string) : option fluxk :=
  if String.eqb ty "VANLEER" then Some FVanLeer else if String.eqb ty "ROE" then Some FRoe else if String.eqb ty "HLL" then Some FHLL
  else if String.eqb ty "HLLC" then Some FHLLC else if String.eqb ty "LLF" then Some FLLF else if String.eqb ty "AUSM" then Some FAUSM
  else if String.eqb ty "AUSMPLUS" then Some FAUSMPlus else None.
Inductive gradk := GLeastSquares | GGreenGauss | GZero.
(** afactory.cpp 102-130 *)
Definition create_gradientscheme (ty : string) : gradk :=
  if String.eqb ty "LEASTSQUARES" then GLeastSquares else if String.eqb ty "GREENGAUSS" then GGreenGauss else GZero.
(** with the parameter, for the two that take it *)
Inductive reck := RLinear | RWENO (par : R) | RVanAlbada | RBarthJespersen | RVenkatakrishnan (par : R).
(** afactory.cpp 167-214 *)
Definition create_reconstruction (ty : string) (par : R) : option reck :=
  if String.eqb ty "NONE" then Some RLinear else if String.eqb ty "WENO" then Some (RWENO par) else if String.eqb ty "VANALBADA" then Some RVanAlbada
  else if String.eqb ty "BARTHJESPERSEN" then Some RBarthJespersen else if String.eqb ty "VENKATAKRISHNAN" then Some (RVenkatakrishnan par) else None.
(** flow_spatial.cpp 33-54 and 313-338, afactory.cpp 251-267: the pieces of the scheme; [None]: the first call through a null pointer *)
Record scheme := mkscheme { sc_flux : option fluxk; sc_jac : option fluxk; sc_grad : gradk; sc_rec : option reck; sc_order2 : bool; sc_cvisc : bool }.
Definition create_flowSpatialDiscretization (p : physconf) (n : numconf) : scheme :=
  mkscheme (create_inviscidflux (nc_flux n)) (create_inviscidflux (nc_jac n)) (create_gradientscheme (nc_grad n)) (create_reconstruction (nc_rec n) (nc_par n)) (nc_order2 n) (pc_cvisc p).
(** afactory.cpp 284-294 create_const_nonlinearUpdateScheme; the constructor of FlowSimpleUpdate checks its argument (C70, M_Ode.v) *)
Inductive nluk := NFull | NRobust (minf : R).
Definition create_nonlinearUpdate (o : fpopts) : option nluk :=
  if String.eqb (o_nlu o) "FULL" then Some NFull else if String.eqb (o_nlu o) "ROBUST_FLOW" then Some (NRobust (o_minnl o)) else None.
