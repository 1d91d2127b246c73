(** Model of how boundary conditions are named, parsed and created:
    src/spatial/abctypemap.cpp, src/utilities/controlparser.cpp 241-294,
    src/spatial/abc.cpp 313-346 and 460-500. *)
From Coq Require Import Reals List String Ascii ZArith Bool.
From Verif Require Import BaseR M_Gas M_BC.
Import ListNotations.

Definition bctype_eqb (a b : bctype) : bool :=
  match a, b with
  | SLIP_WALL_BC, SLIP_WALL_BC | FARFIELD_BC, FARFIELD_BC | INFLOW_OUTFLOW_BC, INFLOW_OUTFLOW_BC
  | SUBSONIC_INFLOW_BC, SUBSONIC_INFLOW_BC | EXTRAPOLATION_BC, EXTRAPOLATION_BC
  | PERIODIC_BC, PERIODIC_BC | ISOTHERMAL_WALL_BC, ISOTHERMAL_WALL_BC
  | ADIABATIC_WALL_BC, ADIABATIC_WALL_BC => true
  | _, _ => false
  end.

(** boost::bimap<BCType,string>: a list of pairs; insert does nothing if either side is present. *)
Definition bimap := list (bctype * string).
Definition left_find (m : bimap) (t : bctype) : option string :=
  match find (fun p => bctype_eqb (fst p) t) m with Some p => Some (snd p) | None => None end.
Definition right_at (m : bimap) (s : string) : option bctype :=
  match find (fun p => String.eqb (snd p) s) m with Some p => Some (fst p) | None => None end.
Definition bm_insert (m : bimap) (t : bctype) (s : string) : bimap :=
  match left_find m t, right_at m s with
  | None, None => m ++ [(t, s)]
  | _, _ => m
  end.

(** abctypemap.cpp 16-31 createBCTypeMap *)
Definition bcTypeMap : bimap :=
  let m := bm_insert [] SLIP_WALL_BC "slipwall" in
  let m := bm_insert m ISOTHERMAL_WALL_BC "isothermalwall" in
  let m := bm_insert m ADIABATIC_WALL_BC "adiabaticwall" in
  let m := bm_insert m FARFIELD_BC "farfield" in
  let m := bm_insert m INFLOW_OUTFLOW_BC "inflowoutflow" in
  let m := bm_insert m SUBSONIC_INFLOW_BC "subsonic_inflow" in
  let m := bm_insert m EXTRAPOLATION_BC "extrapolation" in
  bm_insert m PERIODIC_BC "periodic".

(** boost::to_lower_copy in the classic locale: A-Z only. *)
Definition lower_ascii (c : ascii) : ascii :=
  let n := nat_of_ascii c in
  if ((65 <=? n) && (n <=? 90))%nat then ascii_of_nat (n + 32) else c.
Fixpoint to_lower (s : string) : string :=
  match s with EmptyString => EmptyString | String c t => String (lower_ascii c) (to_lower t) end.

(** One "bcN" section of the control file; a missing field is [None]. The text of the numeric fields is
    not modelled: they hold the value property_tree / parseStringToVector would produce. *)
Record bcsec := mkbcsec { f_type : option string; f_marker : option Z;
                          f_values : option (list R); f_options : option (list Z) }.
(** FlowBCConfig, abc.hpp 33-42 *)
Record fbcconf := mkfbc { fb_tag : Z; fb_type : bctype; fb_vals : list R; fb_opts : list Z }.

(** controlparser.cpp 257-284: the body for one section. [None]: property_tree or bimap::at throws. *)
Definition parse_sec (s : bcsec) : option fbcconf :=
  match f_type s with
  | None => None
  | Some ty =>
    match right_at bcTypeMap (to_lower ty), f_marker s with
    | Some t, Some tag =>
      let needv := bctype_eqb t ADIABATIC_WALL_BC || bctype_eqb t ISOTHERMAL_WALL_BC
                   || bctype_eqb t SUBSONIC_INFLOW_BC in
      match (if needv then f_values s else Some []) with
      | None => None
      | Some vals =>
        match (if bctype_eqb t PERIODIC_BC then f_options s else Some []) with
        | None => None
        | Some opts => Some (mkfbc tag t vals opts)
        end
      end
    | _, _ => None
    end
  end.

(** The bc section of the control file: numbered sections (the first one with a given number is
    the one property_tree finds). *)
Definition bctree := list (nat * bcsec).
Fixpoint get_sec (t : bctree) (i : nat) : option bcsec :=
  match t with [] => None | (j, s) :: r => if Nat.eqb j i then Some s else get_sec r i end.

(** controlparser.cpp 248-291 parse_BC_options: while(found). The loop is given fuel; a tree with k
    entries has at most k consecutive sections, see [parse_fuel] in Pf_BC. *)
Inductive pres := POk (l : list fbcconf) | PThrow | PFuel.
Fixpoint parse_loop (fuel : nat) (t : bctree) (ibc : nat) : pres :=
  match fuel with
  | O => PFuel
  | S f =>
    match get_sec t ibc with
    | None => POk []
    | Some s =>
      match parse_sec s with
      | None => PThrow
      | Some c => match parse_loop f t (S ibc) with POk l => POk (c :: l) | e => e end
      end
    end
  end.
Definition parse_BC_options (t : bctree) : pres := parse_loop (S (List.length t)) t 0.

(** abc.cpp 460-500 create_const_flowBCs: a std::map from markers to objects, built in order;
    operator[] overwrites. Out-of-range bc_vals is undefined behaviour, the default case throws. *)
Inductive cres := COk (m : list (Z * flowbc)) | CThrow | CUB.
Fixpoint mset (m : list (Z * flowbc)) (k : Z) (b : flowbc) : list (Z * flowbc) :=
  match m with
  | [] => [(k, b)]
  | (j, c) :: r => if Z.eqb j k then (j, b) :: r else (j, c) :: mset r k b
  end.
Fixpoint mfind (m : list (Z * flowbc)) (k : Z) : option flowbc :=
  match m with [] => None | (j, c) :: r => if Z.eqb j k then Some c else mfind r k end.

Fixpoint create_loop (uinf : st) (conf : list fbcconf) (m : list (Z * flowbc)) : cres :=
  match conf with
  | [] => COk m
  | c :: r =>
    match create_flowBC uinf (mkbcconf (fb_tag c) (fb_type c) (fb_vals c)) with
    | BcOk b => create_loop uinf r (mset m (fb_tag c) b)
    | BcThrow => CThrow
    | BcUB => CUB
    end
  end.
Definition create_const_flowBCs (uinf : st) (conf : list fbcconf) : cres := create_loop uinf conf [].

(** abc.cpp 323-346 Adiabaticwall::computeGhostStateAndJacobian, same indexing as [adia_gs] *)
Definition adia_jac (wallvel : list R) (ins : st) (n : v2) : option gsj :=
  match nth_error wallvel 1, nth_error wallvel 2 with
  | Some w1, Some w2 =>
    Some (mkgsj (mks (s0 ins) (2 * s0 ins * w1 - s1 ins) (2 * s0 ins * w2 - s2 ins) (s3 ins))
           (mkm (mks 1 0 0 0) (mks (2 * w1) (-1) 0 0) (mks (2 * w2) 0 (-1) 0) (mks 0 0 0 1)))%R
  | _, _ => None
  end.
