(** Model of readMesh (mesh/meshreaders.cpp 35-64) and of the program that converts mesh files (utilities/convertformat.cpp).
    A file system gives to a name the content of the file, seen by each reader as its own tokens (M_SU2.v, M_Gmsh.v).
    Simplifications: the file to write can be opened; messages are left out. [None]: a string made from a null pointer or from beyond the end of argv,
    and what has no value in the readers and writers. *)
From Coq Require Import List Arith ZArith Bool String Ascii.
From Verif Require Import Base M_Gmsh M_SU2 M_Vtu.
Import ListNotations.
Open Scope nat_scope.

(** boost::split(parts, s, is_any_of(".")): one part more than there are dots *)
Fixpoint split_dots (s : string) : list string :=
  match s with
  | EmptyString => [EmptyString]
  | String c r => if Ascii.eqb c "." then EmptyString :: split_dots r
                  else match split_dots r with p :: ps => String c p :: ps | [] => [String c EmptyString] end
  end.

Section Conv.
Context {C : Type} (c0 : C) (inj : Z -> C).
Record fcont := mkfc { fc_su2 : list (stok C); fc_msh : list (list (tok C)) }.
(** contents of uninitialised storage *)
Record cjunk := mkcj { j_sI : nat -> nat -> Z; j_sB : nat -> nat -> Z; j_sC : nat -> nat -> C; j_sn : nat;
  j_E : nat -> nat -> Z; j_I : nat -> nat -> Z; j_B : nat -> nat -> Z; j_R : nat -> nat -> Z; j_C : nat -> nat -> C; j_n : nat; j_b0 : arr2 Z }.
(** a program ends with a code, or open_file_toRead (aerrorhandling.cpp 43-50) calls abort *)
Inductive outcome A := Done (a : A) | Aborted.
Arguments Done {A}. Arguments Aborted {A}.

(** meshreaders.cpp 35-64 *)
Definition readMesh (j : cjunk) (fs : string -> option fcont) (name : string) : option (outcome (gmesh C)) :=
  let parts := split_dots name in
  e <- nth_error parts (List.length parts - 1) ;;
  match fs name with
  | None => Some Aborted
  | Some t => g <- (if String.eqb e "su2" then readSU2 inj (j_sI j) (j_sB j) (j_sC j) (j_sn j) (fc_su2 t)
                    else readGmsh2 (j_E j) (j_I j) (j_B j) (j_R j) (j_C j) (j_n j) (j_b0 j) (fc_msh t)) ;; Some (Done g)
  end.

Inductive written := WMsh (l : list (list (tok C))) | WVtu (v : vtu (C := C)).
(** convertformat.cpp 9-33: exit code and the file written. Line 11-13 prints a message for fewer than 4 arguments and goes on. The constructor of UMesh
    (mesh.cpp 41-47) copies what was read. *)
Definition convert (j : cjunk) (fs : string -> option fcont) (argv : list string) : option (outcome (Z * option (string * written))) :=
  _ <- nth_error argv 1 ;; inmesh <- nth_error argv 1 ;; outmesh <- nth_error argv 2 ;; outformat <- nth_error argv 3 ;;
  r <- readMesh j fs inmesh ;;
  match r with
  | Aborted => Some Aborted
  | Done g =>
    if String.eqb outformat "msh" then l <- writeGmsh2 c0 g ;; Some (Done (0%Z, Some (outmesh, WMsh l)))
    else if String.eqb outformat "vtu" then v <- writeMeshToVtu c0 g ;; Some (Done (0%Z, Some (outmesh, WVtu v)))
    else Some (Done ((-1)%Z, None))
  end.
End Conv.
Arguments fcont : clear implicits. Arguments cjunk : clear implicits. Arguments written : clear implicits.
Arguments Done {A}. Arguments Aborted {A}.
