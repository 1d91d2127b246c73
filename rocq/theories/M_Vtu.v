(** Model of the VTU writers (spatial/aoutput.cpp 301-615). Simplifications: the file is the record of the numbers written between its tags
    instead of the text of tags and numbers; precision and formatting of numbers and messages are left out. None stands for an access out of bounds.
    The mesh is that of M_Gmsh.v. *)
From Coq Require Import List Arith ZArith Bool String.
From Verif Require Import Base M_Gmsh.
Import ListNotations.
Open Scope nat_scope.

Section Vtu.
Context {C : Type} (c0 : C).

(** one DataArray of cell or point data: name, number of components (1 where the code states none) and values *)
Record varray := mkva { va_name : string; va_ncomp : nat; va_vals : list C }.
(** numbers of points and cells, names in the attributes Scalars and Vectors, data, points, connectivity, offsets, types *)
Record vtu := mkvtu { v_npoin : nat; v_ncell : nat; v_scal : option string; v_vect : option string; v_data : list varray;
  v_pts : list C; v_conn : list Z; v_off : list Z; v_ty : list Z }.

(** 381-389, 405-413, 507-515, 531-539 *)
Definition elemcode (n : nat) : Z := if n =? 4 then 9 else if n =? 6 then 22 else if n =? 8 then 23 else if n =? 9 then 28 else 5.
(** 595-603 *)
Definition elemcode_mesh (n : nat) : Z := if n =? 4 then 9 else if n =? 6 then 22 else if n =? 8 then 23 else if n =? 9 then 23 else 5.

(** 360-372, 486-498, 570-575 *)
Definition v_points (m : gmesh C) : option (list C) :=
  l <- olist (g_npoin m) (fun i => x <- get2 (g_coords m) i 0 ;; y <- get2 (g_coords m) i 1 ;; Some [x; y; c0]) ;; Some (List.concat l).
(** 377-394, 503-520, 580-586 *)
Definition v_connect (m : gmesh C) : option (list Z) :=
  l <- olist (g_nelem m) (fun i => n <- aget (g_nnode m) i ;; olist n (fun j => get2 (g_inpoel m) i j)) ;; Some (List.concat l).
(** 397-401, 523-527 *)
Definition v_offsets (m : gmesh C) : option (list Z) :=
  '(l, _) <- floop (g_nelem m) (fun i s => let '(l, tot) := s in n <- aget (g_nnode m) i ;; let tot := tot + n in Some (l ++ [Z.of_nat tot], tot)) ([], 0) ;; Some l.
(** 589-590 *)
Definition v_offsets_mesh (m : gmesh C) : option (list Z) := olist (g_nelem m) (fun i => n <- aget (g_nnode m) i ;; Some (Z.of_nat (n * (i + 1)))).
(** 404-415, 530-541; 593-605 *)
Definition v_types (code : nat -> Z) (m : gmesh C) : option (list Z) := olist (g_nelem m) (fun i => n <- aget (g_nnode m) i ;; Some (code n)).

(** 329-339, 455-465: one array per column, [n] rows of it *)
Definition v_scalars (n : nat) (x : arr2 C) (names : list string) : option (list varray) :=
  if rows x * cols x =? 0 then Some [] else
  olist (cols x) (fun k => s <- nth_error names k ;; vs <- olist n (fun i => get2 x i k) ;; Some (mkva s 1 vs)).
(** 342-355, 468-481: two columns are completed by a zero *)
Definition v_vectors (n : nat) (y : arr2 C) (name : string) : option (list varray) :=
  if rows y * cols y =? 0 then Some [] else
  l <- olist n (fun i => r <- olist (cols y) (fun d => get2 y i d) ;; Some (r ++ if cols y =? 2 then [c0] else [])) ;; Some [mkva name 3 (List.concat l)].
(** 319-326, 445-452 *)
Definition v_attr (x : arr2 C) (s : option string) : option (option string) :=
  if rows x * cols x =? 0 then Some None else match s with Some s => Some (Some s) | None => None end.

(** 301-425 (n = number of cells) and 427-551 (n = number of points), which differ in nothing else but the tag name *)
Definition writeVtuData (n : nat) (m : gmesh C) (x : arr2 C) (names : list string) (y : arr2 C) (vecname : string) : option vtu :=
  a <- v_attr x (nth_error names 0) ;; b <- v_attr y (Some vecname) ;;
  ds <- v_scalars n x names ;; dv <- v_vectors n y vecname ;;
  p <- v_points m ;; c <- v_connect m ;; o <- v_offsets m ;; t <- v_types elemcode m ;;
  Some (mkvtu (g_npoin m) (g_nelem m) a b (ds ++ dv) p c o t).
Definition writeScalarsVectorToVtu_CellData (m : gmesh C) := writeVtuData (g_nelem m) m.
Definition writeScalarsVectorToVtu_PointData (m : gmesh C) := writeVtuData (g_npoin m) m.

(** 557-615 *)
Definition writeMeshToVtu (m : gmesh C) : option vtu :=
  p <- v_points m ;; c <- v_connect m ;; o <- v_offsets_mesh m ;; t <- v_types elemcode_mesh m ;;
  Some (mkvtu (g_npoin m) (g_nelem m) None None [] p c o t).
End Vtu.
