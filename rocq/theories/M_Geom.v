(** Model of the geometry routines of src/mesh/mesh.cpp. Reals for floats; coordinates are an array
    of plane points (gcoords(p,0), gcoords(p,1)). *)
From Coq Require Import Reals List Arith.
From Verif Require Import Base BaseR M_Mesh.
Import ListNotations.
Open Scope R_scope.

(** One row of facemetric (mesh.hpp 434-438): unit normal and length. *)
Record fmet := mkfm { fm_n : v2; fm_len : R }.

(** mesh.cpp 354-359, one face with end points [a] (column 2 of intfac) and [b] (column 3). *)
Definition face_metric (a b : v2) : fmet :=
  let n0 := vy b - vy a in
  let n1 := -1 * (vx b - vx a) in
  let len := sqrt (n0 ^ 2 + n1 ^ 2) in
  mkfm (mkv (n0 / len) (n1 / len)) len.

(** mesh.cpp 346-365 compute_face_data; [jm] is the uninitialised contents of facemetric. *)
Definition compute_face_data (X : arr v2) (F : arr face) (jm : nat -> fmet) : option (arr fmet) :=
  floop (alen F) (fun i M =>
    fc <- aget F i ;; a <- aget X (f_a fc) ;; b <- aget X (f_b fc) ;;
    aset M i (face_metric a b)) (mkarr (alen F) jm).

(** mesh.cpp 297-300 *)
Definition tri_area (p0 p1 p2 : v2) : R :=
  (1/2) * (vx p0 * (vy p1 - vy p2) - vy p0 * (vx p1 - vx p2) + vx p1 * vy p2 - vx p2 * vy p1).
(** mesh.cpp 290-313 compute_areas; [ja]: cells with other node counts keep what resize left. *)
Definition compute_areas (m : umesh) (X : arr v2) (ja : nat -> R) : option (arr R) :=
  floop (nelem m) (fun i A =>
    n <- nnode m i ;;
    let pt j := v <- inpoel m i j ;; aget X v in
    if (n =? 3)%nat then
      p0 <- pt 0%nat ;; p1 <- pt 1%nat ;; p2 <- pt 2%nat ;; aset A i (tri_area p0 p1 p2)
    else if (n =? 4)%nat then
      p0 <- pt 0%nat ;; p1 <- pt 1%nat ;; p2 <- pt 2%nat ;; p3 <- pt 3%nat ;;
      A' <- aset A i (tri_area p0 p1 p2) ;;
      x <- aget A' i ;; aset A' i (x + tri_area p0 p2 p3)
    else Some A) (mkarr (nelem m) ja).

(** mesh.cpp 316-328 compute_cell_centres (both coordinates of one cell at once) *)
Definition compute_cell_centres (m : umesh) (X : arr v2) (jc : nat -> v2) : option (arr v2) :=
  floop (nelem m) (fun i C =>
    n <- nnode m i ;;
    C0 <- aset C i vzero ;;
    C1 <- floop n (fun j C => v <- inpoel m i j ;; p <- aget X v ;; c <- aget C i ;; aset C i (vadd c p)) C0 ;;
    c <- aget C1 i ;; aset C1 i (mkv (vx c / INR n) (vy c / INR n))) (mkarr (nelem m) jc).
