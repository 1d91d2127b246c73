(** Model of compareMeshes (mesh/ameshutils.cpp 197-245). Simplifications: as in M_Mesh.v nnode and nfael are the lengths of the node lists, so that
    the fifth flag is never reset; the number of boundary tags is the length of the tag list of the row. None stands for a read out of bounds. *)
From Coq Require Import List Arith ZArith Bool Reals.
From Verif Require Import Base BaseR M_Mesh.
Import ListNotations.
Open Scope nat_scope.

(** for(j = 0; j < n; j++) if(d(j)) { flag = false; break; } : whether a difference was found *)
Definition rowdiff (n : nat) (d : nat -> option bool) : option bool :=
  r <- ofind_from n 0 d ;; Some (match r with Some _ => true | None => false end).

(** bface(i,j): two nodes, then tags *)
Definition bface_at (m : umesh) (i j : nat) : option Z :=
  b <- nth_error (bfaces m) i ;; match j with 0 => Some (Z.of_nat (b0 b)) | 1 => Some (Z.of_nat (b1 b)) | S (S k) => nth_error (btg b) k end.
(** coords(i,j) *)
Definition coord_at (X : arr v2) (i j : nat) : option R := x <- aget X i ;; Some (if j =? 0 then vx x else vy x).

(** 209-224: state: flag 3, flag 5, left the loop *)
Definition cmp_cell (m1 m2 : umesh) (i : nat) (s : bool * bool * bool) : option (bool * bool * bool) :=
  let '(e3, e5, stop) := s in
  if stop then Some s else
  n1 <- nnode m1 i ;; n2 <- nnode m2 i ;;
  if negb (n1 =? n2) then Some (false, e5, true) else
  d <- rowdiff n1 (fun j => a <- inpoel m1 i j ;; b <- inpoel m2 i j ;; Some (negb (a =? b))) ;;
  Some (e3, if d then false else e5, false).
(** 225-232 *)
Definition cmp_point (eps : R) (X1 X2 : arr v2) (i : nat) (e7 : bool) : option bool :=
  d <- rowdiff 2 (fun j => a <- coord_at X1 i j ;; b <- coord_at X2 i j ;; Some (if Rlt_dec eps (Rabs (a - b)) then true else false)) ;;
  Some (if d then false else e7).
(** 234-239: nbtag is that of the first mesh *)
Definition cmp_bface (nbtag : nat) (m1 m2 : umesh) (i : nat) (e6 : bool) : option bool :=
  d <- rowdiff (2 + nbtag) (fun j => a <- bface_at m1 i j ;; b <- bface_at m2 i j ;; Some (negb (a =? b)%Z)) ;;
  Some (if d then false else e6).

(** 197-245 *)
Definition compareMeshes (eps : R) (nbtag : nat) (m1 : umesh) (X1 : arr v2) (m2 : umesh) (X2 : arr v2) : option (list bool) :=
  '(e3, e5, _) <- floop (nelem m1) (cmp_cell m1 m2) (true, true, false) ;;
  e7 <- floop (npoin m1) (cmp_point eps X1 X2) true ;;
  e6 <- floop (nbface m1) (cmp_bface nbtag m1 m2) true ;;
  Some [nelem m1 =? nelem m2; npoin m1 =? npoin m2; nbface m1 =? nbface m2; e3; true; e5; e6; e7].
