(** Model of compute_ghost_cell_coords_about_face (src/spatial/aspatial.cpp 121-173): ghost cell centres by reflection about the boundary faces.
    The constructor calls it only in a commented-out line (70); it is a member other code may call.

    Simplifications: real numbers for floats; a division by zero has no value ([None]). *)
From Coq Require Import Reals List Arith Bool.
From Verif Require Import Base BaseR M_Mesh M_Geom M_Space M_Recon.
Open Scope R_scope.

(** aconstants.hpp 29 *)
Definition A_SMALL_NUMBER : R := / 10 ^ 12.

(** aspatial.cpp 136-171: the centre written for a face from [a] to [b] with normal [n] of a cell with centre [c] *)
Definition about_face (n a b c : v2) : option v2 :=
  s <- (if Rlt_dec A_SMALL_NUMBER (Rabs (vx n)) then
          if Rlt_dec A_SMALL_NUMBER (Rabs (vy n)) then
            q <- rdiv (vy n) (vx n) ;; sl <- rdiv (vy b - vy a) (vx b - vx a) ;;
            xs <- rdiv (vy c - vy a - q * vx c + sl * vx a) (sl - q) ;;
            Some (mkv xs (vy a + sl * (xs - vx a)))
          else Some (mkv (vx a) (vy c))
        else Some (mkv (vx c) (vy a))) ;;
  Some (mkv (2 * vx s - vx c) (2 * vy s - vy c)).

(** aspatial.cpp 125-173; [rchg]: the array passed in, with one row per boundary face *)
Definition ghost_about_face (X : arr v2) (F : arr face) (M : arr fmet) (rc : arr v2) (nb : nat) (rchg : arr v2) : option (arr v2) :=
  floop nb (fun k G =>
    fc <- aget F k ;; fm <- aget M k ;; c <- aget rc (f_left fc) ;; a <- aget X (f_a fc) ;; b <- aget X (f_b fc) ;;
    p <- about_face (fm_n fm) a b c ;; aset G k p) rchg.
