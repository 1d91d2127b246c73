(** Model of compute_boundary_points (mesh/mesh.cpp 101-194). Linear elements, as in M_Mesh.v. Simplifications: messages are left out; lpoin holds
    truth values. [junk] is the content of bfacebp before. None stands for an access out of bounds, among them the write to row -1 of bpointsb
    after "Point not found!". *)
From Coq Require Import List Arith ZArith Bool.
From Verif Require Import Base M_Mesh.
Import ListNotations.
Open Scope nat_scope.

(** mesh.cpp 115-124: number of points on the boundary *)
Definition count_bpoints (m : umesh) : option nat :=
  fl <- ofold (fun b fl => fl <- aset fl (b0 b) 1 ;; aset fl (b1 b) 1) (bfaces m) (aconst (npoin m) 0) ;;
  floop (npoin m) (fun p n => x <- aget fl p ;; Some (n + x)) 0.

(** bpointsb, bfacebp, lpoin, bp *)
Record bpst := mkbp { bpb : arr2 Z; fbp : arr2 nat; lpoin : arr bool; bp : nat }.

(** 161-165, 183-187: the last of the first [n] rows whose point is [p] *)
Definition find_bpoint (B : arr2 Z) (n p : nat) : option (option nat) :=
  floop n (fun i r => x <- get2 B i 0 ;; Some (if (x =? Z.of_nat p)%Z then Some i else r)) None.

(** 150-171 (first node: j = 0, column c = 2) and 172-193 (second node: j = 1, column c = 1) *)
Definition visit_point (f j c p : nat) (s : bpst) : option bpst :=
  v <- aget (lpoin s) p ;;
  if negb v then
    B <- set2 (bpb s) (bp s) 0 (Z.of_nat p) ;; B <- set2 B (bp s) c (Z.of_nat f) ;;
    F <- set2 (fbp s) f j (bp s) ;; L <- aset (lpoin s) p true ;; Some (mkbp B F L (bp s + 1))
  else
    r <- find_bpoint (bpb s) (bp s) p ;;
    match r with
    | Some i => B <- set2 (bpb s) i c (Z.of_nat f) ;; F <- set2 (fbp s) f j i ;; Some (mkbp B F (lpoin s) (bp s))
    | None => None
    end.

(** 108-194: (nbpoin, bpointsb, bfacebp) *)
Definition compute_boundary_points (junk : nat -> nat -> nat) (m : umesh) : option (nat * arr2 Z * arr2 nat) :=
  n <- count_bpoints m ;;
  s <- floop (nbface m) (fun f s => b <- nth_error (bfaces m) f ;; s <- visit_point f 0 2 (b0 b) s ;; visit_point f 1 1 (b1 b) s)
    (mkbp (const2 n 3 (-1)%Z) (mk2 (nbface m) 2 junk) (aconst (npoin m) false) 0) ;;
  Some (n, bpb s, fbp s).
