(** Model of readSU2 (mesh/meshreaders.cpp 267-395). A file is a list of tokens: words, integers, numbers with a fraction, equality signs and ends
    of lines. Simplifications: as in M_Gmsh.v numbers are tokens; white space other than ends of lines is left out. None stands for an exception
    of std::stoi, a read of an integer where none stands (the code goes on with a failed stream) and accesses out of bounds. [junk..] is the
    content of uninitialised storage. Messages are left out; the number of dimensions only leads to a message. *)
From Coq Require Import List Arith ZArith Bool String.
From Verif Require Import Base M_Gmsh.
Import ListNotations.
Open Scope nat_scope.

Section SU2.
Context {C : Type} (inj : Z -> C).

Inductive stok := SW (s : string) | SZ (z : Z) | SC (c : C) | SEq | SNl.

(** std::getline(fin, dum, '=') *)
Fixpoint after_eq (l : list stok) : option (list stok) :=
  match l with [] => None | SEq :: r => Some r | _ :: r => after_eq r end.
(** std::getline(fin, dum) *)
Fixpoint after_nl (l : list stok) : list stok :=
  match l with [] => [] | SNl :: r => r | _ :: r => after_nl r end.
(** 275-276, 282-283, ...: the integer after the next equality sign, then the rest of the line *)
Definition field (l : list stok) : option (Z * list stok) :=
  r <- after_eq l ;; match r with SZ z :: _ => Some (z, after_nl r) | _ => None end.
Definition fieldN (l : list stok) : option (nat * list stok) :=
  '(z, r) <- field l ;; if (z <? 0)%Z then None else Some (Z.to_nat z, r).
(** fin >> of an integer and of a coordinate *)
Fixpoint rd_z (l : list stok) : option (Z * list stok) :=
  match l with SNl :: r => rd_z r | SZ z :: r => Some (z, r) | _ => None end.
Fixpoint rd_c (l : list stok) : option (C * list stok) :=
  match l with SNl :: r => rd_c r | SZ z :: r => Some (inj z, r) | SC c :: r => Some (c, r) | _ => None end.

(** 296-308: nodes per cell by element type; for another type the value is the 0 left by resize *)
Definition su2_nodes (id : Z) : nat := if (id =? 5)%Z then 3 else if (id =? 9)%Z then 4 else 0.
(** 292-315: one cell *)
Definition rd_cell (i : nat) (s : arr2 Z * arr nat * list stok) : option (arr2 Z * arr nat * list stok) :=
  let '(Ip, nn, l) := s in
  '(id, l) <- rd_z l ;; let k := su2_nodes id in
  nn <- aset nn i k ;;
  '(Ip, l) <- floop k (fun j s => let '(Ip, l) := s in '(z, l) <- rd_z l ;; Ip <- set2 Ip i j z ;; Some (Ip, l)) (Ip, l) ;;
  '(_, l) <- rd_z l ;; Some (Ip, nn, l).
(** 328-334: one point *)
Definition rd_point (i : nat) (s : arr2 C * list stok) : option (arr2 C * list stok) :=
  let '(X, l) := s in
  '(x, l) <- rd_c l ;; X <- set2 X i 0 x ;; '(y, l) <- rd_c l ;; X <- set2 X i 1 y ;; '(_, l) <- rd_z l ;; Some (X, l).
(** 364-371: one boundary face *)
Definition rd_face (_ : nat) (s : list (Z * Z) * list stok) : option (list (Z * Z) * list stok) :=
  let '(fs, l) := s in '(_, l) <- rd_z l ;; '(a, l) <- rd_z l ;; '(b, l) <- rd_z l ;; Some (fs ++ [(a, b)], l).
(** 353-376: one marker; bfacs[ib] together with tags[ib] *)
Definition rd_marker (nb ib : nat) (s : list (Z * list (Z * Z)) * list stok) : option (list (Z * list (Z * Z)) * list stok) :=
  let '(ms, l) := s in
  '(tag, l) <- field l ;; '(n, l) <- fieldN l ;;
  '(fs, l) <- floop n rd_face ([], l) ;;
  Some (ms ++ [(tag, fs)], if ib <? nb - 1 then after_nl l else l).
(** 386-392: one row of bface *)
Definition put_face (tag : Z) (f : Z * Z) (s : arr2 Z * nat) : option (arr2 Z * nat) :=
  let '(B, k) := s in B <- set2 B k 0 (fst f) ;; B <- set2 B k 1 (snd f) ;; B <- set2 B k 2 tag ;; Some (B, k + 1).

(** 267-395. nnofa is set in the loop over the markers only ([junkn] is its value before); vol_regions keeps the default size 0. *)
Definition readSU2 (junkI junkB : nat -> nat -> Z) (junkC : nat -> nat -> C) (junkn : nat) (file : list stok) : option (gmesh C) :=
  '(_, l) <- field file ;;
  '(ne, l) <- fieldN l ;;
  '(Ip, nn, l) <- floop ne rd_cell (mk2 ne 4 junkI, aconst ne 0, l) ;;
  let l := after_nl l in
  '(np, l) <- fieldN l ;;
  '(X, l) <- floop np rd_point (mk2 np 2 junkC, l) ;;
  let l := after_nl l in
  '(nb, l) <- fieldN l ;;
  '(ms, _) <- floop nb (rd_marker nb) ([], l) ;;
  let nbf := list_sum (map (fun m => List.length (snd m)) ms) in
  let nofa := if nb =? 0 then junkn else 2 in
  '(B, _) <- ofold (fun m s => ofold (put_face (fst m)) (snd m) s) ms (mk2 nbf (nofa + 1) junkB, 0) ;;
  Some (mkg np X nbf ne nn nn 4 4 nofa 1 0 Ip B (mk2 0 0 (fun _ _ => 0%Z))).
End SU2.
Arguments stok : clear implicits.
