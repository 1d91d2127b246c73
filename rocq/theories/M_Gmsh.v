(** Model of UMesh::writeGmsh2 (mesh/mesh.cpp 204-287) and readGmsh2 (mesh/meshreaders.cpp 66-265).
    A file is a list of lines, a line a list of tokens. Simplifications: numbers are tokens, that is, writing a number and reading it back gives the
    same number (coordinates are written with 20 significant digits); a token of the wrong kind or the end of the file where a value is expected
    gives None (the code goes on with a failed stream). None also stands for accesses out of bounds. [junk] is the content of
    uninitialised storage. Messages to standard output are left out. *)
From Coq Require Import List Arith ZArith Bool String.
From Verif Require Import Base.
Import ListNotations.
Open Scope nat_scope.

Section Gmsh.
Context {C : Type} (c0 : C).

Inductive tok := TS (s : string) | TZ (z : Z) | TC (c : C).
(** members of MeshData (mesh/meshreaders.hpp) and UMesh *)
Record gmesh := mkg { g_npoin : nat; g_coords : arr2 C; g_nbface : nat; g_nelem : nat; g_nnode : arr nat; g_nfael : arr nat;
  g_maxnnode : nat; g_maxnfael : nat; g_nnofa : nat; g_nbtag : nat; g_ndtag : nat; g_inpoel : arr2 Z; g_bface : arr2 Z; g_regions : arr2 Z }.

(** lines produced by a loop *)
Definition olist {A} (n : nat) (f : nat -> option A) : option (list A) := floop n (fun i l => x <- f i ;; Some (l ++ [x])) [].

(** mesh.cpp 245-260: one boundary record *)
Definition w_bface (m : gmesh) (i : nat) : option (list tok) :=
  let nbtagout := if g_nbtag m <? 2 then 2 else g_nbtag m in
  let face_type := if g_nnofa m =? 3 then 8%Z else 1%Z in
  tags <- olist (g_nbtag m) (fun k => z <- get2 (g_bface m) i (g_nnofa m + k) ;; Some (TZ z)) ;;
  extra <- olist (nbtagout - g_nbtag m) (fun _ => if g_nbtag m =? 0 then Some (TZ 1%Z) else z <- get2 (g_bface m) i (g_nnofa m + g_nbtag m - 1) ;; Some (TZ (1 + z)%Z)) ;;
  nodes <- olist (g_nnofa m) (fun k => z <- get2 (g_bface m) i k ;; Some (TZ (z + 1)%Z)) ;;
  Some ([TZ (Z.of_nat i + 1); TZ face_type; TZ (Z.of_nat nbtagout)] ++ tags ++ extra ++ nodes).
(** mesh.cpp 262-272: the element type keeps its previous value for other numbers of nodes *)
Definition elm_type (n : nat) (old : Z) : Z :=
  if n =? 3 then 2%Z else if n =? 4 then 3%Z else if n =? 6 then 9%Z else if n =? 8 then 16%Z else if n =? 9 then 10%Z else old.
(** mesh.cpp 262-285: one cell record *)
Definition w_cell (m : gmesh) (i : nat) (ty : Z) : option (list tok) :=
  let ndtagout := if g_ndtag m <? 2 then 2 else g_ndtag m in
  n <- aget (g_nnode m) i ;;
  tags <- olist (g_ndtag m) (fun k => z <- get2 (g_regions m) i k ;; Some (TZ z)) ;;
  extra <- olist (ndtagout - g_ndtag m) (fun _ => if g_ndtag m =? 0 then Some (TZ 1%Z) else z <- get2 (g_regions m) i (g_ndtag m - 1) ;; Some (TZ (1 + z)%Z)) ;;
  nodes <- olist n (fun k => z <- get2 (g_inpoel m) i k ;; Some (TZ (z + 1)%Z)) ;;
  Some ([TZ (Z.of_nat (g_nbface m + i) + 1); TZ ty; TZ (Z.of_nat ndtagout)] ++ tags ++ extra ++ nodes).
Definition w_point (m : gmesh) (i : nat) : option (list tok) :=
  x <- get2 (g_coords m) i 0 ;; y <- get2 (g_coords m) i 1 ;; Some [TZ (Z.of_nat i + 1); TC x; TC y; TC c0].
Definition writeGmsh2 (m : gmesh) : option (list (list tok)) :=
  pts <- olist (g_npoin m) (w_point m) ;;
  bfs <- olist (g_nbface m) (w_bface m) ;;
  '(cls, _) <- floop (g_nelem m) (fun i s => let '(l, ty) := s in n <- aget (g_nnode m) i ;; let ty := elm_type n ty in x <- w_cell m i ty ;; Some (l ++ [x], ty)) ([], 2%Z) ;;
  Some ([[TS "$MeshFormat"]; [TS "2.2 0 8"]; [TS "$EndMeshFormat"]; [TS "$Nodes"]; [TZ (Z.of_nat (g_npoin m))]] ++ pts ++ [[TS "$EndNodes"]]
    ++ [[TS "$Elements"]; [TZ (Z.of_nat (g_nelem m + g_nbface m))]] ++ bfs ++ cls ++ [[TS "$EndElements"]]).

(** infile >> of an integer, a coordinate, a word *)
Definition rdZ (l : list tok) : option (Z * list tok) := match l with TZ z :: r => Some (z, r) | _ => None end.
Definition rdC (l : list tok) : option (C * list tok) := match l with TC c :: r => Some (c, r) | _ => None end.
Definition rdS (l : list tok) : option (list tok) := match l with TS _ :: r => Some r | _ => None end.
Definition rdN (l : list tok) : option (nat * list tok) := '(z, r) <- rdZ l ;; if (z <? 0)%Z then None else Some (Z.to_nat z, r).

(** meshreaders.cpp 117-206: per element type: boundary face or not, number of nodes, number of faces, nnofa *)
Definition etype (t : Z) : bool * nat * nat * nat :=
  match t with 1%Z => (true, 2, 0, 2) | 8%Z => (true, 3, 0, 3) | 2%Z => (false, 3, 3, 2) | 3%Z => (false, 4, 4, 2)
  | 9%Z => (false, 6, 3, 3) | 16%Z => (false, 8, 4, 3) | 10%Z => (false, 9, 4, 3) | _ => (false, 3, 3, 2) end.
Record rstate := mkrs { r_elms : arr2 Z; r_nnodes : arr nat; r_nfaels : arr nat; r_nnofa : nat; r_nbface : nat; r_nelem : nat; r_nbtag : nat; r_ndtag : nat; r_toks : list tok }.
(** meshreaders.cpp 107-207: one record *)
Definition rd_record (i : nat) (s : rstate) : option rstate :=
  '(_, l) <- rdZ (r_toks s) ;; '(t, l) <- rdZ l ;;
  let '(edge, nn, nf, nofa) := etype t in
  nns <- (if edge then Some (r_nnodes s) else aset (r_nnodes s) i nn) ;;
  nfs <- (if edge then Some (r_nfaels s) else aset (r_nfaels s) i nf) ;;
  '(nt, l) <- rdZ l ;; let nt := Z.to_nat nt in
  '(E, l) <- floop nt (fun j s => let '(E, l) := s in '(z, l) <- rdZ l ;; E <- set2 E i (j + nn) z ;; Some (E, l)) (r_elms s, l) ;;
  '(E, l) <- floop nn (fun j s => let '(E, l) := s in '(z, l) <- rdZ l ;; E <- set2 E i j z ;; Some (E, l)) (E, l) ;;
  Some (if edge then mkrs E nns nfs nofa (r_nbface s + 1) (r_nelem s) (if r_nbtag s <? nt then nt else r_nbtag s) (r_ndtag s) l
        else mkrs E nns nfs nofa (r_nbface s) (r_nelem s + 1) (r_nbtag s) (if r_ndtag s <? nt then nt else r_ndtag s) l).
(** meshreaders.cpp 66-265 *)
Definition readGmsh2 (junkE junkI junkB junkR : nat -> nat -> Z) (junkC : nat -> nat -> C) (junkn : nat) (bface0 : arr2 Z) (file : list (list tok)) : option gmesh :=
  let l := List.concat (skipn 4 file) in
  '(np, l) <- rdN l ;;
  '(X, l) <- floop np (fun i s => let '(X, l) := s in '(_, l) <- rdZ l ;; '(x, l) <- rdC l ;; X <- set2 X i 0 x ;; '(y, l) <- rdC l ;; X <- set2 X i 1 y ;; '(_, l) <- rdC l ;; Some (X, l)) (mk2 np 2 junkC, l) ;;
  l <- rdS l ;; l <- rdS l ;; '(nelm, l) <- rdN l ;;
  s <- floop nelm rd_record (mkrs (mk2 nelm 25 junkE) (aconst nelm 0) (aconst nelm 0) junkn 0 0 0 0 l) ;;
  mn0 <- aget (r_nnodes s) (r_nbface s) ;; mf0 <- aget (r_nfaels s) (r_nbface s) ;;
  mn <- floop nelm (fun i mn => n <- aget (r_nnodes s) i ;; Some (if mn <? n then n else mn)) mn0 ;;
  mf <- floop nelm (fun i mf => n <- aget (r_nfaels s) i ;; Some (if mf <? n then n else mf)) mf0 ;;
  let nofa := r_nnofa s in
  let B0 := if 0 <? r_nbface s then mk2 (r_nbface s) (nofa + r_nbtag s) junkB else bface0 in
  B <- floop (r_nbface s) (fun i B =>
         B <- floop nofa (fun j B => z <- get2 (r_elms s) i j ;; set2 B i j (z - 1)%Z) B ;;
         frange nofa (nofa + r_nbtag s) (fun j B => z <- get2 (r_elms s) i j ;; set2 B i j z) B) B0 ;;
  '(Ip, Rg, nn, nf) <- floop (r_nelem s) (fun i st => let '(Ip, Rg, nn, nf) := st in
         k <- aget (r_nnodes s) (i + r_nbface s) ;; kf <- aget (r_nfaels s) (i + r_nbface s) ;;
         Ip <- floop k (fun j Ip => z <- get2 (r_elms s) (i + r_nbface s) j ;; set2 Ip i j (z - 1)%Z) Ip ;;
         Ip <- frange k mn (fun j Ip => set2 Ip i j (-1)%Z) Ip ;;
         Rg <- floop (r_ndtag s) (fun j Rg => z <- get2 (r_elms s) (i + r_nbface s) (j + k) ;; set2 Rg i j z) Rg ;;
         Some (Ip, Rg, nn ++ [k], nf ++ [kf])) (mk2 (r_nelem s) mn junkI, mk2 (r_nelem s) (r_ndtag s) junkR, [], []) ;;
  Some (mkg np X (r_nbface s) (r_nelem s) (mkarr (List.length nn) (fun i => nth i nn 0)) (mkarr (List.length nf) (fun i => nth i nf 0)) mn mf nofa (r_nbtag s) (r_ndtag s) Ip B Rg).
End Gmsh.
Arguments tok : clear implicits. Arguments gmesh : clear implicits.
