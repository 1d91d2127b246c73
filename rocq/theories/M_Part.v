(** Model of src/mesh/meshpartitioning.cpp. The global mesh is replicated on every rank; every function is what one
    rank executes. MPI rank numbers are natural numbers; output and the debug-only checks are dropped. *)
From Coq Require Import Reals List Arith ZArith Bool.
From Verif Require Import Base BaseR M_Mesh.
Import ListNotations.
Open Scope nat_scope.

(** 15-22: the constructor throws when there are more ranks than cells *)
Definition partitioner_ctor (nelem mpisize : nat) : exc unit := if nelem <? mpisize then Exn else Val tt.

(** 354-367 TrivialReplicatedGlobalMeshPartitioner::compute_partition; [je] is what resize leaves. Division by zero is UB. *)
Definition trivial_partition (nelem nranks : nat) (je : nat -> nat) : option (arr nat) :=
  if nranks =? 0 then None else
  let init := nelem / nranks in
  d1 <- floop nranks (fun irank d =>
          frange (irank * init) ((irank + 1) * init) (fun iel d => aset d iel irank) d) (mkarr nelem je) ;;
  frange (nranks * init) nelem (fun iel d => aset d iel (nranks - 1)) d1.

(** What the partitioner reads of the global mesh: the mesh, the arrays built by compute_topological, coordinates and region tags. *)
Record gmesh := mkgm { g_m : umesh; g_t : fconn; g_X : arr v2; g_regs : arr (list Z) }.

(** The restricted mesh: UMesh fields set by restrictMeshToPartitions; [l_p2g] is pointLoc2Glob. *)
Record lmesh := mklm { l_m : umesh; l_X : arr v2; l_regs : arr (list Z); l_eglob : arr nat; l_p2g : list nat }.

(** 29-32 *)
Definition count_local (gm : umesh) (dist : arr nat) (rank : nat) : option nat :=
  floop (nelem gm) (fun iel c => d <- aget dist iel ;; Some (if d =? rank then c + 1 else c)) 0.

(** 161-182 extractInpoel. Rows of inpoel with nnode, nfael together; [jc], [jr], [ji]: fresh memory. Returns
    cells, region tags and elemLoc2Glob. *)
Definition extractInpoel (g : gmesh) (dist : arr nat) (rank ln : nat) (jc : nat -> list nat) (jr : nat -> list Z) (ji : nat -> nat)
    : option (arr (list nat) * arr (list Z) * arr nat) :=
  s <- floop (nelem (g_m g)) (fun iel s =>
    d <- aget dist iel ;;
    if d =? rank then
      let '(k, (C, Rg, L)) := s in
      L' <- aset L k iel ;;
      c <- nth_error (cells (g_m g)) iel ;; C' <- aset C k c ;;
      r <- aget (g_regs g) iel ;; R' <- aset Rg k r ;;
      Some (k + 1, (C', R', L'))
    else Some s) (0, (mkarr ln jc, mkarr ln jr, mkarr ln ji)) ;;
  Some (snd s).

(** std::unique followed by erase *)
Fixpoint unique (l : list nat) : list nat :=
  match l with
  | x :: ((y :: _) as r) => if x =? y then unique r else x :: unique r
  | _ => l
  end.
(** std::map<fint,fint> built by assignment: newest binding first; at() throws if there is none *)
Fixpoint map_at (mp : list (nat * nat)) (k : nat) : exc nat :=
  match mp with [] => Exn | (a, b) :: r => if k =? a then Val b else map_at r k end.

(** 184-223 extractPointCoords: (locpoints, map, coordinates); [jx] fresh memory. The while loop runs over globpointer and does nothing once
    locpointer reaches the end. *)
Definition extractPointCoords (g : gmesh) (C : arr (list nat)) (jx : nat -> v2)
    : option (list nat * list (nat * nat) * arr v2) :=
  l0 <- floop (alen C) (fun iel l => c <- aget C iel ;; floop (length c) (fun j l => v <- nth_error c j ;; Some (l ++ [v])) l) [] ;;
  let loc := unique (sort l0) in
  let ln := length loc in
  mp <- floop ln (fun i mp => p <- nth_error loc i ;; Some ((p, i) :: mp)) [] ;;
  s <- floop (npoin (g_m g)) (fun gp s =>
         let '(lp, X) := s in
         if lp <? ln then
           p <- nth_error loc lp ;;
           if gp =? p then x <- aget (g_X g) gp ;; X' <- aset X lp x ;; Some (lp + 1, X') else Some s
         else Some s) (0, mkarr ln jx) ;;
  Some (loc, mp, snd s).

(** 65-68: global to local numbering of inpoel *)
Definition renumber (mp : list (nat * nat)) (C : arr (list nat)) : option (exc (arr (list nat))) :=
  eloop (alen C) (fun iel C =>
    c <-- lift (aget C iel) ;;
    c' <-- eloop (length c) (fun j c' => v <-- lift (nth_error c j) ;; w <-- Some (map_at mp v) ;; Some (Val (c' ++ [w]))) [] ;;
    lift (aset C iel c')) C.

(** 225-276 extractbfaces *)
Definition extractbfaces (g : gmesh) (dist : arr nat) (rank : nat) (mp : list (nat * nat)) : option (exc (list bfrec)) :=
  eloop (nbface (g_m g)) (fun iface l =>
    bf <-- lift (nth_error (bfaces (g_m g)) iface) ;;
    fc <-- lift (aget (intfac (g_t g)) iface) ;;
    d <-- lift (aget dist (f_left fc)) ;;
    if d =? rank then
      a <-- Some (map_at mp (b0 bf)) ;; b <-- Some (map_at mp (b1 bf)) ;;
      Some (Val (l ++ [mkbf a b (btg bf)]))
    else Some (Val l)) [].

(** 278-291 markLocalPhysicalBoundaryPoints *)
Definition markBoundaryPoints (lm : umesh) : option (arr bool) :=
  floop (nbface lm) (fun iface B => bf <- nth_error (bfaces lm) iface ;; B1 <- aset B (b0 bf) true ;; aset B1 (b1 bf) true) (aconst (npoin lm) false).

(** 293-331 getConnectivityFaceEIndices; [E] is the local esuel. One list of EIndex per cell. *)
Definition connFaceEIndices (lm : umesh) (E : arr2 Z) (B : arr bool) : option (list (list nat)) :=
  floop (nelem lm) (fun iel out =>
    n <- nnode lm iel ;;
    l <- floop n (fun f l =>
      z <- get2 E iel f ;;
      if (z =? -1)%Z then
        k0 <- getNodeEIndex lm iel f 0 ;; v0 <- inpoel lm iel k0 ;; m0 <- aget B v0 ;;
        c <- (if negb m0 then Some true else
              k1 <- getNodeEIndex lm iel f 1 ;; v1 <- inpoel lm iel k1 ;; m1 <- aget B v1 ;; Some (negb m1)) ;;
        Some (if c : bool then l ++ [f] else l)
      else Some l) [] ;;
    Some (out ++ [l])) [].

(** 128-140: is global point [v] one of the two local face points, translated back *)
Definition one_of (p2g : list nat) (a b v : nat) : option bool :=
  ga <- nth_error p2g a ;; if ga =? v then Some true else gb <- nth_error p2g b ;; Some (gb =? v).
(** 99-154, one connectivity face: the record written. esuel of a physical boundary face would index elemdist out of bounds. *)
Definition conn_record (g : gmesh) (dist : arr nat) (lm : umesh) (eglob : arr nat) (p2g : list nat) (iel f : nat) : option (exc cfrec) :=
  let gm := g_m g in
  gl <-- lift (aget eglob iel) ;;
  gf <-- lift (get2 (elemface (g_t g)) gl f) ;;
  a <-- lift (k <- getNodeEIndex lm iel f 0 ;; inpoel lm iel k) ;;
  b <-- lift (k <- getNodeEIndex lm iel f 1 ;; inpoel lm iel k) ;;
  n <-- lift (nnode gm gl) ;;
  r <-- lift (ofind n (fun jgf =>
         v0 <- (k <- getNodeEIndex gm gl jgf 0 ;; inpoel gm gl k) ;; m0 <- one_of p2g a b v0 ;;
         if m0 : bool then v1 <- (k <- getNodeEIndex gm gl jgf 1 ;; inpoel gm gl k) ;; one_of p2g a b v1 else Some false)) ;;
  match r with
  | None => Some Exn
  | Some jgf =>
      z <-- lift (get2 (esuel (g_t g)) gl jgf) ;;
      if (z <? 0)%Z then None else
      d <-- lift (aget dist (Z.to_nat z)) ;;
      Some (Val (mkcf iel f (Z.of_nat d) z (Z.of_nat gf)))
  end.

(** 24-159 restrictMeshToPartitions *)
Definition restrictMesh (g : gmesh) (dist : arr nat) (rank : nat)
    (jc : nat -> list nat) (jr : nat -> list Z) (ji : nat -> nat) (jx : nat -> v2) (j0 : nat -> nat -> Z) : option (exc lmesh) :=
  ln <-- lift (count_local (g_m g) dist rank) ;;
  r1 <-- lift (extractInpoel g dist rank ln jc jr ji) ;;
  let '(C, Rg, L) := r1 in
  r2 <-- lift (extractPointCoords g C jx) ;;
  let '(loc, mp, X) := r2 in
  C' <-- renumber mp C ;;
  bl <-- extractbfaces g dist rank mp ;;
  let m1 := mkmesh (length loc) (alist C') (maxnfael (g_m g)) bl [] in
  es <-- lift (elementsSurroundingPoints m1) ;;
  E <-- lift (elementsSurroundingElements m1 (fst es) (snd es) j0) ;;
  B <-- lift (markBoundaryPoints m1) ;;
  ci <-- lift (connFaceEIndices m1 E B) ;;
  cf <-- eloop (length ci) (fun iel out =>
           l <-- lift (nth_error ci iel) ;;
           eloop (length l) (fun k out => f <-- lift (nth_error l k) ;; c <-- conn_record g dist m1 L loc iel f ;; Some (Val (out ++ [c]))) out) [] ;;
  Some (Val (mklm (mkmesh (length loc) (alist C') (maxnfael (g_m g)) bl cf) X Rg L loc)).

(** 376-430 getCellAdjLists. utilities/helper_algorithms.hpp 31-36 inclusive_scan. The inner while loop gets a bound on its
    iterations; running out is None. *)
Definition inclusive_scan (v : arr nat) : option (arr nat) :=
  frange 1 (alen v) (fun i v => x <- aget v i ;; y <- aget v (i - 1) ;; aset v i (x + y)) v.
Definition is_real (ne : nat) (z : Z) : bool := (0 <=? z)%Z && (z <? Z.of_nat ne)%Z.
Fixpoint adj_fill (E : arr2 Z) (ne iel hi fuel k iloc : nat) (st : arr Z) : option (arr Z) :=
  if iloc <? hi then
    match fuel with
    | 0 => None
    | S fuel' =>
        z <- get2 E iel k ;;
        if is_real ne z then st' <- aset st iloc z ;; adj_fill E ne iel hi fuel' (k + 1) (iloc + 1) st'
        else adj_fill E ne iel hi fuel' (k + 1) iloc st
    end
  else Some st.
Definition getCellAdjLists (m : umesh) (E : arr2 Z) (jp : nat -> nat) (js : nat -> Z) : option (arr nat * arr Z) :=
  let ne := nelem m in
  p0 <- aset (mkarr (ne + 1) jp) 0 0 ;;
  p1 <- floop ne (fun iel p =>
          n <- nnode m iel ;;
          c <- floop n (fun j c => z <- get2 E iel j ;; Some (if is_real ne z then c + 1 else c)) 0 ;;
          aset p (iel + 1) c) p0 ;;
  p2 <- inclusive_scan p1 ;;
  tot <- aget p2 ne ;;
  st <- floop ne (fun iel st => lo <- aget p2 iel ;; hi <- aget p2 (iel + 1) ;; adj_fill E ne iel hi (maxnfael m) 0 lo st) (mkarr tot js) ;;
  Some (p2, st).

(** mesh.cpp 84-99 reorder_cells as called on a restricted mesh by preprocessMesh (ameshutils.cpp 38-95, from constructMesh
    after the restriction): only inpoel, nnode and nfael are permuted; bface, connface, vol_regions and globalElemIndex stay. *)
Definition reorder_lmesh (lm : lmesh) (p : arr nat) : option lmesh :=
  let m := l_m lm in
  let temp := mkarr (nelem m) (fun i => nth i (cells m) []) in
  C <- floop (alen temp) (fun i C => k <- aget p i ;; x <- aget temp k ;; aset C i x) temp ;;
  Some (mklm (mkmesh (npoin m) (alist C) (maxnfael m) (bfaces m) (conns m)) (l_X lm) (l_regs lm) (l_eglob lm) (l_p2g lm)).
