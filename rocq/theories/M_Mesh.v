(** Model of the topological part of src/mesh/mesh.cpp (linear elements only, one subdomain).
    Simplifications: natural-number indices (no integer overflow); std::cout output dropped;
    nnode[i] and nfael[i] are both the length of the i-th node list (true for the linear triangles
    and quadrilaterals the reader accepts); nnofa = 2. *)
From Coq Require Import List Arith Lia ZArith Bool.
From Verif Require Import Base.
Import ListNotations.

(** One row of [bface] (mesh.hpp 371-373): two nodes, then the boundary tags. *)
Record bfrec := mkbf { b0 : nat; b1 : nat; btg : list Z }.

(** One row of [connface] (mesh.hpp 402-409): host cell, EIndex of the face, neighbour rank, neighbour
    global cell, global face. *)
Record cfrec := mkcf { cf_elem : nat; cf_face : nat; cf_rank : Z; cf_gelem : Z; cf_gface : Z }.

(** Fields of UMesh (mesh.hpp 344-460) that are inputs of the topology routines. [cells] stands
    for inpoel together with nnode; [maxnfael] is the number of columns of esuel and elemface. *)
Record umesh := mkmesh {
  npoin : nat; cells : list (list nat); maxnfael : nat;
  bfaces : list bfrec; conns : list cfrec }.

Definition nelem (m : umesh) : nat := length (cells m).
Definition nbface (m : umesh) : nat := length (bfaces m).
Definition nconnface (m : umesh) : nat := length (conns m).

(** nnode[i], nfael[i]: std::vector access *)
Definition nnode (m : umesh) (i : nat) : option nat :=
  match nth_error (cells m) i with Some c => Some (length c) | None => None end.
(** inpoel(i,j). Stricter than the code: j must be below nnode[i], not only below maxnnode. *)
Definition inpoel (m : umesh) (i j : nat) : option nat :=
  match nth_error (cells m) i with Some c => nth_error c j | None => None end.

(** mesh.hpp 315-318 getNodeEIndex *)
Definition getNodeEIndex (m : umesh) (ielem iface inode : nat) : option nat :=
  n <- nnode m ielem ;; Some ((iface + inode) mod n).

(** mesh.cpp 426-468 compute_elementsSurroundingPoints. Returns (esup_p, esup). *)
Definition elementsSurroundingPoints (m : umesh) : option (arr nat * arr nat) :=
  let p0 := aconst (npoin m + 1) 0 in
  (* 432-442 *)
  p1 <- floop (nelem m) (fun i p =>
          n <- nnode m i ;;
          floop n (fun j p =>
            v <- inpoel m i j ;; x <- aget p (v + 1) ;; aset p (v + 1) (x + 1)) p) p0 ;;
  (* 444-445 *)
  p2 <- frange 1 (npoin m + 1) (fun i p =>
          x <- aget p i ;; y <- aget p (i - 1) ;; aset p i (x + y)) p1 ;;
  (* 447-448 *)
  tot <- aget p2 (npoin m) ;;
  (* 449-461 *)
  s <- floop (nelem m) (fun i s =>
          n <- nnode m i ;;
          floop n (fun j s =>
            ipoin <- inpoel m i j ;;
            x <- aget (fst s) ipoin ;;
            e <- aset (snd s) x i ;;
            p <- aset (fst s) ipoin (x + 1) ;;
            Some (p, e)) s) (p2, aconst tot 0) ;;
  (* 466-468 *)
  p4 <- floop (npoin m) (fun k p =>
          let i := npoin m - k in x <- aget p (i - 1) ;; aset p i x) (fst s) ;;
  p5 <- aset p4 0 0 ;;
  Some (p5, snd s).

(** mesh.cpp 470-545 compute_elementsSurroundingElements. lpofai/lpofaj are the maps
    (i,j) -> (i+j) mod nfael, inlined. [junk] is what esuel.resize leaves in memory. *)
Definition elementsSurroundingElements (m : umesh) (esup_p esup : arr nat)
    (junk : nat -> nat -> Z) : option (arr2 Z) :=
  (* 473-476 *)
  E0 <- floop (nelem m) (fun ii E => floop (maxnfael m) (fun jj E => set2 E ii jj (-1)%Z) E)
          (mk2 (nelem m) (maxnfael m) junk) ;;
  let lpoin0 := aconst (npoin m) 0 in
  (* 484-544 *)
  s <- floop (nelem m) (fun ielem s =>
    n <- nnode m ielem ;;
    floop n (fun ifael s =>
      (* 503-508 *)
      h0 <- inpoel m ielem ((ifael + 0) mod n) ;; l1 <- aset (snd s) h0 1 ;;
      h1 <- inpoel m ielem ((ifael + 1) mod n) ;; lp <- aset l1 h1 1 ;;
      (* 509-540 *)
      lo <- aget esup_p h0 ;; hi <- aget esup_p (h0 + 1) ;;
      E' <- frange lo hi (fun istor E =>
        jelem <- aget esup istor ;;
        if jelem =? ielem then Some E else
        nj <- nnode m jelem ;;
        floop nj (fun jfael E =>
          j0 <- inpoel m jelem ((jfael + 0) mod nj) ;; a0 <- aget lp j0 ;;
          j1 <- inpoel m jelem ((jfael + 1) mod nj) ;; a1 <- aget lp j1 ;;
          let icoun := (if a0 =? 1 then 1 else 0) + (if a1 =? 1 then 1 else 0) in
          if icoun =? 2 then
            E1 <- set2 E ielem ifael (Z.of_nat jelem) ;; set2 E1 jelem jfael (Z.of_nat ielem)
          else Some E) E) (fst s) ;;
      (* 541-542 *)
      l2 <- aset lp h0 0 ;; l3 <- aset l2 h1 0 ;;
      Some (E', l3)) s) (E0, lpoin0) ;;
  Some (fst s).

(** A sorted copy of a vector: std::sort on integers (the result is determined by the contents). *)
Fixpoint insert_sorted (x : nat) (l : list nat) : list nat :=
  match l with [] => [x] | y :: r => if x <=? y then x :: l else y :: insert_sorted x r end.
Definition sort (l : list nat) : list nat := fold_right insert_sorted [] l.

(** std::set_intersection on two sorted ranges. *)
Fixpoint set_intersection (l1 : list nat) : list nat -> list nat :=
  match l1 with
  | [] => fun _ => []
  | x :: r1 =>
      (fix inner (l2 : list nat) : list nat :=
         match l2 with
         | [] => []
         | y :: r2 => if x <? y then set_intersection r1 l2
                      else if y <? x then inner r2
                      else x :: set_intersection r1 r2
         end)
  end.

(** mesh.cpp 547-603 getFaceEIndex for a face with end points [a], [b] (of bface or intfac);
    [None] inside stands for the return value -1. *)
Definition getFaceEIndex (m : umesh) (a b lelem : nat) : option (option nat) :=
  n <- nnode m lelem ;;
  ofind n (fun ifael =>
    k0 <- getNodeEIndex m lelem ifael 0 ;; v0 <- inpoel m lelem k0 ;;
    if (a =? v0) || (b =? v0) then
      k1 <- getNodeEIndex m lelem ifael 1 ;; v1 <- inpoel m lelem k1 ;;
      Some ((a =? v1) || (b =? v1))
    else Some false).

(** mesh.cpp 614-627: the sorted list of the cells around one point *)
Definition nbdelems (esup_p esup : arr nat) (point : nat) : option (list nat) :=
  lo <- aget esup_p point ;; hi <- aget esup_p (point + 1) ;;
  l <- frange lo hi (fun isup l => e <- aget esup isup ;; Some (l ++ [e])) [] ;;
  Some (sort l).

(** mesh.cpp 605-657 compute_phyBFaceNeighboringElements, one boundary face. The second component
    is [None] where getFaceEIndex returns -1 (the assert at 653 is compiled out in release mode). *)
Definition phyBFaceNeighboringElement (m : umesh) (esup_p esup : arr nat) (bf : bfrec)
    : option (exc (nat * option nat)) :=
  n0 <-- lift (nbdelems esup_p esup (b0 bf)) ;;
  n1 <-- lift (nbdelems esup_p esup (b1 bf)) ;;
  let inter := set_intersection n1 n0 in
  if 1 <? length inter then Some Exn else
  match inter with
  | [] => None                                      (* intersection[0] of an empty vector *)
  | h :: _ => lift (k <- getFaceEIndex m (b0 bf) (b1 bf) h ;; Some (h, k))
  end.
Definition phyBFaceNeighboringElements (m : umesh) (esup_p esup : arr nat)
    : option (exc (list (nat * option nat))) :=
  eloop (nbface m) (fun iface l =>
    bf <-- lift (nth_error (bfaces m) iface) ;;
    r <-- phyBFaceNeighboringElement m esup_p esup bf ;; Some (Val (l ++ [r]))) [].

(** mesh.cpp 54-82 correctBoundaryFaceOrientation. Returns the mesh with the new bface. A face whose
    EIndex is -1 makes getNodeEIndex return the last node's index minus one in the code's signed
    arithmetic; here it is [None]. *)
Definition correctBoundaryFaceOrientation (m : umesh) : option (exc umesh) :=
  es <-- lift (elementsSurroundingPoints m) ;;
  hosts <-- phyBFaceNeighboringElements m (fst es) (snd es) ;;
  bl <-- lift (floop (nbface m) (fun iface l =>
    bf <- nth_error (bfaces m) iface ;;
    h <- nth_error hosts iface ;; eface <- snd h ;;
    k0 <- getNodeEIndex m (fst h) eface 0 ;; v0 <- inpoel m (fst h) k0 ;;
    k1 <- getNodeEIndex m (fst h) eface 1 ;; v1 <- inpoel m (fst h) k1 ;;
    Some (l ++ [if negb (v0 =? b0 bf) || negb (v1 =? b1 bf)
                then mkbf (b1 bf) (b0 bf) (btg bf) else bf])) []) ;;
  Some (Val (mkmesh (npoin m) (cells m) (maxnfael m) bl (conns m))).

(** One row of intfac (mesh.hpp 441-447): left and right cell, first and second node. *)
Record face := mkface { f_left : nat; f_right : nat; f_a : nat; f_b : nat }.

(** The arrays built by compute_faceConnectivity. *)
Record fconn := mkfc {
  intfac : arr face; elemface : arr2 nat; esuel : arr2 Z; btags : arr (list Z) }.

(** mesh.cpp 659-762 compute_faceConnectivity. The rows of intfac are written as a whole; [jf], [je],
    [jt] are the uninitialised contents left by resize. Returns also ninface. *)
Definition faceConnectivity (m : umesh) (esup_p esup : arr nat) (E : arr2 Z)
    (jf : nat -> face) (je : nat -> nat -> nat) (jt : nat -> list Z) : option (exc (nat * fconn)) :=
  let ne := nelem m in let nb := nbface m in let nc := nconnface m in
  (* 663-672 *)
  ninface <-- lift (floop ne (fun ie c =>
      n <- nnode m ie ;;
      floop n (fun f c =>
        j <- get2 E ie f ;;
        Some (if (Z.of_nat ie <? j)%Z && (j <? Z.of_nat ne)%Z then c + 1 else c)) c) 0) ;;
  let naface := ninface + nb + nc in
  let s0 := mkfc (mkarr naface jf) (mk2 ne (maxnfael m) je) E (mkarr nb jt) in
  (* 686-700 *)
  hosts <-- phyBFaceNeighboringElements m esup_p esup ;;
  s1 <-- lift (floop nb (fun iface s =>
      h <- nth_error hosts iface ;; k <- snd h ;; bf <- nth_error (bfaces m) iface ;;
      F <- aset (intfac s) iface (mkface (fst h) (ne + nc + iface) (b0 bf) (b1 bf)) ;;
      T <- aset (btags s) iface (btg bf) ;;
      ES <- set2 (esuel s) (fst h) k (Z.of_nat (ne + nc + iface)) ;;
      EF <- set2 (elemface s) (fst h) k iface ;;
      Some (mkfc F EF ES T)) s0) ;;
  (* 711-735; the state carries faceindex *)
  s2 <-- lift (floop ne (fun ie st =>
      n <- nnode m ie ;;
      floop n (fun f st =>
        let '(fi, s) := st in
        j <- get2 (esuel s) ie f ;;
        if (Z.of_nat ie <? j)%Z && (j <? Z.of_nat ne)%Z then
          let jn := Z.to_nat j in
          let f1 := (f + 1) mod n in
          v0 <- inpoel m ie f ;; v1 <- inpoel m ie f1 ;;
          F <- aset (intfac s) fi (mkface ie jn v0 v1) ;;
          EF <- set2 (elemface s) ie f fi ;;
          nj <- nnode m jn ;;
          EF' <- floop nj (fun jnode EF =>
                   w <- inpoel m jn jnode ;;
                   if v1 =? w then set2 EF jn jnode fi else Some EF) EF ;;
          Some (fi + 1, mkfc F EF' (esuel s) (btags s))
        else Some st) st) (nb, s1)) ;;
  (* 744-757 *)
  s3 <-- lift (floop nc (fun ic s =>
      cf <- nth_error (conns m) ic ;;
      let iface := nb + ninface + ic in
      ES <- set2 (esuel s) (cf_elem cf) (cf_face cf) (Z.of_nat (ne + ic)) ;;
      EF <- set2 (elemface s) (cf_elem cf) (cf_face cf) iface ;;
      k0 <- getNodeEIndex m (cf_elem cf) (cf_face cf) 0 ;; v0 <- inpoel m (cf_elem cf) k0 ;;
      k1 <- getNodeEIndex m (cf_elem cf) (cf_face cf) 1 ;; v1 <- inpoel m (cf_elem cf) k1 ;;
      F <- aset (intfac s) iface (mkface (cf_elem cf) (ne + ic) v0 v1) ;;
      Some (mkfc F EF ES (btags s))) (snd s2)) ;;
  Some (Val (ninface, s3)).

(** mesh.cpp 331-341 compute_topological *)
Definition compute_topological (m : umesh) (j0 : nat -> nat -> Z) (jf : nat -> face)
    (je : nat -> nat -> nat) (jt : nat -> list Z) : option (exc (arr nat * arr nat * (nat * fconn))) :=
  es <-- lift (elementsSurroundingPoints m) ;;
  E <-- lift (elementsSurroundingElements m (fst es) (snd es) j0) ;;
  fc <-- faceConnectivity m (fst es) (snd es) E jf je jt ;;
  Some (Val (fst es, snd es, fc)).
