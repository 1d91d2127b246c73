(** Model of the mesh utilities: reorder_cells, levelSchedule, compute_periodic_map,
    compute_pointsSurroundingPoints and the line orderings. *)
From Coq Require Import Reals List Arith ZArith Bool.
From Verif Require Import Base BaseR M_Mesh.
Import ListNotations.
Open Scope nat_scope.

(** mesh.cpp 84-99 reorder_cells. inpoel, nnode and nfael together are the cell list; vol_regions (one row of
    tags per cell, mesh.hpp 378) is a member the function does not touch. *)
Record cellsregs := mkcr { cr_cells : arr (list nat); cr_regs : arr (list Z) }.
Definition reorder_cells (c : cellsregs) (permvec : arr nat) : option cellsregs :=
  let temp := cr_cells c in
  C <- floop (alen temp) (fun i C => k <- aget permvec i ;; x <- aget temp k ;; aset C i x) temp ;;
  Some (mkcr C (cr_regs c)).

(** ameshutils.cpp 158-196 levelSchedule; [E] is esuel. The while loop runs icell from 0 to nelem-2.
    A negative neighbour index would be an out-of-bounds write to [marked]. *)
Definition levelSchedule (m : umesh) (E : arr2 Z) : option (list nat) :=
  let ne := nelem m in
  s <- floop (ne - 1) (fun icell s =>
    let '(levels, marked) := s in
    m1 <- aset marked icell true ;;
    n <- nnode m icell ;;
    m2 <- floop n (fun f mk =>
      o <- get2 E icell f ;;
      if (o <? Z.of_nat ne)%Z then (if (o <? 0)%Z then None else aset mk (Z.to_nat o) true) else Some mk) m1 ;;
    b <- aget m2 (icell + 1) ;;
    Some (if b : bool then (levels ++ [icell + 1], aconst ne false) else (levels, m2))) ([0], aconst ne false) ;;
  Some (fst s ++ [ne]).

(** mesh.cpp 368-424 compute_periodic_map; [F] intfac, [T] btags, [X] coordinates. gPhyBFaceStart() = 0.
    Returns intfac and the local periodicmap. *)
Definition pcoord (p : v2) (ax : Z) : option R :=
  if (ax =? 0)%Z then Some (vx p) else if (ax =? 1)%Z then Some (vy p) else None.
Definition face_centre (F : arr face) (X : arr v2) (ax : Z) (i : nat) : option R :=
  fc <- aget F i ;;
  a <- aget X (f_a fc) ;; b <- aget X (f_b fc) ;; x <- pcoord a ax ;; y <- pcoord b ax ;; Some ((x + y) / 2)%R.
Definition set_right (fc : face) (r : nat) : face := mkface (f_left fc) r (f_a fc) (f_b fc).
Definition compute_periodic_map (nb : nat) (F : arr face) (T : arr (list Z)) (X : arr v2) (bcm axis : Z)
    : option (arr face * arr Z) :=
  if (bcm <? 0)%Z then Some (F, aconst nb (-1)%Z) else
  if (axis <? 0)%Z then Some (F, aconst nb (-1)%Z) else
  let ax := (1 - axis)%Z in
  let tagged i := t <- aget T i ;; t0 <- nth_error t 0 ;; Some (t0 =? bcm)%Z in
  floop nb (fun iface s =>
    let '(F, pm) := s in
    t <- tagged iface ;;
    if t : bool then
      pi <- aget pm iface ;;
      if (-1 <? pi)%Z then Some s else
      ci <- face_centre F X ax iface ;;
      r <- ofind_from (nb - (iface + 1)) (iface + 1) (fun jface =>
             tj <- tagged jface ;;
             if tj : bool then cj <- face_centre F X ax jface ;; Some (Rleb (Rabs (ci - cj)) (/ 10 ^ 8))
             else Some false) ;;
      match r with
      | None => Some s
      | Some jface =>
          pm1 <- aset pm iface (Z.of_nat jface) ;; pm2 <- aset pm1 jface (Z.of_nat iface) ;;
          fi <- aget F iface ;; fj <- aget F jface ;;
          F1 <- aset F iface (set_right fi (f_left fj)) ;;
          fi1 <- aget F1 iface ;; fj1 <- aget F1 jface ;;
          F2 <- aset F1 jface (set_right fj1 (f_left fi1)) ;;
          Some (F2, pm2)
      end
    else Some s) (F, aconst nb (-1)%Z).

(** mesh.cpp 804-829 (first pass) and 861-882 (second pass): which local nodes count as connected to
    local node [inode] (-1 if not found; C++ remainder) *)
Definition psup_nbd (n : nat) (inode : Z) (j : nat) : bool :=
  if n =? 3 then true
  else if n =? 4 then
    (Z.of_nat j =? Z.rem (inode + 1) (Z.of_nat n))%Z || (Z.of_nat j =? Z.rem (inode + Z.of_nat n - 1) (Z.of_nat n))%Z
  else false.
(** mesh.cpp 797-800, 852-855 *)
Definition psup_inode (m : umesh) (ielem ip : nat) : option Z :=
  n <- nnode m ielem ;;
  floop n (fun jnode r => v <- inpoel m ielem jnode ;; Some (if v =? ip then Z.of_nat jnode else r)) (-1)%Z.
(** The loops common to both passes; [act jpoin] is what is done with a new surrounding point. *)
Definition psup_point {S} (m : umesh) (esup_p esup : arr nat) (ip : nat) (act : nat -> S -> option S)
    (s : S * arr Z) : option (S * arr Z) :=
  l0 <- aset (snd s) ip (Z.of_nat ip) ;;
  lo <- aget esup_p ip ;; hi <- aget esup_p (ip + 1) ;;
  frange lo hi (fun ie s =>
    ielem <- aget esup ie ;;
    inode <- psup_inode m ielem ip ;;
    n <- nnode m ielem ;;
    floop n (fun j s =>
      jpoin <- inpoel m ielem j ;;
      l <- aget (snd s) jpoin ;;
      if negb (l =? Z.of_nat ip)%Z && psup_nbd n inode j then
        s' <- act jpoin (fst s) ;; lp <- aset (snd s) jpoin (Z.of_nat ip) ;; Some (s', lp)
      else Some s) s) (fst s, l0).
(** mesh.cpp 777-904 compute_pointsSurroundingPoints. Returns (psup_p, psup); [jp] uninitialised psup. *)
Definition pointsSurroundingPoints (m : umesh) (esup_p esup : arr nat) (jp : nat -> nat) : option (arr nat * arr nat) :=
  let np := npoin m in
  p0 <- aset (aconst (np + 1) 0) 0 0 ;;
  r1 <- floop np (fun ip s =>
          let '(p, istor, lpoin) := s in
          r <- psup_point m esup_p esup ip (fun _ k => Some (k + 1)) (istor, lpoin) ;;
          p' <- aset p (ip + 1) (fst r) ;; Some (p', fst r, snd r)) (p0, 0, aconst np (-1)%Z) ;;
  let '(p, istor, _) := r1 in
  r2 <- floop np (fun ip s =>
          psup_point m esup_p esup ip (fun j q => a <- aset (snd q) (fst q) j ;; Some (fst q + 1, a)) s)
        ((0, mkarr istor jp), aconst np (-1)%Z) ;;
  Some (p, snd (fst r2)).

(** meshordering.cpp 131-139 LocalAnisotropies *)
Record locanis := mkla { la_aniso : arr2 R; la_face : arr2 Z; la_n : arr nat }.

(** meshordering.cpp 142-205 computeWeights, one cell. [wt i j] is the weight 1/distance between the centres of
    cells i and j; [srt] is std::sort with the comparison "greater weight first", whose result for equal
    weights is not specified; [ja] is the uninitialised contents of aniso. *)
Definition cell_weights (m : umesh) (E : arr2 Z) (wt : nat -> nat -> R)
    (srt : list (R * nat) -> list (R * nat)) (iel : nat) : option (list (R * nat)) :=
  n <- nnode m iel ;;
  r <- floop n (fun j s =>
         let '(l, minw) := s in
         jel <- get2 E iel j ;;
         if (Z.of_nat (nelem m) <=? jel)%Z then Some s else
         if (jel <? 0)%Z then None else
         let w := wt iel (Z.to_nat jel) in
         Some (l ++ [(w, j)], if Rltb w minw then w else minw)) ([], (10 ^ 20)%R) ;;
  let '(l, minw) := r in
  Some (srt (map (fun x => ((fst x / minw)%R, snd x)) l)).
Definition computeWeights (m : umesh) (E : arr2 Z) (wt : nat -> nat -> R)
    (srt : list (R * nat) -> list (R * nat)) (ja : nat -> nat -> R) : option locanis :=
  let ne := nelem m in
  floop ne (fun iel la =>
    l <- cell_weights m E wt srt iel ;;
    n <- aset (la_n la) iel (length l) ;;
    floop (length l) (fun j la =>
      x <- nth_error l j ;;
      a <- set2 (la_aniso la) iel j (fst x) ;; f <- set2 (la_face la) iel j (Z.of_nat (snd x)) ;;
      Some (mkla a f (la_n la))) (mkla (la_aniso la) (la_face la) n))
  (mkla (mk2 ne (maxnfael m) ja) (const2 ne (maxnfael m) (-1)%Z) (aconst ne 0)).

(** meshordering.cpp 231-250: the while loop growing one line. [fuel]: a bound on the number of iterations;
    running out of it is [None], so a result [Some _] includes termination. *)
Fixpoint grow (E : arr2 Z) (la : locanis) (thr : R) (nlines : nat) (fuel : nat)
    (cl : arr Z) (lin : list nat) (cur : nat) : option (arr Z * list nat) :=
  match fuel with
  | 0 => None
  | S k =>
      a0 <- get2 (la_aniso la) cur 0 ;;
      if Rltb thr a0 then
        cl' <- aset cl cur (Z.of_nat nlines) ;;
        n <- aget (la_n la) cur ;;
        let nbr j := f <- get2 (la_face la) cur j ;;
                     if (f <? 0)%Z then None else
                     nb <- get2 E cur (Z.to_nat f) ;;
                     if (nb <? 0)%Z then None else Some (Z.to_nat nb) in
        r <- ofind n (fun j =>
               nb <- nbr j ;; c <- aget cl' nb ;; a <- get2 (la_aniso la) cur j ;;
               Some ((c =? -1)%Z && Rltb thr a)) ;;
        match r with
        | Some j => nb <- nbr j ;; grow E la thr nlines k cl' (lin ++ [cur]) nb
        | None => Some (cl', lin ++ [cur])
        end
      else Some (cl, lin)
  end.
(** meshordering.cpp 207-264 findLines; [F] intfac. Returns (celline, lines). *)
Definition findLines (m : umesh) (nb : nat) (F : arr face) (E : arr2 Z) (la : locanis) (thr : R)
    : option (arr Z * list (list nat)) :=
  floop nb (fun iface s =>
    let '(cl, lines) := s in
    fc <- aget F iface ;;
    c <- aget cl (f_left fc) ;;
    if (0 <=? c)%Z then Some s else
    r <- grow E la thr (length lines) (nelem m + 1) cl [] (f_left fc) ;;
    let '(cl', lin) := r in
    if 1 <? length lin then Some (cl', lines ++ [lin])
    else if length lin =? 1 then
      x <- nth_error lin 0 ;; cl2 <- aset cl' x (-1)%Z ;; Some (cl2, lines)
    else Some (cl', lines)) (aconst (nelem m) (-1)%Z, []).

(** meshordering.cpp 35-56: the ordering computed by lineReorder. [ordering[k]] is bounds-checked. *)
Definition lineOrdering (ne : nat) (cl : arr Z) (lines : list (list nat)) (jo : nat -> nat) : option (arr nat) :=
  let put x s := o <- aset (snd s) (fst s) x ;; Some (fst s + 1, o) in
  s1 <- ofold (fun lin s => ofold put lin s) lines (0, mkarr ne jo) ;;
  s2 <- floop ne (fun iel s => c <- aget cl iel ;; if (c =? -1)%Z then put iel s else Some s) s1 ;;
  Some (snd s2).

(** meshordering.cpp 266-299 createLinePointGraphVertices: the list of points, the map from cells to
    points, and the vertices: lines first, then points. *)
Inductive gvertex := GLine (i : nat) | GPoint (i : nat).
Definition graphVertices (ne : nat) (cl : arr Z) (nlines : nat) : option (list nat * arr Z * list gvertex) :=
  s <- floop ne (fun i s =>
         c <- aget cl i ;;
         if (c =? -1)%Z then
           let pl := fst s ++ [i] in
           mp <- aset (snd s) i (Z.of_nat (length pl) - 1)%Z ;; Some (pl, mp)
         else Some s) ([], aconst ne (-1)%Z) ;;
  Some (fst s, snd s, map GLine (seq 0 nlines) ++ map GPoint (seq 0 (length (fst s)))).

(** meshordering.cpp 92-129 getHybridLineOrdering after the graph has been ordered: [gro] is the ordering PETSc
    returns for the graph. *)
Definition hybridOrdering (ne : nat) (lines : list (list nat)) (points : list nat) (gv : list gvertex)
    (gro : list nat) (jo : nat -> nat) : option (arr nat) :=
  let put x s := o <- aset (snd s) (fst s) x ;; Some (fst s + 1, o) in
  s <- ofold (fun g s =>
         v <- nth_error gv g ;;
         match v with
         | GLine i => lin <- nth_error lines i ;; ofold put lin s
         | GPoint i => x <- nth_error points i ;; put x s
         end) gro (0, mkarr ne jo) ;;
  Some (snd s).

(** meshordering.cpp 317-336, 371-388: the graph vertex of the neighbour across face j of a cell, if it is a real
    cell; [nl] number of lines. *)
Definition graph_nbr (m : umesh) (E : arr2 Z) (cl mp : arr Z) (nl cell j : nat) : option (option Z) :=
  o <- get2 E cell j ;;
  if (Z.of_nat (nelem m) <=? o)%Z then Some None else
  if (o <? 0)%Z then None else
  c <- aget cl (Z.to_nat o) ;;
  if (0 <=? c)%Z then Some (Some c)
  else (k <- aget mp (Z.to_nat o) ;; Some (Some (k + Z.of_nat nl)%Z)).
Definition graph_row (m : umesh) (E : arr2 Z) (cl mp : arr Z) (nl v cell : nat) (s : list (nat * Z)) : option (list (nat * Z)) :=
  n <- nnode m cell ;;
  floop n (fun j s => r <- graph_nbr m E cl mp nl cell j ;;
    Some (match r with Some k => s ++ [(v, k)] | None => s end)) s.
(** meshordering.cpp 301-402 createLinePointGraph: the set of (row, column) entries inserted.
    std::set and MatSetValues(INSERT_VALUES, 1.0) drop repetitions; here they are kept and only membership matters. *)
Definition graphEntries (m : umesh) (E : arr2 Z) (cl mp : arr Z) (lines : list (list nat)) (points : list nat)
    : option (list (nat * Z)) :=
  let nlines := length lines in
  s1 <- floop nlines (fun i s => lin <- nth_error lines i ;;
          ofold (graph_row m E cl mp nlines i) lin (s ++ [(i, Z.of_nat i)])) [] ;;
  floop (length points) (fun i s => x <- nth_error points i ;;
          graph_row m E cl mp nlines (i + nlines) x (s ++ [(i + nlines, Z.of_nat (i + nlines))])) s1.
