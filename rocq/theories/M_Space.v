(** Model of the data the spatial discretisation reads from the mesh, of its face loops, and of the
    constructor of src/spatial/aspatial.cpp.

    Simplifications: reals for floats; [phyBFaceStart] is 0 as set by mesh.cpp 685-741, so the three
    face ranges are [0,nb), [nb,nb+ni), [nb+ni,nb+ni+nc); [gnnofa] is 2 (mesh.hpp 213). *)
From Coq Require Import Reals List Arith ZArith.
From Verif Require Import Base BaseR M_Mesh M_Geom.
Import ListNotations.
Open Scope R_scope.

(** What a [Spatial] object sees: numbers of cells and of faces of each range, the face list
    (intfac), facemetric, areas, node coordinates, cell centres of real and connectivity ghost
    cells (rc), of physical boundary ghost cells (rcbp), face centres (gr), elemface, esuel, nfael
    and boundary tags. *)
Record smesh := mksm {
  sm_ne : nat; sm_nb : nat; sm_ni : nat; sm_nc : nat;
  sm_F : arr face; sm_M : arr fmet; sm_A : arr R; sm_X : arr v2;
  sm_rc : arr v2; sm_rcbp : arr v2; sm_gr : arr v2;
  sm_EF : arr2 nat; sm_ES : arr2 Z; sm_nf : arr nat; sm_bt : arr (list Z) }.

Definition sm_nf_all (S : smesh) : nat := (sm_nb S + sm_ni S + sm_nc S)%nat.

(** aspatial.cpp 52-61, agradientschemes.cpp 87-97, 128-138, 179-189: midpoint of a face *)
Definition face_mid (a b : v2) : v2 := mkv ((0 + vx a + vx b) / 2) ((0 + vy a + vy b) / 2).
Definition get_mid (X : arr v2) (fc : face) : option v2 :=
  a <- aget X (f_a fc) ;; b <- aget X (f_b fc) ;; Some (face_mid a b).

(** aspatial.cpp 49-61: the face centres gr *)
Definition face_centres (X : arr v2) (F : arr face) : option (arr v2) :=
  floop (alen F) (fun k G => fc <- aget F k ;; p <- get_mid X fc ;; aset G k p) (aconst (alen F) vzero).

(** aspatial.cpp 97-119 compute_ghost_cell_coords_about_midpoint *)
Definition ghost_about_midpoint (X : arr v2) (F : arr face) (rc : arr v2) (nb : nat) (jb : nat -> v2) : option (arr v2) :=
  floop nb (fun k G =>
    fc <- aget F k ;; p <- get_mid X fc ;; c <- aget rc (f_left fc) ;;
    aset G k (mkv (2 * vx p - vx c) (2 * vy p - vy c))) (mkarr nb jb).

(** aspatial.cpp 36-77, the constructor, after the mesh's own preprocessing (compute_topological,
    compute_areas, compute_face_data). [ghost k] is the centre of connectivity ghost cell [k]
    received by VecGhostUpdate (46-47, 63-64); [jc], [jb]: uninitialised memory. *)
Definition spatial_ctor (m : umesh) (X : arr v2) (ni : nat) (s : fconn) (M : arr fmet) (A : arr R)
    (ghost : nat -> v2) (jc jb : nat -> v2) : option smesh :=
  C <- compute_cell_centres m X jc ;;
  let rc := mkarr (nelem m + nconnface m) (fun i => if (i <? nelem m)%nat then aat C i else ghost (i - nelem m)%nat) in
  gr <- face_centres X (intfac s) ;;
  rcbp <- ghost_about_midpoint X (intfac s) rc (nbface m) jb ;;
  Some (mksm (nelem m) (nbface m) ni (nconnface m) (intfac s) M A X rc rcbp gr
             (elemface s) (esuel s) (mkarr (nelem m) (fun i => length (nth i (cells m) []))) (btags s)).

(** Mesh preprocessing and the constructor. *)
Definition setup (m : umesh) (X : arr v2) (ghost : nat -> v2)
    (j0 : nat -> nat -> Z) (jf : nat -> face) (je : nat -> nat -> nat) (jt : nat -> list Z) (jm : nat -> fmet) (ja : nat -> R) (jc jb : nat -> v2)
    : option (exc smesh) :=
  match compute_topological m j0 jf je jt with
  | Some (Val (_, _, (ni, s))) =>
      M <- compute_face_data X (intfac s) jm ;;
      A <- compute_areas m X ja ;;
      S <- spatial_ctor m X ni s M A ghost jc jb ;; Some (Val S)
  | Some Exn => Some Exn
  | None => None
  end.

(** ** Threaded face loops

    One iteration of a [#pragma omp parallel for] loop over faces computes, from data no iteration
    writes, a list of increments to shared entries; each is applied by one update statement.
    [inc] = (index of the entry, value added); [x -= f] adds the opposite of [f]. *)
Definition inc (T : Type) := (nat * T)%type.

(** [a(i) += x] *)
Definition add_at {T} (plus : T -> T -> T) (A : arr T) (p : inc T) : option (arr T) :=
  a <- aget A (fst p) ;; aset A (fst p) (plus a (snd p)).
Definition add_all {T} (plus : T -> T -> T) (l : list (inc T)) (A : arr T) : option (arr T) :=
  ofold (fun p A => add_at plus A p) l A.

(** the loop over faces lo <= k < hi executed in order by one thread *)
Definition acc_loop {T} (plus : T -> T -> T) (lo hi : nat) (body : nat -> option (list (inc T))) (A : arr T) : option (arr T) :=
  frange lo hi (fun k A => l <- body k ;; add_all plus l A) A.
