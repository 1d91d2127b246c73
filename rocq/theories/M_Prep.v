(** Model of how the mesh of a case is made: mesh/ameshutils.cpp 38-99 preprocessMesh with reorderMeshPetsc (247-288), meshordering.cpp
    32-90 lineReorder and hybridLineReorder, and ameshutils.cpp 101-152 constructMesh.

    Simplifications: those of M_Mesh.v, M_Geom.v, M_MeshUtil.v and M_Part.v. The mesh object is the restricted mesh (M_Part.v) with the
    members that compute_topological, compute_face_data and compute_areas set; [None] is a member not computed yet, and every [compute_]
    function overwrites its own. A non-zero return code of a PETSc call is an exception, as constructMesh makes it one (line 136).
    Uninitialised memory is a function argument, one [junk] for each of the two passes. [registered] are the orderings PETSc knows: name
    to function from number of rows and positions of the entries of the matrix to the order. Printing and the DEBUG checks (C94) are left out. *)
From Coq Require Import Reals List String Ascii ZArith Bool Arith.
From Verif Require Import Base BaseR M_Mesh M_Geom M_Space M_Resid M_Diff M_MeshUtil M_Part.
Import ListNotations.
Open Scope nat_scope.

(** the PETSc options read: -mesh_reorder (the empty string if given without a value) and -mesh_anisotropy_threshold; [RBad]: not a number *)
Inductive ropt := RAbsent | RBad | RVal (r : R).
Record popts := mkpo { po_reorder : option string; po_thr : ropt }.
Record junk := mkjk { k_0 : nat -> nat -> Z; k_f : nat -> face; k_e : nat -> nat -> nat; k_t : nat -> list Z; k_m : nat -> fmet; k_a : nat -> R;
                      k_c : nat -> v2; k_b : nat -> v2; k_w : nat -> nat -> R; k_o : nat -> nat }.
Record pmesh := mkpm { pm_l : lmesh; pm_t : option (nat * fconn); pm_M : option (arr fmet); pm_A : option (arr R) }.

(** mesh.cpp 331-341, 343-366, 273-329 as members *)
Definition do_topological (k : junk) (P : pmesh) : option (exc pmesh) :=
  t <-- compute_topological (l_m (pm_l P)) (k_0 k) (k_f k) (k_e k) (k_t k) ;;
  Some (Val (mkpm (pm_l P) (Some (snd t)) (pm_M P) (pm_A P))).
Definition do_face_data (k : junk) (P : pmesh) : option (exc pmesh) :=
  t <-- lift (pm_t P) ;; M <-- lift (compute_face_data (l_X (pm_l P)) (intfac (snd t)) (k_m k)) ;;
  Some (Val (mkpm (pm_l P) (pm_t P) (Some M) (pm_A P))).
Definition do_areas (k : junk) (P : pmesh) : option (exc pmesh) :=
  A <-- lift (compute_areas (l_m (pm_l P)) (l_X (pm_l P)) (k_a k)) ;; Some (Val (mkpm (pm_l P) (pm_t P) (pm_M P) (Some A))).
(** mesh.cpp 84-99: the other members keep their values *)
Definition do_reorder (P : pmesh) (o : arr nat) : option (exc pmesh) :=
  l <-- lift (reorder_lmesh (pm_l P) o) ;; Some (Val (mkpm l (pm_t P) (pm_M P) (pm_A P))).

(** std::string::find(p) != npos *)
Fixpoint has_sub (p s : string) : bool := prefix p s || match s with EmptyString => false | String _ t => has_sub p t end.
(** boost::split at one character, empty pieces kept *)
Fixpoint split_at (c : ascii) (s : string) : list string :=
  match s with
  | EmptyString => [EmptyString]
  | String a t => if Ascii.eqb a c then EmptyString :: split_at c t
                  else match split_at c t with h :: r => String a h :: r | [] => [String a EmptyString] end
  end.

(** meshordering.cpp 404-440 getPetscOrdering *)
Definition getPetscOrdering (registered : string -> option (nat -> list (nat * Z) -> list nat)) (n : nat) (ent : list (nat * Z)) (name : string) : exc (list nat) :=
  if String.eqb name "natural" then Val (seq 0 n) else match registered name with Some f => Val (f n ent) | None => Exn end.

(** meshordering.cpp 173-176: one over the distance *)
Definition inv_dist (a b : v2) : R := (1 / sqrt (0 + (vx a - vx b) ^ 2 + (vy a - vy b) ^ 2))%R.

Section Prep.
(** std::sort, and PETSc *)
Variable srt : list (R * nat) -> list (R * nat).
Variable registered : string -> option (nat -> list (nat * Z) -> list nat).

(** meshordering.cpp 207-264 findLines from the mesh, with 142-161 of computeWeights *)
Definition lines_of (k : junk) (P : pmesh) (thr : R) : option (arr Z * list (list nat)) :=
  t <- pm_t P ;; let m := l_m (pm_l P) in let E := esuel (snd t) in
  C <- compute_cell_centres m (l_X (pm_l P)) (k_c k) ;;
  la <- computeWeights m E (fun i j => inv_dist (aat C i) (aat C j)) srt (k_w k) ;;
  findLines m (nbface m) (intfac (snd t)) E la thr.
(** meshordering.cpp 32-57 *)
Definition lineReorder (k : junk) (P : pmesh) (thr : R) : option (exc pmesh) :=
  cl <-- lift (lines_of k P thr) ;;
  o <-- lift (lineOrdering (nelem (l_m (pm_l P))) (fst cl) (snd cl) (k_o k)) ;; do_reorder P o.
(** meshordering.cpp 59-129 *)
Definition hybridLineReorder (k : junk) (P : pmesh) (thr : R) (name : string) : option (exc pmesh) :=
  let m := l_m (pm_l P) in
  t <-- lift (pm_t P) ;;
  cl <-- lift (lines_of k P thr) ;;
  g <-- lift (graphVertices (nelem m) (fst cl) (List.length (snd cl))) ;;
  let '(points, mp, gv) := g in
  ent <-- lift (graphEntries m (esuel (snd t)) (fst cl) mp (snd cl) points) ;;
  gro <-- Some (getPetscOrdering registered (List.length gv) ent name) ;;
  o <-- lift (hybridOrdering (nelem m) (snd cl) points gv gro (k_o k)) ;; do_reorder P o.

(** aspatial.cpp 241-340 assemble_jacobian as reorderMeshPetsc calls it, on a matrix and a vector of PETSC_COMM_SELF: the positions set.
    The vector has the entries of the cells only; the blocks do not depend on what is read from it. *)
Definition petsc_graph (m : umesh) (ni : nat) (F : arr face) : option (list (nat * Z)) :=
  let u := mkarr (nelem m) (fun _ => 1%R) in
  s1 <- floop (nbface m) (fun k s => fc <- aget F k ;; _ <- aget u (f_left fc) ;; let l := f_left fc in Some (s ++ [(l, Z.of_nat l)])) [] ;;
  s2 <- frange (nbface m) (nbface m + ni) (fun k s =>
          fc <- aget F k ;; _ <- aget u (f_left fc) ;; _ <- aget u (f_right fc) ;; let l := f_left fc in let r := f_right fc in
          Some (s ++ [(r, Z.of_nat l); (l, Z.of_nat r); (l, Z.of_nat l); (r, Z.of_nat r)])) s1 ;;
  frange (nbface m + ni) (nbface m + ni + nconnface m) (fun k s =>
          fc <- aget F k ;; _ <- aget u (f_left fc) ;; _ <- aget u (f_right fc) ;; let l := f_left fc in Some (s ++ [(l, Z.of_nat l)])) s2.
(** ameshutils.cpp 84-91: construction of DiffusionMA (aspatial.cpp 36-77, diffusion.cpp 14-32) on the mesh whose areas are not yet computed,
    then 247-288 reorderMeshPetsc. ghost cell centres are received by VecGhostUpdate. *)
Definition petscReorder (k : junk) (ghost : nat -> v2) (P : pmesh) (name : string) : option (exc pmesh) :=
  let m := l_m (pm_l P) in
  t <-- lift (pm_t P) ;; M <-- lift (pm_M P) ;;
  sp <-- lift (spatial_ctor m (l_X (pm_l P)) (fst t) (snd t) M (match pm_A P with Some A => A | None => mkarr 0 (fun _ => 0%R) end) ghost (k_c k) (k_b k)) ;;
  _ <-- lift (diff_sizes sp) ;;
  if String.eqb name "natural" then Some (Val P) else
  ent <-- lift (petsc_graph m (fst t) (intfac (snd t))) ;;
  o <-- Some (match registered name with Some f => Val (f (nelem m) ent) | None => Exn end) ;;
  do_reorder P (mkarr (List.length o) (fun i => nth i o 0)).

(** ameshutils.cpp 38-99. PETSCOPTION_STR_LEN (alinalg.hpp 15) is 30, of which the last character is the terminator. *)
Definition threshold (o : popts) (f : R -> option (exc pmesh)) : option (exc pmesh) := match po_thr o with RVal r => f r | _ => Some Exn end.
Definition preprocessMesh (o : popts) (k1 k2 : junk) (ghost : nat -> v2) (P : pmesh) : option (exc pmesh) :=
  P1 <-- (match po_reorder o with
          | None => Some (Val P)
          | Some given =>
              let name := substring 0 29 given in
              Pt <-- do_topological k1 P ;; Pf <-- do_face_data k1 Pt ;;
              if String.eqb name "line" then threshold o (lineReorder k1 Pf)
              else if has_sub "line" name then
                match split_at "_" name with
                | [_; second] => threshold o (fun thr => hybridLineReorder k1 Pf thr second)
                | _ => Some Exn
                end
              else petscReorder k1 ghost Pf name
          end) ;;
  Pt <-- do_topological k2 P1 ;; Pa <-- do_areas k2 Pt ;; do_face_data k2 Pa.

(** ameshutils.cpp 101-152, run by process [rank] of [nranks] on the mesh that readMesh returned; [kg]: for compute_topological of the whole mesh, [je]
    and [jc] to [j0]: for the partitioner and the restriction *)
Definition constructMesh (o : popts) (nranks rank : nat) (kg k1 k2 : junk) (je : nat -> nat) (jc : nat -> list nat) (jr : nat -> list Z)
    (ji : nat -> nat) (jx : nat -> v2) (j0 : nat -> nat -> Z) (ghost : nat -> v2) (m : umesh) (X : arr v2) (regs : arr (list Z)) : option (exc pmesh) :=
  m' <-- correctBoundaryFaceOrientation m ;;
  t <-- compute_topological m' (k_0 kg) (k_f kg) (k_e kg) (k_t kg) ;;
  _ <-- Some (partitioner_ctor (nelem m') nranks) ;;
  d <-- lift (trivial_partition (nelem m') nranks je) ;;
  lm <-- restrictMesh (mkgm m' (snd (snd t)) X regs) d rank jc jr ji jx j0 ;;
  preprocessMesh o k1 k2 ghost (mkpm lm None None None).
End Prep.
