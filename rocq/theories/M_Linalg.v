(** Model of src/linalg/alinalg.cpp: preallocation of the Jacobian matrix and the matrix-free
    Jacobian product.

    Simplifications: reals for floats; PETSc matrices are represented by the sequence of block
    insertions made into them and by the preallocated sizes. A vector distributed over ranks is a
    function of the rank and the local index; a rank's local array holds its own entries followed
    by its ghost entries (VecCreateGhostBlock). *)
From Coq Require Import Reals List Arith ZArith Bool.
From Verif Require Import Base BaseR BaseSum M_Gas M_Flux M_Visc M_BC M_BCConf M_Mesh M_Geom M_Space M_Resid.
Import ListNotations.

(** ** Preallocation *)

(** alinalg.cpp 48-52: block rows of the diagonal part *)
Definition block_dnnz (S : smesh) : option (arr nat) :=
  floop (sm_ne S) (fun i a => n <- aget (sm_nf S) i ;; aset a i (n + 1)%nat) (aconst (sm_ne S) 0%nat).
(** 54-56: block rows of the off-diagonal part; [m] gives gconnface(iface,0) *)
Definition block_onnz (m : umesh) (S : smesh) : option (arr nat) :=
  ofold (fun c a => aset a (cf_elem c) 1%nat) (conns m) (aconst (sm_ne S) 0%nat).
(** 63-71: the same for scalar matrices *)
Definition scalar_dnnz (nv : nat) (S : smesh) : option (arr nat) :=
  floop (sm_ne S) (fun i a => n <- aget (sm_nf S) i ;;
    floop nv (fun c a => aset a (i * nv + c) ((n + 1) * nv)%nat) a) (aconst (sm_ne S * nv) 0%nat).
(** 73-78 *)
Definition scalar_onnz (nv : nat) (m : umesh) (S : smesh) : option (arr nat) :=
  ofold (fun c a => floop nv (fun j a => aset a (cf_elem c * nv + j) nv) a) (conns m) (aconst (sm_ne S * nv) 0%nat).

(** The block insertions (row, column, block) of Spatial::assemble_jacobian, aspatial.cpp 242-340,
    in program order; same loops as M_Resid.assemble_jacobian (Pf_Linalg.trace_assembles). *)
Definition assembly_trace (S : smesh) (fl : flow) (u : arr st) (row : nat -> nat) (col : option (nat -> nat)) : option (list (nat * nat * mat4)) :=
  t <- floop (sm_nb S) (fun k t =>
    fc <- aget (sm_F S) k ;; ul <- aget u (f_left fc) ;; left <- local_jacobian_boundary S fl k ul ;;
    Some (t ++ [(row (f_left fc), row (f_left fc), mscal (-1) left)])) [] ;;
  t <- frange (sm_nb S) (sm_nb S + sm_ni S) (fun k t =>
    fc <- aget (sm_F S) k ;; ul <- aget u (f_left fc) ;; ur <- aget u (f_right fc) ;;
    LU <- local_jacobian_interior S fl k ul ur ;;
    let l := row (f_left fc) in let r := row (f_right fc) in
    Some (t ++ [(r, l, fst LU); (l, r, snd LU); (l, l, mscal (-1) (fst LU)); (r, r, mscal (-1) (snd LU))])) t ;;
  frange (sm_nb S + sm_ni S) (sm_nf_all S) (fun k t =>
    fc <- aget (sm_F S) k ;; ul <- aget u (f_left fc) ;; ur <- aget u (f_right fc) ;;
    LU <- local_jacobian_interior S fl k ul ur ;;
    let l := row (f_left fc) in
    Some (t ++ match col with Some c => [(l, c (k - sm_nb S - sm_ni S)%nat, snd LU)] | None => [] end ++ [(l, l, mscal (-1) (fst LU))])) t.

(** ** Matrix-free product *)
Open Scope R_scope.

Definition dvec := nat -> nat -> R.

(** [ranks] processes; rank [r] has [ne r] cells and [nc r] ghost cells; ghost [k] of rank [r] is
    cell [snd (owner r k)] of rank [fst (owner r k)]; [nv] unknowns per cell. *)
Record layout := mklay { ranks : nat; l_ne : nat -> nat; l_nc : nat -> nat; owner : nat -> nat -> nat * nat; nv : nat }.

(** VecNorm, 2-norm over own entries of all ranks *)
Definition vec_norm (L : layout) (x : dvec) : R :=
  sqrt (rsum (fun r => rsum (fun i => x r i ^ 2) (seq 0 (l_ne L r * nv L))) (seq 0 (ranks L))).

(** VecGhostUpdate(INSERT_VALUES, SCATTER_FORWARD): ghost entries take the owner's values *)
Definition ghost_forward (L : layout) (x : dvec) : dvec := fun r i =>
  if (i <? l_ne L r * nv L)%nat then x r i
  else if (i <? (l_ne L r + l_nc L r) * nv L)%nat then
    let o := owner L r (i / nv L - l_ne L r) in x (fst o) (snd o * nv L + i mod nv L)%nat
  else x r i.

(** VecGhostUpdate(ADD_VALUES, SCATTER_REVERSE): own entries receive the sum of their ghost copies *)
Definition ghost_copies (L : layout) (x : dvec) (r i : nat) : R :=
  rsum (fun q => rsum (fun k =>
    if ((fst (owner L q k) =? r) && (snd (owner L q k) =? i / nv L))%nat then x q ((l_ne L q + k) * nv L + i mod nv L)%nat else 0)
    (seq 0 (l_nc L q))) (seq 0 (ranks L)).
Definition ghost_reverse (L : layout) (x : dvec) : dvec := fun r i =>
  if (i <? l_ne L r * nv L)%nat then x r i + ghost_copies L x r i else x r i.

(** alinalg.cpp 183-194: the two loops filling [aux] and clearing [yg]; [j] is what VecDuplicate left
    in the new vector *)
Definition fill_aux (L : layout) (h : R) (u x j : dvec) : dvec := fun r i =>
  if (i <? l_ne L r * nv L)%nat then u r i + h * x r i else j r i.
Definition clear_yg (L : layout) (j : dvec) : dvec := fun r i =>
  if (i <? l_ne L r * nv L)%nat then 0
  else if ((l_ne L r <=? i) && (i <? l_ne L r + l_nc L r))%nat then 0 else j r i.

(** 142-233 MatrixFreeSpatialJacobian::apply; [resid a] is what compute_residual adds to the own
    entries of its second argument for the state [a] (it does not touch ghost entries, M_Resid). *)
Definition matfree_apply (L : layout) (resid : dvec -> dvec) (eps : R) (u res dtm ja jy x : dvec) : dvec :=
  let h := eps / vec_norm L x in
  let aux := ghost_forward L (fill_aux L h u x ja) in
  let yg := clear_yg L jy in
  let yg := fun r i => if (i <? l_ne L r * nv L)%nat then yg r i + resid aux r i else yg r i in
  let yg := ghost_reverse L yg in
  fun r i => dtm r (i / nv L)%nat * x r i + (- yg r i + res r i) / h.
