(** Specification vocabulary for the diffusion operator: div(nu grad u) + source, discretised with
    one flux per face. *)
From Coq Require Import Reals List Arith.
From Verif Require Import Base BaseR BaseSum M_Gas M_Mesh M_Geom M_Space S_Space S_Visc S_Resid.
Import ListNotations.
Open Scope R_scope.

(** unit vector from [a] to [b] *)
Definition towards (a b : v2) : v2 := vscal (/ dist2 a b) (vsub b a).

(** Gradient at a face between centres [rl] and [rr] with values [ul], [ur]: the mean [g] of the
    cell gradients, its component along the line of centres replaced by the difference quotient. *)
Definition corrected (rl rr : v2) (ul ur : R) (g : v2) : v2 :=
  let e := towards rl rr in vadd g (vscal ((ur - ul) / dist2 rl rr - dot2 g e) e).

Definition gvec (g : grad) (v : ix) : v2 := mkv (cget (gx g) v) (cget (gy g) v).

(** Fick's law at face [k]: flux -nu (grad u . n) times the length. [u], [g]: values and gradients
    of real and connectivity ghost cells; [ub]: values of boundary ghost cells. The gradient of a
    boundary ghost cell is that of the inner cell. *)
Definition fick (S : smesh) (nu : R) (u : nat -> st) (g : nat -> grad) (ub : nat -> st) (k : nat) : st :=
  let met := aat (sm_M S) k in let fc := aat (sm_F S) k in
  let gl := g (f_left fc) in let gr := if (k <? sm_nb S)%nat then gl else g (f_right fc) in
  mkst (fun v => - nu * fm_len met * dot2 (corrected (left_value S (aat (sm_rc S)) k) (right_value S (aat (sm_rc S)) (aat (sm_rcbp S)) k)
    (cget (left_value S u k) v) (cget (right_value S u ub k) v) (vscal (1/2) (vadd (gvec gl v) (gvec gr v)))) (fm_n met)).

(** Dirichlet ghost value: the mean of cell and ghost is the boundary value *)
Definition dirichlet (S : smesh) (b : R) (u : nat -> st) (k : nat) : st := mkst (fun v => 2 * b - cget (left_value S u k) v).

(** Conductance of a face: flux per unit difference of the two values in the thin-layer form *)
Definition conductance (S : smesh) (nu : R) (k : nat) : R :=
  let rl := left_value S (aat (sm_rc S)) k in let rr := right_value S (aat (sm_rc S)) (aat (sm_rcbp S)) k in
  nu * fm_len (aat (sm_M S) k) * dot2 (towards rl rr) (fm_n (aat (sm_M S) k)) / dist2 rl rr.

(** the largest length of a face of cell [i] *)
Definition largest_face (S : smesh) (i : nat) (h : R) : Prop :=
  (exists k, bounds S i k /\ h = fm_len (aat (sm_M S) k)) /\ forall k, bounds S i k -> fm_len (aat (sm_M S) k) <= h.
