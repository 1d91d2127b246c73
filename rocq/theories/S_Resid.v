(** Specification vocabulary for the residual. *)
From Coq Require Import Reals List Arith ZArith.
From Verif Require Import Base BaseR BaseSum M_Gas M_Flux M_Visc M_BC M_Mesh M_Geom M_Space S_Space M_Resid S_Gas.
Import ListNotations.
Open Scope R_scope.

(** Total flux per unit length across a face with normal [n], centres [rl], [rr] on the two sides,
    cell values [cl], [cr], cell gradients [gl], [gr] and face states [l], [r]. *)
Definition face_law (fl : flow) (second : bool) (n rl rr : v2) (cl cr : st) (gl gr : grad) (l r : st) : st :=
  sadd (get_flux (fl_flux fl) (fl_gas fl) l r n)
       (if fl_visc fl then compute_viscous_flux (fl_gas fl) second (fl_cst fl) n rl rr cl cr gl gr l r else szero).

(** Flux through face [k] of the mesh: states [u] and gradients [g] of real and connectivity ghost
    cells, states [ub] of boundary ghost cells, face states [l], [r]. At a physical boundary the
    gradient of the inner cell is used on both sides. *)
Definition through (S : smesh) (fl : flow) (second : bool) (u : nat -> st) (g : nat -> grad) (ub l r : nat -> st) (k : nat) : st :=
  let fc := aat (sm_F S) k in let met := aat (sm_M S) k in
  sscal (fm_len met) (face_law fl second (fm_n met) (left_value S (aat (sm_rc S)) k) (right_value S (aat (sm_rc S)) (aat (sm_rcbp S)) k)
    (left_value S u k) (right_value S u ub k)
    (if second then g (f_left fc) else grad0) (if second then if (k <? sm_nb S)%nat then g (f_left fc) else g (f_right fc) else grad0)
    (l k) (r k)).

(** outer faces: physical boundary faces and connectivity faces *)
Definition outer_faces (S : smesh) : list nat := seq 0 (sm_nb S) ++ seq (sm_nb S + sm_ni S) (sm_nc S).
Definition all_faces (S : smesh) : list nat := seq 0 (sm_nf_all S).
Definition all_cells (S : smesh) : list nat := seq 0 (sm_ne S).

(** Component [v] of the net flux [f] out of cell [i]. *)
Definition outflow (S : smesh) (f : nat -> st) (i : nat) (v : ix) : R :=
  rsum (fun k => (if (f_left (aat (sm_F S) k) =? i)%nat then cget (f k) v else 0) -
                 (if (f_right (aat (sm_F S) k) =? i)%nat then cget (f k) v else 0)) (all_faces S).

(** Boundary conditions which a uniform state [U] satisfies. *)
Definition admits (G : gas) (b : flowbc) (U : st) (n : v2) : Prop :=
  match b with
  | BFar w => w = U
  | BInOut w => w = U /\ Minf G <> 0 /\ pressure (gam G) U = / (gam G * (Minf G) ^ 2)
  | BExtrap => True
  | BSlip => normal_velocity U n = 0
  | _ => False
  end.

(** Rate at which signals cross a face of length [len] into a cell of area [area] with state [u]:
    advective and acoustic part, and the viscous part. *)
Definition wave_rate (fl : flow) (area : R) (u : st) (n : v2) (len : R) : R :=
  (Rabs (normal_velocity u n) + sound (gam (fl_gas fl)) u) * len
  + (if fl_visc fl then
       Rmax (4 / 3) (gam (fl_gas fl)) / s0 u *
       (if fl_cst fl then / Reinf (fl_gas fl)
        else sutherland (Tinf (fl_gas fl)) (Reinf (fl_gas fl)) (temperature (gam (fl_gas fl)) (Minf (fl_gas fl)) u)) / Prn (fl_gas fl)
       * (len * len) / area
     else 0).
