(** Specification vocabulary for the spatial discretisation: a face seen from a cell. *)
From Coq Require Import Reals List Arith.
From Verif Require Import BaseR BaseSum M_Gas M_Mesh M_Geom M_Space Base.
Import ListNotations.
Open Scope R_scope.

(** face [k] bounds cell [i] *)
Definition bounds (S : smesh) (i k : nat) : Prop :=
  (k < sm_nf_all S)%nat /\ (f_left (aat (sm_F S) k) = i \/ f_right (aat (sm_F S) k) = i).

(** A field given on cells (real, then connectivity ghosts) and on physical boundary ghosts. *)
Definition left_value {A} (S : smesh) (u : nat -> A) (k : nat) : A := u (f_left (aat (sm_F S) k)).
Definition right_value {A} (S : smesh) (u ub : nat -> A) (k : nat) : A :=
  if (k <? sm_nb S)%nat then ub k else u (f_right (aat (sm_F S) k)).
(** the value beyond face [k] seen from cell [i] *)
Definition beyond {A} (S : smesh) (u ub : nat -> A) (i k : nat) : A :=
  if (f_left (aat (sm_F S) k) =? i)%nat then right_value S u ub k else left_value S u k.

(** outward area vector (unit normal times length) of face [k] for cell [i]; zero for other faces *)
Definition area_vector (S : smesh) (i k : nat) : v2 :=
  let a := vscal (fm_len (aat (sm_M S) k)) (fm_n (aat (sm_M S) k)) in
  if (f_left (aat (sm_F S) k) =? i)%nat then a else if (f_right (aat (sm_F S) k) =? i)%nat then vneg a else vzero.

(** one scalar component of a gradient block *)
Definition gsel (d : dx) (v : ix) (g : grad) : R := cget (match d with DX => gx g | DY => gy g end) v.
