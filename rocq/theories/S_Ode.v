(** Specification vocabulary for the ODE solvers. *)
From Coq Require Import Reals List Arith ZArith.
From Verif Require Import Base BaseR BaseSum M_Ode.
Import ListNotations.
Open Scope R_scope.

Section Run.
Context (n : nat) (A : arr R) (c : sconf) (Rf : arr st -> option (exc rout)) (eup edown : R)
        (update : nat -> R -> arr st -> rout -> option (exc (arr st * nat))) (cfl0 : R).

(** weighted norm of the last residual component in evaluation [k] *)
Definition norm_at (rs : nat -> rout) (k : nat) : R :=
  sqrt (rsum (fun i => s3 (aat (rt_r (rs k)) i) ^ 2 * aat A i) (seq 0 n)).
(** the residual "before step [k]": 1 before any evaluation *)
Definition norm_before (rs : nat -> rout) (k : nat) : R := match k with O => 1 | Datatypes.S j => norm_at rs j end.
Definition cfl_before (cf : nat -> R) (k : nat) : R := match k with O => cfl0 | Datatypes.S j => cf j end.

(** [N] consecutive steps: states [run 0 .. run N], evaluations [rs], CFL numbers [cf] and linear
    iterations [its]. *)
Record steps (N : nat) (run : nat -> arr st) (rs : nat -> rout) (cf : nat -> R) (its : nat -> nat) : Prop := {
  sp_eval : forall k, (k < N)%nat -> Rf (run k) = Some (Val (rs k));
  sp_cfl : forall k, (k < N)%nat -> cf k = expResidualRamp (cflinit c) (cflfin c) (cfl_before cf k) (norm_before rs (Nat.pred k) / norm_before rs k) eup edown;
  sp_upd : forall k, (k < N)%nat -> update k (cf k) (run k) (rs k) = Some (Val (run (k + 1)%nat, its k))
}.
Definition finite_upto (N : nat) (rs : nat -> rout) : Prop := forall k, (k < N)%nat -> rt_fin (rs k) = true.
(** the relative residual of evaluation [k] *)
Definition rel_at (rs : nat -> rout) (k : nat) : R := norm_at rs k / norm_at rs 0.
End Run.
Arguments sp_eval {n A c Rf eup edown update cfl0 N run rs cf its}.
Arguments sp_cfl {n A c Rf eup edown update cfl0 N run rs cf its}.
Arguments sp_upd {n A c Rf eup edown update cfl0 N run rs cf its}.
