(** Shared-memory execution of the threaded loops of the code (OpenMP [parallel for]).

    Memory is a function from addresses to reals. An update statement [x += v] is
    - one indivisible step when marked [#pragma omp atomic update] (or inside omp critical),
    - a load into a private register followed by a store otherwise.
    Every iteration of the loop is a thread of its own; an execution is any interleaving of the
    threads' steps. This contains every OpenMP schedule (several iterations run by one thread are
    one particular interleaving). Sequential consistency is assumed; weaker memory models only add
    behaviours. *)
From Coq Require Import Reals List Arith.
From Verif Require Import Base BaseR M_Gas M_Space.
Import ListNotations.
Open Scope R_scope.

Definition mem := nat -> R.

(** atomic updates (address, value) in the order in which they happen *)
Definition run_atomic (l : list (nat * R)) (m : mem) : mem :=
  fold_left (fun m p => upd m (fst p) (m (fst p) + snd p)) l m.

(** non-atomic updates: [Ld t a]: register of thread t := mem a; [Sto t a v]: mem a := register + v *)
Inductive step := Ld (t a : nat) | Sto (t a : nat) (v : R).
Definition do_step (s : mem * (nat -> R)) (x : step) : mem * (nat -> R) :=
  match x with
  | Ld t a => (fst s, upd (snd s) t (fst s a))
  | Sto t a v => (upd (fst s) a (snd s t + v), snd s)
  end.
Definition run_steps (l : list step) (s : mem * (nat -> R)) : mem * (nat -> R) := fold_left do_step l s.
Definition nonatomic (t : nat) (ups : list (nat * R)) : list step := flat_map (fun p => [Ld t (fst p); Sto t (fst p) (snd p)]) ups.

(** an order of all elements of all lists that respects the order within each list *)
Inductive interleave {A} : list (list A) -> list A -> Prop :=
| il_done : forall ls, (forall l, In l ls -> l = []) -> interleave ls []
| il_step : forall l1 x t l2 r, interleave (l1 ++ t :: l2) r -> interleave (l1 ++ (x :: t) :: l2) (x :: r).

(** How a value of type T is laid out in memory: [width] consecutive scalars. *)
Record layout (T : Type) := mklay { width : nat; comp : nat -> T -> R }.
Arguments width {T}. Arguments comp {T}. Arguments mklay {T}.
Definition flat {T} (l : layout T) (A : arr T) : mem := fun a => comp l (a mod width l) (aat A (a / width l)).
Definition scalar_ups {T} (l : layout T) (p : inc T) : list (nat * R) :=
  map (fun j => ((fst p * width l + j)%nat, comp l j (snd p))) (seq 0 (width l)).

(** states (row-major arrays of NVARS reals), gradient blocks (NDIM x NVARS column-major,
    aconstants.hpp 90), single reals *)
Definition ix_of (j : nat) : ix := match j with 0%nat => I0 | 1%nat => I1 | 2%nat => I2 | _ => I3 end.
Definition lay_st : layout st := mklay 4 (fun j s => cget s (ix_of j)).
Definition lay_grad : layout grad := mklay 8 (fun j g => cget (if (j mod 2 =? 0)%nat then gx g else gy g) (ix_of (j / 2))).
Definition lay_R : layout R := mklay 1 (fun _ x => x).
