(** Specification vocabulary for meshes: a mesh is a list of cells, a cell a cyclic list of nodes. *)
From Coq Require Import List Arith Lia ZArith.
Import ListNotations.

(** The cells that contain point p, in increasing order, once per occurrence of p. *)
Definition cells_around (cells : list (list nat)) (p : nat) : list nat :=
  flat_map (fun i => repeat i (count_occ Nat.eq_dec (nth i cells []) p)) (seq 0 (length cells)).

(** Local face f of the cell c is the edge from its f-th to its next node, cyclically. *)
Definition edge (c : list nat) (f : nat) : nat * nat :=
  (nth f c 0, nth ((f + 1) mod length c) c 0).
Definition same_edge (e e' : nat * nat) : Prop := e = e' \/ e = (snd e', fst e').

Definition cell (cells : list (list nat)) (i : nat) : list nat := nth i cells [].

(** Every cell has at least three pairwise distinct nodes, all of which exist. *)
Definition valid_cells (npoin : nat) (cells : list (list nat)) : Prop :=
  forall c, In c cells -> 3 <= length c /\ NoDup c /\ (forall v, In v c -> v < npoin).

(** Cell j is across face f of cell i. *)
Definition across (cells : list (list nat)) (i f j : nat) : Prop :=
  i < length cells /\ f < length (cell cells i) /\ j < length cells /\ j <> i /\
  exists g, g < length (cell cells j) /\ same_edge (edge (cell cells i) f) (edge (cell cells j) g).

(** Conforming: an edge belongs to at most two cells. *)
Definition conforming (cells : list (list nat)) : Prop :=
  forall i f j j', across cells i f j -> across cells i f j' -> j = j'.

(** Cell i has both a and b among its nodes. *)
Definition has_both (cells : list (list nat)) (a b i : nat) : Prop :=
  i < length cells /\ In a (cell cells i) /\ In b (cell cells i).

(** (a,b) is local face f of cell i and no other cell has both points. *)
Definition hosted (cells : list (list nat)) (a b i f : nat) : Prop :=
  i < length cells /\ f < length (cell cells i) /\ same_edge (a, b) (edge (cell cells i) f) /\
  forall j, has_both cells a b j -> j = i.

(** Neighbouring cells run through a common edge in opposite directions. *)
Definition oriented (cells : list (list nat)) : Prop :=
  forall i f j g, i < length cells -> j < length cells -> i <> j ->
    f < length (cell cells i) -> g < length (cell cells j) ->
    same_edge (edge (cell cells i) f) (edge (cell cells j) g) ->
    edge (cell cells j) g = (snd (edge (cell cells i) f), fst (edge (cell cells i) f)).
