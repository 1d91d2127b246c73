(** Specification vocabulary for partitioned runs. *)
From Coq Require Import List Arith ZArith.
From Verif Require Import Base M_Mesh M_Part.

(** Connectivity faces [x] and [y] (rank, index) are the two copies of one face of the whole mesh:
    each record names the other's rank and both name the same global face. *)
Definition copies (nr : nat) (lm : nat -> lmesh) (x y : nat * nat) : Prop := exists cf cf', fst x < nr /\ fst y < nr /\
  nth_error (conns (l_m (lm (fst x)))) (snd x) = Some cf /\ nth_error (conns (l_m (lm (fst y)))) (snd y) = Some cf' /\
  cf_rank cf = Z.of_nat (fst y) /\ cf_rank cf' = Z.of_nat (fst x) /\ cf_gface cf = cf_gface cf'.
