(** Message passing between ranks as used by src/linalg/tracevector.cpp: every rank runs a sequence of
    exchanges. One exchange (update_comm_pattern lines 109-151, or updateSharedFacesBegin 234-275
    followed by updateSharedFacesEnd 278-320) is, on each rank:
      - MPI_Isend one message to every neighbour, in order;
      - MPI_Irecv from every neighbour with MPI_ANY_TAG, in order;
      - wait for all sends;
      - wait for the receives in order and use what arrived.
    Assumed of MPI: messages from one rank to another on one communicator arrive in the order sent
    (receives use MPI_ANY_TAG, so tags play no role), and a send completes when its receive has been
    posted, or earlier if the implementation buffers it. Which sends are buffered is decided by an
    arbitrary [eager]. Waiting for the sends one after the other or all together is the same here: one step
    that is possible once every send is complete.
    Ranks are interleaved one step at a time in any order. *)
From Coq Require Import List ZArith.
Import ListNotations.

Section Async.
Context (msg mem : Type).
(** neighbours of a rank; local computation: message of exchange k for a neighbour, and new local memory from
    the messages received, in neighbour order *)
Context (nbs : Z -> list Z) (out : nat -> Z -> mem -> Z -> msg) (upd : nat -> Z -> mem -> list msg -> mem).
Context (eager : Z -> Z -> nat -> bool).
(** number of exchanges each rank performs *)
Context (rounds : nat).

Inductive phase := Sending (i : nat) | Posting (i : nat) | WaitSends | Receiving (got : list msg).
Record loc := mkloc { l_round : nat; l_phase : phase; l_mem : mem }.
(** [chan s d]: messages sent by s and not yet received by d, oldest first; [nsent s d], [nposted s d]: how many
    messages s has sent to d, how many receives d has posted for s *)
Record sys := mksys { loc_of : Z -> loc; chan : Z -> Z -> list msg; nsent : Z -> Z -> nat; nposted : Z -> Z -> nat }.

Definition set1 {A} (f : Z -> A) (r : Z) (x : A) : Z -> A := fun q => if Z.eqb q r then x else f q.
Definition set_2 {A} (f : Z -> Z -> A) (a b : Z) (x : A) : Z -> Z -> A :=
  fun p q => if Z.eqb p a then if Z.eqb q b then x else f p q else f p q.

(** One step of rank [r]; [None]: it cannot move *)
Definition step (r : Z) (s : sys) : option sys :=
  let '(mkloc k ph m) := loc_of s r in
  let go k ph m := set1 (loc_of s) r (mkloc k ph m) in
  if Nat.ltb k rounds then
    match ph with
    | Sending i =>
        match nth_error (nbs r) i with
        | Some d => Some (mksys (go k (Sending (S i)) m) (set_2 (chan s) r d (chan s r d ++ [out k r m d]))
                            (set_2 (nsent s) r d (S (nsent s r d))) (nposted s))
        | None => Some (mksys (go k (Posting 0) m) (chan s) (nsent s) (nposted s))
        end
    | Posting i =>
        match nth_error (nbs r) i with
        | Some d => Some (mksys (go k (Posting (S i)) m) (chan s) (nsent s) (set_2 (nposted s) d r (S (nposted s d r))))
        | None => Some (mksys (go k WaitSends m) (chan s) (nsent s) (nposted s))
        end
    | WaitSends =>
        if forallb (fun d => orb (eager r d (nsent s r d)) (Nat.leb (nsent s r d) (nposted s r d))) (nbs r)
        then Some (mksys (go k (Receiving []) m) (chan s) (nsent s) (nposted s)) else None
    | Receiving got =>
        match nth_error (nbs r) (length got) with
        | Some d =>
            match chan s d r with
            | [] => None
            | x :: rest => Some (mksys (go k (Receiving (got ++ [x])) m) (set_2 (chan s) d r rest) (nsent s) (nposted s))
            end
        | None => Some (mksys (go (S k) (Sending 0) (upd k r m got)) (chan s) (nsent s) (nposted s))
        end
    end
  else None.

Definition start (m0 : Z -> mem) : sys :=
  mksys (fun r => mkloc 0 (Sending 0) (m0 r)) (fun _ _ => []) (fun _ _ => 0) (fun _ _ => 0).

(** executions: any interleaving of the given ranks *)
Inductive exec (ranks : list Z) : sys -> nat -> sys -> Prop :=
  | exec0 : forall s, exec ranks s 0 s
  | execS : forall s n s1 r s2, exec ranks s n s1 -> In r ranks -> step r s1 = Some s2 -> exec ranks s (S n) s2.

End Async.
Arguments mkloc {msg mem}. Arguments l_round {msg mem}. Arguments l_phase {msg mem}. Arguments l_mem {msg mem}.
Arguments mksys {msg mem}. Arguments loc_of {msg mem}. Arguments chan {msg mem}. Arguments nsent {msg mem}. Arguments nposted {msg mem}.
Arguments Sending {msg}. Arguments Posting {msg}. Arguments WaitSends {msg}. Arguments Receiving {msg}.
Arguments step {msg mem}. Arguments start {msg mem}. Arguments exec {msg mem}.
