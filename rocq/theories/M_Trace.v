(** Model of src/linalg/tracevector.cpp: L2TraceVector. Debug-only checks are dropped. The parts between MPI calls
    are the functions below; M_Async joins them. [T] is the scalar type. *)
From Coq Require Import List Arith ZArith Bool.
From Verif Require Import Base M_Mesh M_Async.
Import ListNotations.
Open Scope nat_scope.

(** std::set<int>::insert *)
Fixpoint set_insert (x : Z) (l : list Z) : list Z :=
  match l with
  | [] => [x]
  | y :: r => if (x <? y)%Z then x :: l else if (x =? y)%Z then l else y :: set_insert x r
  end.

(** 31-86 update_comm_pattern, lists of neighbours and shared faces: (nbdranks, sharedfacemap, sharedfaces). [cf] are the
    connectivity faces of this rank, [jm] what resize leaves in sharedfacemap. *)
Definition comm_faces (cf : list cfrec) (jm : nat -> nat) : option (list Z * arr nat * arr (list nat)) :=
  let n := length cf in
  nb <- floop n (fun i s => c <- nth_error cf i ;; Some (set_insert (cf_rank c) s)) [] ;;
  mp <- floop n (fun i mp =>
          c <- nth_error cf i ;;
          r <- ofind (length nb) (fun k => x <- nth_error nb k ;; Some (cf_rank c =? x)%Z) ;;
          match r with Some k => aset mp i k | None => Some mp end) (mkarr n jm) ;;
  sh <- floop n (fun i sh => k <- aget mp i ;; l <- aget sh k ;; aset sh k (l ++ [i])) (aconst (length nb) []) ;;
  Some (nb, mp, sh).

(** 121-129: global face numbers sent to neighbour number [k] *)
Definition my_gfaces (cf : list cfrec) (sh : arr (list nat)) (k : nat) : option (list Z) :=
  l <- aget sh k ;;
  floop (length l) (fun i o => f <- nth_error l i ;; c <- nth_error cf f ;; Some (o ++ [cf_gface c])) [].

(** A message received into a buffer: one longer than the buffer is an MPI error, a shorter one leaves the rest as it was *)
Definition recv_buf {A} (buf : arr A) (l : list A) : option (arr A) :=
  if length l <=? alen buf then Some (mkarr (alen buf) (fun i => nth i l (aat buf i))) else None.

(** 100-107, 152-180: sharedfacesother from the received lists *)
Definition match_faces (cf : list cfrec) (mp : arr nat) (sh : arr (list nat)) (nbdG : arr (arr Z)) : option (arr (arr Z)) :=
  floop (length cf) (fun ic ot =>
    k <- aget mp ic ;; l <- aget sh k ;; c <- nth_error cf ic ;; G <- aget nbdG k ;;
    r <- ofind (length l) (fun j => g <- aget G j ;; Some (g =? cf_gface c)%Z) ;;
    match r with
    | Some j => o <- aget ot k ;; o' <- aset o j (Z.of_nat ic) ;; aset ot k o'
    | None => Some ot
    end) (mkarr (alen sh) (fun k => aconst (length (aat sh k)) (-1)%Z)).

Section T.
Context (T : Type) (t0 : T) (nvars : nat).

(** What a rank knows of its mesh: connface, gConnBFaceStart, gnaface *)
Record rmesh := mkrm { rm_cf : list cfrec; rm_fstart : nat; rm_naface : nat }.
(** Members of L2TraceVector *)
Record tvec := mktv { tv_left : arr T; tv_right : arr T; tv_nbd : list Z; tv_map : arr nat; tv_shared : arr (list nat); tv_other : arr (arr Z) }.

(** constructor, before communicating *)
Definition tv_init (rm : rmesh) (jm : nat -> nat) : option tvec :=
  r <- comm_faces (rm_cf rm) jm ;; let '(nb, mp, sh) := r in
  Some (mktv (aconst (rm_naface rm * nvars) t0) (aconst (rm_naface rm * nvars) t0) nb mp sh
         (mkarr (alen sh) (fun k => aconst (length (aat sh k)) (-1)%Z))).

(** constructor, after communicating: [G] are the received lists in the order of nbdranks, received into zeroed vectors *)
Definition tv_match (rm : rmesh) (tv : tvec) (G : list (list Z)) : option tvec :=
  nbdG <- floop (length (tv_nbd tv)) (fun k a =>
            g <- nth_error G k ;; l <- aget (tv_shared tv) k ;; b <- recv_buf (aconst (length l) 0%Z) g ;; aset a k b)
            (mkarr (length (tv_nbd tv)) (fun _ => aconst 0 0%Z)) ;;
  ot <- match_faces (rm_cf rm) (tv_map tv) (tv_shared tv) nbdG ;;
  Some (mktv (tv_left tv) (tv_right tv) (tv_nbd tv) (tv_map tv) (tv_shared tv) ot).

(** 256-267 updateSharedFacesBegin: buffer for neighbour number [k]; resize value-initialises *)
Definition send_buffer (rm : rmesh) (tv : tvec) (k : nat) : option (list T) :=
  l <- aget (tv_shared tv) k ;;
  b <- floop (length l) (fun f b =>
         fc <- nth_error l f ;;
         floop nvars (fun v b => x <- aget (tv_left tv) ((fc + rm_fstart rm) * nvars + v) ;; aset b (f * nvars + v) x) b)
       (aconst (length l * nvars) t0) ;;
  Some (alist b).

(** 300-317 updateSharedFacesEnd: scatter the received messages [M]. An index built from an unmatched entry (-1) can be negative. *)
Definition scatter (rm : rmesh) (tv : tvec) (M : list (list T)) : option tvec :=
  rt <- floop (length (tv_nbd tv)) (fun k rt =>
    l <- aget (tv_shared tv) k ;; mk <- nth_error M k ;; b <- recv_buf (aconst (length l * nvars) t0) mk ;;
    ok <- aget (tv_other tv) k ;;
    floop (length l) (fun f rt =>
      floop nvars (fun v rt =>
        o <- aget ok f ;; x <- aget b (f * nvars + v) ;;
        let z := ((Z.of_nat (rm_fstart rm) + o) * Z.of_nat nvars + Z.of_nat v)%Z in
        if (z <? 0)%Z then None else aset rt (Z.to_nat z) x) rt) rt) (tv_right tv) ;;
  Some (mktv (tv_left tv) rt (tv_nbd tv) (tv_map tv) (tv_shared tv) (tv_other tv)).

(** ** All ranks. [None] in the memory of a rank: it has run into undefined behaviour or an MPI error. *)
Inductive tmsg := MInt (l : list Z) | MReal (l : list T) | MBad.
Context (rms : Z -> rmesh) (jm : Z -> nat -> nat).
(** what the program does to the left and right arrays between exchange k-1 and exchange k *)
Context (user : nat -> Z -> arr T * arr T -> arr T * arr T).

Definition t_nbs (r : Z) : list Z := match comm_faces (rm_cf (rms r)) (jm r) with Some (nb, _, _) => nb | None => [] end.
Definition t_init (r : Z) : option tvec := tv_init (rms r) (jm r).
Definition t_user (k : nat) (r : Z) (tv : tvec) : tvec :=
  let '(l, rt) := user k r (tv_left tv, tv_right tv) in mktv l rt (tv_nbd tv) (tv_map tv) (tv_shared tv) (tv_other tv).
(** index in nbdranks *)
Fixpoint pos (d : Z) (l : list Z) : nat := match l with [] => 0 | x :: r => if (d =? x)%Z then 0 else S (pos d r) end.

(** exchange 0 is that of the constructor, exchange k+1 the k-th updateSharedFacesBegin/End *)
Definition t_out (k : nat) (r : Z) (m : option tvec) (d : Z) : tmsg :=
  match m with
  | None => MBad
  | Some tv =>
      let i := pos d (tv_nbd tv) in
      match k with
      | 0 => match my_gfaces (rm_cf (rms r)) (tv_shared tv) i with Some l => MInt l | None => MBad end
      | S j => match send_buffer (rms r) (t_user j r tv) i with Some l => MReal l | None => MBad end
      end
  end.
Fixpoint int_msgs (l : list tmsg) : option (list (list Z)) :=
  match l with [] => Some [] | MInt x :: r => y <- int_msgs r ;; Some (x :: y) | _ => None end.
Fixpoint real_msgs (l : list tmsg) : option (list (list T)) :=
  match l with [] => Some [] | MReal x :: r => y <- real_msgs r ;; Some (x :: y) | _ => None end.
Definition t_upd (k : nat) (r : Z) (m : option tvec) (got : list tmsg) : option tvec :=
  tv <- m ;;
  match k with
  | 0 => G <- int_msgs got ;; tv_match (rms r) tv G
  | S j => M <- real_msgs got ;; scatter (rms r) (t_user j r tv) M
  end.
End T.
Arguments mktv {T}. Arguments tv_left {T}. Arguments tv_right {T}. Arguments tv_nbd {T}. Arguments tv_map {T}. Arguments tv_shared {T}. Arguments tv_other {T}.
Arguments MInt {T}. Arguments MReal {T}. Arguments MBad {T}.
