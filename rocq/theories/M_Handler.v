(** Model of the Vec handlers of linalg/petscutils.{hpp,cpp}: programs that create, use, copy and destroy handlers.
    PETSc is represented by the number of array borrows outstanding on each Vec (separately for read and write access and for the local form
    of ghosted vectors) and the number of local forms handed out; giving back what has not been borrowed is undefined behaviour (None).
    The n-th call of a PETSc get function fails if [fails n]. Numbers stand for Vecs and for handler variables. *)
From Coq Require Import List Arith Bool.
From Verif Require Import Base.
Import ListNotations.

(** what an array belongs to: the Vec, whether it is its local form, whether it was got for reading *)
Record key := mkkey { k_vec : nat; k_loc : bool; k_ro : bool }.
Definition key_eqb (a b : key) : bool := (k_vec a =? k_vec b) && Bool.eqb (k_loc a) (k_loc b) && Bool.eqb (k_ro a) (k_ro b).

(** petscutils.hpp 13-31, 34-52, 55-89: [h_ghost] MutableGhosted/ConstGhosted, [h_ro] Const/ConstGhosted. [h_data] is None for a null pointer *)
Record handler := mkh { h_ghost : bool; h_ro : bool; h_vec : option nat; h_data : option key; h_sdata : option key; h_local : option nat }.
Record world := mkw { arrs : key -> nat; locs : nat -> nat; calls : nat; hs : list (nat * handler) }.

Definition lookup (x : nat) (l : list (nat * handler)) : option handler := option_map snd (find (fun p => fst p =? x) l).
Definition remove_h (x : nat) (l : list (nat * handler)) : list (nat * handler) := filter (fun p => negb (fst p =? x)) l.
Definition put (w : world) (x : nat) (h : handler) : world := mkw (arrs w) (locs w) (calls w) ((x, h) :: remove_h x (hs w)).

Section Prog.
Variable fails : nat -> bool.

(** VecGetArray, VecGetArrayRead: Some (w, false) is an error code *)
Definition get_array (w : world) (k : key) : world * bool :=
  if fails (calls w) then (mkw (arrs w) (locs w) (calls w + 1) (hs w), false)
  else (mkw (fun q => if key_eqb q k then arrs w q + 1 else arrs w q) (locs w) (calls w + 1) (hs w), true).
(** VecRestoreArray, VecRestoreArrayRead *)
Definition restore_array (w : world) (k : key) : option world :=
  match arrs w k with 0 => None | S n => Some (mkw (fun q => if key_eqb q k then n else arrs w q) (locs w) (calls w) (hs w)) end.
(** VecGhostGetLocalForm, VecGhostRestoreLocalForm *)
Definition get_local (w : world) (v : nat) : world * bool :=
  if fails (calls w) then (mkw (arrs w) (locs w) (calls w + 1) (hs w), false)
  else (mkw (arrs w) (upd (locs w) v (locs w v + 1)) (calls w + 1) (hs w), true).
Definition restore_local (w : world) (v : nat) : option world :=
  match locs w v with 0 => None | S n => Some (mkw (arrs w) (upd (locs w) v n) (calls w) (hs w)) end.

(** cpp 35-46, 85-96 (plain), 136-149, 186-199 (ghosted): setVec. The boolean is false if an exception is thrown. *)
Definition setVec (w : world) (h : handler) (x : nat) : world * handler * bool :=
  match h_vec h with
  | Some _ => (w, h, false)
  | None =>
      let h1 := mkh (h_ghost h) (h_ro h) (Some x) (h_data h) (h_sdata h) (h_local h) in
      if h_ghost h then
        let '(w1, ok) := get_local w x in
        if ok then
          let h2 := mkh true (h_ro h) (Some x) (h_data h) (h_sdata h) (Some x) in
          let '(w2, ok) := get_array w1 (mkkey x true (h_ro h)) in
          if ok then let k := Some (mkkey x true (h_ro h)) in (w2, mkh true (h_ro h) (Some x) k k (Some x), true) else (w2, h2, false)
        else (w1, h1, false)
      else
        let '(w1, ok) := get_array w (mkkey x false (h_ro h)) in
        if ok then let k := Some (mkkey x false (h_ro h)) in (w1, mkh false (h_ro h) (Some x) k k (h_local h), true) else (w1, h1, false)
  end.
(** cpp 48-58, 98-108 MutableVecHandler::restore, ConstVecHandler::restore *)
Definition restore_plain (w : world) (h : handler) : option (world * handler) :=
  match h_vec h with
  | None => Some (w, mkh (h_ghost h) (h_ro h) None (h_data h) None (h_local h))
  | Some v => w1 <- restore_array w (mkkey v false (h_ro h)) ;; Some (w1, mkh (h_ghost h) (h_ro h) None (h_data h) None (h_local h))
  end.
(** cpp 151-165, 201-215 restore of the ghosted handlers *)
Definition restore_ghosted (w : world) (h : handler) : option (world * handler) :=
  match h_vec h with
  | None => Some (w, mkh (h_ghost h) (h_ro h) None (h_data h) None (h_local h))
  | Some v =>
      l <- h_local h ;; w1 <- restore_array w (mkkey l true (h_ro h)) ;; w2 <- restore_local w1 v ;;
      Some (w2, mkh (h_ghost h) (h_ro h) None (h_data h) None None)
  end.
Definition restore (w : world) (h : handler) : option (world * handler) := if h_ghost h then restore_ghosted w h else restore_plain w h.
(** cpp 29-33, 79-83, 130-134, 180-184 destructors; that of a ghosted handler is followed by that of its base class *)
Definition destroy (w : world) (h : handler) : option world :=
  '(w1, h1) <- restore w h ;; if h_ghost h then '(w2, _) <- restore_plain w1 h1 ;; Some w2 else Some w1.
(** cpp 17-19, 68-70, 118-121, 169-171 default constructors *)
Definition blank (ghost ro : bool) : handler := mkh ghost ro None None None None.

Inductive hop :=
| Ctor0 (x : nat) (ghost ro : bool) | CtorVec (x : nat) (ghost ro : bool) (v : nat) | SetVec (x v : nat) | Restore (x : nat)
| GetArray (x : nat) | Destroy (x : nat) | CopyH (x y : nat).
Inductive hout := Done | Threw | Ptr (k : option key).

Definition hstep (p : hop) (w : world) : option (world * hout) :=
  match p with
  | Ctor0 x g ro => match lookup x (hs w) with None => Some (put w x (blank g ro), Done) | Some _ => None end
  | CtorVec x g ro v =>
      match lookup x (hs w) with
      | Some _ => None
      | None =>
          let '(w1, h, ok) := setVec w (blank g ro) v in
          if ok then Some (put w1 x h, Done)
          else if g then '(w2, _) <- restore_plain w1 h ;; Some (w2, Threw) else Some (w1, Threw) (* only the base class destructor runs *)
      end
  | SetVec x v => h <- lookup x (hs w) ;; let '(w1, h1, ok) := setVec w h v in Some (put w1 x h1, if ok then Done else Threw)
  | Restore x => h <- lookup x (hs w) ;; '(w1, h1) <- restore w h ;; Some (put w1 x h1, Done)
  | GetArray x => h <- lookup x (hs w) ;; Some (w, Ptr (h_sdata h))
  | Destroy x => h <- lookup x (hs w) ;; w1 <- destroy w h ;; Some (mkw (arrs w1) (locs w1) (calls w1) (remove_h x (hs w1)), Done)
  | CopyH x y => (* implicitly generated copy constructor: memberwise *)
      match lookup x (hs w) with Some _ => None | None => h <- lookup y (hs w) ;; Some (put w x h, Done) end
  end.
Fixpoint hrun (l : list hop) (w : world) : option (world * list hout) :=
  match l with [] => Some (w, []) | p :: r => '(w1, o) <- hstep p w ;; '(w2, os) <- hrun r w1 ;; Some (w2, o :: os) end.
End Prog.
Definition world0 : world := mkw (fun _ => 0) (fun _ => 0) 0 [].

(** ** Specification: a handler variable is attached to a Vec or not. *)
Record sh := mksh { s_ghost : bool; s_ro : bool; s_vec : option nat }.
Definition sworld := list (nat * sh).
Definition slookup (x : nat) (l : sworld) : option sh := option_map snd (find (fun p => fst p =? x) l).
Definition sremove (x : nat) (l : sworld) : sworld := filter (fun p => negb (fst p =? x)) l.
Definition shstep (p : hop) (w : sworld) : option (sworld * hout) :=
  match p with
  | Ctor0 x g ro => match slookup x w with None => Some ((x, mksh g ro None) :: sremove x w, Done) | Some _ => None end
  | CtorVec x g ro v => match slookup x w with None => Some ((x, mksh g ro (Some v)) :: sremove x w, Done) | Some _ => None end
  | SetVec x v => h <- slookup x w ;; match s_vec h with Some _ => Some ((x, h) :: sremove x w, Threw) | None => Some ((x, mksh (s_ghost h) (s_ro h) (Some v)) :: sremove x w, Done) end
  | Restore x => h <- slookup x w ;; Some ((x, mksh (s_ghost h) (s_ro h) None) :: sremove x w, Done)
  | GetArray x => h <- slookup x w ;; Some (w, Ptr (option_map (fun v => mkkey v (s_ghost h) (s_ro h)) (s_vec h)))
  | Destroy x => _ <- slookup x w ;; Some (sremove x w, Done)
  | CopyH x y => None
  end.
Fixpoint shrun (l : list hop) (w : sworld) : option (sworld * list hout) :=
  match l with [] => Some (w, []) | p :: r => '(w1, o) <- shstep p w ;; '(w2, os) <- shrun r w1 ;; Some (w2, o :: os) end.
(** the borrows that are due *)
Definition holds_key (k : key) (p : nat * sh) : bool := match s_vec (snd p) with Some v => key_eqb k (mkkey v (s_ghost (snd p)) (s_ro (snd p))) | None => false end.
Definition holds_local (v : nat) (p : nat * sh) : bool := match s_vec (snd p) with Some u => s_ghost (snd p) && (u =? v) | None => false end.
Definition due (k : key) (w : sworld) : nat := length (filter (holds_key k) w).
Definition due_local (v : nat) (w : sworld) : nat := length (filter (holds_local v) w).
