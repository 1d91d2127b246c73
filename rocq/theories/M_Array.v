(** Model of utilities/aarray2d.{hpp,cpp}: Array2d objects owning blocks of a heap. Contents of a block are [option T]: None is a value that
    has not been written. Result None is undefined behaviour: access to a block that is not allocated or outside of it, freeing twice, use of
    an uninitialised value. The integer type fint is unbounded here. fprint, mprint and fread are not modelled. *)
From Coq Require Import List Arith Bool.
From Verif Require Import Base.
Import ListNotations.

Section Arr.
Context {T : Type} (t0 t1 : T) (close : T -> T -> bool).

(** aarray2d.hpp 40-48 the members *)
Record obj := mkobj { o_nrows : nat; o_ncols : nat; o_size : nat; o_elems : option nat }.
(** heap, first address never used, variables *)
Record memory := mkmem { heap : nat -> option (arr (option T)); nextp : nat; vars : nat -> option obj }.

(** elems[i] through a pointer *)
Definition hget (m : memory) (p : option nat) (i : nat) : option (option T) := q <- p ;; b <- heap m q ;; aget b i.
Definition hset (m : memory) (p : option nat) (i : nat) (v : option T) : option memory :=
  q <- p ;; b <- heap m q ;; b' <- aset b i v ;; Some (mkmem (upd (heap m) q (Some b')) (nextp m) (vars m)).
(** new T[n] *)
Definition alloc (m : memory) (n : nat) : memory * nat :=
  (mkmem (upd (heap m) (nextp m) (Some (aconst n None))) (nextp m + 1) (vars m), nextp m).
(** delete [] p: nothing happens for the null pointer *)
Definition free (m : memory) (p : option nat) : option memory :=
  match p with
  | None => Some m
  | Some q => _ <- heap m q ;; Some (mkmem (upd (heap m) q None) (nextp m) (vars m))
  end.
Definition setvar (m : memory) (x : nat) (o : option obj) : memory := mkmem (heap m) (nextp m) (upd (vars m) x o).
(** a variable that does not exist yet *)
Definition fresh (m : memory) (x : nat) : option unit := match vars m x with None => Some tt | Some _ => None end.

(** hpp 51-53 *)
Definition new0 (x : nat) (m : memory) : option memory := _ <- fresh m x ;; Some (setvar m x (Some (mkobj 0 0 0 None))).
(** hpp 56-64 *)
Definition new (x nr nc : nat) (m : memory) : option memory :=
  _ <- fresh m x ;; let '(m1, p) := alloc m (nr * nc) in Some (setvar m1 x (Some (mkobj nr nc (nr * nc) (Some p)))).
(** cpp 23-32: copy constructor; the loop runs over nrows*ncols *)
Definition copy_new (x y : nat) (m : memory) : option memory :=
  _ <- fresh m x ;; o <- vars m y ;;
  let '(m1, p) := alloc m (o_nrows o * o_ncols o) in
  let m2 := setvar m1 x (Some (mkobj (o_nrows o) (o_ncols o) (o_size o) (Some p))) in
  floop (o_nrows o * o_ncols o) (fun i m => a <- vars m x ;; b <- vars m y ;; v <- hget m (o_elems b) i ;; hset m (o_elems a) i v) m2.
(** cpp 34-43: move constructor *)
Definition move_new (x y : nat) (m : memory) : option memory :=
  _ <- fresh m x ;; o <- vars m y ;; Some (setvar (setvar m x (Some o)) y (Some (mkobj 0 0 0 None))).
(** hpp 75-78 *)
Definition del (x : nat) (m : memory) : option memory := o <- vars m x ;; m1 <- free m (o_elems o) ;; Some (setvar m1 x None).
(** cpp 45-61: assignment. Both objects are references: [rhs] is read again after [this] has been changed. *)
Definition assign (debug : bool) (x y : nat) (m : memory) : option memory :=
  _ <- vars m x ;; _ <- vars m y ;;
  if debug && (x =? y) then Some m else
  a <- vars m x ;; b <- vars m y ;; let m := setvar m x (Some (mkobj (o_nrows b) (o_ncols a) (o_size a) (o_elems a))) in
  a <- vars m x ;; b <- vars m y ;; let m := setvar m x (Some (mkobj (o_nrows a) (o_ncols b) (o_size a) (o_elems a))) in
  a <- vars m x ;; let m := setvar m x (Some (mkobj (o_nrows a) (o_ncols a) (o_nrows a * o_ncols a) (o_elems a))) in
  a <- vars m x ;; m <- free m (o_elems a) ;; let '(m, p) := alloc m (o_nrows a * o_ncols a) in
  let m := setvar m x (Some (mkobj (o_nrows a) (o_ncols a) (o_size a) (Some p))) in
  floop (o_nrows a * o_ncols a) (fun i m => a <- vars m x ;; b <- vars m y ;; v <- hget m (o_elems b) i ;; hset m (o_elems a) i v) m.
(** hpp 84-93 *)
Definition resize (x nr nc : nat) (m : memory) : option memory :=
  o <- vars m x ;; m1 <- free m (o_elems o) ;; let '(m2, p) := alloc m1 (nr * nc) in Some (setvar m2 x (Some (mkobj nr nc (nr * nc) (Some p)))).
(** hpp 96-100 zeros, cpp 63-67 ones *)
Definition fill (x : nat) (t : T) (m : memory) : option memory :=
  o <- vars m x ;; floop (o_size o) (fun i m => hset m (o_elems o) i (Some t)) m.
(** cpp 69-81 setdata; in debug builds a wrong size is refused *)
Definition setdata (debug : bool) (x : nat) (A : arr T) (sz : nat) (m : memory) : option memory :=
  o <- vars m x ;; if debug && negb (sz =? o_size o) then Some m else
  floop (o_nrows o) (fun i m => floop (o_ncols o) (fun j m => v <- aget A (i * o_ncols o + j) ;; hset m (o_elems o) (i * o_ncols o + j) (Some v)) m) m.
(** hpp 110-117 get, 124-140 operator(), with the assertions switched off *)
Definition get (x i j : nat) (m : memory) : option T := o <- vars m x ;; v <- hget m (o_elems o) (i * o_ncols o + j) ;; v.
Definition set (x i j : nat) (t : T) (m : memory) : option memory := o <- vars m x ;; hset m (o_elems o) (i * o_ncols o + j) (Some t).
(** cpp 126-138 areEqual_array2d: leaves at the first entry that differs *)
Definition are_equal (x y : nat) (m : memory) : option bool :=
  a <- vars m x ;; b <- vars m y ;;
  if negb (o_nrows a =? o_nrows b) then Some false else if negb (o_ncols a =? o_ncols b) then Some false else if negb (o_size a =? o_size b) then Some false else
  floop (o_nrows a) (fun i r => if r : bool then floop (o_ncols a) (fun j r => if r : bool then u <- get x i j m ;; v <- get y i j m ;; Some (close u v) else Some false) true else Some false) true.

(** Programs: sequences of operations on variables *)
Inductive op :=
| New0 (x : nat) | New (x nr nc : nat) | Copy (x y : nat) | Move (x y : nat) | Del (x : nat) | Assign (x y : nat)
| Resize (x nr nc : nat) | Zeros (x : nat) | Ones (x : nat) | SetData (x : nat) (A : arr T) (sz : nat)
| Get (x i j : nat) | Set_ (x i j : nat) (t : T) | Equal (x y : nat) | Rows (x : nat) | Cols (x : nat) | Size (x : nat).
Inductive out := OVal (t : T) | OBool (b : bool) | ONat (n : nat).

Definition noout (m : option memory) : option (memory * list out) := x <- m ;; Some (x, []).
Definition exec1 (debug : bool) (p : op) (m : memory) : option (memory * list out) :=
  match p with
  | New0 x => noout (new0 x m) | New x nr nc => noout (new x nr nc m) | Copy x y => noout (copy_new x y m)
  | Move x y => noout (move_new x y m) | Del x => noout (del x m) | Assign x y => noout (assign debug x y m)
  | Resize x nr nc => noout (resize x nr nc m) | Zeros x => noout (fill x t0 m) | Ones x => noout (fill x t1 m)
  | SetData x A sz => noout (setdata debug x A sz m)
  | Get x i j => t <- get x i j m ;; Some (m, [OVal t]) | Set_ x i j t => noout (set x i j t m)
  | Equal x y => b <- are_equal x y m ;; Some (m, [OBool b])
  | Rows x => o <- vars m x ;; Some (m, [ONat (o_nrows o)]) | Cols x => o <- vars m x ;; Some (m, [ONat (o_ncols o)])
  | Size x => o <- vars m x ;; Some (m, [ONat (o_size o)])
  end.
Fixpoint exec_all (debug : bool) (l : list op) (m : memory) : option (memory * list out) :=
  match l with [] => Some (m, []) | p :: r => '(m1, o1) <- exec1 debug p m ;; '(m2, o2) <- exec_all debug r m1 ;; Some (m2, o1 ++ o2) end.
Definition empty_memory : memory := mkmem (fun _ => None) 0 (fun _ => None).

(** ** Specification: every variable holds a matrix of its own. *)
Record smat := mksm { sr : nat; sc : nat; sv : nat -> nat -> option T }.
Definition smem := nat -> option smat.
Definition suninit (nr nc : nat) : smat := mksm nr nc (fun _ _ => None).
Definition sfresh (s : smem) (x : nat) : option unit := match s x with None => Some tt | Some _ => None end.
(** all entries of both defined and pairwise close *)
Fixpoint sall (l : list (nat * nat)) (a b : smat) : option bool :=
  match l with
  | [] => Some true
  | (i, j) :: r => u <- sv a i j ;; v <- sv b i j ;; if close u v then sall r a b else Some false
  end.
Definition sexec1 (p : op) (s : smem) : option (smem * list out) :=
  match p with
  | New0 x => _ <- sfresh s x ;; Some (upd s x (Some (suninit 0 0)), [])
  | New x nr nc => _ <- sfresh s x ;; Some (upd s x (Some (suninit nr nc)), [])
  | Copy x y => _ <- sfresh s x ;; a <- s y ;; Some (upd s x (Some a), [])
  | Move x y => _ <- sfresh s x ;; a <- s y ;; Some (upd (upd s x (Some a)) y (Some (suninit 0 0)), [])
  | Del x => _ <- s x ;; Some (upd s x None, [])
  | Assign x y => _ <- s x ;; a <- s y ;; Some (upd s x (Some a), [])
  | Resize x nr nc => _ <- s x ;; Some (upd s x (Some (suninit nr nc)), [])
  | Zeros x => a <- s x ;; Some (upd s x (Some (mksm (sr a) (sc a) (fun _ _ => Some t0))), [])
  | Ones x => a <- s x ;; Some (upd s x (Some (mksm (sr a) (sc a) (fun _ _ => Some t1))), [])
  | SetData x A sz => a <- s x ;; if (sz =? sr a * sc a) && (sz <=? alen A) then Some (upd s x (Some (mksm (sr a) (sc a) (fun i j => Some (aat A (i * sc a + j))))), []) else None
  | Get x i j => a <- s x ;; if (i <? sr a) && (j <? sc a) then v <- sv a i j ;; Some (s, [OVal v]) else None
  | Set_ x i j t => a <- s x ;; if (i <? sr a) && (j <? sc a) then Some (upd s x (Some (mksm (sr a) (sc a) (upd2 (sv a) i j (Some t)))), []) else None
  | Equal x y => a <- s x ;; b <- s y ;;
      if (sr a =? sr b) && (sc a =? sc b) then r <- sall (list_prod (seq 0 (sr a)) (seq 0 (sc a))) a b ;; Some (s, [OBool r]) else Some (s, [OBool false])
  | Rows x => a <- s x ;; Some (s, [ONat (sr a)]) | Cols x => a <- s x ;; Some (s, [ONat (sc a)]) | Size x => a <- s x ;; Some (s, [ONat (sr a * sc a)])
  end.
Fixpoint sexec_all (l : list op) (s : smem) : option (smem * list out) :=
  match l with [] => Some (s, []) | p :: r => '(s1, o1) <- sexec1 p s ;; '(s2, o2) <- sexec_all r s1 ;; Some (s2, o1 ++ o2) end.
End Arr.
