(** Searching the preconditioner tree (alinalg.cpp) and the schedule of AMG interpolations (aodesolver.cpp). *)
From Coq Require Import List String Bool ZArith.
From Verif Require Import Base.
Import ListNotations.

(** ** What PETSc holds below a KSP: its PC, named by a number, and the solvers inside, each given by its PC.
    [Blocks]: PCBJACOBI or PCASM with the solvers of the local blocks; [Levels]: PCMG or PCGAMG, after PCSetUp, with the smoother of level 0 and those of the finer levels
    (PCMGGetCoarseSolve and PCMGGetSmoother for level 0 give the same KSP, mglevels[0]->smoothd, in PETSc); [Inner]: PCKSP; [Plain]: any other type. *)
Inductive pct := Plain (id : nat) (ty : string) | Blocks (id : nat) (asm : bool) (l : list pct) | Levels (id : nat) (gamg : bool) (c : pct) (l : list pct) | Inner (id : nat) (q : pct).
Definition pid (p : pct) : nat := match p with Plain i _ => i | Blocks i _ _ => i | Levels i _ _ _ => i | Inner i _ => i end.
(** PetscObjectTypeCompare: PCBJACOBI is "bjacobi", PCASM "asm", PCMG "mg", PCGAMG "gamg", PCKSP "ksp" *)
Definition type_of (p : pct) : string :=
  match p with Plain _ t => t | Blocks _ a _ => if a then "asm" else "bjacobi" | Levels _ g _ _ => if g then "gamg" else "mg" | Inner _ _ => "ksp" end%string.

(** alinalg.cpp 300-358 getPC. [f]: content of *pcfound before the call ([None]: never assigned); [Exn]: the error of 330-332 (nonzero status, handed up by CHKERRQ). Errors of PETSc itself are left out. *)
Fixpoint getPC (ty : string) (p : pct) (f : option nat) : exc (option nat) :=
  (* 313-316 *)
  if String.eqb (type_of p) ty then Val (Some (pid p)) else
  match p with
  | Plain _ _ => Val f
  (* 317-334 *)
  | Blocks _ _ l => match l with [q] => getPC ty q f | _ => Exn end
  (* 335-348: the smoothers of all levels, then the coarse solver *)
  | Levels _ _ c l =>
      match getPC ty c f with Exn => Exn | Val g =>
      match (fix go (l : list pct) (g : option nat) : exc (option nat) := match l with [] => Val g | q :: r => match getPC ty q g with Exn => Exn | Val h => go r h end end) l g with
      | Exn => Exn | Val h => getPC ty c h end end
  (* 349-355 *)
  | Inner _ q => getPC ty q f
  end.

(** ** The schedule of AMG interpolations *)
(** aoptionparser.cpp 138-158 parseOptionalPetscCmd_intArray: PetscOptionsGetIntArray reads at most [maxlen] of the numbers given and says how many; [None]: option not given. *)
Definition optional_intArray (maxlen : nat) (given : option (list Z)) : list Z := match given with None => [] | Some l => firstn maxlen l end.
(** aodesolver.cpp 430-449, one step: [again] is tocomputeamginterpolation; the first result is what PCGAMGSetReuseInterpolation is called with *)
Definition amg_step (rec : list Z) (step : nat) (again : bool) : bool * bool :=
  let again := if existsb (Z.eqb (Z.of_nat step + 1)) rec then true else again in
  if again then (false, false) else (true, again).
(** the calls in steps [step], ..., [step + n - 1] *)
Fixpoint amg_calls (rec : list Z) (n step : nat) (again : bool) : list bool :=
  match n with O => [] | Datatypes.S k => let '(reuse, again') := amg_step rec step again in reuse :: amg_calls rec k (Datatypes.S step) again' end.
(** 395-400, 417-449: [n] steps are done *)
Definition amg_run (given : option (list Z)) (n : nat) : list bool := amg_calls (optional_intArray 3 given) n 0 false.
