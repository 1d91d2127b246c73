(** Model of src/spatial/diffusion.cpp: Diffusion, DiffusionMA.

    Simplifications: those of M_Space.v, M_Grad.v and M_Resid.v. The classes are templates in the
    number of variables and the program instantiates them with one; they are modelled with four
    ([st]), since every loop over variables treats each by itself (C79_components), so that the
    program's case is one component. The threaded loops are run in order by one thread (their
    updates are atomic, C55). VecGhostUpdate of the gradients: [gg k] is the gradient received for
    connectivity ghost cell [k]. *)
From Coq Require Import Reals List Arith ZArith Bool.
From Verif Require Import Base BaseR M_Gas M_Visc M_Mesh M_Geom M_Space M_Grad M_Recon M_Resid.
Import ListNotations.
Open Scope R_scope.

(** diffusion.hpp 39-45, 104: diffusivity, bval, source (called with time 0), gradcomp *)
Record diffn := mkdiff { df_nu : R; df_bval : R; df_src : v2 -> st -> st; df_gs : gradscheme }.

(** 14-32, the constructor: h, the largest face length of a cell *)
Definition cell_size (S : smesh) (i : nat) : option R :=
  nf <- aget (sm_nf S) i ;;
  floop nf (fun f h => k <- get2 (sm_EF S) i f ;; met <- aget (sm_M S) k ;;
    Some (if Rltb h (fm_len met) then fm_len met else h)) 0.
Definition diff_sizes (S : smesh) : option (arr R) :=
  floop (sm_ne S) (fun i a => h <- cell_size S i ;; aset a i h) (aconst (sm_ne S) 0).

(** 38-45 compute_boundary_state *)
Definition diff_boundary_state (d : diffn) (ins : st) : st := mkst (fun v => 2 * df_bval d - cget ins v).

(** 47-55 compute_boundary_states *)
Definition diff_boundary_states (S : smesh) (d : diffn) (ul ug : arr st) : option (arr st) :=
  floop (sm_nb S) (fun k ug => ins <- aget ul k ;; aset ug k (diff_boundary_state d ins)) ug.

(** 99-105, 204-210: flux += gradf[idim][ivar]*n[idim]; flux *= -diffusivity*len *)
Definition diff_flux (d : diffn) (met : fmet) (gf : grad) : st :=
  mkst (fun v => (0 + cget (gx gf) v * vx (fm_n met) + cget (gy gf) v * vy (fm_n met)) * (- df_nu d * fm_len met)).

(** 183-215: one physical boundary face *)
Definition diff_boundary_incs (S : smesh) (d : diffn) (u ug : arr st) (G : arr grad) (k : nat) : option (list (inc st)) :=
  fc <- aget (sm_F S) k ;; met <- aget (sm_M S) k ;; g <- aget G (f_left fc) ;;
  rcl <- aget (sm_rc S) (f_left fc) ;; rcr <- aget (sm_rcbp S) k ;;
  ul <- aget u (f_left fc) ;; ur <- aget ug k ;;
  Some [(f_left fc, sneg (diff_flux d met (getFaceGradient_modifiedAverage rcl rcr ul ur g g)))].

(** 73-114 compute_flux_interior *)
Definition diff_interior_incs (S : smesh) (d : diffn) (u : arr st) (G : arr grad) (k : nat) : option (list (inc st)) :=
  fc <- aget (sm_F S) k ;; met <- aget (sm_M S) k ;; gl <- aget G (f_left fc) ;; gr <- aget G (f_right fc) ;;
  rcl <- aget (sm_rc S) (f_left fc) ;; rcr <- aget (sm_rc S) (f_right fc) ;;
  ul <- aget u (f_left fc) ;; ur <- aget u (f_right fc) ;;
  let f := diff_flux d met (getFaceGradient_modifiedAverage rcl rcr ul ur gl gr) in
  Some ((f_left fc, sneg f) :: if (f_right fc <? sm_ne S)%nat then [(f_right fc, f)] else []).

(** 233-248: time steps if asked for, and the source term *)
Definition diff_source (S : smesh) (d : diffn) (gettimesteps : bool) (h : arr R) (u : arr st) (s : arr R * arr st) : option (arr R * arr st) :=
  floop (sm_ne S) (fun i s =>
    let '(dt, res) := s in
    dt' <- (if gettimesteps then hi <- aget h i ;; q <- rdiv (hi * hi) (df_nu d) ;; aset dt i q else Some dt) ;;
    rc <- aget (sm_rc S) i ;; ui <- aget u i ;; ar <- aget (sm_A S) i ;; r <- aget res i ;;
    res' <- aset res i (sadd r (mkst (fun v => cget (df_src d rc ui) v * ar))) ;;
    Some (dt', res')) s.

(** 116-250 compute_residual. [h]: the member computed by the constructor; [ju], [jg], [G0]:
    contents of the new arrays uleft, ug and of gradvec; [timesteps]: [None] is a null Vec, on which
    MutableVecHandler's constructor (line 234) throws, whether time steps are wanted or not *)
Definition diff_residual (S : smesh) (d : diffn) (h : arr R) (ju jg : nat -> st) (G0 : arr grad) (gg : nat -> grad)
    (u res : arr st) (gettimesteps : bool) (timesteps : option (arr R)) : option (exc (arr R * arr st)) :=
  ul <- boundary_left S u (mkarr (sm_nb S) ju) ;;
  ug <- diff_boundary_states S d ul (mkarr (sm_nb S) jg) ;;
  G1 <- compute_gradients S (df_gs d) u ug G0 ;;
  res1 <- acc_loop sadd 0 (sm_nb S) (diff_boundary_incs S d u ug G1) res ;;
  let G2 := ghost_gradients S gg G1 in
  res2 <- acc_loop sadd (sm_nb S) (sm_nf_all S) (diff_interior_incs S d u G2) res1 ;;
  match timesteps with
  | None => Some Exn
  | Some dt => s <- diff_source S d gettimesteps h u (dt, res2) ;; Some (Val s)
  end.

(** the unit matrix du of 264-269 and 305-310 *)
Definition mone : mat4 := mkmat (fun i j => if ix_eqb i j then 1 else 0).
(** 277-284, 314-321 *)
Definition diff_block (d : diffn) (met : fmet) (dg : dgrad) : mat4 :=
  mkmat (fun i j => if ix_eqb i j then (0 + mget (dgx dg) i i * vx (fm_n met) + mget (dgy dg) i i * vy (fm_n met)) * (df_nu d * fm_len met) else 0).

(** 252-290 compute_local_jacobian_interior *)
Definition diff_jacobian_interior (S : smesh) (d : diffn) (k : nat) (ul ur : st) : option (mat4 * mat4) :=
  fc <- aget (sm_F S) k ;; met <- aget (sm_M S) k ;;
  rcl <- aget (sm_rc S) (f_left fc) ;; rcr <- aget (sm_rc S) (f_right fc) ;;
  let '(_, dgl, _) := getFaceGradientAndJacobian_thinLayer rcl rcr ul ur mone mone in
  let L := diff_block d met dgl in Some (L, L).
(** 292-322 compute_local_jacobian_boundary *)
Definition diff_jacobian_boundary (S : smesh) (d : diffn) (k : nat) (ul : st) : option mat4 :=
  fc <- aget (sm_F S) k ;; met <- aget (sm_M S) k ;;
  rcl <- aget (sm_rc S) (f_left fc) ;; rcr <- aget (sm_rcbp S) k ;;
  let '(_, dgl, _) := getFaceGradientAndJacobian_thinLayer rcl rcr ul ul mone mone in
  Some (diff_block d met dgl).
(** Spatial::assemble_jacobian with these *)
Definition diff_jacobian (S : smesh) (d : diffn) (u : arr st) (row : nat -> nat) (col : option (nat -> nat)) (A : bmat) : option bmat :=
  assemble_with S (diff_jacobian_boundary S d) (diff_jacobian_interior S d) u row col A.

(** 324-339 getGradients; line 337 forms &ug(0,0), undefined when there is no physical boundary
    face (the array is empty) *)
Definition diff_getGradients (S : smesh) (d : diffn) (jg : nat -> st) (u : arr st) (G0 : arr grad) : option (arr grad) :=
  ug <- floop (sm_nb S) (fun k ug => fc <- aget (sm_F S) k ;; ul <- aget u (f_left fc) ;; aset ug k (diff_boundary_state d ul)) (mkarr (sm_nb S) jg) ;;
  _ <- aget ug 0 ;;
  compute_gradients S (df_gs d) u ug G0.
