(** Model of src/spatial/agradientschemes.cpp for nvars = NVARS = 4.
    Simplifications: those of M_Space.v; grad[iel](idim,ivar) is component [ivar] of [gx] (idim = 0)
    or [gy] (idim = 1); the Eigen 2x2 inverse is the adjugate times the reciprocal determinant. *)
From Coq Require Import Reals List Arith ZArith.
From Verif Require Import Base BaseR M_Gas M_Mesh M_Geom M_Space.
Import ListNotations.
Open Scope R_scope.

Definition gzero : grad := mkgrad szero szero.
Definition gadd (a b : grad) : grad := mkgrad (sadd (gx a) (gx b)) (sadd (gy a) (gy b)).
Definition gneg (a : grad) : grad := mkgrad (sneg (gx a)) (sneg (gy a)).

(** 41-49, 75-80: for(iel < nelem) grad[iel] = 0; entries of ghost cells keep their contents *)
Definition zero_grads (S : smesh) (G : arr grad) : option (arr grad) :=
  floop (sm_ne S) (fun i G => aset G i gzero) G.

(** 36-50 ZeroGradients::compute_gradients *)
Definition ZeroGradients := zero_grads.

(** 99-106: reciprocal distance of the face midpoint to a centre *)
Definition inv_dist (mid c : v2) : R :=
  1 / sqrt (0 + (vx mid - vx c) * (vx mid - vx c) + (vy mid - vy c) * (vy mid - vy c)).
(** 111-112: face value times face length *)
Definition gg_ut (dL dR len : R) (ul ur : st) : st :=
  mkst (fun i => (cget ul i * dL + cget ur i * dR) / (dL + dR) * len).
(** 114-115: (ut * n) * areainv *)
Definition gg_term (ut : st) (n : v2) (areainv : R) : grad :=
  mkgrad (mkst (fun i => (cget ut i * vx n) * areainv)) (mkst (fun i => (cget ut i * vy n) * areainv)).

(** 82-118, one physical boundary face. The += of line 115 is not marked atomic. *)
Definition gg_boundary (S : smesh) (u ug : arr st) (k : nat) : option (list (inc grad)) :=
  fc <- aget (sm_F S) k ;; mid <- get_mid (sm_X S) fc ;;
  ci <- aget (sm_rc S) (f_left fc) ;; cb <- aget (sm_rcbp S) k ;;
  let dL := inv_dist mid ci in let dR := inv_dist mid cb in
  ar <- aget (sm_A S) (f_left fc) ;; let areainv := 1 / ar in
  ui <- aget u (f_left fc) ;; ub <- aget ug k ;; met <- aget (sm_M S) k ;;
  let ut := gg_ut dL dR (fm_len met) ui ub in
  Some [(f_left fc, gg_term ut (fm_n met) areainv)].

(** 120-169, one subdomain face; both updates are atomic *)
Definition gg_interior (S : smesh) (u : arr st) (k : nat) : option (list (inc grad)) :=
  fc <- aget (sm_F S) k ;; mid <- get_mid (sm_X S) fc ;;
  ci <- aget (sm_rc S) (f_left fc) ;; cj <- aget (sm_rc S) (f_right fc) ;;
  let dL := inv_dist mid ci in let dR := inv_dist mid cj in
  a1 <- aget (sm_A S) (f_left fc) ;; a2 <- aget (sm_A S) (f_right fc) ;;
  ui <- aget u (f_left fc) ;; uj <- aget u (f_right fc) ;; met <- aget (sm_M S) k ;;
  let ut := gg_ut dL dR (fm_len met) ui uj in
  Some [(f_left fc, gg_term ut (fm_n met) (1 / a1)); (f_right fc, gneg (gg_term ut (fm_n met) (1 / a2)))].

(** 171-212, one connectivity face. The += of line 210 is not marked atomic. *)
Definition gg_conn (S : smesh) (u : arr st) (k : nat) : option (list (inc grad)) :=
  fc <- aget (sm_F S) k ;; mid <- get_mid (sm_X S) fc ;;
  ci <- aget (sm_rc S) (f_left fc) ;; cj <- aget (sm_rc S) (f_right fc) ;;
  let dL := inv_dist mid ci in let dR := inv_dist mid cj in
  a1 <- aget (sm_A S) (f_left fc) ;;
  ui <- aget u (f_left fc) ;; uj <- aget u (f_right fc) ;; met <- aget (sm_M S) k ;;
  let ut := gg_ut dL dR (fm_len met) ui uj in
  Some [(f_left fc, gg_term ut (fm_n met) (1 / a1))].

(** 61-214 GreenGaussGradients::compute_gradients, run by one thread *)
Definition GreenGauss (S : smesh) (u ug : arr st) (G : arr grad) : option (arr grad) :=
  G0 <- zero_grads S G ;;
  G1 <- acc_loop gadd 0 (sm_nb S) (gg_boundary S u ug) G0 ;;
  G2 <- acc_loop gadd (sm_nb S) (sm_nb S + sm_ni S) (gg_interior S u) G1 ;;
  acc_loop gadd (sm_nb S + sm_ni S) (sm_nf_all S) (gg_conn S u) G2.

(** ** Weighted least squares *)

(** NDIM x NDIM matrices *)
Record mat2 := mkm2 { m11 : R; m12 : R; m21 : R; m22 : R }.
Definition m2zero : mat2 := mkm2 0 0 0 0.
Definition m2add (a b : mat2) : mat2 := mkm2 (m11 a + m11 b) (m12 a + m12 b) (m21 a + m21 b) (m22 a + m22 b).
Definition m2det (a : mat2) : R := m11 a * m22 a - m21 a * m12 a.
(** 312-315: V.inverse() *)
Definition m2inv (a : mat2) : mat2 :=
  let id := 1 / m2det a in mkm2 (m22 a * id) (- m12 a * id) (- m21 a * id) (m11 a * id).

(** 245-251, 269-276, 295-301: squared inverse distance weight and difference of the centres *)
Definition wls_w2 (ri rj : v2) : R :=
  1 / (0 + (vx ri - vx rj) * (vx ri - vx rj) + (vy ri - vy rj) * (vy ri - vy rj)).
Definition wls_dr (ri rj : v2) : v2 := mkv (vx ri - vx rj) (vy ri - vy rj).
(** 253-258: w2*dr[i]*dr[j] *)
Definition wls_mat (ri rj : v2) : mat2 :=
  let w2 := wls_w2 ri rj in let d := wls_dr ri rj in
  mkm2 (w2 * vx d * vx d) (w2 * vx d * vy d) (w2 * vy d * vx d) (w2 * vy d * vy d).

(** centre on the far side of a face: rcbp for a physical boundary face, else rc *)
Definition far_centre (S : smesh) (k : nat) (fc : face) : option v2 :=
  if (k <? sm_nb S)%nat then aget (sm_rcbp S) k else aget (sm_rc S) (f_right fc).
Definition far_value (S : smesh) (u ug : arr st) (k : nat) (fc : face) : option st :=
  if (k <? sm_nb S)%nat then aget ug k else aget u (f_right fc).

(** 238-262 (physical boundary) and 291-308 (connectivity): left cell only *)
Definition wls_lhs_outer (S : smesh) (k : nat) : option (list (inc mat2)) :=
  fc <- aget (sm_F S) k ;; ri <- aget (sm_rc S) (f_left fc) ;; rj <- far_centre S k fc ;;
  Some [(f_left fc, wls_mat ri rj)].
(** 264-289 *)
Definition wls_lhs_inner (S : smesh) (k : nat) : option (list (inc mat2)) :=
  fc <- aget (sm_F S) k ;; ri <- aget (sm_rc S) (f_left fc) ;; rj <- far_centre S k fc ;;
  Some [(f_left fc, wls_mat ri rj); (f_right fc, wls_mat ri rj)].

(** 218-316 WeightedLeastSquaresGradients constructor *)
Definition WLS_ctor (S : smesh) : option (arr mat2) :=
  V1 <- acc_loop m2add 0 (sm_nb S) (wls_lhs_outer S) (aconst (sm_ne S) m2zero) ;;
  V2 <- acc_loop m2add (sm_nb S) (sm_nb S + sm_ni S) (wls_lhs_inner S) V1 ;;
  V3 <- acc_loop m2add (sm_nb S + sm_ni S) (sm_nf_all S) (wls_lhs_outer S) V2 ;;
  floop (sm_ne S) (fun i V => v <- aget V i ;; aset V i (m2inv v)) V3.

(** 357-367, 391-402, 418-425: w2*dr[jdim]*du[ivar] *)
Definition wls_vec (ri rj : v2) (ui uj : st) : grad :=
  let w2 := wls_w2 ri rj in let d := wls_dr ri rj in
  mkgrad (mkst (fun i => w2 * vx d * (cget ui i - cget uj i))) (mkst (fun i => w2 * vy d * (cget ui i - cget uj i))).
(** 339-371 and 405-430 *)
Definition wls_rhs_outer (S : smesh) (u ug : arr st) (k : nat) : option (list (inc grad)) :=
  fc <- aget (sm_F S) k ;; ri <- aget (sm_rc S) (f_left fc) ;; rj <- far_centre S k fc ;;
  ui <- aget u (f_left fc) ;; uj <- far_value S u ug k fc ;;
  Some [(f_left fc, wls_vec ri rj ui uj)].
(** 373-403 *)
Definition wls_rhs_inner (S : smesh) (u ug : arr st) (k : nat) : option (list (inc grad)) :=
  fc <- aget (sm_F S) k ;; ri <- aget (sm_rc S) (f_left fc) ;; rj <- far_centre S k fc ;;
  ui <- aget u (f_left fc) ;; uj <- far_value S u ug k fc ;;
  Some [(f_left fc, wls_vec ri rj ui uj); (f_right fc, wls_vec ri rj ui uj)].

(** 436: d = V*f *)
Definition m2grad (v : mat2) (f : grad) : grad :=
  mkgrad (mkst (fun i => m11 v * cget (gx f) i + m12 v * cget (gy f) i))
         (mkst (fun i => m21 v * cget (gx f) i + m22 v * cget (gy f) i)).

(** 322-440 WeightedLeastSquaresGradients::compute_gradients; [V]: computed by the constructor *)
Definition WLS_gradients (S : smesh) (V : arr mat2) (u ug : arr st) (G : arr grad) : option (arr grad) :=
  f1 <- acc_loop gadd 0 (sm_nb S) (wls_rhs_outer S u ug) (aconst (sm_ne S) gzero) ;;
  f2 <- acc_loop gadd (sm_nb S) (sm_nb S + sm_ni S) (wls_rhs_inner S u ug) f1 ;;
  f3 <- acc_loop gadd (sm_nb S + sm_ni S) (sm_nf_all S) (wls_rhs_outer S u ug) f2 ;;
  floop (sm_ne S) (fun i G => v <- aget V i ;; f <- aget f3 i ;; aset G i (m2grad v f)) G.
