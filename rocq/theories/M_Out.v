(** Model of src/spatial/aoutput.cpp, of computeSurfaceData (src/spatial/flow_spatial.cpp 114-315)
    and of scalar_postprocess_point (src/spatial/diffusion.cpp 341-373).

    Simplifications: reals for floats; the results are values instead of lines of text; the reduction
    over threads in compute_entropy_cell is a sum in index order; mpi_all_reduce with MPI_SUM adds
    the contributions of the processes, given as a list. Quotients that only involve the physics
    functions are Coq's (the theorems assume positive density); the divisions by an accumulated area
    fail ([None]) when the divisor is zero. *)
From Coq Require Import Reals List Arith ZArith Bool.
From Verif Require Import Base BaseR BaseSum M_Gas M_Mesh M_Geom M_Space M_Grad M_Recon.
Import ListNotations.
Open Scope R_scope.

Section Out.
Variable G : gas.

(** aoutput.cpp 43-49: one process's part of the entropy error; [ne], [A]: m->gnelem(), m->garea *)
Definition entropy_local (aoa : R) (ne : nat) (A : arr R) (u : arr st) : option R :=
  let sinf := getEntropyFromConserved G (compute_freestream_state G aoa) in
  floop ne (fun i error => ui <- aget u i ;; ar <- aget A i ;;
    let s_err := (getEntropyFromConserved G ui - sinf) / sinf in
    Some (error + s_err * s_err * ar)) 0.
(** 28-62 compute_entropy_cell, given the parts of all processes *)
Definition compute_entropy_cell (parts : list R) : R := sqrt (rsum (fun x => x) parts).

(** one row of [scalars] (density, Mach number, pressure and, at points, temperature) with the row
    of [velocities] *)
Record prow := mkprow { pr_rho : R; pr_mach : R; pr_p : R; pr_T : R; pr_v : v2 }.

(** 75-88 postprocess_cell (no temperature) *)
Definition cell_row (u : st) : R * R * R * v2 :=
  let v := mkv (s1 u / s0 u) (s2 u / s0 u) in
  let vmag2 := vx v * vx v + vy v * vy v in
  let p := getPressureFromConserved G u in
  let c := getSoundSpeedFromConserved G u in
  (s0 u, sqrt vmag2 / c, p, v).
Definition postprocess_cell (ne : nat) (u : arr st) (j : nat -> R * R * R * v2) : option (arr (R * R * R * v2)) :=
  floop ne (fun i out => ui <- aget u i ;; aset out i (cell_row ui)) (mkarr ne j).

(** 116-125: up and areasum are increased for each of the variables of each node of each cell *)
Definition point_sums (m : umesh) (A : arr R) (u : arr st) : option (arr st * arr R) :=
  floop (nelem m) (fun i s =>
    ofold (fun p s => ofold (fun v s =>
      let '(up, ar) := s in
      x <- aget up p ;; ui <- aget u i ;; a <- aget A i ;;
      up' <- aset up p (st_set x v (cget x v + cget ui v * a)) ;;
      y <- aget ar p ;; ar' <- aset ar p (y + a) ;; Some (up', ar')) [I0; I1; I2; I3] s) (nth i (cells m) []) s)
    (aconst (npoin m) szero, aconst (npoin m) 0).
(** 127-129 *)
Definition point_divide (m : umesh) (up : arr st) (ar : arr R) : option (arr st) :=
  floop (npoin m) (fun p up => ofold (fun v up =>
    x <- aget up p ;; y <- aget ar p ;; q <- rdiv (cget x v) y ;; aset up p (st_set x v q)) [I0; I1; I2; I3] up) up.
(** 131-144 *)
Definition point_row (u : st) : prow :=
  let v := mkv (s1 u / s0 u) (s2 u / s0 u) in
  mkprow (s0 u) (sqrt (dot2 v v) / getSoundSpeedFromConserved G u) (getPressureFromConserved G u) (getTemperatureFromConserved G u) v.
(** 100-150 postprocess_point *)
Definition postprocess_point (m : umesh) (A : arr R) (u : arr st) (j : nat -> prow) : option (arr prow) :=
  s <- point_sums m A u ;; up <- point_divide m (fst s) (snd s) ;;
  floop (npoin m) (fun p out => x <- aget up p ;; aset out p (point_row x)) (mkarr (npoin m) j).

(** ** surface data *)
(** one row of [output]: x, y, Cp, Cf *)
Record srow := mksrow { sr_x : R; sr_y : R; sr_cp : R; sr_cf : R }.
(** facecoun, output, Cl, Cdp, Cdf, totalarea *)
Record surf := mksurf { su_n : nat; su_out : arr srow; su_cl : R; su_dp : R; su_df : R; su_ar : R }.

(** m->gbtags(iface,0) *)
Definition face_tag (S : smesh) (k : nat) : option Z := t <- aget (sm_bt S) k ;; nth_error t 0.

(** flow_spatial.cpp 223-227: velocity gradient, gradu[i][j] = d v_i / d x_j *)
Definition vel_grad (u : st) (g : grad) : ten :=
  mkten ((s1 (gx g) * s0 u - s1 u * s0 (gx g)) / (s0 u * s0 u)) ((s1 (gy g) * s0 u - s1 u * s0 (gy g)) / (s0 u * s0 u))
        ((s2 (gx g) * s0 u - s2 u * s0 (gx g)) / (s0 u * s0 u)) ((s2 (gy g) * s0 u - s2 u * s0 (gy g)) / (s0 u * s0 u)).

(** 139-300: one face with the marker, and its increments of Cl, Cdp, Cdf, totalarea *)
Definition surface_face (S : smesh) (wind : v2) (u : arr st) (gr : arr grad) (k : nat) : option (srow * (R * R * R * R)) :=
  let flownormal := mkv (- vy wind) (vx wind) in
  fc <- aget (sm_F S) k ;; met <- aget (sm_M S) k ;;
  let n := fm_n met in let area := fm_len met in
  let tangf := mkv (vy n) (- vx n) in
  cen <- get_mid (sm_X S) fc ;;
  urec <- aget u (f_left fc) ;;
  let cp := (getPressureFromConserved G urec - getFreestreamPressure G) * 2 in
  let muhat := getViscosityCoeffFromConserved G urec in
  g <- aget gr (f_left fc) ;;
  let t := vel_grad urec g in
  let force := mkv (0 + (txx t + txx t) * vx n + (txy t + tyx t) * vy n) (0 + (tyx t + txy t) * vx n + (tyy t + tyy t) * vy n) in
  let tauw := muhat * dot2 force tangf in
  let cf := 2 * tauw in
  let ndotw := dot2 n wind in let ndotnw := dot2 n flownormal in let tdotw := dot2 tangf wind in
  Some (mksrow (vx cen) (vy cen) cp cf, (cp * ndotnw * area, cp * ndotw * area, cf * tdotw * area, area)).

(** 114-304 computeSurfaceData up to the reduction; [out]: the matrix passed in *)
Definition surface_local (S : smesh) (aoa : R) (u : arr st) (gr : arr grad) (tag : Z) (out : arr srow) : option surf :=
  let wind := getNormalizedFreeStreamVector aoa 0 in
  floop (sm_nb S) (fun k s =>
    t <- face_tag S k ;;
    if (t =? tag)%Z then
      r <- surface_face S wind u gr k ;;
      let '(row, (dl, dp, df, da)) := r in
      out <- aset (su_out s) (su_n s) row ;;
      Some (mksurf (su_n s + 1) out (su_cl s + dl) (su_dp s + dp) (su_df s + df) (su_ar s + da))
    else Some s) (mksurf 0 out 0 0 0 0).
(** 306-314: sums over the processes divided by the total area: Cl, Cdp, Cdf *)
Definition surface_reduce (parts : list surf) : option (R * R * R) :=
  let A := rsum su_ar parts in
  dp <- rdiv (rsum su_dp parts) A ;; df <- rdiv (rsum su_df parts) A ;; cl <- rdiv (rsum su_cl parts) A ;;
  Some (cl, dp, df).

(** aoutput.cpp 199-207: number of faces with a marker *)
Definition count_faces (S : smesh) (tag : Z) : option nat :=
  floop (sm_nb S) (fun k c => t <- face_tag S k ;; Some (if (t =? tag)%Z then (c + 1)%nat else c)) 0%nat.
(** aoutput.cpp 210-226: one wall marker; [j]: contents of the new matrix *)
Definition export_wall (S : smesh) (aoa : R) (u : arr st) (gr : arr grad) (tag : Z) (j : nat -> srow) : option surf :=
  n <- count_faces S tag ;; surface_local S aoa u gr tag (mkarr n j).
(** aoutput.cpp 249-299: another marker; rows x, y, u, v *)
Definition export_other (S : smesh) (u : arr st) (tag : Z) (j : nat -> srow) : option (arr srow) :=
  n <- count_faces S tag ;;
  s <- floop (sm_nb S) (fun k s =>
    t <- face_tag S k ;;
    if (t =? tag)%Z then
      fc <- aget (sm_F S) k ;; cen <- get_mid (sm_X S) fc ;; x <- aget u (f_left fc) ;;
      out <- aset (snd s) (fst s) (mksrow (vx cen) (vy cen) (s1 x / s0 x) (s2 x / s0 x)) ;;
      Some (fst s + 1, out)%nat
    else Some s) (0%nat, mkarr n j) ;;
  Some (snd s).

End Out.

(** diffusion.cpp 341-373 scalar_postprocess_point<1>: the array of the Vec (one value per cell) is
    read through a map with NVARS = 4 columns *)
Definition scalar_sums (m : umesh) (A : arr R) (uarr : arr R) : option (arr R * arr R) :=
  floop (nelem m) (fun i s =>
    ofold (fun p s =>
      let '(up, ar) := s in
      x <- aget up p ;; ui <- aget uarr (i * 4 + 0) ;; a <- aget A i ;;
      up' <- aset up p (x + ui * a) ;; y <- aget ar p ;; ar' <- aset ar p (y + a) ;; Some (up', ar')) (nth i (cells m) []) s)
    (aconst (npoin m) 0, aconst (npoin m) 0).
Definition scalar_postprocess_point (m : umesh) (A : arr R) (uarr : arr R) : option (arr R) :=
  s <- scalar_sums m A uarr ;;
  floop (npoin m) (fun p up => x <- aget up p ;; y <- aget (snd s) p ;; q <- rdiv x y ;; aset up p q) (fst s).
