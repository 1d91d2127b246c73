(** Model of the reconstruction schemes: src/spatial/areconstruction.cpp,
    limitedlinearreconstruction.cpp, musclreconstruction.cpp and reconstruction_utils.hpp, for
    nvars = NVARS = 4.

    Simplifications: those of M_Space.v. The loops over [ivar] are run inside the loops over faces
    instead of outside (each variable is treated independently of the others), so that one step
    handles a whole state. Divisions are checked: division by zero is the error outcome [None]
    (in C++ it yields an infinity or a NaN). *)
From Coq Require Import Reals List Arith ZArith.
From Verif Require Import Base BaseR M_Gas M_Mesh M_Geom M_Space.
Import ListNotations.
Open Scope R_scope.

Definition rdiv (a b : R) : option R := if Req_EM_T b 0 then None else Some (a / b).
(** evaluate an expression for each of the variables *)
Definition ovec (f : ix -> option R) : option st :=
  a <- f I0 ;; b <- f I1 ;; c <- f I2 ;; d <- f I3 ;; Some (mks a b c d).
(** array access with an index of signed type *)
Definition zget {A} (a : arr A) (z : Z) : option A := if (z <? 0)%Z then None else aget a (Z.to_nat z).

(** reconstruction_utils.hpp 18-35 linearExtrapolate *)
Definition linearExtrapolate (u : st) (g : grad) (lim : st) (gp rc : v2) : st :=
  mkst (fun v => cget u v + cget lim v * cget (gx g) v * (vx gp - vx rc) + cget lim v * cget (gy g) v * (vy gp - vy rc)).
(** reconstruction_utils.hpp 37-45 gradientMagnitude2 *)
Definition gradientMagnitude2 (g : grad) (v : ix) : R := 0 + cget (gx g) v * cget (gx g) v + cget (gy g) v * cget (gy g) v.
Definition sone : st := mks 1 1 1 1.

(** The two arrays of face values: ufl, ufr. *)
Definition faces2 := (arr st * arr st)%type.

(** ** areconstruction.cpp *)
(** 67-76, 94-103: only the left value *)
Definition lin_outer (S : smesh) (u : arr st) (G : arr grad) (k : nat) (s : faces2) : option faces2 :=
  fc <- aget (sm_F S) k ;; ui <- aget u (f_left fc) ;; gi <- aget G (f_left fc) ;;
  gp <- aget (sm_gr S) k ;; ci <- aget (sm_rc S) (f_left fc) ;;
  fl <- aset (fst s) k (linearExtrapolate ui gi sone gp ci) ;; Some (fl, snd s).
(** 78-92: both values *)
Definition lin_inner (S : smesh) (u : arr st) (G : arr grad) (k : nat) (s : faces2) : option faces2 :=
  fc <- aget (sm_F S) k ;; ui <- aget u (f_left fc) ;; gi <- aget G (f_left fc) ;;
  uj <- aget u (f_right fc) ;; gj <- aget G (f_right fc) ;;
  gp <- aget (sm_gr S) k ;; ci <- aget (sm_rc S) (f_left fc) ;; cj <- aget (sm_rc S) (f_right fc) ;;
  fl <- aset (fst s) k (linearExtrapolate ui gi sone gp ci) ;;
  fr <- aset (snd s) k (linearExtrapolate uj gj sone gp cj) ;; Some (fl, fr).
(** 51-105 LinearUnlimitedReconstruction::compute_face_values: connectivity, subdomain, boundary faces *)
Definition LinearUnlimited (S : smesh) (u : arr st) (G : arr grad) (s : faces2) : option faces2 :=
  s <- frange (sm_nb S + sm_ni S) (sm_nf_all S) (lin_outer S u G) s ;;
  s <- frange (sm_nb S) (sm_nb S + sm_ni S) (lin_inner S u G) s ;;
  frange 0 (sm_nb S) (lin_outer S u G) s.

(** ** limitedlinearreconstruction.cpp *)
(** 87-102, 161-172, 253-264: store the value of cell [i] at each of its faces, as left value if
    the cell's number is smaller than that of the cell beyond the face and as right value otherwise *)
Definition store_faces (S : smesh) (i : nat) (val : v2 -> v2 -> st) (s : faces2) : option faces2 :=
  n <- aget (sm_nf S) i ;;
  floop n (fun f s =>
    face <- get2 (sm_EF S) i f ;; jel <- get2 (sm_ES S) i f ;;
    gp <- aget (sm_gr S) face ;; ci <- aget (sm_rc S) i ;;
    if (Z.of_nat i <? jel)%Z then fl <- aset (fst s) face (val gp ci) ;; Some (fl, snd s)
    else fr <- aset (snd s) face (val gp ci) ;; Some (fst s, fr)) s.

(** *** WENO *)
(** 34: gamma = 4, epsilon = 1e-5 *)
Definition weno_eps : R := / 100000.
(** 61-65, 77-81: weight c / (|grad|^2 + epsilon)^gamma added to wsum, weighted gradient to lgrad *)
Definition weno_add (c : R) (g : grad) (a : st * grad) : option (st * grad) :=
  w <- ovec (fun v => rdiv c ((gradientMagnitude2 g v + weno_eps) ^ 4)) ;;
  Some (sadd (fst a) w,
        mkgrad (mkst (fun v => cget (gx (snd a)) v + cget w v * cget (gx g) v))
               (mkst (fun v => cget (gy (snd a)) v + cget w v * cget (gy g) v))).
(** 55-85 *)
Definition weno_grad (S : smesh) (lambda : R) (G : arr grad) (i : nat) : option grad :=
  gi <- aget G i ;; a <- weno_add lambda gi (szero, mkgrad szero szero) ;;
  n <- aget (sm_nf S) i ;;
  a <- floop n (fun f a => jel <- get2 (sm_ES S) i f ;;
         if (Z.of_nat (sm_ne S + sm_nc S) <=? jel)%Z then Some a
         else g <- zget G jel ;; weno_add 1 g a) a ;;
  lx <- ovec (fun v => rdiv (cget (gx (snd a)) v) (cget (fst a) v)) ;;
  ly <- ovec (fun v => rdiv (cget (gy (snd a)) v) (cget (fst a) v)) ;;
  Some (mkgrad lx ly).
(** 93-95, 98-100 *)
Definition weno_val (u : st) (lg : grad) (gp rc : v2) : st :=
  mkst (fun v => cget u v + cget (gx lg) v * (vx gp - vx rc) + cget (gy lg) v * (vy gp - vy rc)).
(** 38-105 WENOReconstruction::compute_face_values *)
Definition WENO (S : smesh) (lambda : R) (u : arr st) (G : arr grad) (s : faces2) : option faces2 :=
  floop (sm_ne S) (fun i s =>
    lg <- weno_grad S lambda G i ;; ui <- aget u i ;; store_faces S i (weno_val ui lg) s) s.

(** *** Barth-Jespersen *)
(** 131-138, 226-233: smallest and largest difference to the neighbours, starting from 0 *)
Definition du_range (S : smesh) (u : arr st) (i : nat) : option (st * st) :=
  n <- aget (sm_nf S) i ;;
  floop n (fun f a =>
    jel <- get2 (sm_ES S) i f ;; uj <- zget u jel ;; ui <- aget u i ;;
    let dui v := cget uj v - cget ui v in
    Some (mkst (fun v => if Rltb (dui v) (cget (fst a) v) then dui v else cget (fst a) v),
          mkst (fun v => if Rltb (cget (snd a) v) (dui v) then dui v else cget (snd a) v))) (szero, szero).
(** 140-159, 235-251: the smallest factor over the faces, starting from 1 *)
Definition min_factor (S : smesh) (u : arr st) (G : arr grad) (i : nat) (phi : ix -> R -> option R) : option st :=
  n <- aget (sm_nf S) i ;;
  floop n (fun f lim =>
    face <- get2 (sm_EF S) i f ;; ui <- aget u i ;; gi <- aget G i ;;
    gp <- aget (sm_gr S) face ;; ci <- aget (sm_rc S) i ;;
    let uface := linearExtrapolate ui gi sone gp ci in
    p <- ovec (fun v => phi v (cget uface v - cget ui v)) ;;
    Some (mkst (fun v => if Rltb (cget p v) (cget lim v) then cget p v else cget lim v))) sone.
(** 148-155 *)
Definition bj_phi (dmin dmax diff : R) : option R :=
  if Rltb 0 diff then q <- rdiv dmax diff ;; Some (if Rltb 1 q then 1 else q)
  else if Rltb diff 0 then q <- rdiv dmin diff ;; Some (if Rltb 1 q then 1 else q)
  else Some 1.
(** 127-175, one cell *)
Definition bj_cell (S : smesh) (u : arr st) (G : arr grad) (i : nat) (s : faces2) : option faces2 :=
  '(dmin, dmax) <- du_range S u i ;;
  lim <- min_factor S u G i (fun v diff => bj_phi (cget dmin v) (cget dmax v) diff) ;;
  ui <- aget u i ;; gi <- aget G i ;;
  store_faces S i (linearExtrapolate ui gi lim) s.
(** 116-176 BarthJespersenLimiter::compute_face_values *)
Definition BarthJespersen (S : smesh) (u : arr st) (G : arr grad) (s : faces2) : option faces2 :=
  floop (sm_ne S) (bj_cell S u G) s.

(** *** Venkatakrishnan *)
(** 178-206, the constructor: longest edge of each cell; [clength] is zero-initialised by resize *)
Definition venkat_ctor (m : umesh) (X : arr v2) : option (arr R) :=
  floop (nelem m) (fun i C =>
    let c := nth i (cells m) [] in
    l <- floop (length c) (fun f l =>
      a <- aget X (nth f c 0%nat) ;; b <- aget X (nth ((f + 1) mod length c) c 0%nat) ;;
      let llen := 0 + (vx a - vx b) ^ 2 + (vy a - vy b) ^ 2 in
      Some (if Rltb l llen then llen else l)) 0 ;;
    aset C i (sqrt l)) (aconst (nelem m) 0).
(** 245-247 *)
Definition venkat_phi (eps2 dmin dmax dm : R) : option R :=
  let dp := if Rltb dm 0 then dmin else dmax in
  rdiv (dp * dp + 2 * dp * dm + eps2) (dp * dp + dp * dm + 2 * dm * dm + eps2).
(** 220-267, one cell *)
Definition venkat_cell (S : smesh) (K : R) (cl : arr R) (u : arr st) (G : arr grad) (i : nat) (s : faces2) : option faces2 :=
  l <- aget cl i ;; let eps2 := (K * l) ^ 3 in
  '(dmin, dmax) <- du_range S u i ;;
  lim <- min_factor S u G i (fun v dm => venkat_phi eps2 (cget dmin v) (cget dmax v) dm) ;;
  ui <- aget u i ;; gi <- aget G i ;;
  store_faces S i (linearExtrapolate ui gi lim) s.
(** 208-268 VenkatakrishnanLimiter::compute_face_values *)
Definition Venkatakrishnan (S : smesh) (K : R) (cl : arr R) (u : arr st) (G : arr grad) (s : faces2) : option faces2 :=
  floop (sm_ne S) (venkat_cell S K cl u G) s.

(** ** musclreconstruction.cpp *)
(** 30: eps = 1e-8, k = 1/3 *)
Definition mu_eps : R := / 100000000.
Definition mu_k : R := 1 / 3.
(** 33-43 *)
Definition biased (ri rj : v2) (ui uj gx gy : R) : R := 2 * (0 + gx * (vx rj - vx ri) + gy * (vy rj - vy ri)) - (uj - ui).
(** 45-59 *)
Definition mu_left (ui uj dm phi : R) : R := ui + phi / 4 * ((1 - mu_k * phi) * dm + (1 + mu_k * phi) * (uj - ui)).
Definition mu_right (ui uj dp phi : R) : R := uj - phi / 4 * ((1 - mu_k * phi) * dp + (1 + mu_k * phi) * (uj - ui)).
(** 90-93, 115-123: Van Albada limiter clipped at 0 *)
Definition mu_phi (d du : R) : option R :=
  q <- rdiv (2 * d * du + mu_eps) (d * d + du * du + mu_eps) ;; Some (if Rltb q 0 then 0 else q).
(** 86-96: left value of a face between centres ri, rj with values ui, uj and gradient gi *)
Definition mu_face_left (ri rj : v2) (ui uj : st) (gi : grad) : option st :=
  ovec (fun v => let dm := biased ri rj (cget ui v) (cget uj v) (cget (gx gi) v) (cget (gy gi) v) in
    phi <- mu_phi dm (cget uj v - cget ui v) ;; Some (mu_left (cget ui v) (cget uj v) dm phi)).
(** 112-127: right value, with the gradient of the right cell *)
Definition mu_face_right (ri rj : v2) (ui uj : st) (gj : grad) : option st :=
  ovec (fun v => let dp := biased ri rj (cget ui v) (cget uj v) (cget (gx gj) v) (cget (gy gj) v) in
    phi <- mu_phi dp (cget uj v - cget ui v) ;; Some (mu_right (cget ui v) (cget uj v) dp phi)).
(** 79-98 *)
Definition mu_outer (S : smesh) (u ug : arr st) (G : arr grad) (k : nat) (s : faces2) : option faces2 :=
  fc <- aget (sm_F S) k ;; ci <- aget (sm_rc S) (f_left fc) ;; cb <- aget (sm_rcbp S) k ;;
  ui <- aget u (f_left fc) ;; ub <- aget ug k ;; gi <- aget G (f_left fc) ;;
  x <- mu_face_left ci cb ui ub gi ;; fl <- aset (fst s) k x ;; Some (fl, snd s).
(** 104-129 *)
Definition mu_inner (S : smesh) (u : arr st) (G : arr grad) (k : nat) (s : faces2) : option faces2 :=
  fc <- aget (sm_F S) k ;; ci <- aget (sm_rc S) (f_left fc) ;; cj <- aget (sm_rc S) (f_right fc) ;;
  ui <- aget u (f_left fc) ;; uj <- aget u (f_right fc) ;; gi <- aget G (f_left fc) ;; gj <- aget G (f_right fc) ;;
  x <- mu_face_left ci cj ui uj gi ;; y <- mu_face_right ci cj ui uj gj ;;
  fl <- aset (fst s) k x ;; fr <- aset (snd s) k y ;; Some (fl, fr).
(** 69-130 MUSCLVanAlbada::compute_face_values: boundary faces, then subdomain and connectivity faces *)
Definition MUSCLVanAlbada (S : smesh) (u ug : arr st) (G : arr grad) (s : faces2) : option faces2 :=
  s <- frange 0 (sm_nb S) (mu_outer S u ug G) s ;;
  frange (sm_nb S) (sm_nf_all S) (mu_inner S u G) s.
