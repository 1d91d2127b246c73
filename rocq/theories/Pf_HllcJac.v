(** The HLLC Jacobian is exact off the branch boundaries. *)
From Coq Require Import Reals Lra Psatz Bool.
From Verif Require Import BaseR M_Gas M_Flux S_Gas S_Deriv S_Deriv2 Pf_Flux Pf_FluxCons Pf_HLLC Pf_FluxUp Pf_FluxMisc Pf_Deriv Pf_Gas Pf_FluxJac Pf_AusmJac Pf_RoeAvg.
Open Scope R_scope.

(** ** Star states *)
(** rate of change of component [r] of the star state, given the rates of change of its ingredients *)
Definition star_d (r : ix) (u : st) (n : v2) (vn p ss sm : R) (dr du dvn dp dss dsm : R) : R :=
  let den := ss - sm in
  let pst := s0 u * (vn - ss) * (vn - sm) + p in
  let dq := (vn - ss) * (vn - sm) * dr + s0 u * ((dvn - dss) * (vn - sm) + (vn - ss) * (dvn - dsm)) in
  let mm nr := / (den * den) * (((dss - dvn) * cget u r + (ss - vn) * du + dq * nr) * den
                 - ((ss - vn) * cget u r + (pst - p) * nr) * (dss - dsm)) in
  match r with
  | I0 => (ss - vn) / den * dr + s0 u / (den * den) * ((dss - dvn) * den - (ss - vn) * (dss - dsm))
  | I1 => mm (vx n)
  | I2 => mm (vy n)
  | I3 => / (den * den) * (((dss - dvn) * s3 u + (ss - vn) * du - dp * vn - p * dvn + (dq + dp) * sm + pst * dsm) * den
                 - ((ss - vn) * s3 u - p * vn + pst * sm) * (dss - dsm))
  end.

Lemma d_star c vn p ss sm t u du n dvn dp dss dsm r : curve_at c t u du ->
  DL vn t dvn -> DL p t dp -> DL ss t dss -> DL sm t dsm -> ss t <> sm t ->
  DL (fun s => cget (getStarState (c s) n (vn s) (p s) (ss s) (sm s)) r) t
     (star_d r u n (vn t) (p t) (ss t) (sm t) (s0 du) (cget du r) dvn dp dss dsm).
Proof.
  intros Cc D1 D2 D3 D4 Hne. pose proof (cv_at _ _ _ _ Cc) as A.
  assert (Hd : ss t - sm t <> 0) by (intro K; apply Hne; lra).
  destruct r; unfold getStarState, star_d; cbv zeta; cbn [cget s0 s1 s2 s3]; (ad; [exact Hd|]; rewrite A; field; exact Hd).
Qed.

(** the same with vectors of partial derivatives *)
Definition star_v (r : ix) (u : st) (n : v2) (vn p ss sm : R) (er eu dvn dp dss dsm : st) : st :=
  let den := ss - sm in
  let pst := s0 u * (vn - ss) * (vn - sm) + p in
  let dq := sadd (sscal ((vn - ss) * (vn - sm)) er)
              (sscal (s0 u) (sadd (sscal (vn - sm) (ssub dvn dss)) (sscal (vn - ss) (ssub dvn dsm)))) in
  let mm nr := sscal (/ (den * den)) (ssub (sscal den (sadd (sadd (sscal (cget u r) (ssub dss dvn)) (sscal (ss - vn) eu)) (sscal nr dq)))
                 (sscal ((ss - vn) * cget u r + (pst - p) * nr) (ssub dss dsm))) in
  match r with
  | I0 => sadd (sscal ((ss - vn) / den) er) (sscal (s0 u / (den * den)) (ssub (sscal den (ssub dss dvn)) (sscal (ss - vn) (ssub dss dsm))))
  | I1 => mm (vx n)
  | I2 => mm (vy n)
  | I3 => sscal (/ (den * den)) (ssub (sscal den
            (sadd (sadd (ssub (ssub (sadd (sscal (s3 u) (ssub dss dvn)) (sscal (ss - vn) eu)) (sscal vn dp)) (sscal p dvn))
              (sscal sm (sadd dq dp))) (sscal pst dsm)))
                 (sscal ((ss - vn) * s3 u - p * vn + pst * sm) (ssub dss dsm)))
  end.

Lemma star_v_dot r u n vn p ss sm er eu dvn dp dss dsm d :
  sdot (star_v r u n vn p ss sm er eu dvn dp dss dsm) d =
  star_d r u n vn p ss sm (sdot er d) (sdot eu d) (sdot dvn d) (sdot dp d) (sdot dss d) (sdot dsm d).
Proof. destruct r; unfold star_v, star_d; cbv zeta; sdl; ring. Qed.

Lemma star_d_add r u n vn p ss sm a1 a2 a3 a4 a5 a6 b1 b2 b3 b4 b5 b6 :
  star_d r u n vn p ss sm (a1+b1) (a2+b2) (a3+b3) (a4+b4) (a5+b5) (a6+b6) =
  star_d r u n vn p ss sm a1 a2 a3 a4 a5 a6 + star_d r u n vn p ss sm b1 b2 b3 b4 b5 b6.
Proof. destruct r; unfold star_d; cbv zeta; ring. Qed.

Lemma star_jac_own r u n vn p ss sm dvn dp dssi dsmi dssj dsmj : ss <> sm ->
  mrow (fst (getStarStateJacobian u n vn p ss sm dvn dp dssi dsmi dssj dsmj)) r =
  star_v r u n vn p ss sm (unit_st I0) (unit_st r) dvn dp dssi dsmi.
Proof.
  intros H. assert (Hd : ss - sm <> 0) by (intro K; apply H; lra).
  unfold getStarStateJacobian, star_v. cbv zeta. cbn [fst].
  destruct r; unfold unit_st, mkmat, mkst; apply st_eq; cbn [mrow r0 r1 r2 r3 s0 s1 s2 s3 cget ix_eqb ssub sadd sscal]; field; exact Hd.
Qed.
Lemma star_jac_other r u n vn p ss sm dvn dp dssi dsmi dssj dsmj : ss <> sm ->
  mrow (snd (getStarStateJacobian u n vn p ss sm dvn dp dssi dsmi dssj dsmj)) r =
  star_v r u n vn p ss sm szero szero szero szero dssj dsmj.
Proof.
  intros H. assert (Hd : ss - sm <> 0) by (intro K; apply H; lra).
  unfold getStarStateJacobian, star_v. cbv zeta. cbn [snd].
  destruct r; unfold szero, mkmat, mkst; apply st_eq; cbn [mrow r0 r1 r2 r3 s0 s1 s2 s3 cget ix_eqb ssub sadd sscal]; field; exact Hd.
Qed.

(** The derivative of the star state along a pair of curves, with the coded matrices *)
Lemma d_star_code c vn p ss sm t u du dv n dvn dp dssi dsmi dssj dsmj r : curve_at c t u du ->
  DL vn t (sdot dvn du) -> DL p t (sdot dp du) ->
  DL ss t (sdot dssi du + sdot dssj dv) -> DL sm t (sdot dsmi du + sdot dsmj dv) -> ss t <> sm t ->
  let J := getStarStateJacobian u n (vn t) (p t) (ss t) (sm t) dvn dp dssi dsmi dssj dsmj in
  DL (fun s => cget (getStarState (c s) n (vn s) (p s) (ss s) (sm s)) r) t
     (sdot (mrow (fst J) r) du + sdot (mrow (snd J) r) dv).
Proof.
  intros Cc D1 D2 D3 D4 Hne. cbv zeta. rewrite star_jac_own, star_jac_other by auto. rewrite !star_v_dot, <- star_d_add.
  rewrite !sdot_zl, !sdot_unit, !Rplus_0_r. cbn [cget].
  exact (d_star c vn p ss sm t u du n _ _ _ _ r Cc D1 D2 D3 D4 Hne).
Qed.

(** ** Contact speed *)
Definition sm_dsmi (ul ur : st) (vni vnj pi pj sl sr : R) (dvni dpi dsli dsri : st) : st :=
  let num := s0 ur * vnj * (sr - vnj) - s0 ul * vni * (sl - vni) + pi - pj in
  let denom := s0 ur * (sr - vnj) - s0 ul * (sl - vni) in
  mkst (fun k => match k with
    | I0 => ((s0 ur * vnj * s0 dsri - vni * (sl - vni) - s0 ul * s0 dvni * (sl - vni)
              - s0 ul * vni * (s0 dsli - s0 dvni) + s0 dpi) * denom
             - num * (s0 ur * s0 dsri - (sl - vni) - s0 ul * (s0 dsli - s0 dvni))) / (denom * denom)
    | k => ((s0 ur * vnj * cget dsri k
              - s0 ul * (cget dvni k * (sl - vni) + vni * (cget dsli k - cget dvni k)) + cget dpi k) * denom
             - num * (s0 ur * cget dsri k - s0 ul * (cget dsli k - cget dvni k))) / (denom * denom)
    end).
Definition sm_dsmj (ul ur : st) (vni vnj pi pj sl sr : R) (dvnj dpj dslj dsrj : st) : st :=
  let num := s0 ur * vnj * (sr - vnj) - s0 ul * vni * (sl - vni) + pi - pj in
  let denom := s0 ur * (sr - vnj) - s0 ul * (sl - vni) in
  mkst (fun k => match k with
    | I0 => ((vnj * (sr - vnj) + s0 ur * s0 dvnj * (sr - vnj) + s0 ur * vnj * (s0 dsrj - s0 dvnj)
              - s0 ul * vni * s0 dslj - s0 dpj) * denom
             - num * ((sr - vnj) + s0 ur * (s0 dsrj - s0 dvnj) - s0 ul * s0 dslj)) / (denom * denom)
    | k => ((s0 ur * (cget dvnj k * (sr - vnj) + vnj * (cget dsrj k - cget dvnj k))
              - s0 ul * vni * cget dslj k - cget dpj k) * denom
             - num * (s0 ur * (cget dsrj k - cget dvnj k) - s0 ul * cget dslj k)) / (denom * denom)
    end).

Lemma d_sm cl cr t ul ur dul dur (vni vnj pi pj sl sr : R -> R) dvni dvnj dpi dpj dsli dslj dsri dsrj :
  curve_at cl t ul dul -> curve_at cr t ur dur ->
  DL vni t (sdot dvni dul) -> DL vnj t (sdot dvnj dur) -> DL pi t (sdot dpi dul) -> DL pj t (sdot dpj dur) ->
  DL sl t (sdot dsli dul + sdot dslj dur) -> DL sr t (sdot dsri dul + sdot dsrj dur) ->
  s0 ur * (sr t - vnj t) - s0 ul * (sl t - vni t) <> 0 ->
  DL (fun s => hllc_sm (cl s) (cr s) (vni s) (vnj s) (pi s) (pj s) (sl s) (sr s)) t
    (sdot (sm_dsmi ul ur (vni t) (vnj t) (pi t) (pj t) (sl t) (sr t) dvni dpi dsli dsri) dul
     + sdot (sm_dsmj ul ur (vni t) (vnj t) (pi t) (pj t) (sl t) (sr t) dvnj dpj dslj dsrj) dur).
Proof.
  intros Cl Cr D1 D2 D3 D4 D5 D6 Hd.
  pose proof (cv_at _ _ _ _ Cl) as Al. pose proof (cv_at _ _ _ _ Cr) as Ar.
  set (num := s0 ur * vnj t * (sr t - vnj t) - s0 ul * vni t * (sl t - vni t) + pi t - pj t).
  set (den := s0 ur * (sr t - vnj t) - s0 ul * (sl t - vni t)) in *.
  assert (E1 : sm_dsmi ul ur (vni t) (vnj t) (pi t) (pj t) (sl t) (sr t) dvni dpi dsli dsri =
    sscal (/ (den * den)) (ssub
      (sscal den (sadd (ssub (sscal (s0 ur * vnj t) dsri)
          (sadd (sscal (vni t * (sl t - vni t)) (unit_st I0)) (sadd (sscal (s0 ul * (sl t - vni t)) dvni) (sscal (s0 ul * vni t) (ssub dsli dvni))))) dpi))
      (sscal num (ssub (sscal (s0 ur) dsri) (sadd (sscal (sl t - vni t) (unit_st I0)) (sscal (s0 ul) (ssub dsli dvni))))))).
  { unfold sm_dsmi. cbv zeta. fold num den. clearbody num den. unfold unit_st, mkst; apply st_eq; cbn [s0 s1 s2 s3 cget ix_eqb ssub sadd sscal]; field; exact Hd. }
  assert (E2 : sm_dsmj ul ur (vni t) (vnj t) (pi t) (pj t) (sl t) (sr t) dvnj dpj dslj dsrj =
    sscal (/ (den * den)) (ssub
      (sscal den (ssub (ssub (sadd (sscal (vnj t * (sr t - vnj t)) (unit_st I0)) (sadd (sscal (s0 ur * (sr t - vnj t)) dvnj) (sscal (s0 ur * vnj t) (ssub dsrj dvnj))))
          (sscal (s0 ul * vni t) dslj)) dpj))
      (sscal num (ssub (sadd (sscal (sr t - vnj t) (unit_st I0)) (sscal (s0 ur) (ssub dsrj dvnj))) (sscal (s0 ul) dslj))))).
  { unfold sm_dsmj. cbv zeta. fold num den. clearbody num den. unfold unit_st, mkst; apply st_eq; cbn [s0 s1 s2 s3 cget ix_eqb ssub sadd sscal]; field; exact Hd. }
  rewrite E1, E2. clear E1 E2. sdl. cbn [cget].
  unfold hllc_sm. ad; rewrite ?Al, ?Ar; [exact Hd|]. fold num den.
  set (x1 := sdot dvni dul). set (x2 := sdot dvnj dur). set (x3 := sdot dpi dul). set (x4 := sdot dpj dur).
  set (x5 := sdot dsli dul). set (x6 := sdot dslj dur). set (x7 := sdot dsri dul). set (x8 := sdot dsrj dur).
  clearbody num den x1 x2 x3 x4 x5 x6 x7 x8. unfold Rdiv. ring.
Qed.

(** ** Signal speeds *)
Definition SLf (ga : R) (n : v2) (x y : st) : R :=
  Rmin (normal_velocity x n - sound ga x) (roe_normal x y n - roe_sound ga x y).
Definition SRf (ga : R) (n : v2) (x y : st) : R :=
  Rmax (normal_velocity y n + sound ga y) (roe_normal x y n + roe_sound ga x y).
Definition SMf (ga : R) (n : v2) (x y : st) : R :=
  hllc_sm x y (normal_velocity x n) (normal_velocity y n) (pressure ga x) (pressure ga y) (SLf ga n x y) (SRf ga n x y).

Lemma d_SL ga n ul ur gv gc Vi Vj Ci Cj :
  grad_is (fun w => normal_velocity w n) ul gv -> grad_is (sound ga) ul gc ->
  grad2_is (fun x y => roe_normal x y n) ul ur Vi Vj -> grad2_is (fun x y => roe_sound ga x y) ul ur Ci Cj ->
  normal_velocity ul n - sound ga ul <> roe_normal ul ur n - roe_sound ga ul ur ->
  let b := Rltb (roe_normal ul ur n - roe_sound ga ul ur) (normal_velocity ul n - sound ga ul) in
  grad2_is (SLf ga n) ul ur (if b then ssub Vi Ci else ssub gv gc) (if b then ssub Vj Cj else szero).
Proof.
  intros D1 D2 D3 D4 Hne b cl cr t dul dur Cl Cr.
  pose proof (D1 cl t dul Cl) as E1. pose proof (D2 cl t dul Cl) as E2. pose proof (D3 cl cr t dul dur Cl Cr) as E3.
  pose proof (D4 cl cr t dul dur Cl Cr) as E4. cbv beta in *.
  pose proof (dl_minus _ _ _ _ _ E1 E2) as F1. pose proof (dl_minus _ _ _ _ _ E3 E4) as F2. cbv beta in *.
  pose proof (cv_at _ _ _ _ Cl) as Al. pose proof (cv_at _ _ _ _ Cr) as Ar.
  unfold b. destruct (Rltb_spec (roe_normal ul ur n - roe_sound ga ul ur) (normal_velocity ul n - sound ga ul)) as [H|H].
  - eapply dl_local; [|eapply dl_eq; [exact F2|sdl; ring]].
    eapply near_imp; [|apply (near_lt _ _ t _ _ F2 F1); rewrite Al, Ar; auto]. cbv beta. intros s Hs.
    unfold SLf. rewrite Rmin_right; lra.
  - eapply dl_local; [|eapply dl_eq; [exact F1|sdl; ring]].
    eapply near_imp; [|apply (near_lt _ _ t _ _ F1 F2); rewrite Al, Ar; lra]. cbv beta. intros s Hs.
    unfold SLf. rewrite Rmin_left; lra.
Qed.

Lemma d_SR ga n ul ur gv gc Vi Vj Ci Cj :
  grad_is (fun w => normal_velocity w n) ur gv -> grad_is (sound ga) ur gc ->
  grad2_is (fun x y => roe_normal x y n) ul ur Vi Vj -> grad2_is (fun x y => roe_sound ga x y) ul ur Ci Cj ->
  normal_velocity ur n + sound ga ur <> roe_normal ul ur n + roe_sound ga ul ur ->
  let b := Rltb (normal_velocity ur n + sound ga ur) (roe_normal ul ur n + roe_sound ga ul ur) in
  grad2_is (SRf ga n) ul ur (if b then sadd Vi Ci else szero) (if b then sadd Vj Cj else sadd gv gc).
Proof.
  intros D1 D2 D3 D4 Hne b cl cr t dul dur Cl Cr.
  pose proof (D1 cr t dur Cr) as E1. pose proof (D2 cr t dur Cr) as E2. pose proof (D3 cl cr t dul dur Cl Cr) as E3.
  pose proof (D4 cl cr t dul dur Cl Cr) as E4. cbv beta in *.
  pose proof (dl_plus _ _ _ _ _ E1 E2) as F1. pose proof (dl_plus _ _ _ _ _ E3 E4) as F2. cbv beta in *.
  pose proof (cv_at _ _ _ _ Cl) as Al. pose proof (cv_at _ _ _ _ Cr) as Ar.
  unfold b. destruct (Rltb_spec (normal_velocity ur n + sound ga ur) (roe_normal ul ur n + roe_sound ga ul ur)) as [H|H].
  - eapply dl_local; [|eapply dl_eq; [exact F2|sdl; ring]].
    eapply near_imp; [|apply (near_lt _ _ t _ _ F1 F2); rewrite Al, Ar; auto]. cbv beta. intros s Hs.
    unfold SRf. rewrite Rmax_right; lra.
  - eapply dl_local; [|eapply dl_eq; [exact F1|sdl; ring]].
    eapply near_imp; [|apply (near_lt _ _ t _ _ F2 F1); rewrite Al, Ar; lra]. cbv beta. intros s Hs.
    unfold SRf. rewrite Rmax_left; lra.
Qed.

(** ** The flux and the coded Jacobian in terms of these *)
Lemma hllc_flux_spec G x y n : 1 < gam G -> physical (gam G) x -> physical (gam G) y ->
  let ga := gam G in let sl := SLf ga n x y in let sr := SRf ga n x y in let sm := SMf ga n x y in
  hllc_flux G x y n =
  if Rltb 0 sl then euler_flux ga x n
  else if andb (Rleb sl 0) (Rltb 0 sm) then
    mkst (fun k => cget (euler_flux ga x n) k + sl * (cget (getStarState x n (normal_velocity x n) (pressure ga x) sl sm) k - cget x k))
  else if andb (Rleb sm 0) (Rleb 0 sr) then
    mkst (fun k => cget (euler_flux ga y n) k + sr * (cget (getStarState y n (normal_velocity y n) (pressure ga y) sr sm) k - cget y k))
  else euler_flux ga y n.
Proof.
  intros Hg Hx Hy. cbv zeta. unfold hllc_flux. rewrite hll_speeds_spec by auto.
  rewrite <- (dflux_vars G x n), <- (dflux_vars G y n) by auto. rewrite !vars_spec by auto. cbv zeta. vproj. reflexivity.
Qed.

Definition hllc_core (G : gas) (ul ur : st) (n : v2) (vni vnj pi pj : R) (dvni dpi dvnj dpj : st)
   (sl : R) (dsli dslj : st) (sr : R) (dsri dsrj : st) : mat4 * mat4 :=
  let sm := hllc_sm ul ur vni vnj pi pj sl sr in
  let dsmi := sm_dsmi ul ur vni vnj pi pj sl sr dvni dpi dsli dsri in
  let dsmj := sm_dsmj ul ur vni vnj pi pj sl sr dvnj dpj dslj dsrj in
  let al := getJacobianDirectionalFluxWrtConserved G ul n in
  let ar := getJacobianDirectionalFluxWrtConserved G ur n in
  let kd i k := if ix_eqb i k then 1 else 0 in
    if Rltb 0 sl then (al, mat0)
    else if andb (Rleb sl 0) (Rltb 0 sm) then
      let us := getStarState ul n vni pi sl sm in
      let '(dui, duj) := getStarStateJacobian ul n vni pi sl sm dvni dpi dsli dsmi dslj dsmj in
      (mkmat (fun i k => mget al i k + (cget dsli k * (cget us i - cget ul i) + sl * (mget dui i k - kd i k))),
       mkmat (fun i k => 0 + (cget dslj k * (cget us i - cget ul i) + sl * mget duj i k)))
    else if andb (Rleb sm 0) (Rleb 0 sr) then
      let us := getStarState ur n vnj pj sr sm in
      let '(duj, dui) := getStarStateJacobian ur n vnj pj sr sm dvnj dpj dsrj dsmj dsri dsmi in
      (mkmat (fun i k => 0 + (cget dsri k * (cget us i - cget ur i) + sr * mget dui i k)),
       mkmat (fun i k => mget ar i k + (cget dsrj k * (cget us i - cget ur i) + sr * (mget duj i k - kd i k))))
    else (mat0, ar).

Lemma hllc_jac_core G ul ur n : 1 < gam G -> physical (gam G) ul -> physical (gam G) ur ->
  let ga := gam G in
  let di := getJacobianVarsWrtConserved G ul n dvars0 in
  let dj := getJacobianVarsWrtConserved G ur n dvars0 in
  let gi := getJacobianSoundSpeedWrtConserved G ul szero in
  let gj := getJacobianSoundSpeedWrtConserved G ur szero in
  let D := getJacobiansRoeAverages G ul ur n (mkv (s1 ul / s0 ul) (s2 ul / s0 ul)) (enthalpy (gam G) ul)
              (mkv (s1 ur / s0 ur) (s2 ur / s0 ur)) (enthalpy (gam G) ur) (d_H di) (d_H dj) in
  let bl := Rltb (roe_normal ul ur n - roe_sound ga ul ur) (normal_velocity ul n - sound ga ul) in
  let br := Rltb (normal_velocity ur n + sound ga ur) (roe_normal ul ur n + roe_sound ga ul ur) in
  let K := hllc_core G ul ur n (normal_velocity ul n) (normal_velocity ur n) (pressure ga ul) (pressure ga ur)
     (d_vn di) (d_p di) (d_vn dj) (d_p dj)
     (SLf ga n ul ur) (if bl then ssub (dvn_ (fst D)) (dc_ (fst D)) else ssub (d_vn di) gi)
                      (if bl then ssub (dvn_ (snd D)) (dc_ (snd D)) else szero)
     (SRf ga n ul ur) (if br then sadd (dvn_ (fst D)) (dc_ (fst D)) else szero)
                      (if br then sadd (dvn_ (snd D)) (dc_ (snd D)) else sadd (d_vn dj) gj) in
  hllc_jac G ul ur n = mkjacs (mkmat (fun i k => mget (fst K) i k * -1)) (snd K).
Proof.
  intros Hg Hl Hr ga di dj gi gj D bl br K. pose proof Hl as [Pl _]. pose proof Hr as [Pr _].
  assert (Rl0 : s0 ul <> 0) by lra. assert (Rr0 : s0 ur <> 0) by lra.
  unfold hllc_jac. rewrite !vars_spec by auto. cbv zeta. vproj. rewrite !sound_spec.
  change (d_p (getJacobianVarsWrtConserved G ul n dvars0)) with (getJacobianPressureWrtConserved G ul).
  change (d_p (getJacobianVarsWrtConserved G ur n dvars0)) with (getJacobianPressureWrtConserved G ur).
  rewrite !dsound_code by auto. fold di dj gi gj. fold D.
  pose proof (pair_roe_spec G ul ur n Hg Hl Hr) as EA. unfold pair_roe in EA. rewrite !vars_spec in EA by auto.
  cbv zeta in EA. cbn [v_v v_H] in EA. rewrite EA. cbn [a_vn a_c].
  unfold K, hllc_core. 
  change (d_p di) with (getJacobianPressureWrtConserved G ul). change (d_p dj) with (getJacobianPressureWrtConserved G ur).
  destruct D as [Di Dj]. cbn [fst snd]. unfold bl, br, ga, SLf, SRf.
  destruct (Rltb_spec (roe_normal ul ur n - roe_sound (gam G) ul ur) (normal_velocity ul n - sound (gam G) ul)) as [Hb|Hb];
  destruct (Rltb_spec (normal_velocity ur n + sound (gam G) ur) (roe_normal ul ur n + roe_sound (gam G) ul ur)) as [Hc|Hc];
  try apply Rnot_lt_le in Hb; try apply Rnot_lt_le in Hc;
  rewrite ?(Rmin_right _ _ (Rlt_le _ _ Hb)), ?(Rmax_right _ _ (Rlt_le _ _ Hc)), ?(Rmin_left _ _ Hb), ?(Rmax_left _ _ Hc) by lra;
  cbv zeta; unfold sm_dsmi, sm_dsmj, hllc_sm; cbv zeta;
  match goal with |- context [Rltb 0 ?a] => destruct (Rltb 0 a); [reflexivity|] end;
  repeat match goal with |- context [if andb ?a ?b then _ else _] => destruct (andb a b) end;
  try reflexivity;
  match goal with |- context [getStarStateJacobian ?a ?b ?c ?d ?e ?f ?g ?h ?i ?j ?k ?l] => destruct (getStarStateJacobian a b c d e f g h i j k l) end; reflexivity.
Qed.

Lemma order_spec G x y n : 5/4 <= gam G -> physical (gam G) x -> physical (gam G) y -> unit_vec n ->
  let ga := gam G in
  0 < s0 y * (SRf ga n x y - normal_velocity y n) - s0 x * (SLf ga n x y - normal_velocity x n) /\
  SLf ga n x y < SMf ga n x y < SRf ga n x y.
Proof.
  intros H5 Hx Hy Hn. pose proof (hllc_star_states G x y n H5 Hx Hy Hn) as H.
  rewrite hll_speeds_spec in H by (auto; lra). cbn [fst snd] in H. cbv zeta in *.
  split; [exact (proj1 H)|exact (proj1 (proj2 H))].
Qed.

Lemma mneg_back K : mneg (mkmat (fun i k => mget K i k * -1)) = K.
Proof. destruct K as [[] [] [] []]. unfold mneg, mkmat, mkst, sneg, mget; cbn. f_equal; apply st_eq; cbn; ring. Qed.

(** off the branch boundaries *)
Definition hllc_strict (ga : R) (n : v2) (ul ur : st) : Prop :=
  0 < SLf ga n ul ur \/ SRf ga n ul ur < 0 \/
  (normal_velocity ul n - sound ga ul <> roe_normal ul ur n - roe_sound ga ul ur /\
   normal_velocity ur n + sound ga ur <> roe_normal ul ur n + roe_sound ga ul ur /\
   SLf ga n ul ur <> 0 /\ SMf ga n ul ur <> 0 /\ SRf ga n ul ur <> 0).

Lemma dl_row (F us ss : R -> R) (u : R -> R) t f u' us' ss' :
  DL F t f -> DL us t us' -> DL u t u' -> DL ss t ss' ->
  DL (fun s => F s + ss s * (us s - u s)) t (f + (ss' * (us t - u t) + ss t * (us' - u'))).
Proof. intros. ad. ring. Qed.

Lemma hllc_jac_exact G ul ur n : 5/4 <= gam G -> physical (gam G) ul -> physical (gam G) ur -> unit_vec n ->
  hllc_strict (gam G) n ul ur ->
  jac2_is (fun x y => hllc_flux G x y n) ul ur (mneg (dfdl (hllc_jac G ul ur n))) (dfdr (hllc_jac G ul ur n)).
Proof.
  intros H5 Hl Hr Hn Hs. assert (Hg : 1 < gam G) by lra.
  pose proof Hl as [Pl _]. pose proof Hr as [Pr _].
  assert (Rl0 : s0 ul <> 0) by lra. assert (Rr0 : s0 ur <> 0) by lra.
  rewrite hllc_jac_core by auto. cbv zeta. cbn [dfdl dfdr]. rewrite mneg_back.
  pose proof (roe_derivs G n ul ur Hg Hl Hr) as RD. cbv zeta in RD.
  destruct (vars_grads G n ul Rl0) as (_ & _ & Dvl & Dpl & _).
  destruct (vars_grads G n ur Rr0) as (_ & _ & Dvr & Dpr & _).
  pose proof (d_sound G ul Hg Hl) as Dcl. pose proof (d_sound G ur Hg Hr) as Dcr.
  set (di := getJacobianVarsWrtConserved G ul n dvars0) in *. set (dj := getJacobianVarsWrtConserved G ur n dvars0) in *.
  set (gi := getJacobianSoundSpeedWrtConserved G ul szero) in *. set (gj := getJacobianSoundSpeedWrtConserved G ur szero) in *.
  set (D := getJacobiansRoeAverages _ _ _ _ _ _ _ _ _ _) in *.
  destruct RD as (_ & _ & _ & _ & _ & DV & _ & DC).
  set (ga := gam G) in *.
  set (dvi := d_vn di) in *. set (dpi := d_p di) in *. set (dvj := d_vn dj) in *. set (dpj := d_p dj) in *.
  set (Vi := dvn_ (fst D)) in *. set (Vj := dvn_ (snd D)) in *. set (Ci := dc_ (fst D)) in *. set (Cj := dc_ (snd D)) in *.
  pose proof (d_flux G n ul Rl0) as Dfl. pose proof (d_flux G n ur Rr0) as Dfr. fold ga in Dfl, Dfr.
  clearbody Vi Vj Ci Cj. clear D. clearbody dvi dpi dvj dpj gi gj. clear di dj.
  pose proof (order_spec G ul ur n H5 Hl Hr Hn) as [Hden Hord]. fold ga in Hden, Hord.
  destruct (Rlt_or_le 0 (SLf ga n ul ur)) as [Hsl|Hsl].
  { (* supersonic to the right *)
    unfold hllc_core. rewrite Rltb_true by auto. cbn [fst snd]. intros i cl cr t dul dur Cl Cr.
    pose proof (cv_at _ _ _ _ Cl) as Al. pose proof (cv_at _ _ _ _ Cr) as Ar.
    assert (H1 : 0 < normal_velocity ul n - sound ga ul) by (eapply Rlt_le_trans; [exact Hsl|apply Rmin_l]).
    assert (H2 : 0 < roe_normal ul ur n - roe_sound ga ul ur) by (eapply Rlt_le_trans; [exact Hsl|apply Rmin_r]).
    pose proof (dl_minus _ _ _ _ _ (Dvl cl t dul Cl) (Dcl cl t dul Cl)) as F1.
    pose proof (dl_minus _ _ _ _ _ (DV cl cr t dul dur Cl Cr) (DC cl cr t dul dur Cl Cr)) as F2. cbv beta in F1, F2.
    eapply dl_local; [|eapply dl_eq; [exact (Dfl i cl t dul Cl)|]].
    2:{ replace (mrow mat0 i) with szero by (destruct i; reflexivity). sdl. ring. }
    eapply near_imp; [|apply near_and; [exact (near_physical2 ga cl cr t ul ur dul dur Hl Hr Cl Cr)|apply near_and;
      [apply (near_lt _ _ t _ _ (dl_const 0 t) F1); rewrite Al; auto|apply (near_lt _ _ t _ _ (dl_const 0 t) F2); rewrite Al, Ar; auto]]].
    cbv beta. intros s ((Px & Py) & K1 & K2). rewrite hllc_flux_spec by auto. cbv zeta. fold ga.
    rewrite Rltb_true; [reflexivity|]. unfold SLf. apply Rmin_glb_lt; auto. }
  destruct (Rlt_or_le (SRf ga n ul ur) 0) as [Hsr|Hsr].
  { (* supersonic to the left *)
    unfold hllc_core. change (hllc_sm ul ur _ _ _ _ _ _) with (SMf ga n ul ur).
    rewrite (Rltb_false 0 (SLf ga n ul ur)), (Rltb_false 0 (SMf ga n ul ur)), andb_false_r, (Rleb_false 0 (SRf ga n ul ur)), andb_false_r by lra.
    cbn [fst snd]. intros i cl cr t dul dur Cl Cr.
    pose proof (cv_at _ _ _ _ Cl) as Al. pose proof (cv_at _ _ _ _ Cr) as Ar.
    assert (H1 : normal_velocity ur n + sound ga ur < 0) by (eapply Rle_lt_trans; [|exact Hsr]; apply Rmax_l).
    assert (H2 : roe_normal ul ur n + roe_sound ga ul ur < 0) by (eapply Rle_lt_trans; [|exact Hsr]; apply Rmax_r).
    pose proof (dl_plus _ _ _ _ _ (Dvr cr t dur Cr) (Dcr cr t dur Cr)) as F1.
    pose proof (dl_plus _ _ _ _ _ (DV cl cr t dul dur Cl Cr) (DC cl cr t dul dur Cl Cr)) as F2. cbv beta in F1, F2.
    eapply dl_local; [|eapply dl_eq; [exact (Dfr i cr t dur Cr)|]].
    2:{ replace (mrow mat0 i) with szero by (destruct i; reflexivity). sdl. ring. }
    eapply near_imp; [|apply near_and; [exact (near_physical2 ga cl cr t ul ur dul dur Hl Hr Cl Cr)|apply near_and;
      [apply (near_lt _ _ t _ _ F1 (dl_const 0 t)); rewrite Ar; auto|apply (near_lt _ _ t _ _ F2 (dl_const 0 t)); rewrite Al, Ar; auto]]].
    cbv beta. intros s ((Px & Py) & K1 & K2). rewrite hllc_flux_spec by auto. cbv zeta. fold ga.
    pose proof (order_spec G (cl s) (cr s) n H5 Px Py Hn) as [_ Ho]. fold ga in Ho.
    assert (SRf ga n (cl s) (cr s) < 0) by (unfold SRf; apply Rmax_lub_lt; auto).
    rewrite (Rltb_false 0 (SLf _ _ _ _)), (Rltb_false 0 (SMf _ _ _ _)), andb_false_r, (Rleb_false 0 (SRf _ _ _ _)), andb_false_r by lra.
    reflexivity. }
  destruct Hs as [Hs|[Hs|(Hel & Her & N1 & N2 & N3)]]; [lra|lra|].
  pose proof (d_SL ga n ul ur dvi gi Vi Vj Ci Cj Dvl Dcl DV DC Hel) as DSL.
  pose proof (d_SR ga n ul ur dvj gj Vi Vj Ci Cj Dvr Dcr DV DC Her) as DSR. cbv zeta in DSL, DSR.
  match type of DSL with grad2_is _ _ _ ?a ?b => set (dsli := a) in *; set (dslj := b) in * end.
  match type of DSR with grad2_is _ _ _ ?a ?b => set (dsri := a) in *; set (dsrj := b) in * end.
  clearbody dsli dslj dsri dsrj.
  assert (DSM : grad2_is (SMf ga n) ul ur
    (sm_dsmi ul ur (normal_velocity ul n) (normal_velocity ur n) (pressure ga ul) (pressure ga ur) (SLf ga n ul ur) (SRf ga n ul ur) dvi dpi dsli dsri)
    (sm_dsmj ul ur (normal_velocity ul n) (normal_velocity ur n) (pressure ga ul) (pressure ga ur) (SLf ga n ul ur) (SRf ga n ul ur) dvj dpj dslj dsrj)).
  { intros cl cr t dul dur Cl Cr.
    pose proof (d_sm cl cr t ul ur dul dur _ _ _ _ _ _ dvi dvj dpi dpj dsli dslj dsri dsrj Cl Cr (Dvl cl t dul Cl) (Dvr cr t dur Cr)
      (Dpl cl t dul Cl) (Dpr cr t dur Cr) (DSL cl cr t dul dur Cl Cr) (DSR cl cr t dul dur Cl Cr)) as X. cbv beta in X.
    rewrite (cv_at _ _ _ _ Cl), (cv_at _ _ _ _ Cr) in X. apply X. lra. }
  match type of DSM with grad2_is _ _ _ ?a ?b => set (dsmi := a) in *; set (dsmj := b) in * end.
  unfold hllc_core. change (hllc_sm ul ur _ _ _ _ _ _) with (SMf ga n ul ur). fold dsmi dsmj. cbv zeta. clearbody dsmi dsmj.
  rewrite (Rltb_false 0 (SLf ga n ul ur)) by lra. rewrite (Rleb_true (SLf ga n ul ur) 0) by lra. rewrite andb_true_l.
  destruct (Rlt_or_le 0 (SMf ga n ul ur)) as [Hsm|Hsm].
  - (* contact moves to the right *)
    rewrite Rltb_true by auto. intros i cl cr t dul dur Cl Cr.
    pose proof (cv_at _ _ _ _ Cl) as Al. pose proof (cv_at _ _ _ _ Cr) as Ar.
    pose proof (DSL cl cr t dul dur Cl Cr) as E1. pose proof (DSM cl cr t dul dur Cl Cr) as E2.
    eapply dl_local.
    { eapply near_imp; [|apply near_and; [exact (near_physical2 ga cl cr t ul ur dul dur Hl Hr Cl Cr)|apply near_and;
       [apply (near_lt _ _ t _ _ E1 (dl_const 0 t)); rewrite Al, Ar; lra|apply (near_lt _ _ t _ _ (dl_const 0 t) E2); rewrite Al, Ar; auto]]].
      cbv beta. intros s ((Px & Py) & K1 & K2). rewrite hllc_flux_spec by auto. cbv zeta. fold ga.
      rewrite (Rltb_false 0 (SLf _ _ _ _)), (Rleb_true (SLf _ _ _ _) 0), (Rltb_true 0 (SMf _ _ _ _)) by lra. cbn [andb].
      rewrite cget_mkst. reflexivity. }
    pose proof (d_star_code cl (fun s => normal_velocity (cl s) n) (fun s => pressure ga (cl s)) (fun s => SLf ga n (cl s) (cr s))
      (fun s => SMf ga n (cl s) (cr s)) t ul dul dur n dvi dpi dsli dsmi dslj dsmj i Cl (Dvl cl t dul Cl) (Dpl cl t dul Cl) E1 E2) as E3.
    cbv beta zeta in E3. rewrite Al, Ar in E3. specialize (E3 ltac:(lra)).
    pose proof (Dfl i cl t dul Cl) as E4. assert (E5 : DL (fun s => cget (cl s) i) t (cget dul i)) by apply Cl.
    pose proof (dl_row _ _ _ _ t _ _ _ _ E4 E3 E5 E1) as E6. cbv beta in E6. rewrite Al, Ar in E6.
    eapply dl_eq; [exact E6|].
    destruct (getStarStateJacobian ul n (normal_velocity ul n) (pressure ga ul) (SLf ga n ul ur) (SMf ga n ul ur) dvi dpi dsli dsmi dslj dsmj) as [dui duj].
    cbn [fst snd]. set (us := getStarState _ _ _ _ _ _). set (AL := getJacobianDirectionalFluxWrtConserved G ul n).
    set (sl := SLf ga n ul ur). clearbody us AL sl.
    assert (EL : mrow (mkmat (fun i k => mget AL i k + (cget dsli k * (cget us i - cget ul i) + sl * (mget dui i k - (if ix_eqb i k then 1 else 0))))) i
      = sadd (mrow AL i) (sadd (sscal (cget us i - cget ul i) dsli) (sscal sl (ssub (mrow dui i) (unit_st i))))).
    { clear. destruct i; unfold unit_st, mget, mkmat, mkst; apply st_eq; cbn [mrow r0 r1 r2 r3 s0 s1 s2 s3 cget ix_eqb ssub sadd sscal]; ring. }
    assert (ER : mrow (mkmat (fun i k => 0 + (cget dslj k * (cget us i - cget ul i) + sl * mget duj i k))) i
      = sadd (sscal (cget us i - cget ul i) dslj) (sscal sl (mrow duj i))).
    { clear. destruct i; unfold mget, mkmat, mkst; apply st_eq; cbn [mrow r0 r1 r2 r3 s0 s1 s2 s3 cget ssub sadd sscal]; ring. }
    rewrite EL, ER. sdl. ring.
  - (* contact moves to the left *)
    rewrite (Rltb_false 0 (SMf ga n ul ur)), (Rleb_true (SMf ga n ul ur) 0), (Rleb_true 0 (SRf ga n ul ur)) by lra. cbn [andb].
    intros i cl cr t dul dur Cl Cr.
    pose proof (cv_at _ _ _ _ Cl) as Al. pose proof (cv_at _ _ _ _ Cr) as Ar.
    pose proof (DSL cl cr t dul dur Cl Cr) as E0. pose proof (DSR cl cr t dul dur Cl Cr) as E1. pose proof (DSM cl cr t dul dur Cl Cr) as E2.
    eapply dl_local.
    { eapply near_imp; [|apply near_and; [exact (near_physical2 ga cl cr t ul ur dul dur Hl Hr Cl Cr)|apply near_and;
       [apply (near_lt _ _ t _ _ E2 (dl_const 0 t)); rewrite Al, Ar; lra|apply near_and; [apply (near_lt _ _ t _ _ (dl_const 0 t) E1); rewrite Al, Ar; lra
         |apply (near_lt _ _ t _ _ E0 (dl_const 0 t)); rewrite Al, Ar; lra]]]].
      cbv beta. intros s ((Px & Py) & K1 & K2 & K3). rewrite hllc_flux_spec by auto. cbv zeta. fold ga.
      rewrite (Rltb_false 0 (SLf _ _ _ _)), (Rltb_false 0 (SMf _ _ _ _)), andb_false_r, (Rleb_true (SMf _ _ _ _) 0), (Rleb_true 0 (SRf _ _ _ _)) by lra. cbn [andb].
      rewrite cget_mkst. reflexivity. }
    pose proof (fun a b => d_star_code cr (fun s => normal_velocity (cr s) n) (fun s => pressure ga (cr s)) (fun s => SRf ga n (cl s) (cr s))
      (fun s => SMf ga n (cl s) (cr s)) t ur dur dul n dvj dpj dsrj dsmj dsri dsmi i Cr (Dvr cr t dur Cr) (Dpr cr t dur Cr) a b) as E3.
    specialize (E3 ltac:(eapply dl_eq; [exact E1|ring]) ltac:(eapply dl_eq; [exact E2|ring])).
    cbv beta zeta in E3. rewrite Al, Ar in E3. specialize (E3 ltac:(lra)).
    pose proof (Dfr i cr t dur Cr) as E4. assert (E5 : DL (fun s => cget (cr s) i) t (cget dur i)) by apply Cr.
    pose proof (dl_row _ _ _ _ t _ _ _ _ E4 E3 E5 E1) as E6. cbv beta in E6. rewrite Al, Ar in E6.
    eapply dl_eq; [exact E6|].
    destruct (getStarStateJacobian ur n (normal_velocity ur n) (pressure ga ur) (SRf ga n ul ur) (SMf ga n ul ur) dvj dpj dsrj dsmj dsri dsmi) as [duj dui].
    cbn [fst snd]. set (us := getStarState _ _ _ _ _ _). set (AR := getJacobianDirectionalFluxWrtConserved G ur n).
    set (sr := SRf ga n ul ur). clearbody us AR sr.
    assert (EL : mrow (mkmat (fun i k => mget AR i k + (cget dsrj k * (cget us i - cget ur i) + sr * (mget duj i k - (if ix_eqb i k then 1 else 0))))) i
      = sadd (mrow AR i) (sadd (sscal (cget us i - cget ur i) dsrj) (sscal sr (ssub (mrow duj i) (unit_st i))))).
    { clear. destruct i; unfold unit_st, mget, mkmat, mkst; apply st_eq; cbn [mrow r0 r1 r2 r3 s0 s1 s2 s3 cget ix_eqb ssub sadd sscal]; ring. }
    assert (ER : mrow (mkmat (fun i k => 0 + (cget dsri k * (cget us i - cget ur i) + sr * mget dui i k))) i
      = sadd (sscal (cget us i - cget ur i) dsri) (sscal sr (mrow dui i))).
    { clear. destruct i; unfold mget, mkmat, mkst; apply st_eq; cbn [mrow r0 r1 r2 r3 s0 s1 s2 s3 cget ssub sadd sscal]; ring. }
    rewrite EL, ER. sdl. ring.
Qed.
