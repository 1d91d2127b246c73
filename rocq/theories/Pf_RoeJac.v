(** The derivative of the Roe flux with Harten's entropy fix, and the error of the coded Jacobian. *)
From Coq Require Import Reals Lra Psatz Bool.
From Verif Require Import BaseR M_Gas M_Flux S_Gas S_Deriv S_Deriv2 Pf_Flux Pf_FluxCons Pf_HLLC Pf_FluxUp Pf_FluxMisc Pf_Deriv Pf_Gas Pf_FluxJac Pf_AusmJac Pf_RoeAvg.
Open Scope R_scope.

(** ** Linear forms in many rates *)
Definition linear (Phi : (nat -> R) -> R) : Prop :=
  (forall a b, Phi (fun m => a m + b m) = Phi a + Phi b) /\ (forall c a, Phi (fun m => a m * c) = Phi a * c).

Lemma linear_dot Phi (g : nat -> st) d : linear Phi ->
  sdot (mkst (fun k => Phi (fun m => cget (g m) k))) d = Phi (fun m => sdot (g m) d).
Proof.
  intros [Ha Hs]. unfold sdot, mkst. cbn [s0 s1 s2 s3].
  rewrite <- !Hs, <- !Ha. reflexivity.
Qed.

(** ** Harten's fix *)
Lemma dl_squeeze (e q : R -> R) t : DL q t 0 -> q t = 0 -> e t = 0 -> near t (fun s => Rabs (e s) <= q s) -> DL e t 0.
Proof.
  intros Hq Hqt Het (d & Hd & N) eps Heps. destruct (Hq eps Heps) as [d1 K].
  assert (Hm : 0 < Rmin d d1) by (apply Rmin_glb_lt; auto; apply cond_pos).
  exists (mkposreal _ Hm). intros h Hh Hhd. cbn [pos] in Hhd.
  assert (A1 : Rabs h < d) by (eapply Rlt_le_trans; [exact Hhd|apply Rmin_l]).
  assert (A2 : Rabs h < d1) by (eapply Rlt_le_trans; [exact Hhd|apply Rmin_r]).
  specialize (K h Hh A2). rewrite Hqt in K. rewrite Het.
  specialize (N (t + h)). replace (t + h - t) with h in N by ring. specialize (N A1).
  eapply Rle_lt_trans; [|exact K]. rewrite !Rminus_0_r. unfold Rdiv. rewrite !Rabs_mult.
  apply Rmult_le_compat_r; [apply Rabs_pos|]. eapply Rle_trans; [exact N|]. apply Rle_abs.
Qed.

Definition hfix (delta lam : R) : R := harten delta (Rabs lam).

(** its derivative *)
Definition dhfix (delta lam ddelta dlam : R) : R :=
  if Rltb (Rabs lam) delta then (Rabs lam / delta) * (sgn1 lam * dlam) + (1/2) * (1 - (Rabs lam * Rabs lam) / (delta * delta)) * ddelta
  else sgn1 lam * dlam.

Lemma sgn1_abs x : sgn1 x * Rabs x = x.
Proof. unfold sgn1, Rabs. destruct (Rleb_spec 0 x), (Rcase_abs x); lra. Qed.

Lemma d_hfix (de la : R -> R) t dde dla : DL de t dde -> DL la t dla -> 0 < de t ->
  DL (fun s => hfix (de s) (la s)) t (dhfix (de t) (la t) dde dla).
Proof.
  intros Hd Hl Hp. unfold dhfix.
  pose proof (cont_abs la t (dl_cont _ _ _ Hl)) as Ca. pose proof (dl_cont _ _ _ Hd) as Cd.
  assert (Q : DL (fun s => (la s * la s + de s * de s) / (2 * de s)) t
     ((la t / de t) * dla + (1/2) * (1 - (la t * la t) / (de t * de t)) * dde)).
  { ad; try lra; field; lra. }
  destruct (Rltb_spec (Rabs (la t)) (de t)) as [H|H].
  - eapply dl_local; [|eapply dl_eq; [exact Q|]].
    + eapply near_imp; [|apply (near_ltc _ _ t Ca Cd H)]. cbv beta. intros s Hs.
      unfold hfix, harten. rewrite Rltb_true by auto. f_equal. rewrite <- Rabs_mult. rewrite Rabs_pos_eq; [ring|nra].
    + replace (Rabs (la t) * Rabs (la t)) with (la t * la t) by (rewrite <- Rabs_mult, Rabs_pos_eq; nra).
      rewrite <- (sgn1_abs (la t)) at 1. unfold Rdiv. ring.
  - apply Rnot_lt_le in H. assert (Hn : la t <> 0). { intro K. rewrite K, Rabs_R0 in H. lra. }
    pose proof (dl_abs la t dla Hl Hn) as A. fold (sgn1 (la t)) in A.
    destruct (Rle_lt_or_eq_dec _ _ H) as [Hlt|Heq].
    + eapply dl_local; [|exact A]. eapply near_imp; [|apply (near_ltc _ _ t Cd Ca Hlt)]. cbv beta. intros s Hs.
      unfold hfix, harten. rewrite Rltb_false by lra. reflexivity.
    + assert (Dq : DL (fun s => (Rabs (la s) - de s) * (Rabs (la s) - de s) / (2 * de s)) t 0).
      { ad; try lra. rewrite Heq. field. rewrite <- Heq; lra. }
      assert (Hqt : (Rabs (la t) - de t) * (Rabs (la t) - de t) / (2 * de t) = 0) by (rewrite Heq; field; rewrite <- Heq; lra).
      assert (De : DL (fun s => hfix (de s) (la s) - Rabs (la s)) t 0).
      { apply (dl_squeeze _ (fun s => (Rabs (la s) - de s) * (Rabs (la s) - de s) / (2 * de s))); auto.
        - unfold hfix, harten. rewrite Rltb_false by lra. ring.
        - eapply near_imp; [|apply (near_lt _ _ t _ _ (dl_const 0 t) Hd); exact Hp]. cbv beta. intros s Hs.
          assert (0 <= (Rabs (la s) - de s) * (Rabs (la s) - de s) / (2 * de s)).
          { apply Rmult_le_pos; [apply Rle_0_sqr|]. left. apply Rinv_0_lt_compat. lra. }
          unfold hfix, harten. destruct (Rltb_spec (Rabs (la s)) (de s)).
          + replace ((Rabs (la s) * Rabs (la s) + de s * de s) / (2 * de s) - Rabs (la s)) with
             ((Rabs (la s) - de s) * (Rabs (la s) - de s) / (2 * de s)) by (field; lra).
            rewrite Rabs_pos_eq; lra.
          + rewrite Rminus_diag_eq, Rabs_R0 by reflexivity. lra. }
      eapply dl_ext with (f := fun s => (hfix (de s) (la s) - Rabs (la s)) + Rabs (la s)). { intros; ring. }
      eapply dl_eq; [exact (dl_plus _ _ _ _ _ De A)|ring].
Qed.

(** ** The coded formulas, parameterised by the derivative of the entropy fix *)
Definition harten_dl_true (delta l : R) (dl dc : st) : st :=
  if Rltb l delta then
    mkst (fun k => ((2 * (l * cget dl k + delta * fixeps * cget dc k) * 2 * delta)
                    - (l * l + delta * delta) * 2 * fixeps * cget dc k) / (4 * delta * delta))
  else dl.

Definition roe_jac_with (hd : R -> R -> st -> st -> st) (G : gas) (ul ur : st) (n : v2) : jacs :=
  let i := getVarsFromConserved G ul n in
  let j := getVarsFromConserved G ur n in
  let A := getRoeAverages G ul ur n (v_v i) (v_H i) (v_v j) (v_H j) in
  let di := getJacobianVarsWrtConserved G ul n dvars0 in
  let dj := getJacobianVarsWrtConserved G ur n dvars0 in
  let '(Di, Dj) := getJacobiansRoeAverages G ul ur n (v_v i) (v_H i) (v_v j) (v_H j) (d_H di) (d_H dj) in
  let delta := fixeps * a_c A in
  let dl D (s : R) (sc : R) := mkst (fun k => sgn1 s * (cget (dvn_ D) k + sc * cget (dc_ D) k)) in
  let m0 := Rabs (a_vn A - a_c A) in
  let m1 := Rabs (a_vn A) in
  let m3 := Rabs (a_vn A + a_c A) in
  let l0 := harten delta m0 in let l1 := harten delta m1 in let l3 := harten delta m3 in
  let dl0 D := hd delta m0 (dl D (a_vn A - a_c A) (-1)) (dc_ D) in
  let dl1 D := hd delta m1 (mkst (fun k => sgn1 (a_vn A) * cget (dvn_ D) k)) (dc_ D) in
  let dl3 D := hd delta m3 (dl D (a_vn A + a_c A) 1) (dc_ D) in
  let dadui := roe_dadu A n i j ul ur l0 l1 l3 Di (dl0 Di) (dl1 Di) (dl3 Di)
                 (sneg (d_vn di)) (sneg (d_p di)) (mks (-1) 0 0 0) (sneg (d_vx di)) (sneg (d_vy di)) in
  let daduj := roe_dadu A n i j ul ur l0 l1 l3 Dj (dl0 Dj) (dl1 Dj) (dl3 Dj)
                 (d_vn dj) (d_p dj) (mks 1 0 0 0) (d_vx dj) (d_vy dj) in
  let al := getJacobianDirectionalFluxWrtConserved G ul n in
  let ar := getJacobianDirectionalFluxWrtConserved G ur n in
  mkjacs (mkmat (fun i k => - (1/2) * (mget al i k - mget dadui i k)))
         (mkmat (fun i k => (1/2) * (mget ar i k - mget daduj i k))).

Lemma roe_jac_with_code G ul ur n : roe_jac G ul ur n = roe_jac_with harten_dl G ul ur n.
Proof. reflexivity. Qed.

(** ** The dissipation vector and its rate of change, row by row *)
Definition aduf (r : ix) (n : v2) (l0 l1 l3 rho c X Y vm2 W H devn dep derho dvx dvy : R) : R :=
  let la0 := l0 * (dep - rho * c * devn) / (2 * c * c) in
  let la1 := l1 * (derho - dep / (c * c)) in
  let la2 := l1 * rho in
  let la3 := l3 * (dep + rho * c * devn) / (2 * c * c) in
  match r with
  | I0 => la0 + la1 + la3
  | I1 => la0 * (X - c * vx n) + (la1 * X + la2 * (dvx - devn * vx n)) + la3 * (X + c * vx n)
  | I2 => la0 * (Y - c * vy n) + (la1 * Y + la2 * (dvy - devn * vy n)) + la3 * (Y + c * vy n)
  | I3 => la0 * (H - c * W) + (la1 * vm2 / 2 + la2 * (X * dvx + Y * dvy - W * devn)) + la3 * (H + c * W)
  end.

Definition dadu_d (r : ix) (n : v2) (l0 l1 l3 rhoij cij vxij vyij vm2ij vnij Hij devn dep derho dvx dvy : R) (x : nat -> R) : R :=
  let cij4 := cij * cij * cij * cij in
  let la0 := l0 * (dep - rhoij * cij * devn) / (2 * cij * cij) in
  let la1 := l1 * (derho - dep / (cij * cij)) in
  let la2 := l1 * rhoij in
  let la3 := l3 * (dep + rhoij * cij * devn) / (2 * cij * cij) in
  let dla0 := ((x 0%nat * (dep - rhoij * cij * devn)
                  + l0 * (x 11%nat - x 3%nat * cij * devn - rhoij * x 4%nat * devn
                          - rhoij * cij * x 10%nat)) * 2 * cij * cij
                 - l0 * (dep - rhoij * cij * devn) * 4 * cij * x 4%nat) / (4 * cij4) in
  let dla1 := x 1%nat * (derho - dep / (cij * cij))
                + l1 * (x 12%nat - (x 11%nat * cij * cij - dep * 2 * cij * x 4%nat) / cij4) in
  let dla2 := x 1%nat * rhoij + l1 * x 3%nat in
  let dla3 := ((x 2%nat * (dep + rhoij * cij * devn)
                  + l3 * (x 11%nat + x 3%nat * cij * devn + rhoij * x 4%nat * devn
                          + rhoij * cij * x 10%nat)) * 2 * cij * cij
                 - l3 * (dep + rhoij * cij * devn) * 4 * cij * x 4%nat) / (4 * cij4) in
  match r with
    | I0 => dla0 + dla1 + dla3
    | I1 => 
        dla0 * (vxij - cij * vx n) + la0 * (x 5%nat - x 4%nat * vx n)
        + (dla1 * vxij + la1 * x 5%nat + dla2 * (dvx - devn * vx n)
           + la2 * (x 13%nat - x 10%nat * vx n))
        + (dla3 * (vxij + cij * vx n) + la3 * (x 5%nat + x 4%nat * vx n))
    | I2 => 
        dla0 * (vyij - cij * vy n) + la0 * (x 6%nat - x 4%nat * vy n)
        + (dla1 * vyij + la1 * x 6%nat + dla2 * (dvy - devn * vy n)
           + la2 * (x 14%nat - x 10%nat * vy n))
        + (dla3 * (vyij + cij * vy n) + la3 * (x 6%nat + x 4%nat * vy n))
    | I3 => 
        dla0 * (Hij - cij * vnij) + la0 * (x 9%nat - x 4%nat * vnij - cij * x 8%nat)
        + (dla1 * vm2ij / 2 + la1 * x 7%nat / 2
           + dla2 * (vxij * dvx + vyij * dvy - vnij * devn)
           + la2 * (x 5%nat * dvx + vxij * x 13%nat
                    + x 6%nat * dvy + vyij * x 14%nat
                    - x 8%nat * devn - vnij * x 10%nat))
        + (dla3 * (Hij + cij * vnij) + la3 * (x 9%nat + x 4%nat * vnij + cij * x 8%nat))
    end.

Lemma dadu_linear r n l0 l1 l3 rho c X Y vm2 W H devn dep derho dvx dvy :
  linear (dadu_d r n l0 l1 l3 rho c X Y vm2 W H devn dep derho dvx dvy).
Proof. split; intros; destruct r; unfold dadu_d; cbv zeta beta; unfold Rdiv; ring. Qed.

Definition rates (D : droe) (dl0 dl1 dl3 ddevn ddep dderho ddvx ddvy : st) (m : nat) : st :=
  match m with
  | 0%nat => dl0 | 1%nat => dl1 | 2%nat => dl3 | 3%nat => drho_ D | 4%nat => dc_ D | 5%nat => dvx_ D | 6%nat => dvy_ D | 7%nat => dvm2_ D
  | 8%nat => dvn_ D | 9%nat => dH_ D | 10%nat => ddevn | 11%nat => ddep | 12%nat => dderho | 13%nat => ddvx | 14%nat => ddvy | _ => szero
  end.

Lemma dadu_code A n i j ul ur l0 l1 l3 D dl0 dl1 dl3 ddevn ddep dderho ddvx ddvy r :
  mrow (roe_dadu A n i j ul ur l0 l1 l3 D dl0 dl1 dl3 ddevn ddep dderho ddvx ddvy) r =
  mkst (fun k => dadu_d r n l0 l1 l3 (a_rho A) (a_c A) (vx (a_v A)) (vy (a_v A)) (a_vm2 A) (a_vn A) (a_H A)
     (v_vn j - v_vn i) (v_p j - v_p i) (s0 ur - s0 ul) (vx (v_v j) - vx (v_v i)) (vy (v_v j) - vy (v_v i))
     (fun m => cget (rates D dl0 dl1 dl3 ddevn ddep dderho ddvx ddvy m) k)).
Proof. destruct r; reflexivity. Qed.

Lemma d_aduf r n t (l0 l1 l3 rho c X Y vm2 W H devn dep derho dvx dvy : R -> R) (x : nat -> R) :
  DL l0 t (x 0%nat) -> DL l1 t (x 1%nat) -> DL l3 t (x 2%nat) -> DL rho t (x 3%nat) -> DL c t (x 4%nat) -> DL X t (x 5%nat) ->
  DL Y t (x 6%nat) -> DL vm2 t (x 7%nat) -> DL W t (x 8%nat) -> DL H t (x 9%nat) -> DL devn t (x 10%nat) -> DL dep t (x 11%nat) ->
  DL derho t (x 12%nat) -> DL dvx t (x 13%nat) -> DL dvy t (x 14%nat) -> c t <> 0 ->
  DL (fun s => aduf r n (l0 s) (l1 s) (l3 s) (rho s) (c s) (X s) (Y s) (vm2 s) (W s) (H s) (devn s) (dep s) (derho s) (dvx s) (dvy s)) t
     (dadu_d r n (l0 t) (l1 t) (l3 t) (rho t) (c t) (X t) (Y t) (vm2 t) (W t) (H t) (devn t) (dep t) (derho t) (dvx t) (dvy t) x).
Proof.
  intros E0 E1 E2 E3 E4 E5 E6 E7 E8 E9 E10 E11 E12 E13 E14 Hc.
  assert (Hc2 : 2 * c t * c t <> 0) by (repeat apply Rmult_integral_contrapositive_currified; auto; lra).
  assert (Hc3 : c t * c t <> 0) by (apply Rmult_integral_contrapositive_currified; auto).
  destruct r; unfold aduf, dadu_d; cbv zeta.
  all: ad; try exact Hc2; try exact Hc3; try lra.
  all: field; exact Hc.
Qed.

Lemma roe_flux_spec G x y n k : 1 < gam G -> physical (gam G) x -> physical (gam G) y ->
  let ga := gam G in let c := roe_sound ga x y in let W := roe_normal x y n in
  cget (roe_flux G x y n) k =
  1/2 * (cget (euler_flux ga x n) k + cget (euler_flux ga y n) k -
    aduf k n (hfix (fixeps * c) (W - c)) (hfix (fixeps * c) W) (hfix (fixeps * c) (W + c)) (roe_density x y) c
      (vx (roe_velocity x y)) (vy (roe_velocity x y)) ((vx (roe_velocity x y))^2 + (vy (roe_velocity x y))^2) W (roe_enthalpy ga x y)
      (normal_velocity y n - normal_velocity x n) (pressure ga y - pressure ga x) (s0 y - s0 x)
      (s1 y / s0 y - s1 x / s0 x) (s2 y / s0 y - s2 x / s0 x)).
Proof.
  intros Hg Hx Hy. cbv zeta. rewrite <- (dflux_vars G x n), <- (dflux_vars G y n) by auto. unfold roe_flux.
  pose proof (pair_roe_spec G x y n Hg Hx Hy) as EA. unfold pair_roe in EA. cbv zeta in EA.
  rewrite EA. cbn [a_c a_vn]. unfold hfix. cbv zeta. rewrite cget_mkst. f_equal. f_equal.
  rewrite !vars_spec by auto. unfold roe_adu. vproj. cbn [a_R a_rho a_v a_vm2 a_vn a_H a_c].
  destruct k; unfold aduf; cbv zeta; cbn [cget s0 s1 s2 s3]; reflexivity.
Qed.

Lemma hd_true_dot delta lam (Vi Vj Ci Cj Li Lj : st) dul dur dlam :
  0 < delta -> dlam = sdot Li dul + sdot Lj dur ->
  dhfix delta lam (fixeps * (sdot Ci dul + sdot Cj dur)) dlam =
  sdot (harten_dl_true delta (Rabs lam) (sscal (sgn1 lam) Li) Ci) dul + sdot (harten_dl_true delta (Rabs lam) (sscal (sgn1 lam) Lj) Cj) dur.
Proof.
  intros Hd ->. unfold dhfix, harten_dl_true. destruct (Rltb (Rabs lam) delta); [|sdl; ring].
  set (l := Rabs lam). set (sg := sgn1 lam).
  assert (E : forall L C, mkst (fun k => (2 * (l * cget (sscal sg L) k + delta * fixeps * cget C k) * 2 * delta - (l * l + delta * delta) * 2 * fixeps * cget C k) / (4 * delta * delta))
    = sadd (sscal (l / delta * sg) L) (sscal ((1/2) * (1 - l * l / (delta * delta)) * fixeps) C)).
  { intros. unfold mkst. apply st_eq; cbn [cget sscal sadd s0 s1 s2 s3]; field; lra. }
  rewrite !E. sdl. ring.
Qed.

Lemma harten_pos_c c : 0 < c -> 0 < fixeps * c. Proof. intros. unfold fixeps. lra. Qed.

Lemma roe_jac_true G ul ur n : 1 < gam G -> physical (gam G) ul -> physical (gam G) ur ->
  let J := roe_jac_with harten_dl_true G ul ur n in
  jac2_is (fun x y => roe_flux G x y n) ul ur (mneg (dfdl J)) (dfdr J).
Proof.
  intros Hg Hl Hr. cbv zeta. pose proof Hl as [Pl _]. pose proof Hr as [Pr _].
  assert (Rl0 : s0 ul <> 0) by lra. assert (Rr0 : s0 ur <> 0) by lra.
  unfold roe_jac_with.
  pose proof (pair_roe_spec G ul ur n Hg Hl Hr) as EA. unfold pair_roe in EA. cbv zeta in EA. rewrite EA. clear EA.
  rewrite !vars_spec by auto. cbv zeta. vproj. cbn [a_R a_rho a_v a_vm2 a_vn a_H a_c].
  pose proof (roe_derivs G n ul ur Hg Hl Hr) as RD. cbv zeta in RD.
  destruct (vars_grads G n ul Rl0) as (Dxl & Dyl & Dvl & Dpl & _).
  destruct (vars_grads G n ur Rr0) as (Dxr & Dyr & Dvr & Dpr & _).
  set (di := getJacobianVarsWrtConserved G ul n dvars0) in *. set (dj := getJacobianVarsWrtConserved G ur n dvars0) in *.
  destruct (getJacobiansRoeAverages _ _ _ _ _ _ _ _ _ _) as [Di Dj] in *. cbn [fst snd] in RD.
  destruct RD as (_ & Dr & DX & DY & DM & DV & DH & DC).
  cbn [dfdl dfdr].
  set (ga := gam G) in *. pose proof (roe_sound_pos ga ul ur Hg Hl Hr) as Hc.
  pose proof (d_flux G n ul Rl0) as Dfl. pose proof (d_flux G n ur Rr0) as Dfr. fold ga in Dfl, Dfr.
  set (AL := getJacobianDirectionalFluxWrtConserved G ul n) in *. set (AR := getJacobianDirectionalFluxWrtConserved G ur n) in *.
  match goal with |- jac2_is _ _ _ (mneg (mkmat (fun i k => _ * (_ - mget ?a i k)))) (mkmat (fun i' k' => _ * (_ - mget ?b i' k'))) =>
    set (ML := a); set (MR := b) end.
  intros i. 
  replace (mrow (mneg (mkmat (fun i k => - (1 / 2) * (mget AL i k - mget ML i k)))) i) with (sscal (1/2) (ssub (mrow AL i) (mrow ML i))).
  2:{ clearbody AL ML. clear. destruct i; unfold mneg, mget, mkmat, mkst, sneg; apply st_eq; cbn [mrow r0 r1 r2 r3 s0 s1 s2 s3 cget ssub sadd sscal]; ring. }
  replace (mrow (mkmat (fun i k => (1 / 2) * (mget AR i k - mget MR i k))) i) with (sscal (1/2) (ssub (mrow AR i) (mrow MR i))).
  2:{ clearbody AR MR. clear. destruct i; unfold mneg, mget, mkmat, mkst, sneg; apply st_eq; cbn [mrow r0 r1 r2 r3 s0 s1 s2 s3 cget ssub sadd sscal]; ring. }
  unfold ML, MR. rewrite !dadu_code. cbn [a_R a_rho a_v a_vm2 a_vn a_H a_c v_v v_vn v_p vx vy]. clear ML MR.
  clearbody AL AR. 
  eapply (grad2_local ga); auto.
  { intros x y Hx Hy. rewrite (roe_flux_spec G x y n i Hg Hx Hy) at 1. cbv zeta. fold ga. reflexivity. }
  intros cl cr t dul dur Cl Cr. sdl.
  pose proof (cv_at _ _ _ _ Cl) as Al. pose proof (cv_at _ _ _ _ Cr) as Ar.
  rewrite !linear_dot by apply dadu_linear.
  set (K := dadu_d i n _ _ _ _ _ _ _ _ _ _ _ _ _ _ _).
  assert (LK : linear K) by apply dadu_linear.
  match goal with |- DL _ _ (1/2 * (?a - K ?f) + 1/2 * (?b - K ?g)) =>
    replace (1/2 * (a - K f) + 1/2 * (b - K g)) with (1/2 * (a + b - K (fun m => f m + g m))) by (rewrite (proj1 LK); ring); set (x := fun m => f m + g m) end.
  pose proof (DC cl cr t dul dur Cl Cr) as EC. pose proof (DV cl cr t dul dur Cl Cr) as EV. cbv beta in EC, EV.
  set (de := fun s => fixeps * roe_sound ga (cl s) (cr s)).
  assert (Ede : DL de t (fixeps * (sdot (dc_ Di) dul + sdot (dc_ Dj) dur))) by (unfold de; apply dl_scal; exact EC).
  assert (Pde : 0 < de t) by (unfold de; rewrite Al, Ar; apply harten_pos_c; auto).
  pose proof (d_hfix de _ t _ _ Ede (dl_minus _ _ _ _ _ EV EC) Pde) as L0.
  pose proof (d_hfix de _ t _ _ Ede EV Pde) as L1.
  pose proof (d_hfix de _ t _ _ Ede (dl_plus _ _ _ _ _ EV EC) Pde) as L3. cbv beta in L0, L1, L3.
  rewrite (hd_true_dot _ _ szero szero (dc_ Di) (dc_ Dj) (ssub (dvn_ Di) (dc_ Di)) (ssub (dvn_ Dj) (dc_ Dj))) in L0 by (auto; sdl; ring).
  rewrite (hd_true_dot _ _ szero szero (dc_ Di) (dc_ Dj) (dvn_ Di) (dvn_ Dj)) in L1 by (auto; sdl; ring).
  rewrite (hd_true_dot _ _ szero szero (dc_ Di) (dc_ Dj) (sadd (dvn_ Di) (dc_ Di)) (sadd (dvn_ Dj) (dc_ Dj))) in L3 by (auto; sdl; ring).
  assert (S0 : forall g V C, mkst (fun k => g * (cget V k + -1 * cget C k)) = sscal g (ssub V C))
    by (intros; unfold mkst; apply st_eq; cbn [cget sscal ssub s0 s1 s2 s3]; ring).
  assert (S1 : forall g V, mkst (fun k => g * cget V k) = sscal g V) by (intros; reflexivity).
  assert (S3 : forall g V C, mkst (fun k => g * (cget V k + 1 * cget C k)) = sscal g (sadd V C))
    by (intros; unfold mkst; apply st_eq; cbn [cget sscal sadd s0 s1 s2 s3]; ring).
  unfold x in *. clear x. rewrite !S0, !S3 in *.
  match goal with |- DL _ _ (_ * (_ - K ?f)) => set (x := f) end.
  change (de t) with (fixeps * roe_sound ga (cl t) (cr t)) in L0, L1, L3. rewrite Al, Ar in L0, L1, L3.
  assert (Z := d_aduf i n t (fun s => hfix (de s) (roe_normal (cl s) (cr s) n - roe_sound ga (cl s) (cr s))) (fun s => hfix (de s) (roe_normal (cl s) (cr s) n))
     (fun s => hfix (de s) (roe_normal (cl s) (cr s) n + roe_sound ga (cl s) (cr s)))
     (fun s => roe_density (cl s) (cr s)) (fun s => roe_sound ga (cl s) (cr s)) (fun s => vx (roe_velocity (cl s) (cr s))) (fun s => vy (roe_velocity (cl s) (cr s)))
     (fun s => vx (roe_velocity (cl s) (cr s)) ^ 2 + vy (roe_velocity (cl s) (cr s)) ^ 2) (fun s => roe_normal (cl s) (cr s) n) (fun s => roe_enthalpy ga (cl s) (cr s))
     (fun s => normal_velocity (cr s) n - normal_velocity (cl s) n) (fun s => pressure ga (cr s) - pressure ga (cl s)) (fun s => s0 (cr s) - s0 (cl s))
     (fun s => s1 (cr s) / s0 (cr s) - s1 (cl s) / s0 (cl s)) (fun s => s2 (cr s) / s0 (cr s) - s2 (cl s) / s0 (cl s)) x L0 L1 L3
     (Dr cl cr t dul dur Cl Cr) EC (DX cl cr t dul dur Cl Cr) (DY cl cr t dul dur Cl Cr) (DM cl cr t dul dur Cl Cr) EV (DH cl cr t dul dur Cl Cr)).
  cbv beta in Z.
  assert (Z10 : DL (fun s => normal_velocity (cr s) n - normal_velocity (cl s) n) t (x 10%nat)).
  { eapply dl_eq; [exact (dl_minus _ _ _ _ _ (Dvr cr t dur Cr) (Dvl cl t dul Cl))|]. unfold x; cbn [rates]. sdl. ring. }
  assert (Z11 : DL (fun s => pressure ga (cr s) - pressure ga (cl s)) t (x 11%nat)).
  { eapply dl_eq; [exact (dl_minus _ _ _ _ _ (Dpr cr t dur Cr) (Dpl cl t dul Cl))|]. unfold x; cbn [rates]. sdl. ring. }
  assert (Z12 : DL (fun s => s0 (cr s) - s0 (cl s)) t (x 12%nat)).
  { eapply dl_eq; [exact (dl_minus _ _ _ _ _ (cv0 _ _ _ _ Cr) (cv0 _ _ _ _ Cl))|]. unfold x, sdot; cbn [rates s0 s1 s2 s3]. ring. }
  assert (Z13 : DL (fun s => s1 (cr s) / s0 (cr s) - s1 (cl s) / s0 (cl s)) t (x 13%nat)).
  { eapply dl_eq; [exact (dl_minus _ _ _ _ _ (Dxr cr t dur Cr) (Dxl cl t dul Cl))|]. unfold x; cbn [rates]. sdl. ring. }
  assert (Z14 : DL (fun s => s2 (cr s) / s0 (cr s) - s2 (cl s) / s0 (cl s)) t (x 14%nat)).
  { eapply dl_eq; [exact (dl_minus _ _ _ _ _ (Dyr cr t dur Cr) (Dyl cl t dul Cl))|]. unfold x; cbn [rates]. sdl. ring. }
  specialize (Z Z10 Z11 Z12 Z13 Z14).
  rewrite Al, Ar in Z. specialize (Z ltac:(lra)).
  change (de t) with (fixeps * roe_sound ga (cl t) (cr t)) in Z. rewrite Al, Ar in Z.
  apply dl_scal. apply dl_minus; [apply dl_plus; [exact (Dfl i cl t dul Cl)|exact (Dfr i cr t dur Cr)]|]. exact Z.
Qed.

(** Off the entropy fix the coded Jacobian is the one above. *)
Lemma roe_jac_exact_off G ul ur n : 1 < gam G -> physical (gam G) ul -> physical (gam G) ur ->
  let c := roe_sound (gam G) ul ur in let W := roe_normal ul ur n in
  fixeps * c <= Rabs (W - c) -> fixeps * c <= Rabs W -> fixeps * c <= Rabs (W + c) ->
  jac2_is (fun x y => roe_flux G x y n) ul ur (mneg (dfdl (roe_jac G ul ur n))) (dfdr (roe_jac G ul ur n)).
Proof.
  intros Hg Hl Hr c W H0 H1 H3.
  replace (roe_jac G ul ur n) with (roe_jac_with harten_dl_true G ul ur n); [apply roe_jac_true; auto|].
  rewrite roe_jac_with_code. unfold roe_jac_with.
  pose proof (pair_roe_spec G ul ur n Hg Hl Hr) as EA. unfold pair_roe in EA. cbv zeta in EA. rewrite EA.
  destruct (getJacobiansRoeAverages _ _ _ _ _ _ _ _ _ _) as [Di Dj]. cbn [a_c a_vn]. fold c W.
  unfold harten_dl_true, harten_dl. rewrite !Rltb_false by lra. reflexivity.
Qed.

(** A stationary contact: both states at rest with the same energy *)
Lemma roe_jac_wrong_contact G rl rr E n : 1 < gam G -> 0 < rl -> 0 < rr -> 0 < E -> rl <> rr -> vx n <> 0 ->
  forall JR, ~ jac2_is (fun x y => roe_flux G x y n) (mks rl 0 0 E) (mks rr 0 0 E)
     (mneg (dfdl (roe_jac G (mks rl 0 0 E) (mks rr 0 0 E) n))) JR.
Proof.
  intros Hg Hrl Hrr HE Hne Hn JR HJ. set (ul := mks rl 0 0 E) in *. set (ur := mks rr 0 0 E) in *.
  assert (Pl : physical (gam G) ul) by (unfold physical, pressure, ul; cbn; split; [auto|apply Rmult_lt_0_compat; [lra|]]; unfold Rdiv; nra).
  assert (Pr : physical (gam G) ur) by (unfold physical, pressure, ur; cbn; split; [auto|apply Rmult_lt_0_compat; [lra|]]; unfold Rdiv; nra).
  pose proof (roe_jac_true G ul ur n Hg Pl Pr) as HT. cbv zeta in HT.
  destruct (jac2_unique _ _ _ _ _ _ _ HJ HT) as [EQ _]. clear HJ HT.
  rewrite roe_jac_with_code in EQ.
  assert (EE : mget (dfdl (roe_jac_with harten_dl G ul ur n)) I0 I1 = mget (dfdl (roe_jac_with harten_dl_true G ul ur n)) I0 I1).
  { destruct (dfdl (roe_jac_with harten_dl G ul ur n)) as [[a0 a1 a2 a3] q1 q2 q3]. destruct (dfdl (roe_jac_with harten_dl_true G ul ur n)) as [[b0 b1 b2 b3] p1 p2 p3].
    unfold mneg in EQ. cbn [r0 r1 r2 r3] in EQ. unfold sneg in EQ. cbn [s0 s1 s2 s3] in EQ. injection EQ. intros. unfold mget; cbn [mrow r0 cget s1]. lra. }
  clear EQ. revert EE. unfold roe_jac_with.
  pose proof (roe_sound_pos (gam G) ul ur Hg Pl Pr) as Hc.
  pose proof (pair_roe_spec G ul ur n Hg Pl Pr) as EA. unfold pair_roe in EA. cbv zeta in EA.
  assert (RM0 : roe_mean ul ur 0 0 = 0).
  { unfold roe_mean. replace (sqrt (s0 ul) * 0 + sqrt (s0 ur) * 0) with 0 by ring. apply Rmult_0_l. }
  assert (Zx : vx (roe_velocity ul ur) = 0) by (unfold roe_velocity; cbn [vx]; replace (s1 ul / s0 ul) with 0 by (unfold Rdiv, ul; cbn; ring); replace (s1 ur / s0 ur) with 0 by (unfold Rdiv, ur; cbn; ring); exact RM0).
  assert (Zy : vy (roe_velocity ul ur) = 0) by (unfold roe_velocity; cbn [vy]; replace (s2 ul / s0 ul) with 0 by (unfold Rdiv, ul; cbn; ring); replace (s2 ur / s0 ur) with 0 by (unfold Rdiv, ur; cbn; ring); exact RM0).
  assert (ZW : roe_normal ul ur n = 0) by (unfold roe_normal; rewrite Zx, Zy; ring).
  assert (RR := sqrt_ratio_pos ul ur Hrl Hrr).
  set (dHl := d_H (getJacobianVarsWrtConserved G ul n dvars0)). set (dHr := d_H (getJacobianVarsWrtConserved G ur n dvars0)).
  assert (QH : s1 dHl = 0).
  { unfold dHl, getJacobianVarsWrtConserved, getJacobianPressureWrtConserved, ul, dvars0, szero. cbn. unfold Rdiv. ring. }
  assert (Q : s1 (dvn_ (fst (getJacobiansRoeAverages G ul ur n (v_v (getVarsFromConserved G ul n)) (v_H (getVarsFromConserved G ul n)) (v_v (getVarsFromConserved G ur n)) (v_H (getVarsFromConserved G ur n)) dHl dHr)))
      = vx n / (rl * (sqrt (s0 ur / s0 ul) + 1)) /\
     s1 (dc_ (fst (getJacobiansRoeAverages G ul ur n (v_v (getVarsFromConserved G ul n)) (v_H (getVarsFromConserved G ul n)) (v_v (getVarsFromConserved G ur n)) (v_H (getVarsFromConserved G ur n)) dHl dHr))) = 0).
  { unfold getJacobiansRoeAverages. cbv zeta. rewrite EA. cbn [fst snd a_R a_v a_c]. rewrite Zx, Zy. clear EA.
    cbn [dvn_ dc_ mkst cget s1]. rewrite QH. unfold ul, ur; cbn [s0 s1 s2 s3]. fold ul ur. change rr with (s0 ur). change rl with (s0 ul).
    clearbody dHl dHr. set (Rr := sqrt (s0 ur / s0 ul)) in *. cbn [s0 ul ur]. clearbody Rr. split.
    - field. lra.
    - unfold Rdiv. ring. }
  revert Q. destruct (getJacobiansRoeAverages _ _ _ _ _ _ _ _ _ _) as [Di Dj]. cbn [fst]. intros [Q1 Q2].
  cbv zeta. rewrite EA. rewrite !vars_spec by auto.
  rewrite ZW. vproj. cbn [a_R a_rho a_v a_vm2 a_vn a_H a_c dfdl].
  set (c := roe_sound (gam G) ul ur) in *. set (Rr := sqrt (s0 ur / s0 ul)) in *.
  assert (NW : forall u, u = ul \/ u = ur -> normal_velocity u n = 0) by (intros u [->| ->]; unfold normal_velocity, ul, ur; cbn; unfold Rdiv; ring).
  assert (PE : pressure (gam G) ur - pressure (gam G) ul = 0) by (unfold pressure, ul, ur; cbn; unfold Rdiv; ring).
  clear EA. clearbody c Rr.
  unfold mget. cbn [mrow mkmat r0]. cbn [mkst cget s1].
  intros EE. apply (Rmult_eq_reg_l (-(1/2))) in EE; [|lra].
  match type of EE with ?a - ?x = ?a - ?y => assert (E1 : x = y) by lra; clear EE end.
  revert E1. 
  repeat match goal with |- context [s1 (r0 (roe_dadu ?A ?b ?d ?e ?f ?g ?h ?i ?j ?k ?l ?m ?o ?p ?q ?r ?s ?t))] =>
   change (s1 (r0 (roe_dadu A b d e f g h i j k l m o p q r s t))) with (cget (mrow (roe_dadu A b d e f g h i j k l m o p q r s t) I0) I1) end.
  rewrite !dadu_code. cbn [a_R a_rho a_v a_vm2 a_vn a_H a_c v_vn v_p v_v].
  rewrite PE, !NW by auto.
  assert (HC0 : Rltb (Rabs (0 - c)) (fixeps * c) = false) by (apply Rltb_false; replace (0 - c) with (- c) by ring; rewrite Rabs_Ropp, Rabs_pos_eq by lra; unfold fixeps; lra).
  assert (HC3 : Rltb (Rabs (0 + c)) (fixeps * c) = false) by (apply Rltb_false; rewrite Rplus_0_l, Rabs_pos_eq by lra; unfold fixeps; lra).
  assert (HC1 : Rltb (Rabs 0) (fixeps * c) = true) by (apply Rltb_true; rewrite Rabs_R0; apply harten_pos_c; auto).
  unfold harten_dl, harten_dl_true. rewrite HC0, HC1, HC3. rewrite Rabs_R0.
  unfold sgn1 at 2 5. rewrite !Rleb_true by lra.
  unfold mkst, dadu_d, rates. cbn [cget s1]. rewrite Q1, Q2. cbn [s0 ul ur].
  set (NN := vx n / (rl * (Rr + 1))).
  assert (HN : NN <> 0). { unfold NN, Rdiv. apply Rmult_integral_contrapositive_currified; auto. apply Rinv_neq_0_compat. apply Rmult_integral_contrapositive_currified; lra. }
  clearbody NN. intros E1.
  assert (E2 : NN * (rr - rl) = 0).
  { assert (K : forall a b x y d, a + (x * (rr - rl - 0 / (c * c)) + d) + b = a + (y * (rr - rl - 0 / (c * c)) + d) + b -> x * (rr - rl) = y * (rr - rl)).
    { intros. replace (rr - rl - 0 / (c * c)) with (rr - rl) in H by (unfold Rdiv; ring). lra. }
    apply K in E1. clear K. set (d := fixeps * c) in *. assert (Hd : 0 < d) by (unfold d; apply harten_pos_c; auto). clearbody d.
    match type of E1 with ?x * _ = ?y * _ => replace x with (NN / 2) in E1 by (field; lra); replace y with 0 in E1 by (field; lra) end. lra. }
  apply Rmult_integral in E2. destruct E2; lra.
Qed.
