(** The face Jacobians seen from the two sides of a face. *)
From Coq Require Import Reals Lra Psatz Bool.
From Verif Require Import BaseR M_Gas M_Flux M_Visc M_Resid S_Gas S_Deriv S_Deriv2 Pf_Flux Pf_FluxCons Pf_HLLC Pf_FluxUp Pf_FluxMisc Pf_Deriv Pf_Gas Pf_FluxJac Pf_AusmJac Pf_RoeAvg Pf_HllcJac Pf_RoeJac P_Flux.
Open Scope R_scope.

(** [J] is the pair of Jacobians seen from one side, [J'] from the other *)
Definition mirrored (J J' : jacs) : Prop := dfdl J' = dfdr J /\ dfdr J' = dfdl J.

Lemma jdir_neg G u n : getJacobianDirectionalFluxWrtConserved G u (vneg n) = mneg (getJacobianDirectionalFluxWrtConserved G u n).
Proof. unfold getJacobianDirectionalFluxWrtConserved, mneg, sneg, vneg, dot2. cbv zeta. cbn. f_equal; apply st_eq; cbn; unfold Rdiv; ring. Qed.
Lemma mget_mneg A i k : mget (mneg A) i k = - mget A i k.
Proof. destruct A, i, k; reflexivity. Qed.

Lemma llf_mirror G ul ur n : mirrored (llf_jac G ul ur n) (llf_jac G ur ul (vneg n)).
Proof.
  unfold mirrored, llf_jac. cbv zeta. cbn [dfdl dfdr]. rewrite !vars_neg. cbn [v_vn v_p]. rewrite !Rabs_Ropp.
  set (i := getVarsFromConserved G ul n). set (j := getVarsFromConserved G ur n). rewrite !jdir_neg.
  set (a := Rabs (v_vn i) + getSoundSpeed G (s0 ul) (v_p i)). set (b := Rabs (v_vn j) + getSoundSpeed G (s0 ur) (v_p j)).
  assert (E : (if Rleb a b then b else a) = (if Rleb b a then a else b)). { destruct (Rleb_spec a b), (Rleb_spec b a); lra. }
  rewrite E. split; apply mget_eq; intros p q; rewrite !mget_mkmat, mget_mneg; destruct (ix_eqb p q); ring.
Qed.

Lemma hll_mirror G ul ur n : 1 < gam G -> physical (gam G) ul -> physical (gam G) ur -> mirrored (hll_jac G ul ur n) (hll_jac G ur ul (vneg n)).
Proof.
  intros Hg Hl Hr. pose proof (hll_speeds_ordered G ul ur n Hg Hl Hr) as O. unfold mirrored, hll_jac. rewrite hll_speeds_swap by auto. destruct (hll_speeds G ul ur n) as [sl sr]. cbn [fst snd] in *.
  rewrite hll_coeffs_mirror by auto. cbv zeta. cbn [h_t1 h_t2 h_t3 dfdl dfdr]. rewrite !jdir_neg.
  split; apply mget_eq; intros p q; rewrite !mget_mkmat, mget_mneg; destruct (ix_eqb p q); ring.
Qed.

(** where the Jacobian is the derivative, it is enough that the flux is conservative *)
Lemma exact_mirror (F F' : st -> st -> st) ga ul ur J J' : physical ga ul -> physical ga ur -> (forall x y, physical ga x -> physical ga y -> F' y x = sneg (F x y)) ->
  jac2_is F ul ur (mneg (dfdl J)) (dfdr J) -> jac2_is F' ur ul (mneg (dfdl J')) (dfdr J') -> mirrored J J'.
Proof.
  intros Pl Pr E H H'.
  assert (K : jac2_is F ul ur (mneg (dfdr J')) (dfdl J')).
  { intros i cl cr t dul dur Cl Cr. apply (dl_local (fun s => - cget (F' (cr s) (cl s)) i)).
    - eapply near_imp; [|exact (near_physical2 ga cl cr t ul ur dul dur Pl Pr Cl Cr)]. cbv beta. intros s (A & B). rewrite E by auto. rewrite cget_sneg. ring.
    - eapply dl_eq. { apply dl_opp. exact (H' i cr cl t dur dul Cr Cl). } destruct i; unfold mneg, sneg, sdot; cbn; ring. }
  destruct (jac2_unique _ _ _ _ _ _ _ H K) as (E1 & E2). split; auto.
  apply mget_eq. intros i k. apply (f_equal (fun M => mget M i k)) in E1. rewrite !mget_mneg in E1. lra.
Qed.

Lemma nv_neg u n : normal_velocity u (vneg n) = - normal_velocity u n.
Proof. unfold normal_velocity, vneg; cbn. unfold Rdiv. ring. Qed.
Lemma ausm_mirror G ul ur n : 1 < gam G -> physical (gam G) ul -> physical (gam G) ur ->
  mach_plus (normal_velocity ul n / sound (gam G) ul) - mach_plus (- (normal_velocity ur n / sound (gam G) ur)) <> 0 ->
  mirrored (ausm_jac G ul ur n) (ausm_jac G ur ul (vneg n)).
Proof.
  intros Hg Hl Hr HM. apply (exact_mirror (fun x y => ausm_flux G x y n) (fun x y => ausm_flux G x y (vneg n)) (gam G) ul ur); auto.
  - intros x y _ _. apply ausm_antisym.
  - apply ausm_jac_exact; auto.
  - apply ausm_jac_exact; auto. rewrite !nv_neg. unfold Rdiv in *. rewrite !Ropp_mult_distr_l_reverse, Ropp_involutive. intros Q. apply HM. lra.
Qed.

(** ** HLLC and Roe *)
Lemma roe_mean_swap ul ur a b : roe_mean ur ul b a = roe_mean ul ur a b.
Proof. unfold roe_mean. rewrite (Rplus_comm (sqrt (s0 ur))), (Rplus_comm (sqrt (s0 ur) * b)). reflexivity. Qed.
Lemma roe_velocity_swap ul ur : roe_velocity ur ul = roe_velocity ul ur.
Proof. unfold roe_velocity. rewrite !(roe_mean_swap ul ur). reflexivity. Qed.
Lemma roe_enthalpy_swap ga ul ur : roe_enthalpy ga ur ul = roe_enthalpy ga ul ur.
Proof. apply roe_mean_swap. Qed.
Lemma roe_density_swap ul ur : roe_density ur ul = roe_density ul ur.
Proof. unfold roe_density. f_equal. ring. Qed.
Lemma roe_sound_swap ga ul ur : roe_sound ga ur ul = roe_sound ga ul ur.
Proof. unfold roe_sound. rewrite roe_velocity_swap, roe_enthalpy_swap. reflexivity. Qed.
Lemma roe_normal_swap ul ur n : roe_normal ur ul (vneg n) = - roe_normal ul ur n.
Proof. unfold roe_normal. rewrite roe_velocity_swap. unfold vneg; cbn [vx vy]. ring. Qed.

Lemma grad2_swap (f f' : st -> st -> R) ul ur a b a' b' : (forall x y, f' y x = f x y) -> grad2_is f ul ur a b -> grad2_is f' ur ul a' b' -> a' = b /\ b' = a.
Proof.
  intros E H H'. assert (K : grad2_is f ul ur b' a').
  { intros cl cr t dul dur Cl Cr. eapply dl_ext. { intros s. symmetry. apply E. } eapply dl_eq. exact (H' cr cl t dur dul Cr Cl). apply Rplus_comm. }
  split; symmetry.
  - exact (grad_unique _ _ _ _ (grad2_right _ _ _ _ _ H) (grad2_right _ _ _ _ _ K)).
  - exact (grad_unique _ _ _ _ (grad2_left _ _ _ _ _ H) (grad2_left _ _ _ _ _ K)).
Qed.
Lemma grad2_neg (f : st -> st -> R) ul ur a b : grad2_is f ul ur a b -> grad2_is (fun x y => - f x y) ul ur (sneg a) (sneg b).
Proof. intros H cl cr t dul dur Cl Cr. eapply dl_eq. { apply dl_opp. exact (H cl cr t dul dur Cl Cr). } unfold sneg, sdot; cbn; ring. Qed.

(** derivatives of the averages seen from the other side, apart from that of the density ratio, which is used by nothing else *)
Definition dmirror (D D' : droe) : Prop := drho_ D' = drho_ D /\ dvx_ D' = dvx_ D /\ dvy_ D' = dvy_ D /\ dvm2_ D' = dvm2_ D /\ dvn_ D' = sneg (dvn_ D) /\ dH_ D' = dH_ D /\ dc_ D' = dc_ D.
Definition rder (G : gas) (n : v2) (ul ur : st) : droe * droe :=
  getJacobiansRoeAverages G ul ur n (mkv (s1 ul / s0 ul) (s2 ul / s0 ul)) (enthalpy (gam G) ul)
     (mkv (s1 ur / s0 ur) (s2 ur / s0 ur)) (enthalpy (gam G) ur) (d_H (getJacobianVarsWrtConserved G ul n dvars0)) (d_H (getJacobianVarsWrtConserved G ur n dvars0)).
Lemma roe_derivs_mirror G n ul ur : 1 < gam G -> physical (gam G) ul -> physical (gam G) ur ->
  dmirror (fst (rder G n ul ur)) (snd (rder G (vneg n) ur ul)) /\ dmirror (snd (rder G n ul ur)) (fst (rder G (vneg n) ur ul)).
Proof.
  intros Hg Hl Hr. pose proof (roe_derivs G n ul ur Hg Hl Hr) as A. pose proof (roe_derivs G (vneg n) ur ul Hg Hr Hl) as B. cbv zeta in A, B.
  fold (rder G n ul ur) in A. fold (rder G (vneg n) ur ul) in B.
  destruct A as (_ & A1 & A2 & A3 & A4 & A5 & A6 & A7). destruct B as (_ & B1 & B2 & B3 & B4 & B5 & B6 & B7). unfold dmirror.
  destruct (grad2_swap _ _ _ _ _ _ _ _ (fun x y => roe_density_swap x y) A1 B1) as (-> & ->).
  destruct (grad2_swap _ _ _ _ _ _ _ _ (fun x y => f_equal vx (roe_velocity_swap x y)) A2 B2) as (-> & ->).
  destruct (grad2_swap _ _ _ _ _ _ _ _ (fun x y => f_equal vy (roe_velocity_swap x y)) A3 B3) as (-> & ->).
  destruct (grad2_swap _ _ _ _ _ _ _ _ (fun x y => f_equal (fun v => vx v ^ 2 + vy v ^ 2) (roe_velocity_swap x y)) A4 B4) as (-> & ->).
  destruct (grad2_swap _ _ _ _ _ _ _ _ (fun x y => roe_normal_swap x y n) (grad2_neg _ _ _ _ _ A5) B5) as (-> & ->).
  destruct (grad2_swap _ _ _ _ _ _ _ _ (fun x y => roe_enthalpy_swap (gam G) x y) A6 B6) as (-> & ->).
  destruct (grad2_swap _ _ _ _ _ _ _ _ (fun x y => roe_sound_swap (gam G) x y) A7 B7) as (-> & ->).
  repeat split.
Qed.

Lemma SL_swap ga n ul ur : SLf ga (vneg n) ur ul = - SRf ga n ul ur.
Proof. unfold SLf, SRf. rewrite nv_neg, roe_normal_swap, roe_sound_swap. unfold Rmin, Rmax. destruct (Rle_dec _ _), (Rle_dec _ _); lra. Qed.
Lemma SR_swap ga n ul ur : SRf ga (vneg n) ur ul = - SLf ga n ul ur.
Proof. unfold SLf, SRf. rewrite nv_neg, roe_normal_swap, roe_sound_swap. unfold Rmin, Rmax. destruct (Rle_dec _ _), (Rle_dec _ _); lra. Qed.
Lemma sneg_inv_s x : sneg (sneg x) = x. Proof. apply sneg_sneg. Qed.
Lemma dvn_neg G u n : d_vn (getJacobianVarsWrtConserved G u (vneg n) dvars0) = sneg (d_vn (getJacobianVarsWrtConserved G u n dvars0)).
Proof. unfold getJacobianVarsWrtConserved, dvars0, sneg, vneg. cbn. apply st_eq; cbn; unfold Rdiv; ring. Qed.

Lemma dsm_mirror ul ur vni vnj pi pj sl sr dv dp a b :
  sm_dsmi ur ul (- vnj) (- vni) pj pi (- sr) (- sl) (sneg dv) dp (sneg b) (sneg a) = sneg (sm_dsmj ul ur vni vnj pi pj sl sr dv dp a b).
Proof.
  unfold sm_dsmi, sm_dsmj. cbv zeta. replace (s0 ul * (- sl - - vni) - s0 ur * (- sr - - vnj)) with (s0 ur * (sr - vnj) - s0 ul * (sl - vni)) by ring.
  apply st_ext. intros k. destruct k; unfold sneg, mkst; cbn; unfold Rdiv; ring.
Qed.
Lemma dsm_mirror2 ul ur vni vnj pi pj sl sr dv dp a b :
  sm_dsmj ur ul (- vnj) (- vni) pj pi (- sr) (- sl) (sneg dv) dp (sneg b) (sneg a) = sneg (sm_dsmi ul ur vni vnj pi pj sl sr dv dp a b).
Proof.
  unfold sm_dsmi, sm_dsmj. cbv zeta. replace (s0 ul * (- sl - - vni) - s0 ur * (- sr - - vnj)) with (s0 ur * (sr - vnj) - s0 ul * (sl - vni)) by ring.
  apply st_ext. intros k. destruct k; unfold sneg, mkst; cbn; unfold Rdiv; ring.
Qed.
Lemma star_jac_mirror u n vn p ss sm dvn dp a b c d :
  getStarStateJacobian u (vneg n) (- vn) p (- ss) (- sm) (sneg dvn) dp (sneg a) (sneg b) (sneg c) (sneg d) = getStarStateJacobian u n vn p ss sm dvn dp a b c d.
Proof.
  unfold getStarStateJacobian. cbv zeta. unfold Rdiv.
  replace ((- ss - - sm) * (- ss - - sm)) with ((ss - sm) * (ss - sm)) by ring. replace (/ (- ss - - sm)) with (- / (ss - sm)) by (rewrite <- Rinv_opp; f_equal; ring).
  f_equal; apply mget_eq; intros i k; rewrite !mget_mkmat; destruct i, k; cbn [cget ix_eqb sneg s0 s1 s2 s3 vneg vx vy]; ring.
Qed.
Lemma core_mirror G ul ur n vni vnj pi pj dvni dpi dvnj dpj sl dsli dslj sr dsri dsrj :
  let sm := hllc_sm ul ur vni vnj pi pj sl sr in sl < sm < sr -> sm <> 0 ->
  let K := hllc_core G ul ur n vni vnj pi pj dvni dpi dvnj dpj sl dsli dslj sr dsri dsrj in
  hllc_core G ur ul (vneg n) (- vnj) (- vni) pj pi (sneg dvnj) dpj (sneg dvni) dpi (- sr) (sneg dsrj) (sneg dsri) (- sl) (sneg dslj) (sneg dsli) = (mneg (snd K), mneg (fst K)).
Proof.
  intros sm O NZ K. unfold K, hllc_core. rewrite hllc_sm_swap, dsm_mirror, dsm_mirror2. fold sm. cbv zeta. rewrite !jdir_neg, !star_mirror, !star_jac_mirror.
  set (dsmi := sm_dsmi _ _ _ _ _ _ _ _ _ _ _ _). set (dsmj := sm_dsmj _ _ _ _ _ _ _ _ _ _ _ _).
  assert (M0 : mneg mat0 = mat0) by (apply mget_eq; intros i k; rewrite mget_mneg; destruct i, k; cbn; ring).
  destruct (Rltb_spec 0 sl) as [H1|H1].
  - destruct (Rltb_spec 0 (- sr)); [lra|]. destruct (Rleb_spec (- sr) 0); [|lra]. destruct (Rltb_spec 0 (- sm)); [lra|]. cbn [andb].
    destruct (Rleb_spec (- sm) 0); [|lra]. destruct (Rleb_spec 0 (- sl)); [lra|]. cbn [andb fst snd]. rewrite M0. reflexivity.
  - destruct (Rleb_spec sl 0); [|lra]. destruct (Rltb_spec 0 sm) as [H2|H2]; cbn [andb].
    + destruct (Rltb_spec 0 (- sr)); [lra|]. destruct (Rleb_spec (- sr) 0); [|lra]. destruct (Rltb_spec 0 (- sm)); [lra|]. cbn [andb].
      destruct (Rleb_spec (- sm) 0); [|lra]. destruct (Rleb_spec 0 (- sl)); [|lra]. cbn [andb].
      destruct (getStarStateJacobian ul n vni pi sl sm dvni dpi dsli dsmi dslj dsmj) as [dui duj]. cbn [fst snd].
      f_equal; apply mget_eq; intros i k; rewrite mget_mneg, !mget_mkmat, ?mget_mneg, ?cget_sneg; ring.
    + destruct (Rleb_spec sm 0); [|lra]. destruct (Rleb_spec 0 sr) as [H3|H3]; cbn [andb].
      * destruct (Rltb_spec 0 (- sr)); [lra|]. destruct (Rleb_spec (- sr) 0); [|lra]. destruct (Rltb_spec 0 (- sm)); [|lra]. cbn [andb].
        destruct (getStarStateJacobian ur n vnj pj sr sm dvnj dpj dsrj dsmj dsri dsmi) as [duj dui]. cbn [fst snd].
        f_equal; apply mget_eq; intros i k; rewrite mget_mneg, !mget_mkmat, ?mget_mneg, ?cget_sneg; ring.
      * destruct (Rltb_spec 0 (- sr)); [|lra]. cbn [fst snd]. rewrite M0. reflexivity.
Qed.

Lemma ssub_swap a b : sadd (sneg a) b = sneg (ssub a b).
Proof. unfold sadd, sneg, ssub. cbn. apply st_eq; cbn; ring. Qed.
Lemma sadd_swap a b : ssub (sneg a) b = sneg (sadd a b).
Proof. unfold sadd, sneg, ssub. cbn. apply st_eq; cbn; ring. Qed.
Lemma rltb_iff a b c d : (a < b <-> c < d) -> Rltb a b = Rltb c d.
Proof. intros H. destruct (Rltb_spec a b), (Rltb_spec c d); auto; exfalso; tauto. Qed.

Lemma hllc_mirror G ul ur n : 5/4 <= gam G -> physical (gam G) ul -> physical (gam G) ur -> unit_vec n -> SMf (gam G) n ul ur <> 0 ->
  mirrored (hllc_jac G ul ur n) (hllc_jac G ur ul (vneg n)).
Proof.
  intros H5 Hl Hr Hn NZ. assert (Hg : 1 < gam G) by lra. destruct (order_spec G ul ur n H5 Hl Hr Hn) as (_ & O).
  rewrite (hllc_jac_core G ul ur n), (hllc_jac_core G ur ul (vneg n)) by auto. cbv zeta.
  fold (rder G n ul ur). fold (rder G (vneg n) ur ul).
  destruct (roe_derivs_mirror G n ul ur Hg Hl Hr) as (M1 & M2). destruct (rder G n ul ur) as [Di Dj]. destruct (rder G (vneg n) ur ul) as [Di' Dj']. cbn [fst snd] in *.
  destruct M1 as (_ & _ & _ & _ & V1 & _ & C1). destruct M2 as (_ & _ & _ & _ & V2 & _ & C2). rewrite V1, V2, C1, C2.
  rewrite SL_swap, SR_swap, (roe_sound_swap (gam G) ul ur), roe_normal_swap, !nv_neg, !dvn_neg. 
  change (d_p (getJacobianVarsWrtConserved G ul (vneg n) dvars0)) with (d_p (getJacobianVarsWrtConserved G ul n dvars0)).
  change (d_p (getJacobianVarsWrtConserved G ur (vneg n) dvars0)) with (d_p (getJacobianVarsWrtConserved G ur n dvars0)).
  set (W := roe_normal ul ur n). set (c := roe_sound (gam G) ul ur). set (wl := normal_velocity ul n). set (wr := normal_velocity ur n).
  rewrite (rltb_iff (- W - c) (- wr - sound (gam G) ur) (wr + sound (gam G) ur) (W + c)) by lra.
  rewrite (rltb_iff (- wl + sound (gam G) ul) (- W + c) (W - c) (wl - sound (gam G) ul)) by lra.
  rewrite !ssub_swap, !sadd_swap.
  set (bl := Rltb (W - c) (wl - sound (gam G) ul)). set (br := Rltb (wr + sound (gam G) ur) (W + c)).
  assert (NI : forall (b : bool) x y, (if b then sneg x else sneg y) = sneg (if b then x else y)) by (intros [] x y; reflexivity).
  assert (NZ0 : forall (b : bool) x, (if b then sneg x else szero) = sneg (if b then x else szero)) by (intros [] x; [reflexivity|symmetry; apply sneg_szero]).
  rewrite !NI, !NZ0. rewrite core_mirror by auto. cbn [fst snd]. split; cbn [dfdl dfdr]; apply mget_eq; intros i k; rewrite ?mget_mkmat, ?mget_mneg; ring.
Qed.

Lemma dadu_mirror A A' n i j i' j' ul ur l0 l1 l3 D D' dl0 dl1 dl3 ddevn ddep dderho ddvx ddvy :
  a_rho A' = a_rho A -> a_v A' = a_v A -> a_vm2 A' = a_vm2 A -> a_vn A' = - a_vn A -> a_H A' = a_H A -> a_c A' = a_c A ->
  v_v i' = v_v i -> v_vn i' = - v_vn i -> v_p i' = v_p i -> v_v j' = v_v j -> v_vn j' = - v_vn j -> v_p j' = v_p j -> dmirror D D' ->
  roe_dadu A' (vneg n) j' i' ur ul l3 l1 l0 D' dl3 dl1 dl0 ddevn (sneg ddep) (sneg dderho) (sneg ddvx) (sneg ddvy) =
  mneg (roe_dadu A n i j ul ur l0 l1 l3 D dl0 dl1 dl3 ddevn ddep dderho ddvx ddvy).
Proof.
  intros A1 A2 A3 A4 A5 A6 I1 I2 I3 J1 J2 J3 (D1 & D2 & D3 & D4 & D5 & D6 & D7). apply mget_eq. intros r k. rewrite mget_mneg. unfold roe_dadu. cbv zeta. rewrite !mget_mkmat.
  destruct r; cbv beta iota; rewrite ?A1, ?A2, ?A3, ?A4, ?A5, ?A6, ?I1, ?I2, ?I3, ?J1, ?J2, ?J3, ?D1, ?D2, ?D3, ?D4, ?D5, ?D6, ?D7, ?cget_sneg; unfold Rdiv; cbn [vneg vx vy]; ring.
Qed.

Lemma sgn1_neg x : x <> 0 -> sgn1 (- x) = - sgn1 x.
Proof. intros H. unfold sgn1. destruct (Rleb_spec 0 x), (Rleb_spec 0 (- x)); lra. Qed.
Lemma sneg_mk a b c d : mks (- a) (- b) (- c) (- d) = sneg (mks a b c d). Proof. reflexivity. Qed.

Lemma roe_mirror G ul ur n : 1 < gam G -> physical (gam G) ul -> physical (gam G) ur ->
  let c := roe_sound (gam G) ul ur in let W := roe_normal ul ur n in W - c <> 0 -> W <> 0 -> W + c <> 0 ->
  mirrored (roe_jac G ul ur n) (roe_jac G ur ul (vneg n)).
Proof.
  intros Hg Hl Hr c W N0 N1 N3. pose proof Hl as [Pl _]. pose proof Hr as [Pr _].
  assert (Rl0 : s0 ul <> 0) by lra. assert (Rr0 : s0 ur <> 0) by lra. unfold mirrored, roe_jac.
  pose proof (pair_roe_spec G ul ur n Hg Hl Hr) as EA. pose proof (pair_roe_spec G ur ul (vneg n) Hg Hr Hl) as EB. unfold pair_roe in EA, EB. cbv zeta in EA, EB. rewrite EA, EB. clear EA EB.
  rewrite !vars_spec by auto. cbv zeta. vproj. cbn [a_R a_rho a_v a_vm2 a_vn a_H a_c].
  fold (rder G n ul ur). fold (rder G (vneg n) ur ul).
  destruct (roe_derivs_mirror G n ul ur Hg Hl Hr) as (M1 & M2). destruct (rder G n ul ur) as [Di Dj]. destruct (rder G (vneg n) ur ul) as [Di' Dj']. cbn [fst snd] in M1, M2.
  cbn [dfdl dfdr]. rewrite (roe_sound_swap (gam G) ul ur), (roe_normal_swap ul ur n), (roe_velocity_swap ul ur), (roe_density_swap ul ur), (roe_enthalpy_swap (gam G) ul ur). fold c W.
  rewrite !dvn_neg, sneg_sneg.
  assert (AB : Rabs (- W - c) = Rabs (W + c) /\ Rabs (- W + c) = Rabs (W - c) /\ Rabs (- W) = Rabs W).
  { split; [|split]; rewrite <- Rabs_Ropp; f_equal; ring. } destruct AB as (-> & -> & ->).
  assert (SG : sgn1 (- W - c) = - sgn1 (W + c) /\ sgn1 (- W + c) = - sgn1 (W - c) /\ sgn1 (- W) = - sgn1 W).
  { split; [|split]; rewrite <- sgn1_neg by auto; f_equal; ring. } destruct SG as (-> & -> & ->).
  set (A := mkroe (sqrt (s0 ur / s0 ul)) (roe_density ul ur) (roe_velocity ul ur) (vx (roe_velocity ul ur) ^ 2 + vy (roe_velocity ul ur) ^ 2) W (roe_enthalpy (gam G) ul ur) c).
  set (A' := mkroe (sqrt (s0 ul / s0 ur)) _ _ _ _ _ _).
  pose proof M1 as (_ & _ & _ & _ & V1 & _ & C1). pose proof M2 as (_ & _ & _ & _ & V2 & _ & C2).
  assert (E : forall s (x e : R) D D', dvn_ D' = sneg (dvn_ D) -> dc_ D' = dc_ D -> mkst (fun k => - s * (cget (dvn_ D') k + - e * cget (dc_ D') k)) = mkst (fun k => s * (cget (dvn_ D) k + e * cget (dc_ D) k))).
  { intros s x e D D' -> ->. apply st_ext. intros k. rewrite !cget_mkst, cget_sneg. ring. }
  assert (E1 : forall s D D', dvn_ D' = sneg (dvn_ D) -> mkst (fun k => - s * cget (dvn_ D') k) = mkst (fun k => s * cget (dvn_ D) k)).
  { intros s D D' ->. apply st_ext. intros k. rewrite !cget_mkst, cget_sneg. ring. }
  assert (E2 : forall s D D', dvn_ D' = sneg (dvn_ D) -> dc_ D' = dc_ D -> mkst (fun k => - s * (cget (dvn_ D') k + 1 * cget (dc_ D') k)) = mkst (fun k => s * (cget (dvn_ D) k + -1 * cget (dc_ D) k))).
  { intros s D D' -> ->. apply st_ext. intros k. rewrite !cget_mkst, cget_sneg. ring. }
  rewrite !(E _ 0 1 Dj Di' V2 C2), !(E _ 0 1 Di Dj' V1 C1), !(E1 _ Dj Di' V2), !(E1 _ Di Dj' V1), !(E2 _ Dj Di' V2 C2), !(E2 _ Di Dj' V1 C1), C1, C2.
  split; apply mget_eq; intros r k; rewrite !mget_mkmat, jdir_neg, mget_mneg.
  - change (mks (-1) 0 0 0) with (mks (- (1)) 0 0 0). replace (mks (- (1)) 0 0 0) with (sneg (mks 1 0 0 0)) by (unfold sneg; cbn; f_equal; ring).
    change (d_p (getJacobianVarsWrtConserved G ur (vneg n) dvars0)) with (d_p (getJacobianVarsWrtConserved G ur n dvars0)).
    change (d_vx (getJacobianVarsWrtConserved G ur (vneg n) dvars0)) with (d_vx (getJacobianVarsWrtConserved G ur n dvars0)).
    change (d_vy (getJacobianVarsWrtConserved G ur (vneg n) dvars0)) with (d_vy (getJacobianVarsWrtConserved G ur n dvars0)).
    rewrite (dadu_mirror A A' n (mkvars (mkv (s1 ul / s0 ul) (s2 ul / s0 ul)) (normal_velocity ul n) (pressure (gam G) ul) (enthalpy (gam G) ul))
       (mkvars (mkv (s1 ur / s0 ur) (s2 ur / s0 ur)) (normal_velocity ur n) (pressure (gam G) ur) (enthalpy (gam G) ur)) _ _ ul ur _ _ _ Dj Di') by (try reflexivity; try apply nv_neg; exact M2).
    rewrite mget_mneg. unfold c, W. ring.
  - replace (mks 1 0 0 0) with (sneg (mks (-1) 0 0 0)) by (unfold sneg; cbn; f_equal; ring).
    change (d_p (getJacobianVarsWrtConserved G ul (vneg n) dvars0)) with (d_p (getJacobianVarsWrtConserved G ul n dvars0)).
    change (d_vx (getJacobianVarsWrtConserved G ul (vneg n) dvars0)) with (d_vx (getJacobianVarsWrtConserved G ul n dvars0)).
    change (d_vy (getJacobianVarsWrtConserved G ul (vneg n) dvars0)) with (d_vy (getJacobianVarsWrtConserved G ul n dvars0)).
    rewrite <- (sneg_sneg (d_p (getJacobianVarsWrtConserved G ul n dvars0))) at 1. rewrite <- (sneg_sneg (d_vx (getJacobianVarsWrtConserved G ul n dvars0))) at 1. rewrite <- (sneg_sneg (d_vy (getJacobianVarsWrtConserved G ul n dvars0))) at 1.
    rewrite (dadu_mirror A A' n (mkvars (mkv (s1 ul / s0 ul) (s2 ul / s0 ul)) (normal_velocity ul n) (pressure (gam G) ul) (enthalpy (gam G) ul))
       (mkvars (mkv (s1 ur / s0 ur) (s2 ur / s0 ur)) (normal_velocity ur n) (pressure (gam G) ur) (enthalpy (gam G) ur)) _ _ ul ur _ _ _ Di Dj') by (try reflexivity; try apply nv_neg; exact M1).
    rewrite mget_mneg. ring.
Qed.

(** ** Equal states: what is switched does not matter *)
Lemma dadu_flat A n i j u l0 l1 l3 D dl0 dl1 dl3 el0 el1 el3 ddevn ddep dderho ddvx ddvy : v_v i = v_v j -> v_vn i = v_vn j -> v_p i = v_p j ->
  roe_dadu A n i j u u l0 l1 l3 D dl0 dl1 dl3 ddevn ddep dderho ddvx ddvy = roe_dadu A n i j u u l0 l1 l3 D el0 el1 el3 ddevn ddep dderho ddvx ddvy.
Proof.
  intros I1 I2 I3. apply mget_eq. intros r k. unfold roe_dadu. cbv zeta. rewrite !mget_mkmat. rewrite ?I1, ?I2, ?I3. destruct r; cbv beta iota; unfold Rdiv; ring.
Qed.

Lemma dmn_neg u n c dc : ausm_dmn u (vneg n) c (- 0) dc = sneg (ausm_dmn u n c 0 dc).
Proof. unfold ausm_dmn, sneg, vneg. cbn. f_equal; unfold Rdiv; ring. Qed.
Lemma ausm_mirror_eq G u n : 1 < gam G -> physical (gam G) u -> normal_velocity u n = 0 -> mirrored (ausm_jac G u u n) (ausm_jac G u u (vneg n)).
Proof.
  intros Hg Hu V0. pose proof Hu as (Pu & _). assert (R0 : s0 u <> 0) by lra. unfold mirrored, ausm_jac. rewrite !vars_spec by auto. vproj.
  rewrite nv_neg, V0. set (pr := pressure (gam G) u). set (dp := getJacobianPressureWrtConserved G u). set (c := getSoundSpeed G (s0 u) pr). set (dc := getJacobianSoundSpeed G (s0 u) pr dp c szero).
  rewrite !dmn_neg. set (dmn := ausm_dmn u n c 0 dc). replace (0 / c) with 0 by (unfold Rdiv; ring). replace (- 0 / c) with 0 by (unfold Rdiv; ring). unfold ausm_dL, ausm_dR. rewrite Rabs_R0.
  destruct (Rleb_spec 0 1); [|lra]. cbv zeta. set (z := 1/4 * (0 + 1) * (0 + 1) + - (1/4) * (0 - 1) * (0 - 1)). assert (Z0 : z = 0) by (unfold z; lra). clearbody z. subst z. rewrite Rabs_R0. set (sg := if Rleb 0 0 then 1 else -1). clearbody sg. clearbody dmn dc c dp.
  cbn [dfdl dfdr]. split; apply mget_eq; intros i k; rewrite !mget_mkmat; destruct i, k; cbn [ix_eqb]; cbv beta iota; repeat (rewrite ?cget_mkst, ?cget_sneg); unfold sneg, mkst, Rdiv; cbn [s0 s1 s2 s3 cget vneg vx vy]; ring.
Qed.
Lemma roe_mirror_eq G u n : 1 < gam G -> physical (gam G) u -> mirrored (roe_jac G u u n) (roe_jac G u u (vneg n)).
Proof.
  intros Hg Hu. pose proof Hu as [Pu _]. set (c := roe_sound (gam G) u u). set (W := roe_normal u u n).
  assert (R0 : s0 u <> 0) by lra. unfold mirrored, roe_jac.
  pose proof (pair_roe_spec G u u n Hg Hu Hu) as EA. pose proof (pair_roe_spec G u u (vneg n) Hg Hu Hu) as EB. unfold pair_roe in EA, EB. cbv zeta in EA, EB. rewrite EA, EB. clear EA EB.
  rewrite !vars_spec by auto. cbv zeta. vproj. cbn [a_R a_rho a_v a_vm2 a_vn a_H a_c].
  fold (rder G n u u). fold (rder G (vneg n) u u).
  destruct (roe_derivs_mirror G n u u Hg Hu Hu) as (M1 & M2). destruct (rder G n u u) as [Di Dj]. destruct (rder G (vneg n) u u) as [Di' Dj']. cbn [fst snd] in M1, M2.
  cbn [dfdl dfdr]. rewrite (roe_normal_swap u u n). fold c W. rewrite !dvn_neg, sneg_sneg.
  assert (AB : Rabs (- W - c) = Rabs (W + c) /\ Rabs (- W + c) = Rabs (W - c) /\ Rabs (- W) = Rabs W).
  { split; [|split]; rewrite <- Rabs_Ropp; f_equal; ring. } destruct AB as (-> & -> & ->).
  set (A := mkroe (sqrt (s0 u / s0 u)) (roe_density u u) (roe_velocity u u) (vx (roe_velocity u u) ^ 2 + vy (roe_velocity u u) ^ 2) W (roe_enthalpy (gam G) u u) c).
  set (A' := mkroe _ _ _ _ (- W) _ _).
  set (l0 := harten _ (Rabs (W - c))). set (l3 := harten _ (Rabs (W + c))). set (l1 := harten _ (Rabs W)).
  set (vi := mkvars (mkv (s1 u / s0 u) (s2 u / s0 u)) (normal_velocity u n) (pressure (gam G) u) (enthalpy (gam G) u)).
  set (vj := mkvars (mkv (s1 u / s0 u) (s2 u / s0 u)) (normal_velocity u (vneg n)) (pressure (gam G) u) (enthalpy (gam G) u)).
  split; apply mget_eq; intros r k; rewrite !mget_mkmat, jdir_neg, mget_mneg.
  - rewrite (dadu_flat A' (vneg n) vj vj u l3 l1 l0 _ _ _ _ szero szero szero) by reflexivity. rewrite (dadu_flat A n vi vi u l0 l1 l3 _ _ _ _ szero szero szero) by reflexivity.
    change (mks (-1) 0 0 0) with (mks (- (1)) 0 0 0). replace (mks (- (1)) 0 0 0) with (sneg (mks 1 0 0 0)) by (unfold sneg; cbn; f_equal; ring).
    change (d_p (getJacobianVarsWrtConserved G u (vneg n) dvars0)) with (d_p (getJacobianVarsWrtConserved G u n dvars0)).
    change (d_vx (getJacobianVarsWrtConserved G u (vneg n) dvars0)) with (d_vx (getJacobianVarsWrtConserved G u n dvars0)).
    change (d_vy (getJacobianVarsWrtConserved G u (vneg n) dvars0)) with (d_vy (getJacobianVarsWrtConserved G u n dvars0)).
    rewrite (dadu_mirror A A' n vi vi vj vj u u _ _ _ Dj Di') by (try reflexivity; try apply nv_neg; exact M2).
    rewrite mget_mneg. unfold c, W. ring.
  - rewrite (dadu_flat A' (vneg n) vj vj u l3 l1 l0 _ _ _ _ szero szero szero) by reflexivity. rewrite (dadu_flat A n vi vi u l0 l1 l3 _ _ _ _ szero szero szero) by reflexivity.
    replace (mks 1 0 0 0) with (sneg (mks (-1) 0 0 0)) by (unfold sneg; cbn; f_equal; ring).
    change (d_p (getJacobianVarsWrtConserved G u (vneg n) dvars0)) with (d_p (getJacobianVarsWrtConserved G u n dvars0)).
    change (d_vx (getJacobianVarsWrtConserved G u (vneg n) dvars0)) with (d_vx (getJacobianVarsWrtConserved G u n dvars0)).
    change (d_vy (getJacobianVarsWrtConserved G u (vneg n) dvars0)) with (d_vy (getJacobianVarsWrtConserved G u n dvars0)).
    rewrite <- (sneg_sneg (d_p (getJacobianVarsWrtConserved G u n dvars0))) at 1. rewrite <- (sneg_sneg (d_vx (getJacobianVarsWrtConserved G u n dvars0))) at 1. rewrite <- (sneg_sneg (d_vy (getJacobianVarsWrtConserved G u n dvars0))) at 1.
    rewrite (dadu_mirror A A' n vi vi vj vj u u _ _ _ Di Dj') by (try reflexivity; try apply nv_neg; exact M1).
    rewrite mget_mneg. ring.
Qed.

(** the Jacobian of the flux, and of the normal velocity, where that velocity is zero *)
Lemma dvn_rest G u n : physical (gam G) u -> normal_velocity u n = 0 -> d_vn (getJacobianVarsWrtConserved G u n dvars0) = mks 0 (vx n / s0 u) (vy n / s0 u) 0.
Proof.
  intros (Pu & _) V0. unfold getJacobianVarsWrtConserved, dvars0. cbn. f_equal; try ring.
  unfold normal_velocity in V0. transitivity (- ((s1 u * vx n + s2 u * vy n) / s0 u) / s0 u). { field. lra. }
  assert (Q : (s1 u * vx n + s2 u * vy n) / s0 u = 0). { rewrite <- V0. unfold Rdiv; ring. } rewrite Q. unfold Rdiv; ring.
Qed.
Lemma jdir_rest G u n : physical (gam G) u -> normal_velocity u n = 0 -> let dp := getJacobianPressureWrtConserved G u in let dv := mks 0 (vx n / s0 u) (vy n / s0 u) 0 in
  getJacobianDirectionalFluxWrtConserved G u n = mkmat (fun i k => match i with I0 => s0 u * cget dv k | I1 => s1 u * cget dv k + cget dp k * vx n
     | I2 => s2 u * cget dv k + cget dp k * vy n | I3 => (s3 u + pressure (gam G) u) * cget dv k end).
Proof.
  intros (Pu & _) V0 dp dv. unfold dv, dp. assert (E : dot2 (mom u) n = 0). { unfold normal_velocity in V0. apply (f_equal (fun z => z * s0 u)) in V0. rewrite Rmult_0_l in V0. rewrite <- V0. unfold dot2, mom. cbn. field. lra. }
  assert (PR : getPressureFromConserved G u = pressure (gam G) u). { apply pressure_code. lra. }
  unfold getJacobianDirectionalFluxWrtConserved. cbv zeta. rewrite E, PR. apply mget_eq. intros i k. rewrite mget_mkmat.
  destruct i, k; cbn; field; lra.
Qed.
(** The two sides of the contact agree there. *)
Lemma core_rest G u n dsli dslj dsri dsrj sl sr : physical (gam G) u -> normal_velocity u n = 0 -> sl < 0 < sr ->
  let dp := getJacobianPressureWrtConserved G u in let dv := mks 0 (vx n / s0 u) (vy n / s0 u) 0 in let p := pressure (gam G) u in
  let di k := (cget dp k - s0 u * sl * cget dv k) / (s0 u * (sr - sl)) in let dj k := (s0 u * sr * cget dv k - cget dp k) / (s0 u * (sr - sl)) in
  hllc_core G u u n 0 0 p p dv dp dv dp sl dsli dslj sr dsri dsrj =
  (mkmat (fun i k => match i with I0 => s0 u * di k | I1 => (s1 u + s0 u * sr * vx n) * di k | I2 => (s2 u + s0 u * sr * vy n) * di k | I3 => (s3 u + p) * di k end),
   mkmat (fun i k => match i with I0 => s0 u * dj k | I1 => (s1 u + s0 u * sl * vx n) * dj k | I2 => (s2 u + s0 u * sl * vy n) * dj k | I3 => (s3 u + p) * dj k end)).
Proof.
  intros Hu V0 O dp dv p di dj. unfold hllc_core. rewrite jdir_rest by auto. fold dp dv p. pose proof Hu as (Pu & _).
  assert (SM : hllc_sm u u 0 0 p p sl sr = 0) by (unfold hllc_sm; field; nra). rewrite SM.
  assert (DI : sm_dsmi u u 0 0 p p sl sr dv dp dsli dsri = mkst di). { unfold sm_dsmi. cbv zeta. apply st_ext. intros k. rewrite !cget_mkst. unfold di. destruct k; cbn [cget dv s0 s1 s2 s3]; field; nra. }
  assert (DJ : sm_dsmj u u 0 0 p p sl sr dv dp dslj dsrj = mkst dj). { unfold sm_dsmj. cbv zeta. apply st_ext. intros k. rewrite !cget_mkst. unfold dj. destruct k; cbn [cget dv s0 s1 s2 s3]; field; nra. }
  rewrite DI, DJ. cbv zeta. destruct (Rltb_spec 0 sl); [lra|]. destruct (Rleb_spec sl 0); [|lra]. destruct (Rltb_spec 0 0); [lra|]. cbn [andb]. destruct (Rleb_spec 0 0); [|lra]. destruct (Rleb_spec 0 sr); [|lra]. cbn [andb].
  assert (US : getStarState u n 0 p sr 0 = u). { unfold getStarState. destruct u as [a b c d]. cbn in *. f_equal; field; lra. } rewrite US.
  unfold getStarStateJacobian. cbv zeta. f_equal; apply mget_eq; intros i k; rewrite !mget_mkmat; destruct i; cbv beta iota; rewrite ?mget_mkmat; rewrite ?cget_mkst; fold dp; unfold di, dj; destruct k; cbn [ix_eqb cget mkst dv s0 s1 s2 s3]; unfold di, dj, dv; cbn [ix_eqb cget mkst dv s0 s1 s2 s3]; field; nra.
Qed.

Lemma hllc_mirror_eq G u n : 5/4 <= gam G -> physical (gam G) u -> unit_vec n -> normal_velocity u n = 0 ->
  mirrored (hllc_jac G u u n) (hllc_jac G u u (vneg n)).
Proof.
  intros H5 Hu Hn V0. assert (Hg : 1 < gam G) by lra. pose proof Hu as (Pu & _).
  assert (V1 : normal_velocity u (vneg n) = 0) by (rewrite nv_neg, V0; ring).
  destruct (order_spec G u u n H5 Hu Hu Hn) as (_ & O). 
  rewrite (hllc_jac_core G u u n), (hllc_jac_core G u u (vneg n)) by auto. cbv zeta. rewrite SL_swap, SR_swap. rewrite !dvn_rest by auto. rewrite V0, V1.
  assert (O' : SLf (gam G) n u u < 0 < SRf (gam G) n u u).
  { assert (Q : SMf (gam G) n u u = 0). { unfold SMf, hllc_sm. rewrite V0. unfold Rdiv. ring. } lra. }
  set (sl := SLf (gam G) n u u) in *. set (sr := SRf (gam G) n u u) in *.
  change (d_p (getJacobianVarsWrtConserved G u n dvars0)) with (getJacobianPressureWrtConserved G u). change (d_p (getJacobianVarsWrtConserved G u (vneg n) dvars0)) with (getJacobianPressureWrtConserved G u).
  rewrite (core_rest G u n) by auto. rewrite (core_rest G u (vneg n)) by (auto; lra). cbn [fst snd]. split; cbn [dfdl dfdr]; apply mget_eq; intros i k; rewrite !mget_mkmat; destruct i, k; cbn [cget s0 s1 s2 s3 vneg vx vy]; field; nra.
Qed.

Lemma hllc_mirror_same G u n : 5/4 <= gam G -> physical (gam G) u -> unit_vec n -> mirrored (hllc_jac G u u n) (hllc_jac G u u (vneg n)).
Proof.
  intros H5 Hu Hn. destruct (Req_dec (normal_velocity u n) 0) as [E|E]; [apply hllc_mirror_eq; auto|]. apply hllc_mirror; auto. intros Q. apply E.
  destruct (order_spec G u u n H5 Hu Hu Hn) as (P & _). cbv zeta in P. rewrite <- Q. unfold SMf, hllc_sm. field. lra.
Qed.
Lemma ausm_mirror_same G u n : 1 < gam G -> physical (gam G) u -> mirrored (ausm_jac G u u n) (ausm_jac G u u (vneg n)).
Proof.
  intros Hg Hu. destruct (Req_dec (normal_velocity u n) 0) as [E|E]; [apply ausm_mirror_eq; auto|]. apply ausm_mirror; auto.
  pose proof (sound_pos (gam G) u Hg Hu) as C. set (m := normal_velocity u n / sound (gam G) u).
  assert (M0 : m <> 0). { unfold m. intro Q. apply E. apply (f_equal (fun z => z * sound (gam G) u)) in Q. rewrite Rmult_0_l in Q. rewrite <- Q. field. lra. }
  assert (Q : mach_plus m - mach_plus (- m) = m); [|lra]. unfold mach_plus. repeat destruct (Rle_dec _ _); try lra; try field; try (replace m with (-1) in * by lra; lra); try (replace m with 1 in * by lra; lra).
Qed.

(** AUSM where the gas is at rest normal to the face *)
Lemma ausm_rest G ul ur n : 1 < gam G -> physical (gam G) ul -> physical (gam G) ur -> normal_velocity ul n = 0 -> normal_velocity ur n = 0 ->
  mget (dfdl (ausm_jac G ul ur n)) I0 I1 = - (vx n / 2) /\
  mget (dfdr (ausm_jac G ur ul (vneg n))) I0 I1 = - (vx n / 2) * (s0 ur * sound (gam G) ur) / (s0 ul * sound (gam G) ul).
Proof.
  intros Hg Hl Hr Vl Vr. pose proof Hl as (Pl & _). pose proof Hr as (Pr & _). pose proof (sound_pos (gam G) ul Hg Hl) as Cl. pose proof (sound_pos (gam G) ur Hg Hr) as Cr.
  assert (Ql : s0 ul <> 0) by lra. assert (Qr : s0 ur <> 0) by lra. unfold ausm_jac. rewrite !vars_spec by auto. vproj. rewrite !nv_neg, Vl, Vr. rewrite !sound_spec by auto. set (cl := sound (gam G) ul) in *. set (cr := sound (gam G) ur) in *.
  unfold ausm_dL, ausm_dR. replace (0 / cl) with 0 by (unfold Rdiv; ring). replace (0 / cr) with 0 by (unfold Rdiv; ring). replace (- 0 / cl) with 0 by (unfold Rdiv; ring). replace (- 0 / cr) with 0 by (unfold Rdiv; ring). rewrite Rabs_R0.
  destruct (Rleb_spec 0 1); [|lra]. cbv zeta. set (z := 1/4 * (0 + 1) * (0 + 1) + - (1/4) * (0 - 1) * (0 - 1)). assert (Z0 : z = 0) by (unfold z; lra). clearbody z. subst z. rewrite Rabs_R0. destruct (Rleb_spec 0 0); [|lra].
  cbn [dfdl dfdr]. rewrite !mget_mkmat. cbv beta iota. rewrite !cget_mkst. unfold ausm_dmn. cbn [cget s1 vneg vx vy]. split; field; lra.
Qed.
Lemma sound_pos' ga u : 1 < ga -> physical ga u -> 0 < sound ga u.
Proof. apply sound_pos. Qed.
(** ** Viscous part *)
Lemma centre_dist_sym a b : centre_dist b a = centre_dist a b.
Proof. unfold centre_dist, vsub. cbv zeta. cbn. f_equal. ring. Qed.
Lemma centre_dir_sym a b : centre_dir b a = vneg (centre_dir a b).
Proof. unfold centre_dir. rewrite centre_dist_sym. unfold vneg, vsub. cbn. f_equal; unfold Rdiv; ring. Qed.
Lemma thin_layer_mirror rl rr ul ur dul dur :
  let '(g, dl, dr) := getFaceGradientAndJacobian_thinLayer rl rr ul ur dul dur in getFaceGradientAndJacobian_thinLayer rr rl ur ul dur dul = (g, dr, dl).
Proof.
  unfold getFaceGradientAndJacobian_thinLayer. rewrite (centre_dist_sym rl rr), (centre_dir_sym rl rr). cbv zeta. cbn [vneg vx vy].
  f_equal; [f_equal|]; f_equal; try (apply st_ext; intros k; rewrite !cget_mkst; unfold Rdiv; ring); apply mget_eq; intros i k; rewrite !mget_mkmat; unfold Rdiv; ring.
Qed.
Lemma visc_mirror G cst n rl rr ul ur di dj :
  let '(a, b) := compute_viscous_flux_jacobian G cst n rl rr ul ur di dj in compute_viscous_flux_jacobian G cst (vneg n) rr rl ur ul dj di = (b, a).
Proof.
  unfold compute_viscous_flux_jacobian. cbv zeta. pose proof (thin_layer_mirror rl rr (getPrimitive2FromConserved G ul) (getPrimitive2FromConserved G ur) (getJacobianPrimitive2WrtConserved G ul mat0) (getJacobianPrimitive2WrtConserved G ur mat0)) as E.
  destruct (getFaceGradientAndJacobian_thinLayer rl rr _ _ _ _) as [[gr dgl] dgr]. rewrite E. clear E.
  unfold computeViscousFluxJacobian. cbv zeta.
  assert (EV : face_viscosity G cst ur ul = face_viscosity G cst ul ur) by (unfold face_viscosity; destruct cst; ring). rewrite EV.
  unfold getJacobianStress. cbv zeta. cbn [vneg vx vy].
  rewrite (Rplus_comm (s1 ur / s0 ur)), (Rplus_comm (s2 ur / s0 ur)).
  f_equal; f_equal; apply st_ext; intros k; rewrite !cget_mkst; ring.
Qed.
