(** Rotational/reflectional invariance of the numerical fluxes; slip-wall fluxes. *)
From Coq Require Import Reals Lra Psatz Bool.
From Verif Require Import BaseR M_Gas M_Flux S_Gas Pf_Flux Pf_FluxCons Pf_HLLC.
Open Scope R_scope.

Lemma dot_rot q a b : orthogonal q -> dot2 (qv q a) (qv q b) = dot2 a b.
Proof.
  intros (H1 & H2 & H3). unfold dot2, qv; cbn [vx vy].
  replace ((qxx q * vx a + qxy q * vy a) * (qxx q * vx b + qxy q * vy b)
     + (qyx q * vx a + qyy q * vy a) * (qyx q * vx b + qyy q * vy b))
  with (((qxx q)^2 + (qyx q)^2) * (vx a * vx b) + ((qxy q)^2 + (qyy q)^2) * (vy a * vy b)
     + (qxx q * qxy q + qyx q * qyy q) * (vx a * vy b + vy a * vx b)) by ring.
  rewrite H1, H2, H3. ring.
Qed.

Lemma mom_rot q u : mom (qs q u) = qv q (mom u).
Proof. reflexivity. Qed.

Lemma vel_rot q u : mkv (s1 (qs q u) / s0 (qs q u)) (s2 (qs q u) / s0 (qs q u)) = qv q (mkv (s1 u / s0 u) (s2 u / s0 u)).
Proof. unfold qv, qs; apply v2_eq; cbn; unfold Rdiv; ring. Qed.

Lemma vars_rot G q u n : orthogonal q ->
  getVarsFromConserved G (qs q u) (qv q n) =
  let w := getVarsFromConserved G u n in mkvars (qv q (v_v w)) (v_vn w) (v_p w) (v_H w).
Proof.
  intros Hq. unfold getVarsFromConserved. cbv zeta. rewrite vel_rot, !dot_rot by auto.
  cbn [v_v v_vn v_p v_H]. reflexivity.
Qed.

Lemma s0_rot q u : s0 (qs q u) = s0 u. Proof. reflexivity. Qed.
Lemma s3_rot q u : s3 (qs q u) = s3 u. Proof. reflexivity. Qed.

Lemma dirflux_rot q u n vn p : getDirectionalFlux (qs q u) (qv q n) vn p = qs q (getDirectionalFlux u n vn p).
Proof. unfold getDirectionalFlux, qs, qv; apply st_eq; cbn; ring. Qed.

Lemma dfluxc_rot G q u n : orthogonal q ->
  getDirectionalFluxFromConserved G (qs q u) (qv q n) = qs q (getDirectionalFluxFromConserved G u n).
Proof.
  intros Hq. unfold getDirectionalFluxFromConserved. rewrite !mom_rot, !dot_rot by auto.
  rewrite s0_rot, s3_rot. apply dirflux_rot.
Qed.

Ltac rotfin := apply st_eq; cbn [mkst cget s0 s1 s2 s3 qs qv vx vy szero mom]; unfold Rdiv; ring.

Lemma llf_rot G q ul ur n : orthogonal q -> llf_flux G (qs q ul) (qs q ur) (qv q n) = qs q (llf_flux G ul ur n).
Proof.
  intros Hq. unfold llf_flux. rewrite !dfluxc_rot by auto.
  replace (llf_eig G (qs q ul) (qs q ur) (qv q n)) with (llf_eig G ul ur n).
  2:{ unfold llf_eig. rewrite !vars_rot by auto. cbv zeta. cbn [v_v v_vn v_p v_H]. rewrite !s0_rot. reflexivity. }
  set (e := llf_eig G ul ur n).
  set (fl := getDirectionalFluxFromConserved G ul n). set (fr := getDirectionalFluxFromConserved G ur n).
  rotfin.
Qed.

Lemma qs_szero q : qs q szero = szero.
Proof. rotfin. Qed.

Lemma vmags_rot q u : orthogonal q ->
  (s1 (qs q u) / s0 (qs q u))^2 + (s2 (qs q u) / s0 (qs q u))^2 = (s1 u / s0 u)^2 + (s2 u / s0 u)^2.
Proof.
  intros Hq. pose proof (dot_rot q (mkv (s1 u / s0 u) (s2 u / s0 u)) (mkv (s1 u / s0 u) (s2 u / s0 u)) Hq) as H.
  rewrite <- vel_rot in H. unfold dot2 in H; cbn [vx vy] in H. lra.
Qed.

Lemma vanleer_rot G q ul ur n : orthogonal q ->
  vanleer_flux G (qs q ul) (qs q ur) (qv q n) = qs q (vanleer_flux G ul ur n).
Proof.
  intros Hq. unfold vanleer_flux.
  assert (EP : vl_plus G (qs q ul) (qv q n) = qs q (vl_plus G ul n)).
  { unfold vl_plus. rewrite vars_rot by auto. cbv zeta. cbn [v_v v_vn v_p v_H].
    rewrite vmags_rot by auto. rewrite !s0_rot.
    set (w := getVarsFromConserved G ul n). set (c := getSoundSpeed G (s0 ul) (v_p w)).
    set (M := v_vn w / c).
    destruct (Rltb M (-1)); [rewrite qs_szero; auto|].
    destruct (Rltb 1 M); [apply dirflux_rot|].
    set (vm := (s1 ul / s0 ul)^2 + (s2 ul / s0 ul)^2). rotfin. }
  assert (EM : vl_minus G (qs q ur) (qv q n) = qs q (vl_minus G ur n)).
  { unfold vl_minus. rewrite vars_rot by auto. cbv zeta. cbn [v_v v_vn v_p v_H].
    rewrite vmags_rot by auto. rewrite !s0_rot.
    set (w := getVarsFromConserved G ur n). set (c := getSoundSpeed G (s0 ur) (v_p w)).
    set (M := v_vn w / c).
    destruct (Rltb 1 M); [rewrite qs_szero; auto|].
    destruct (Rltb M (-1)); [apply dirflux_rot|].
    set (vm := (s1 ur / s0 ur)^2 + (s2 ur / s0 ur)^2). rotfin. }
  rewrite EP, EM. unfold sadd. rotfin.
Qed.

Lemma ausm_rot G q ul ur n : orthogonal q ->
  ausm_flux G (qs q ul) (qs q ur) (qv q n) = qs q (ausm_flux G ul ur n).
Proof.
  intros Hq. unfold ausm_flux. rewrite !vars_rot by auto. cbv zeta. cbn [v_v v_vn v_p v_H].
  rewrite !s0_rot, !s3_rot.
  set (i := getVarsFromConserved G ul n). set (j := getVarsFromConserved G ur n).
  set (ci := getSoundSpeed G (s0 ul) (v_p i)). set (cj := getSoundSpeed G (s0 ur) (v_p j)).
  destruct (ausm_L (v_vn i / ci) (v_p i)) as [ML pL].
  destruct (ausm_R (v_vn j / cj) (v_p j)) as [MR pR]. cbn [fst snd].
  rotfin.
Qed.

Lemma ausmplus_rot G q ul ur n : orthogonal q ->
  ausmplus_flux G (qs q ul) (qs q ur) (qv q n) = qs q (ausmplus_flux G ul ur n).
Proof.
  intros Hq. unfold ausmplus_flux. rewrite !vars_rot by auto. cbv zeta. cbn [v_v v_vn v_p v_H].
  rewrite !dot_rot by auto. rewrite !s0_rot, !s3_rot.
  set (i := getVarsFromConserved G ul n). set (j := getVarsFromConserved G ur n).
  set (ch := ausmp_chalf _ _ _ _ _ _ _).
  destruct (ausmp_L (v_vn i / ch) (v_p i)) as [ML pL].
  destruct (ausmp_R (v_vn j / ch) (v_p j)) as [MR pR]. cbn [fst snd].
  rotfin.
Qed.

Lemma pair_roe_rot G q ul ur n : orthogonal q ->
  pair_roe G (qs q ul) (qs q ur) (qv q n) =
  let A := pair_roe G ul ur n in
  mkroe (a_R A) (a_rho A) (qv q (a_v A)) (a_vm2 A) (a_vn A) (a_H A) (a_c A).
Proof.
  intros Hq. unfold pair_roe. rewrite !vars_rot by auto. cbv zeta. cbn [v_v v_vn v_p v_H].
  unfold getRoeAverages. cbv zeta. rewrite !s0_rot.
  set (i := getVarsFromConserved G ul n). set (j := getVarsFromConserved G ur n).
  set (R' := sqrt (s0 ur / s0 ul)).
  replace (mkv ((R' * vx (qv q (v_v j)) + vx (qv q (v_v i))) / (R' + 1))
               ((R' * vy (qv q (v_v j)) + vy (qv q (v_v i))) / (R' + 1)))
     with (qv q (mkv ((R' * vx (v_v j) + vx (v_v i)) / (R' + 1)) ((R' * vy (v_v j) + vy (v_v i)) / (R' + 1))))
     by (unfold qv; apply v2_eq; cbn [vx vy]; unfold Rdiv; ring).
  rewrite !dot_rot by auto. cbn [a_R a_rho a_v a_vm2 a_vn a_H a_c]. reflexivity.
Qed.

Lemma roe_rot G q ul ur n : orthogonal q ->
  roe_flux G (qs q ul) (qs q ur) (qv q n) = qs q (roe_flux G ul ur n).
Proof.
  intros Hq. rewrite !roe_flux_pair. rewrite pair_roe_rot, !vars_rot by auto. cbv zeta.
  cbn [v_v v_vn v_p v_H a_R a_rho a_v a_vm2 a_vn a_H a_c]. rewrite !dirflux_rot.
  set (A := pair_roe G ul ur n). set (i := getVarsFromConserved G ul n). set (j := getVarsFromConserved G ur n).
  set (l0 := harten _ (Rabs (a_vn A - a_c A))). set (l1 := harten _ (Rabs (a_vn A))).
  set (l3 := harten _ (Rabs (a_vn A + a_c A))).
  assert (E : roe_adu (mkroe (a_R A) (a_rho A) (qv q (a_v A)) (a_vm2 A) (a_vn A) (a_H A) (a_c A)) (qv q n)
     (mkvars (qv q (v_v i)) (v_vn i) (v_p i) (v_H i)) (mkvars (qv q (v_v j)) (v_vn j) (v_p j) (v_H j))
     (qs q ul) (qs q ur) l0 l1 l3 = qs q (roe_adu A n i j ul ur l0 l1 l3)).
  { unfold roe_adu. cbn [v_v v_vn v_p v_H a_R a_rho a_v a_vm2 a_vn a_H a_c]. rewrite !s0_rot.
    replace (vx (qv q (a_v A)) * (vx (qv q (v_v j)) - vx (qv q (v_v i))) + vy (qv q (a_v A)) * (vy (qv q (v_v j)) - vy (qv q (v_v i))))
      with (dot2 (qv q (a_v A)) (qv q (vsub (v_v j) (v_v i)))) by (unfold dot2, qv, vsub; cbn [vx vy]; ring).
    rewrite dot_rot by auto. unfold dot2, vsub; cbn [vx vy]. rotfin. }
  rewrite E.
  set (fi := getDirectionalFlux ul n _ _). set (fj := getDirectionalFlux ur n _ _).
  set (ad := roe_adu A n i j ul ur l0 l1 l3). rotfin.
Qed.

Lemma hll_speeds_rot G q ul ur n : orthogonal q -> hll_speeds G (qs q ul) (qs q ur) (qv q n) = hll_speeds G ul ur n.
Proof.
  intros Hq. rewrite !hll_speeds_pair. rewrite pair_roe_rot, !vars_rot by auto. cbv zeta.
  cbn [v_v v_vn v_p v_H a_R a_rho a_v a_vm2 a_vn a_H a_c]. rewrite !s0_rot. reflexivity.
Qed.

Lemma hll_rot G q ul ur n : orthogonal q ->
  hll_flux G (qs q ul) (qs q ur) (qv q n) = qs q (hll_flux G ul ur n).
Proof.
  intros Hq. unfold hll_flux. rewrite hll_speeds_rot, !vars_rot by auto.
  destruct (hll_speeds G ul ur n) as [sl sr]. cbv zeta. cbn [v_v v_vn v_p v_H].
  set (t := hll_coeffs sl sr). rewrite !s0_rot, !s3_rot.
  set (i := getVarsFromConserved G ul n). set (j := getVarsFromConserved G ur n). rotfin.
Qed.

Lemma star_rot q u n vn p ss sm : getStarState (qs q u) (qv q n) vn p ss sm = qs q (getStarState u n vn p ss sm).
Proof. unfold getStarState. rotfin. Qed.

Lemma hllc_rot G q ul ur n : orthogonal q ->
  hllc_flux G (qs q ul) (qs q ur) (qv q n) = qs q (hllc_flux G ul ur n).
Proof.
  intros Hq. unfold hllc_flux. rewrite hll_speeds_rot, !vars_rot by auto.
  destruct (hll_speeds G ul ur n) as [sl sr]. cbv zeta. cbn [v_v v_vn v_p v_H].
  unfold hllc_sm. rewrite !s0_rot.
  set (i := getVarsFromConserved G ul n). set (j := getVarsFromConserved G ur n).
  set (sm := _ / _). rewrite !dirflux_rot, !star_rot.
  destruct (Rltb 0 sl); [reflexivity|].
  destruct (Rleb sl 0 && Rltb 0 sm)%bool.
  { set (f := getDirectionalFlux _ _ _ _). set (us := getStarState _ _ _ _ _ _). rotfin. }
  destruct (Rleb sm 0 && Rleb 0 sr)%bool; [|reflexivity].
  set (f := getDirectionalFlux _ _ _ _). set (us := getStarState _ _ _ _ _ _). rotfin.
Qed.

Lemma flux_rot f G q ul ur n : orthogonal q ->
  get_flux f G (qs q ul) (qs q ur) (qv q n) = qs q (get_flux f G ul ur n).
Proof.
  intros Hq. destruct f; cbn [get_flux];
  [apply llf_rot|apply vanleer_rot|apply ausm_rot|apply ausmplus_rot|apply roe_rot|apply hll_rot|apply hllc_rot]; auto.
Qed.

Lemma flux_consistent f G u n : 1 < gam G -> physical (gam G) u -> unit_vec n ->
  get_flux f G u u n = euler_flux (gam G) u n.
Proof.
  intros. destruct f; cbn [get_flux];
  [apply llf_consistent|apply vanleer_consistent|apply ausm_consistent|apply ausmplus_consistent
  |apply roe_consistent|apply hll_consistent|apply hllc_consistent]; auto.
Qed.

Lemma flux_antisym f G ul ur n : 1 < gam G -> (f = HLLC -> 5/4 <= gam G) ->
  physical (gam G) ul -> physical (gam G) ur -> unit_vec n ->
  get_flux f G ur ul (vneg n) = sneg (get_flux f G ul ur n).
Proof.
  intros Hg H5 Hl Hr Hn. destruct f; cbn [get_flux];
  [apply llf_antisym|apply vanleer_antisym|apply ausm_antisym|apply ausmplus_antisym
  |apply roe_antisym|apply hll_antisym|apply hllc_antisym]; auto.
Qed.
