(** C104, what the numbers of a report are: lift, pressure drag and friction drag are the forces of C77 on the wall with the given marker, for the gradients
    the discretization computes from the final state, and the entropy error is the one of C90. *)
From Coq Require Import Reals Lra List ZArith Bool Arith Lia.
From Verif Require Import Base BaseR BaseSum M_Gas M_Flux M_Visc M_BC M_BCConf M_Mesh M_Geom M_Space M_Grad M_Recon S_Space S_Gas S_Mesh S_Geom M_Resid M_Out S_Out M_Ode
  Pf_Gas P_Gas Pf_Topo Pf_Incid Pf_Full Pf_Geom Pf_Space P_Geom Pf_Grad P_Resid Pf_Out P_Out P_Out2 M_Ctl M_Case M_Start P_Start P_MeshUtil P_Part P_Par P_Prep P_Renum P_Renum2 M_Dist P_Dist M_Report Pf_Report P_Report.
Import ListNotations.
Open Scope R_scope.

Lemma aset_len {T} (a a' : arr T) i x : aset a i x = Some a' -> alen a' = alen a.
Proof. unfold aset. destruct (_ <? _)%nat; [|discriminate]. intros E. injection E as <-. reflexivity. Qed.
Lemma add_all_len {T} plus (l : list (inc T)) : forall A A', add_all plus l A = Some A' -> alen A' = alen A.
Proof.
  induction l as [|p l IH]; intros A A' E; cbn in E; [injection E as <-; reflexivity|]. unfold add_all in *. cbn [ofold] in E. destruct (add_at plus A p) as [B|] eqn:Q; [|discriminate]. cbn [bind] in E.
  rewrite (IH B A' E). unfold add_at in Q. destruct (aget A (fst p)); [|discriminate]. cbn [bind] in Q. exact (aset_len _ _ _ _ Q).
Qed.
Lemma acc_len {T} plus lo hi (f : nat -> option (list (inc T))) A A' : acc_loop plus lo hi f A = Some A' -> alen A' = alen A.
Proof.
  unfold acc_loop, frange. intros E. apply (floop_keeps (fun _ (B : arr T) => alen B = alen A)) in E; auto. intros k t t' _ L Q. destruct (f _) as [l|]; [|discriminate]. cbn [bind] in Q. rewrite (add_all_len _ _ _ _ Q). exact L.
Qed.
Lemma grad_len S gs u ug G G' : compute_gradients S gs u ug G = Some G' -> alen G' = alen G.
Proof.
  assert (Z : forall G G', zero_grads S G = Some G' -> alen G' = alen G).
  { intros H H' E. unfold zero_grads in E. apply (floop_keeps (fun _ (B : arr grad) => alen B = alen H)) in E; auto. intros k t t' _ L Q. rewrite (aset_len _ _ _ _ Q). exact L. }
  destruct gs as [| |V]; cbn [compute_gradients]; intros E; [exact (Z _ _ E)| |].
  - unfold GreenGauss in E. destruct (zero_grads S G) as [G0|] eqn:E0; [|discriminate]. cbn [bind] in E. destruct (acc_loop gadd 0 _ _ G0) as [G1|] eqn:E1; [|discriminate]. cbn [bind] in E.
    destruct (acc_loop gadd (sm_nb S) _ _ G1) as [G2|] eqn:E2; [|discriminate]. cbn [bind] in E. apply acc_len in E, E1, E2. apply Z in E0. congruence.
  - unfold WLS_gradients in E. destruct (acc_loop gadd 0 _ _ _) as [f1|]; [|discriminate]. cbn [bind] in E. destruct (acc_loop gadd (sm_nb S) _ _ f1) as [f2|]; [|discriminate]. cbn [bind] in E. destruct (acc_loop gadd _ (sm_nf_all S) _ f2) as [f3|]; [|discriminate]. cbn [bind] in E.
    apply (floop_keeps (fun _ (B : arr grad) => alen B = alen G)) in E; auto. intros k t t' _ L Q. destruct (aget V k); [|discriminate]. cbn [bind] in Q. destruct (aget f3 k); [|discriminate]. cbn [bind] in Q. rewrite (aset_len _ _ _ _ Q). exact L.
Qed.

Lemma entropy_local_val G aoa n A u e : 1 < gam G -> 0 < Minf G -> (forall i, (i < n)%nat -> physical (gam G) (aat u i)) -> entropy_local G aoa n A u = Some e ->
  e = rsum (fun i => entropy_error G (aat u i) ^ 2 * aat A i) (seq 0 n).
Proof.
  intros Hg HM PU E. unfold entropy_local in E. cbv zeta in E. destruct (sinf_code G aoa Hg HM) as (SI & HS). rewrite SI in E.
  apply (floop_keeps (fun k (x : R) => x = rsum (fun i => entropy_error G (aat u i) ^ 2 * aat A i) (seq 0 k))) in E; auto.
  intros k t t' Hk -> Q. unfold aget in Q. destruct (k <? alen u)%nat; [|discriminate]. cbn [bind] in Q. destruct (k <? alen A)%nat; [|discriminate]. cbn [bind] in Q. injection Q as <-.
  replace (seq 0 (k + 1)) with (seq 0 k ++ [k]) by (rewrite Nat.add_1_r, seq_S; reflexivity). rewrite rsum_app. cbn [rsum]. rewrite Rplus_0_r. f_equal. unfold getEntropyFromConserved. rewrite pressure_code by (apply Rgt_not_eq, PU; auto). unfold entropy_error, entropy. cbn [pow]. ring.
Qed.

(** Whenever a case on one process reports something, there is a face with the marker, and this is what it reports. *)
Theorem C104_functionals : forall m hs X gh S sp aoa wall jg jG jo u p,
  built m hs X gh S -> distinct_ends m X -> (forall bf, In bf (bfaces m) -> btg bf <> []) -> 1 < gam (sp_gas sp) -> 0 < Minf (sp_gas sp) ->
  (forall i, (i < sm_ne S)%nat -> physical (gam (sp_gas sp)) (aat u i)) -> serial_report S sp aoa wall jg jG jo u = Some p ->
  exists f g, sp_flux sp = Some f /\ flow_getGradients S (sp_flow sp f) (sp_grad sp) jg u (mkarr (sm_ne S) jG) = Some g /\
  let W := walls S u g wall in let F := pressure_force (gam (sp_gas sp)) (getFreestreamPressure (sp_gas sp)) W in
  0 < wall_area W /\ rp_cl p = dot2 F (lift_dir aoa) / wall_area W /\ rp_cdp p = dot2 F (wind_dir aoa) / wall_area W /\ rp_cdf p = - dot2 (shear_force (sp_gas sp) W) (wind_dir aoa) / wall_area W /\
  rp_ent p = sqrt (rsum (fun i => entropy_error (sp_gas sp) (aat u i) ^ 2 * aat (sm_A S) i) (seq 0 (sm_ne S))) /\ rp_h p = 1 / Rpower (INR (sm_ne S)) (1 / 2).
Proof.
  intros m hs X gh S sp aoa wall jg jG jo u p B D HT Hg HM PU E. pose proof (built_sm _ _ _ _ _ B) as OK. pose proof (tags_built _ _ _ _ _ B HT) as TK.
  unfold serial_report, ranks_report, all_of in E. cbn [seq forallb] in E. destruct (entropy_local _ _ _ _ _) as [e|] eqn:Ee; cbn [andb bind] in E; [|discriminate].
  destruct (local_surface S _ _ _ _ _ _ _) as [s|] eqn:Es; cbn [andb bind] in E; [|discriminate]. unfold surface_reduce in E. cbn [map rsum] in E. change (0 <? 1)%nat with true in E. cbv iota zeta in E.
  unfold local_surface in Es. destruct (sp_flux sp) as [f|] eqn:Ef; [|discriminate]. cbn [bind] in Es. destruct (flow_getGradients S _ _ _ _ _) as [g|] eqn:Eg; [|discriminate]. cbn [bind] in Es. destruct (Nat.leb_spec (sm_ne S) (alen u)) as [LU|LU]; [|discriminate].
  exists f, g. split; [reflexivity|]. split; [exact Eg|].
  assert (Lg : alen g = sm_ne S). { unfold flow_getGradients in Eg. destruct (floop (sm_nb S) _ _) as [ug|]; [|discriminate]. cbn [bind] in Eg. apply grad_len in Eg. exact Eg. }
  set (v := mkarr (sm_ne S) (aat u)) in *. change (walls S u g wall) with (walls S v g wall).
  assert (RO : Forall (rank_ok (sp_gas sp)) [mkrank S v g]).
  { constructor; [|constructor]. exists m, hs, X, gh. cbn [rk_S rk_u rk_g]. split; [exact B|]. split; [exact D|]. split; [exact HT|]. split; [cbn; lia|]. split; [lia|]. exact PU. }
  destruct (rank_ranges _ _ (Forall_inv RO)) as (_ & _ & RG). cbn [rk_S rk_u rk_g] in RG.
  assert (Q : exists s', surface_local (sp_gas sp) S aoa v g wall (mkarr (sm_ne S) jo) = Some s' /\ su_cl s' = rsum (dl_of (sp_gas sp) aoa) (walls S v g wall) /\ su_dp s' = rsum (dp_of (sp_gas sp) aoa) (walls S v g wall) /\ su_df s' = rsum (df_of (sp_gas sp) aoa) (walls S v g wall) /\ su_ar s' = wall_area (walls S v g wall)).
  { destruct (surface_local_ok (sp_gas sp) S aoa v g wall RG TK (mkarr (sm_ne S) jo)) as (s' & E1 & _ & _ & _ & _ & E4 & E5 & E6 & E7); [exact (surface_fits _ _ _ _ _ _ _ _ TK Es)| |exists s'; auto].
    intros k Hk. unfold marked, marked_upto in Hk. apply filter_In in Hk. destruct Hk as (Hk & _). apply in_seq in Hk. apply Rgt_not_eq. apply (PU (f_left (aat (sm_F S) k))). apply (so_left _ OK). unfold sm_nf_all. lia. }
  destruct Q as (s' & E1 & Q1 & Q2 & Q3 & Q4). rewrite Es in E1. injection E1 as <-. rewrite Q1, Q2, Q3, Q4 in E. set (W := walls S v g wall) in *. rewrite !Rplus_0_r in E.
  assert (EW : all_walls wall [mkrank S v g] = W). { unfold all_walls, rank_walls. cbn [flat_map rk_S rk_u rk_g]. apply app_nil_r. }
  assert (HA : 0 < wall_area W).
  { rewrite <- EW. apply (walls_area_pos (sp_gas sp)); auto. rewrite EW. intros Z. rewrite Z in E. unfold rdiv, wall_area in E. cbn [rsum] in E. destruct (Req_EM_T 0 0); [discriminate|lra]. }
  unfold rdiv in E. destruct (Req_EM_T (wall_area W) 0); [lra|]. cbn [bind] in E. injection E as <-. cbn [rp_cl rp_cdp rp_cdf rp_ent rp_h]. cbv zeta.
  split; [exact HA|]. rewrite !force_dot. split; [reflexivity|]. split; [reflexivity|]. split.
  - f_equal. unfold shear_force, vsum, dot2. cbn [vx vy]. rewrite <- !rsum_scal_r, <- rsum_plus, <- rsum_opp. apply rsum_ext. intros w _. unfold df_of, cf_of, wall_shear. cbv zeta. unfold vscal, dot2; cbn [vx vy]. ring.
  - split; [|reflexivity]. unfold compute_entropy_cell. cbn [map rsum]. rewrite Rplus_0_r. f_equal. exact (entropy_local_val _ _ _ _ _ _ Hg HM PU Ee).
Qed.
Print Assumptions C104_functionals.

(** The ring of seven triangles of C104 meets the hypotheses, and its wall has one face. *)
Example C104_functionals_example : exists gh W spm u p, built ring ring_h ringX6 gh W /\ distinct_ends ring ringX6 /\ (forall bf, In bf (bfaces ring) -> btg bf <> []) /\ 1 < gam (sp_gas spm) /\ 0 < Minf (sp_gas spm) /\
  (forall i, (i < sm_ne W)%nat -> physical (gam (sp_gas spm)) (aat u i)) /\ serial_report W spm 0 1%Z (fun _ => szero) (fun _ => grad0) (fun _ => mksrow 0 0 0 0) u = Some p /\ wall_faces 1 ring = 1%nat.
Proof.
  destruct (C104_mesh_size_refuted (fun _ => 0%nat)) as (t & dist & lm & jc & jr & ji & jx & j0 & hsl & gh & S & gh0 & W & spm & spm' & u0 & u & T & Em & Fu & _ & H).
  destruct (H (fun _ => szero) (fun _ => grad0) (fun _ => mksrow 0 0 0 0) (fun _ _ => szero) (fun _ _ => grad0) (fun _ _ => mksrow 0 0 0 0)) as (p0 & _ & P & _).
  exists gh0, W, spm, u0, p0. destruct T as [(_ & _ & SR) BW _ _ _ _]. split; [exact BW|]. split; [exact (sr_distinct _ _ _ _ _ _ _ _ _ _ _ _ _ SR)|].
  destruct (make_for (fun _ => 0) ring ringX6 W ring_opts _ spm ltac:(cbn; lra) ltac:(cbn; lra) Em eq_refl eq_refl) as ((MG & MM & _) & _).
  split; [intros bf Hb; cbn in Hb; repeat destruct Hb as [<-|Hb]; try discriminate; destruct Hb|]. split; [rewrite MG; cbn; lra|]. split; [rewrite MM; cbn; lra|].
  split; [intros i Hi; apply (ring_physical W u0 spm i MG Fu Hi)|]. split; [exact P|reflexivity].
Qed.
