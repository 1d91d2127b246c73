(** Properties C76, C77, C89, C90: output. Vocabulary: S_Out.v. *)
From Coq Require Import Reals Lra List Arith Lia Permutation ZArith Bool.
From Verif Require Import Base BaseR BaseSum M_Gas M_Flux M_Mesh M_Geom S_Gas Pf_Gas P_Flux S_Mesh S_Geom Pf_Topo Pf_Full Pf_Incid ChkMesh Pf_Geom P_Geom
  M_Space S_Space Pf_Space M_Grad P_Grad M_Recon Pf_Grad S_Resid Pf_Resid P_Resid P_Ode3 M_Out S_Out Pf_Out.
Import ListNotations.
Open Scope R_scope.

(** ** C76: values at points *)
(** what postprocess_point relies on: every vertex of a cell is a point, no vertex is repeated, areas
    are positive and every point belongs to a cell *)
Definition point_mesh (m : umesh) (A : arr R) : Prop :=
  (forall c, In c (cells m) -> NoDup c /\ forall p, In p c -> (p < npoin m)%nat) /\ alen A = nelem m /\
  (forall i, (i < nelem m)%nat -> 0 < aat A i) /\ forall p, (p < npoin m)%nat -> cells_at m p <> [].

Lemma cells_at_lt m p i : In i (cells_at m p) -> (i < nelem m)%nat.
Proof. intros H. apply filter_In in H. destruct H as (H & _). apply in_seq in H. lia. Qed.
Lemma rsum_pos_ne f (l : list nat) : l <> [] -> (forall i, In i l -> 0 < f i) -> 0 < rsum f l.
Proof.
  destruct l as [|x l]; [congruence|]. intros _ H. cbn. assert (0 <= rsum f l) by (apply rsum_nonneg; intros; apply Rlt_le, H; right; auto). specialize (H x (or_introl eq_refl)). lra.
Qed.
Lemma area_at_pos m A p : point_mesh m A -> (p < npoin m)%nat -> 0 < rsum (fun i => aat A i) (cells_at m p).
Proof. intros (_ & _ & HA & HP) Hp. apply rsum_pos_ne; auto. intros i Hi. apply HA. eapply cells_at_lt; eauto. Qed.

(** positive multiples and averages of physical states are physical *)
Lemma physical_scal ga c u : 0 < c -> physical ga u -> physical ga (sscal c u).
Proof.
  intros Hc (R0 & P0). split; cbn. { apply Rmult_lt_0_compat; auto. }
  unfold pressure in *. cbn. replace ((ga - 1) * (c * s3 u - ((c * s1 u) * ((c * s1 u) * 1) + (c * s2 u) * ((c * s2 u) * 1)) / (2 * (c * s0 u)))) with (c * ((ga - 1) * (s3 u - ((s1 u)^2 + (s2 u)^2) / (2 * s0 u)))) by (field; lra).
  apply Rmult_lt_0_compat; auto.
Qed.
Lemma physical_sum ga (w : nat -> R) (u : nat -> st) l : 1 < ga -> l <> [] -> (forall i, In i l -> 0 < w i /\ physical ga (u i)) ->
  physical ga (mkst (fun v => rsum (fun i => cget (u i) v * w i) l)).
Proof.
  intros Hg NE H. induction l as [|x l IH]; [congruence|]. destruct (H x (or_introl eq_refl)) as (Hw & Hp).
  assert (E : mkst (fun v => rsum (fun i => cget (u i) v * w i) (x :: l)) = sadd (sscal (w x) (u x)) (mkst (fun v => rsum (fun i => cget (u i) v * w i) l))).
  { apply st_ext; intros v. destruct v; cbn; ring. }
  rewrite E. destruct l as [|y l].
  - replace (sadd (sscal (w x) (u x)) (mkst (fun v => rsum (fun i => cget (u i) v * w i) []))) with (sscal (w x) (u x)). apply physical_scal; auto. apply st_ext; intros v; destruct v; cbn; ring.
  - apply physical_add; auto. apply physical_scal; auto. apply IH. congruence. intros i Hi. apply H. right; auto.
Qed.
Lemma average_physical ga m A u p : 1 < ga -> point_mesh m A -> (p < npoin m)%nat -> (forall i, (i < nelem m)%nat -> physical ga (aat u i)) -> physical ga (average_state m A u p).
Proof.
  intros Hg PM Hp HU. pose proof (area_at_pos m A p PM Hp) as HA. pose proof PM as (_ & _ & HP & HN).
  replace (average_state m A u p) with (sscal (/ rsum (fun i => aat A i) (cells_at m p)) (mkst (fun v => rsum (fun i => cget (aat u i) v * aat A i) (cells_at m p)))).
  2:{ apply st_ext; intros v. unfold average_state, point_average, Rdiv. destruct v; cbn; ring. }
  apply physical_scal. apply Rinv_0_lt_compat; auto. apply (physical_sum ga (aat A) (aat u)); auto. intros i Hi. apply cells_at_lt in Hi. auto.
Qed.

Lemma quarter_row G x : physical (gam G) x -> let y := sscal (1/4) x in
  s0 y = s0 x / 4 /\ sqrt (dot2 (mkv (s1 y / s0 y) (s2 y / s0 y)) (mkv (s1 y / s0 y) (s2 y / s0 y))) / getSoundSpeedFromConserved G y = mach (gam G) x /\
  getPressureFromConserved G y = pressure (gam G) x / 4 /\ getTemperatureFromConserved G y = temperature (gam G) (Minf G) x /\ mkv (s1 y / s0 y) (s2 y / s0 y) = velocity x.
Proof.
  intros (R0 & P0) y. assert (Y0 : s0 y <> 0) by (unfold y; cbn; lra).
  assert (EP : getPressureFromConserved G y = pressure (gam G) x / 4). { rewrite pressure_code by auto. unfold y, pressure; cbn. field. lra. }
  split; [unfold y; cbn; field|]. split; [|split; [auto|split]].
  - unfold getSoundSpeedFromConserved, getSoundSpeed, mach, sound. rewrite EP. f_equal; f_equal.
    + unfold y, dot2, speed2; cbn. field. lra.
    + unfold y; cbn. field. lra.
  - unfold getTemperatureFromConserved, getTemperature, temperature. rewrite EP. unfold y; cbn. field. lra.
  - unfold y, velocity. apply v2_eq; cbn; field; lra.
Qed.

(** At every point, density and pressure are a quarter of those of the area-weighted average state
    of the surrounding cells; velocity, Mach number and temperature are those of the average. *)
Theorem C76_point_values : forall G m A (u : arr st) j, 1 < gam G -> point_mesh m A -> (nelem m <= alen u)%nat ->
  (forall i, (i < nelem m)%nat -> physical (gam G) (aat u i)) ->
  exists out, postprocess_point G m A u j = Some out /\ alen out = npoin m /\
  forall p, (p < npoin m)%nat -> let a := average_state m A u p in physical (gam G) a /\
    aat out p = mkprow (s0 a / 4) (mach (gam G) a) (pressure (gam G) a / 4) (temperature (gam G) (Minf G) a) (velocity a).
Proof.
  intros G m A u j Hg PM Lu HU. pose proof PM as (HC & LA & HA & HP). unfold postprocess_point.
  destruct (point_sums_ok m A u HC LA Lu) as (up & ar & E & L1 & L2 & P). rewrite E. cbn [bind fst snd].
  assert (AR : forall p, (p < npoin m)%nat -> aat ar p = 4 * rsum (fun i => aat A i) (cells_at m p)). { intros p Hp. rewrite (proj2 (P p Hp)). unfold asum. rewrite (at_sum m (fun i => aat A i)). reflexivity. }
  destruct (point_divide_ok m A u LA Lu up ar L1 L2) as (w & Ew & Lw & Pw). { intros p Hp. rewrite AR by auto. pose proof (area_at_pos m A p PM Hp). lra. }
  rewrite Ew. cbn [bind].
  match goal with |- context [floop _ ?bb ?ss] =>
    destruct (floop_inv _ (fun n (o : arr prow) => alen o = npoin m /\ forall p, (p < n)%nat -> aat o p = point_row G (aat w p)) (npoin m) bb ss) as (o & Eo & Lo & Po) end.
  - split; auto. intros; lia.
  - intros p o Hp (Lo & Po). rewrite aget_ok by lia. cbn [bind]. rewrite aset_ok by lia. eexists; split; [reflexivity|]. cbn. split; auto. intros q Hq. unfold upd. destruct (Nat.eqb_spec q p); subst; auto. apply Po. lia.
  - exists o. split; [exact Eo|]. split; [exact Lo|]. intros p Hp. cbv zeta. set (a := average_state m A u p). pose proof (average_physical (gam G) m A u p Hg PM Hp HU) as PH. fold a in PH. split; auto. rewrite Po by auto.
    assert (EQ : aat w p = sscal (1/4) a).
    { apply st_ext; intros v. rewrite Pw by auto. rewrite (proj1 (P p Hp)), AR by auto. unfold usum. rewrite (at_sum m (fun i => cget (aat u i) v * aat A i)).
      pose proof (area_at_pos m A p PM Hp). unfold a, average_state. rewrite cget_scal, cget_mkst. unfold point_average. field. lra. }
    rewrite EQ. destruct (quarter_row G a PH) as (Q1 & Q2 & Q3 & Q4 & Q5). unfold point_row. cbv zeta. rewrite Q2, Q3, Q4, Q5, Q1. reflexivity.
Qed.
Print Assumptions C76_point_values.

(** so a uniform flow is not reproduced: the densities and pressures at the points lie outside the
    range of those of the cells *)
Theorem C76_convex_refuted : forall G m A (c : st) j, 1 < gam G -> point_mesh m A -> physical (gam G) c -> (0 < npoin m)%nat ->
  exists out, postprocess_point G m A (mkarr (nelem m) (fun _ => c)) j = Some out /\
  forall p, (p < npoin m)%nat -> pr_rho (aat out p) = s0 c / 4 /\ pr_rho (aat out p) < s0 c /\ pr_p (aat out p) = pressure (gam G) c / 4 /\ pr_p (aat out p) < pressure (gam G) c.
Proof.
  intros G m A c j Hg PM PH Hn. destruct (C76_point_values G m A (mkarr (nelem m) (fun _ => c)) j Hg PM (Nat.le_refl _)) as (out & E & L & P); auto.
  exists out. split; auto. intros p Hp. destruct (P p Hp) as (_ & Q). rewrite Q. cbn [pr_rho pr_p].
  assert (EA : average_state m A (mkarr (nelem m) (fun _ => c)) p = c).
  { apply st_ext; intros v. unfold average_state. rewrite cget_mkst. unfold point_average. pose proof (area_at_pos m A p PM Hp). cbn [aat]. rewrite (rsum_scal (cget c v) (fun i => aat A i)). field. lra. }
  rewrite EA. destruct PH as (R0 & P0). split; auto. split; [lra|]. split; [auto|lra].
Qed.
Print Assumptions C76_convex_refuted.

(** cell values are those of the cells *)
Theorem C76_cell_values : forall G (ne : nat) (u : arr st) j, (ne <= alen u)%nat -> (forall i, (i < ne)%nat -> 0 < s0 (aat u i)) ->
  exists out, postprocess_cell G ne u j = Some out /\ alen out = ne /\
  forall i, (i < ne)%nat -> let x := aat u i in aat out i = (s0 x, mach (gam G) x, pressure (gam G) x, velocity x).
Proof.
  intros G ne u j Lu HU. unfold postprocess_cell.
  match goal with |- context [floop _ ?bb ?ss] =>
    destruct (floop_inv _ (fun n (o : arr (R * R * R * v2)) => alen o = ne /\ forall p, (p < n)%nat -> aat o p = cell_row G (aat u p)) ne bb ss) as (o & Eo & Lo & Po) end.
  - split; auto. intros; lia.
  - intros p o Hp (Lo & Po). rewrite aget_ok by lia. cbn [bind]. rewrite aset_ok by lia. eexists; split; [reflexivity|]. cbn [alen aat]. split; auto. intros q Hq. unfold upd. destruct (Nat.eqb_spec q p); subst; auto. apply Po. lia.
  - exists o. split; auto. split; auto. intros i Hi. rewrite Po by auto. specialize (HU i Hi). cbv zeta. set (x := aat u i) in *. unfold cell_row. cbv zeta.
    rewrite pressure_code by lra. unfold getSoundSpeedFromConserved, getSoundSpeed. rewrite pressure_code by lra. unfold mach, sound, velocity. cbn [vx vy].
    replace (s1 x / s0 x * (s1 x / s0 x) + s2 x / s0 x * (s2 x / s0 x)) with (speed2 x). reflexivity. unfold speed2. field. lra.
Qed.
Print Assumptions C76_cell_values.

(** The scalar version reads beyond the solution array for every mesh with more than one cell, when
    the array holds one value per cell (or any number of values up to four times the index of the last cell). *)
Theorem C76_scalar_undefined : forall m A (uarr : arr R), (0 < nelem m)%nat -> (alen uarr <= 4 * (nelem m - 1))%nat ->
  nth (nelem m - 1) (cells m) [] <> [] -> scalar_postprocess_point m A uarr = None.
Proof.
  intros m A uarr Hn Hl Hc. unfold scalar_postprocess_point.
  assert (Z : scalar_sums m A uarr = None).
  { unfold scalar_sums. set (i := (nelem m - 1)%nat) in *. replace (nelem m) with (Datatypes.S i) by (unfold i; lia). cbn [floop].
    match goal with |- bind ?x _ = None => destruct x as [(a & b)|]; [|reflexivity] end. cbn [bind].
    destruct (nth i (cells m) []) as [|p r]; [congruence|]. cbn [ofold]. destruct (aget a p); cbn [bind]; auto.
    unfold aget at 1. destruct (Nat.ltb_spec (i * 4 + 0) (alen uarr)); [lia|]. reflexivity. }
  rewrite Z. reflexivity.
Qed.
Print Assumptions C76_scalar_undefined.

(** the two-quadrilateral mesh meets the hypotheses *)
Definition bxA : arr R := mkarr 2 (fun i => match i with 0%nat => 1 | _ => 2 end).
Example C76_ex : point_mesh bx bxA /\ physical (7/5) exU /\ npoin bx = 6%nat /\ nth (nelem bx - 1) (cells bx) [] <> [].
Proof.
  split; [|split; [|split; [reflexivity|discriminate]]].
  - split; [|split; [reflexivity|split]].
    + intros c Hc. cbn in Hc. destruct Hc as [<-|[<-|[]]]; (split; [repeat constructor; cbn; intuition lia|cbn; intros; lia]).
    + intros i Hi. cbn in Hi. destruct i as [|[|i]]; cbn; try lra; lia.
    + intros p Hp. cbn in Hp. destruct p as [|[|[|[|[|[|p]]]]]]; try (cbn; discriminate). lia.
  - unfold physical, pressure, exU; cbn. lra.
Qed.

(** ** C77: forces on walls *)
(** what one process passes to computeSurfaceData *)
Record rank := mkrank { rk_S : smesh; rk_u : arr st; rk_g : arr grad }.
Definition rank_ok (G : gas) (r : rank) : Prop := exists m hs X ghost, built m hs X ghost (rk_S r) /\ distinct_ends m X /\
  (forall bf, In bf (bfaces m) -> btg bf <> []) /\ (sm_ne (rk_S r) <= alen (rk_u r))%nat /\ (sm_ne (rk_S r) <= alen (rk_g r))%nat /\
  forall i, (i < sm_ne (rk_S r))%nat -> physical (gam G) (aat (rk_u r) i).
(** the wall faces of all processes *)
Definition rank_walls (tag : Z) (r : rank) : list wface := walls (rk_S r) (rk_u r) (rk_g r) tag.
Definition all_walls (tag : Z) (rs : list rank) : list wface := flat_map (rank_walls tag) rs.
(** every process runs the loop on its faces and the sums are combined *)
Definition run_all (G : gas) (aoa : R) (tag : Z) (j : nat -> srow) (rs : list rank) (parts : list surf) : Prop :=
  Forall2 (fun r s => export_wall G (rk_S r) aoa (rk_u r) (rk_g r) tag j = Some s) rs parts.

Lemma tags_built m hs X ghost S : built m hs X ghost S -> (forall bf, In bf (bfaces m) -> btg bf <> []) -> tags_known S.
Proof.
  intros B HT k Hk. destruct (built_ok _ _ _ _ _ B) as (p & e & ni & s & il & TO & OK & E1 & E2 & _ & _ & _ & _ & _ & _ & _ & _ & _ & _ & _ & EB).
  rewrite E2 in Hk. destruct (nth_error (bfaces m) k) as [bf|] eqn:En. 2:{ apply nth_error_None in En. unfold nbface in Hk. lia. }
  unfold face_tag. rewrite EB, aget_ok by (rewrite (to_blen _ _ _ _ _ _ _ TO); auto). cbn [bind]. rewrite (to_btags _ _ _ _ _ _ _ TO k bf En).
  specialize (HT bf (nth_error_In _ _ En)). destruct (btg bf) as [|t r]; [congruence|]. exists t. reflexivity.
Qed.
Lemma rank_ranges G r : rank_ok G r -> tags_known (rk_S r) /\ sm_ok (rk_S r) /\ forall k, (k < sm_nb (rk_S r))%nat -> (k < alen (sm_F (rk_S r)))%nat /\ (k < alen (sm_M (rk_S r)))%nat /\ (f_left (aat (sm_F (rk_S r)) k) < alen (rk_u r))%nat /\ (f_left (aat (sm_F (rk_S r)) k) < alen (rk_g r))%nat /\
  (f_a (aat (sm_F (rk_S r)) k) < alen (sm_X (rk_S r)))%nat /\ (f_b (aat (sm_F (rk_S r)) k) < alen (sm_X (rk_S r)))%nat.
Proof.
  intros (m & hs & X & ghost & B & _ & HT & Lu & Lg & _). pose proof (built_sm _ _ _ _ _ B) as OK. split; [exact (tags_built _ _ _ _ _ B HT)|]. split; auto. intros k Hk.
  assert (K : (k < sm_nf_all (rk_S r))%nat) by (unfold sm_nf_all; lia). pose proof (so_left _ OK k K). pose proof (so_pts _ OK k K). rewrite (so_F _ OK), (so_M _ OK). lia.
Qed.
Lemma wall_in tag r w : In w (rank_walls tag r) -> exists k, (k < sm_nb (rk_S r))%nat /\ w = wf_at (rk_S r) (rk_u r) (rk_g r) k.
Proof. intros H. apply in_map_iff in H. destruct H as (k & <- & Hk). unfold marked, marked_upto in Hk. apply filter_In in Hk. destruct Hk as (Hk & _). apply in_seq in Hk. exists k. split; [lia|auto]. Qed.

Lemma rank_runs G aoa tag j r : rank_ok G r -> exists s, export_wall G (rk_S r) aoa (rk_u r) (rk_g r) tag j = Some s /\
  su_n s = length (marked (rk_S r) tag) /\ alen (su_out s) = length (marked (rk_S r) tag) /\
  (forall q, (q < length (marked (rk_S r) tag))%nat -> aat (su_out s) q = row_at G (rk_S r) (rk_u r) (rk_g r) (nth q (marked (rk_S r) tag) 0%nat)) /\
  su_cl s = rsum (dl_of G aoa) (rank_walls tag r) /\ su_dp s = rsum (dp_of G aoa) (rank_walls tag r) /\ su_df s = rsum (df_of G aoa) (rank_walls tag r) /\ su_ar s = wall_area (rank_walls tag r).
Proof.
  intros RO. destruct (rank_ranges G r RO) as (T & OK & RG). destruct RO as (m & hs & X & ghost & B & _ & _ & _ & _ & HU).
  unfold export_wall. rewrite count_ok by auto. cbn [bind].
  destruct (surface_local_ok G (rk_S r) aoa (rk_u r) (rk_g r) tag RG T (mkarr (length (marked (rk_S r) tag)) j)) as (s & E & E1 & E2 & E3 & _ & E4 & E5 & E6 & E7); auto.
  { intros k Hk. unfold marked, marked_upto in Hk. apply filter_In in Hk. destruct Hk as (Hk & _). apply in_seq in Hk. apply Rgt_not_eq. apply (HU (f_left (aat (sm_F (rk_S r)) k))). apply (so_left _ OK). unfold sm_nf_all. lia. }
  exists s. repeat (split; auto).
Qed.

Lemma all_run G aoa tag j rs : Forall (rank_ok G) rs -> exists parts, run_all G aoa tag j rs parts /\
  rsum su_cl parts = rsum (dl_of G aoa) (all_walls tag rs) /\ rsum su_dp parts = rsum (dp_of G aoa) (all_walls tag rs) /\
  rsum su_df parts = rsum (df_of G aoa) (all_walls tag rs) /\ rsum su_ar parts = wall_area (all_walls tag rs).
Proof.
  induction 1 as [|r rs RO _ IH]; [exists []; repeat split; try constructor|].
  destruct IH as (parts & H & I1 & I2 & I3 & I4). destruct (rank_runs G aoa tag j r RO) as (s & E & _ & _ & _ & E1 & E2 & E3 & E4).
  exists (s :: parts). split; [constructor; auto|]. unfold all_walls, wall_area. cbn [flat_map rsum]. rewrite !rsum_app. unfold all_walls, wall_area in *. rewrite I1, I2, I3, I4, E1, E2, E3, E4. auto.
Qed.
Lemma run_unique G aoa tag j rs p1 p2 : run_all G aoa tag j rs p1 -> run_all G aoa tag j rs p2 -> p1 = p2.
Proof. intros H. revert p2. induction H as [|r s rs p E _ IH]; intros p2 H2; inversion H2; subst; auto. f_equal; auto. congruence. Qed.

Lemma wall_pos G tag rs w : Forall (rank_ok G) rs -> In w (all_walls tag rs) -> 0 < wf_len w /\ physical (gam G) (wf_u w).
Proof.
  intros HR Hw. apply in_flat_map in Hw. destruct Hw as (r & Hr & Hw). rewrite Forall_forall in HR. specialize (HR r Hr). destruct HR as (m & hs & X & ghost & B & D & _ & _ & _ & HU).
  apply wall_in in Hw. destruct Hw as (k & Hk & ->). assert (K : (k < sm_nf_all (rk_S r))%nat) by (unfold sm_nf_all; lia). pose proof (built_sm _ _ _ _ _ B) as OK.
  unfold wf_at; cbn [wf_len wf_u]. split; [apply (face_unit _ _ _ _ _ B D k K)|apply HU; apply (so_left _ OK k K)].
Qed.
Lemma walls_area_pos G tag rs : Forall (rank_ok G) rs -> all_walls tag rs <> [] -> 0 < wall_area (all_walls tag rs).
Proof.
  intros HR NE. unfold wall_area. destruct (all_walls tag rs) as [|w l] eqn:E; [congruence|]. cbn.
  assert (0 <= rsum wf_len l) by (apply rsum_nonneg; intros x Hx; apply Rlt_le; apply (wall_pos G tag rs); auto; rewrite E; right; auto).
  assert (0 < wf_len w) by (apply (wall_pos G tag rs); auto; rewrite E; left; auto). lra.
Qed.

Lemma force_dot ga pinf l d : dot2 (pressure_force ga pinf l) d = rsum (fun f => dot2 (vscal (cp_of ga pinf (wf_u f) * wf_len f) (wf_n f)) d) l.
Proof. unfold pressure_force, vsum, dot2. cbn [vx vy]. rewrite <- !rsum_scal_r, <- rsum_plus. reflexivity. Qed.

(** sum over the faces of twice the shear traction on the wall times the length *)
Definition shear_force (G : gas) (l : list wface) : v2 := vsum (fun f => vscal (2 * wf_len f) (wall_shear (getViscosityCoeffFromConserved G (wf_u f)) (wf_u f) (wf_g f) (wf_n f))) l.

(** Lift and pressure drag are the components, across and along the wind, of the force of the excess
    pressure on the wall, over its area; the friction drag is minus the component of the force of
    the shear stress along the wind. Cp is the excess pressure over the dynamic pressure. All this is for
    the faces of all processes together. *)
Theorem C77_coefficients : forall G aoa tag j rs, Forall (rank_ok G) rs -> all_walls tag rs <> [] ->
  let W := all_walls tag rs in let F := pressure_force (gam G) (getFreestreamPressure G) W in
  exists parts cl cdp cdf, run_all G aoa tag j rs parts /\ surface_reduce parts = Some (cl, cdp, cdf) /\
    cl = dot2 F (lift_dir aoa) / wall_area W /\ cdp = dot2 F (wind_dir aoa) / wall_area W /\
    cl^2 + cdp^2 = dot2 F F / (wall_area W)^2 /\
    cdf = - dot2 (shear_force G W) (wind_dir aoa) / wall_area W.
Proof.
  intros G aoa tag j rs HR NE W F. destruct (all_run G aoa tag j rs HR) as (parts & HP & I1 & I2 & I3 & I4). pose proof (walls_area_pos G tag rs HR NE) as HA. fold W in I1, I2, I3, I4, HA.
  exists parts, (dot2 F (lift_dir aoa) / wall_area W), (dot2 F (wind_dir aoa) / wall_area W), (rsum (df_of G aoa) W / wall_area W).
  split; auto. split. { unfold surface_reduce. cbv zeta. rewrite I1, I2, I3, I4. unfold rdiv. destruct (Req_EM_T (wall_area W) 0); [lra|]. cbn [bind]. unfold F. rewrite !force_dot. reflexivity. }
  split; auto. split; auto. split.
  - unfold lift_dir, wind_dir, dot2; cbn [vx vy]. pose proof (sin2_cos2 aoa) as SC. unfold Rsqr in SC. set (s := sin aoa) in *. set (c := cos aoa) in *. set (x := vx F). set (y := vy F).
    transitivity ((x * x + y * y) * (s * s + c * c) / wall_area W ^ 2); [field; lra|rewrite SC; field; lra].
  - f_equal. unfold shear_force, vsum, dot2. cbn [vx vy]. rewrite <- !rsum_scal_r, <- rsum_plus, <- rsum_opp. apply rsum_ext. intros f _.
    unfold df_of, cf_of, wall_shear. cbv zeta. unfold vscal, dot2; cbn [vx vy]. ring.
Qed.
Print Assumptions C77_coefficients.

(** The results depend only on the wall faces, not on their order or on the processes that own them. *)
Theorem C77_distribution : forall G aoa tag j rs rs' parts parts', Forall (rank_ok G) rs -> Forall (rank_ok G) rs' ->
  Permutation (all_walls tag rs) (all_walls tag rs') -> run_all G aoa tag j rs parts -> run_all G aoa tag j rs' parts' ->
  surface_reduce parts = surface_reduce parts'.
Proof.
  intros G aoa tag j rs rs' parts parts' H H' P E E'. destruct (all_run G aoa tag j rs H) as (q & Q & I1 & I2 & I3 & I4). destruct (all_run G aoa tag j rs' H') as (q' & Q' & I1' & I2' & I3' & I4').
  rewrite (run_unique _ _ _ _ _ _ _ E Q), (run_unique _ _ _ _ _ _ _ E' Q'). unfold surface_reduce. cbv zeta. rewrite I1, I2, I3, I4, I1', I2', I3', I4'. unfold wall_area.
  rewrite (rsum_perm wf_len _ _ P), (rsum_perm (dp_of G aoa) _ _ P), (rsum_perm (df_of G aoa) _ _ P), (rsum_perm (dl_of G aoa) _ _ P). reflexivity.
Qed.
Print Assumptions C77_distribution.

(** No force at free-stream pressure. *)
Theorem C77_freestream_pressure : forall G aoa tag j rs parts, Forall (rank_ok G) rs -> all_walls tag rs <> [] ->
  (forall w, In w (all_walls tag rs) -> pressure (gam G) (wf_u w) = getFreestreamPressure G) -> run_all G aoa tag j rs parts ->
  exists cdf, surface_reduce parts = Some (0, 0, cdf).
Proof.
  intros G aoa tag j rs parts HR NE HP HRun. destruct (C77_coefficients G aoa tag j rs HR NE) as (q & cl & cdp & cdf & Q & E & E1 & E2 & _). rewrite (run_unique _ _ _ _ _ _ _ HRun Q). exists cdf. rewrite E.
  assert (Z : forall d, dot2 (pressure_force (gam G) (getFreestreamPressure G) (all_walls tag rs)) d = 0).
  { intros d. rewrite force_dot. apply rsum_zero. intros w Hw. unfold cp_of. rewrite (HP w Hw). unfold dot2, vscal; cbn. field. }
  rewrite Z in E1, E2. subst. unfold Rdiv. rewrite Rmult_0_l. reflexivity.
Qed.
Print Assumptions C77_freestream_pressure.

(** On closed walls a constant added to the pressure does not change lift and pressure drag. *)
Theorem C77_pressure_level : forall G aoa tag j rs rs' parts parts' c, Forall (rank_ok G) rs -> Forall (rank_ok G) rs' -> all_walls tag rs <> [] -> wall_closed (all_walls tag rs) ->
  Forall2 (fun w w' => wf_n w = wf_n w' /\ wf_len w = wf_len w' /\ pressure (gam G) (wf_u w') = pressure (gam G) (wf_u w) + c) (all_walls tag rs) (all_walls tag rs') ->
  run_all G aoa tag j rs parts -> run_all G aoa tag j rs' parts' ->
  exists cl cdp cdf cdf', surface_reduce parts = Some (cl, cdp, cdf) /\ surface_reduce parts' = Some (cl, cdp, cdf').
Proof.
  intros G aoa tag j rs rs' parts parts' c HR HR' NE CL F2 H1 H2.
  assert (NE' : all_walls tag rs' <> []) by (inversion F2; subst; congruence).
  destruct (C77_coefficients G aoa tag j rs HR NE) as (q & cl & cdp & cdf & Q & E & E1 & E2 & _). destruct (C77_coefficients G aoa tag j rs' HR' NE') as (q' & cl' & cdp' & cdf' & Q' & E' & E1' & E2' & _).
  rewrite (run_unique _ _ _ _ _ _ _ H1 Q), (run_unique _ _ _ _ _ _ _ H2 Q'). exists cl, cdp, cdf, cdf'. split; auto. rewrite E'.
  set (pinf := getFreestreamPressure G) in *.
  assert (K : forall l l', Forall2 (fun w w' => wf_n w = wf_n w' /\ wf_len w = wf_len w' /\ pressure (gam G) (wf_u w') = pressure (gam G) (wf_u w) + c) l l' ->
     wall_area l' = wall_area l /\ pressure_force (gam G) pinf l' = vadd (pressure_force (gam G) pinf l) (vscal (2 * c) (vsum (fun f => vscal (wf_len f) (wf_n f)) l))).
  { clear. induction 1 as [|w w' l l' (Hn & Hl & Hp) _ (IA & IF)].
    - split; [reflexivity|]. apply v2_eq; cbn; ring.
    - unfold wall_area in *. cbn [rsum]. rewrite IA, Hl. split; auto. unfold pressure_force in *.
      apply (f_equal vx) in IF as FX. apply (f_equal vy) in IF as FY. cbn [vsum vx vy vadd vscal] in FX, FY. apply v2_eq; cbn [vsum vx vy vadd vscal rsum]; [rewrite FX|rewrite FY]; unfold cp_of; rewrite Hp, <- Hn, <- Hl; cbn; field. }
  destruct (K _ _ F2) as (KA & KF). rewrite CL in KF. rewrite KA in E1', E2'.
  replace (vadd _ (vscal (2 * c) vzero)) with (pressure_force (gam G) pinf (all_walls tag rs)) in KF by (apply v2_eq; cbn; ring). rewrite KF in E1', E2'. subst. reflexivity.
Qed.
Print Assumptions C77_pressure_level.

(** A wall that is the whole boundary of the domain on one process is closed. *)
Theorem C77_closed : forall m hs X ghost S u g tag, built m hs X ghost S -> distinct_ends m X -> sm_nc S = 0%nat ->
  (forall bf, In bf (bfaces m) -> exists r, btg bf = tag :: r) -> wall_closed (walls S u g tag).
Proof.
  intros m hs X ghost S u g tag B D Hc HT. pose proof (built_sm _ _ _ _ _ B) as OK.
  assert (HM : marked S tag = seq 0 (sm_nb S)).
  { unfold marked, marked_upto. rewrite <- (map_id (seq 0 (sm_nb S))) at 2. assert (KK : forall l, (forall k, In k l -> (k < sm_nb S)%nat) -> filter (fun k => (tag_at S k =? tag)%Z) l = map (fun x => x) l).
    { induction l as [|k l IH]; intros Hl; cbn; auto. rewrite IH by (intros; apply Hl; right; auto).
      assert (T : tag_at S k = tag). { destruct (built_ok _ _ _ _ _ B) as (p & e & ni & s & il & TO & _ & E1 & E2 & _ & _ & _ & _ & _ & _ & _ & _ & _ & _ & _ & EB). specialize (Hl k (or_introl eq_refl)). rewrite E2 in Hl.
        destruct (nth_error (bfaces m) k) as [bf|] eqn:En. 2:{ apply nth_error_None in En. unfold nbface in Hl. lia. }
        unfold tag_at, face_tag. rewrite EB, aget_ok by (rewrite (to_blen _ _ _ _ _ _ _ TO); auto). cbn [bind]. rewrite (to_btags _ _ _ _ _ _ _ TO k bf En). destruct (HT bf (nth_error_In _ _ En)) as (r & ->). reflexivity. }
      rewrite T, Z.eqb_refl. reflexivity. }
    apply KK. intros k Hk. apply in_seq in Hk. lia. }
  unfold wall_closed, walls. rewrite HM.
  pose (f0 := fun k => mks (fm_len (aat (sm_M S) k) * vx (fm_n (aat (sm_M S) k))) (fm_len (aat (sm_M S) k) * vy (fm_n (aat (sm_M S) k))) 0 0).
  pose proof (built_closed _ _ _ _ _ B D) as CL.
  assert (OF : outer_faces S = seq 0 (sm_nb S)) by (unfold outer_faces; rewrite Hc; cbn; apply app_nil_r).
  assert (Q : forall v, rsum (fun k => cget (f0 k) v) (seq 0 (sm_nb S)) = 0).
  { intros v. rewrite <- OF, <- (outflow_total S f0 v OK). apply rsum_zero. intros i Hi. apply in_seq in Hi. specialize (CL i ltac:(lia)).
    assert (Z : forall w, match v with I0 => vx w | I1 => vy w | _ => 0 end = 0 -> True) by auto. clear Z.
    unfold outflow, all_faces.
    destruct v; try (apply rsum_zero; intros; cbn; destruct (_ =? _)%nat, (_ =? _)%nat; lra).
    - transitivity (vx (vsum (fun k => outward i (aat (sm_F S) k) (aat (sm_M S) k)) (seq 0 (sm_nf_all S)))); [|rewrite CL; reflexivity]. cbn [vsum vx]. apply rsum_ext. intros k Hk. apply in_seq in Hk.
      unfold outward, f0. pose proof (lr_ne S k OK ltac:(lia)). destruct (Nat.eqb_spec (f_left (aat (sm_F S) k)) i); destruct (Nat.eqb_spec (f_right (aat (sm_F S) k)) i); try congruence; cbn; ring.
    - transitivity (vy (vsum (fun k => outward i (aat (sm_F S) k) (aat (sm_M S) k)) (seq 0 (sm_nf_all S)))); [|rewrite CL; reflexivity]. cbn [vsum vy]. apply rsum_ext. intros k Hk. apply in_seq in Hk.
      unfold outward, f0. pose proof (lr_ne S k OK ltac:(lia)). destruct (Nat.eqb_spec (f_left (aat (sm_F S) k)) i); destruct (Nat.eqb_spec (f_right (aat (sm_F S) k)) i); try congruence; cbn; ring. }
  apply v2_eq; cbn [vsum vx vy vzero]; rewrite rsum_map; [exact (Q I0)|exact (Q I1)].
Qed.
Print Assumptions C77_closed.

(** A marker without faces: 0/0. *)
Theorem C77_no_faces : forall G aoa tag j rs parts, Forall (rank_ok G) rs -> all_walls tag rs = [] -> run_all G aoa tag j rs parts -> surface_reduce parts = None.
Proof.
  intros G aoa tag j rs parts HR NE H. destruct (all_run G aoa tag j rs HR) as (q & Q & I1 & I2 & I3 & I4). rewrite (run_unique _ _ _ _ _ _ _ H Q).
  unfold surface_reduce. cbv zeta. rewrite I4, NE. cbn. unfold rdiv. destruct (Req_EM_T 0 0); [reflexivity|congruence].
Qed.
Print Assumptions C77_no_faces.
