(** Properties C53-C55: gradient schemes. Vocabulary: S_Space.v, S_Visc.v [linear_field],
    S_Geom.v [cross]; executions: M_Conc.v. [built m hs X ghost S] (Pf_Space.v) says that [S] is what
    mesh preprocessing and the constructor of Spatial produce on a valid mesh. *)
From Coq Require Import Reals Lra List Arith Lia Permutation ZArith Bool.
From Verif Require Import Base BaseR BaseSum M_Gas M_Mesh M_Geom S_Mesh S_Geom S_Visc Pf_Topo Pf_Incid Pf_Full Pf_Geom P_Geom ChkMesh
  M_Space S_Space Pf_Space M_Grad Pf_Grad M_Conc Pf_Conc.
Import ListNotations.
Open Scope R_scope.

(** ** The set-up *)
(** For every valid mesh the set-up succeeds (no access out of bounds). *)
Theorem C86_setup_total : forall m hs X ghost j0 jf je jt jm ja jc jb, tiled m hs ->
  (forall c, In c (cells m) -> (length c = 3 \/ length c = 4)%nat) -> alen X = npoin m ->
  exists S, setup m X ghost j0 jf je jt jm ja jc jb = Some (Val S) /\ built m hs X ghost S.
Proof.
  intros m hs X ghost j0 jf je jt jm ja jc jb T H34 LX.
  destruct (setup_ok m hs X ghost j0 jf je jt jm ja jc jb T H34 LX) as (p & e & ni & s & il & S & _ & _ & E & _).
  exists S. split; auto. split; [exact T|split; [exact H34|split; [exact LX|]]]. exists j0, jf, je, jt, jm, ja, jc, jb. exact E.
Qed.
Print Assumptions C86_setup_total.

(** Face centres are midpoints and each physical boundary ghost centre is the point reflection of the
    adjacent cell's centre in the face centre. *)
Theorem C86_ghost_centres : forall m hs X ghost S, built m hs X ghost S ->
  (forall k, (k < sm_nf_all S)%nat -> vscal 2 (aat (sm_gr S) k) = vadd (aat X (f_a (aat (sm_F S) k))) (aat X (f_b (aat (sm_F S) k)))) /\
  (forall k, (k < sm_nb S)%nat -> vscal 2 (aat (sm_gr S) k) = vadd (aat (sm_rc S) (f_left (aat (sm_F S) k))) (aat (sm_rcbp S) k)).
Proof.
  intros m hs X ghost S B. pose proof (built_sm _ _ _ _ _ B) as OK.
  destruct (built_ok _ _ _ _ _ B) as (p & e & ni & s & il & _ & _ & _ & _ & _ & _ & _ & EX & _). split; intros k Hk.
  - rewrite (so_mid _ OK k Hk), EX. apply v2_eq; cbn; field.
  - rewrite (so_bp _ OK k Hk). apply v2_eq; cbn; ring.
Qed.
Print Assumptions C86_ghost_centres.

(** an instance: the example mesh of P_Geom.v *)
Definition exg : nat -> v2 := fun _ => mkv (-1/2) (1/2).
Lemma ex_built : exists S, built exo exh exX exg S.
Proof.
  destruct (C86_setup_total exo exh exX exg (fun _ _ => 0%Z) (fun _ => mkface 0 0 0 0) (fun _ _ => 0%nat) (fun _ => []) (fun _ => mkfm vzero 0) (fun _ => 0) (fun _ => vzero) (fun _ => vzero)) as (S & _ & B); eauto.
  exact exo_tiled. intros c Hc. cbn in Hc. destruct Hc as [<-|[<-|[<-|[]]]]; cbn; auto.
Qed.
Example C86_ex : tiled exo exh /\ (forall c, In c (cells exo) -> (length c = 3 \/ length c = 4)%nat) /\ alen exX = npoin exo.
Proof. split; [exact exo_tiled|]. split; [|reflexivity]. intros c Hc. cbn in Hc. destruct Hc as [<-|[<-|[<-|[]]]]; cbn; auto. Qed.
(** its boundary faces 1 = (1,4) and 2 = (4,5), both of cell 2, and their ghost centres *)
Lemma ex_faces S : built exo exh exX exg S ->
  sm_ne S = 3%nat /\ sm_nb S = 5%nat /\ sm_nc S = 1%nat /\
  aat (sm_F S) 1%nat = mkface 2 5 1 4 /\ aat (sm_F S) 2%nat = mkface 2 6 4 5 /\ aat (sm_F S) 3%nat = mkface 2 7 5 2 /\
  aat (sm_rc S) 2%nat = mkv (3/2) (1/2) /\ aat (sm_A S) 2%nat = 1 /\
  aat (sm_rcbp S) 1%nat = mkv (3/2) (-1/2) /\ aat (sm_rcbp S) 2%nat = mkv (5/2) (1/2).
Proof.
  intros B. pose proof (built_sm _ _ _ _ _ B) as OK.
  destruct (built_ok _ _ _ _ _ B) as (p & e & ni & s & il & TO & _ & E1 & E2 & E3 & E4 & E5 & E6 & IA & IC & _).
  pose proof (to_ranges _ _ _ _ _ _ _ TO) as (bl & cl & EF & Lb & Lc & Hbl & _).
  assert (HF : forall q bf h, nth_error (bfaces exo) q = Some bf -> nth_error exh q = Some h -> aat (sm_F S) q = mkface (fst h) (4 + q) (b0 bf) (b1 bf)).
  { intros q bf h Eb Eh. pose proof (Hbl q bf h Eb Eh) as Q. assert (q < length (bfaces exo))%nat by (apply nth_error_Some; congruence).
    assert (Q2 : nth_error (bl ++ il ++ cl) q = Some (Pf_Faces.bface_entry exo q bf h)) by (rewrite nth_error_app1; auto; rewrite Lb; auto).
    rewrite <- EF in Q2. rewrite nth_alist in Q2. 2:{ rewrite (to_len _ _ _ _ _ _ _ TO). change (nbface exo) with (length (bfaces exo)). lia. }
    rewrite E5. injection Q2. intros ->. reflexivity. }
  assert (F1 : aat (sm_F S) 1%nat = mkface 2 5 1 4) by (apply (HF 1%nat (mkbf 1 4 [2%Z]) (2%nat, 0%nat)); reflexivity).
  assert (F2 : aat (sm_F S) 2%nat = mkface 2 6 4 5) by (apply (HF 2%nat (mkbf 4 5 [2%Z]) (2%nat, 1%nat)); reflexivity).
  assert (F3 : aat (sm_F S) 3%nat = mkface 2 7 5 2) by (apply (HF 3%nat (mkbf 5 2 [3%Z]) (2%nat, 2%nat)); reflexivity).
  assert (RC : aat (sm_rc S) 2%nat = mkv (3/2) (1/2)) by (rewrite IC by (cbn; lia); apply v2_eq; cbn; field).
  assert (NF : (5 <= sm_nf_all S)%nat) by (unfold sm_nf_all; rewrite E2; cbn; lia).
  split; [rewrite E1; reflexivity|]. split; [rewrite E2; reflexivity|]. split; [rewrite E4; reflexivity|]. split; auto. split; auto. split; auto. split; auto. split.
  - rewrite IA by (cbn; lia). unfold polygon_area, cross; cbn. field.
  - split.
    + rewrite (so_bp _ OK) by (rewrite E2; cbn; lia). rewrite (so_mid _ OK) by lia. rewrite F1, E6. cbn [f_left f_a f_b]. rewrite RC. apply v2_eq; cbn; field.
    + rewrite (so_bp _ OK) by (rewrite E2; cbn; lia). rewrite (so_mid _ OK) by lia. rewrite F2, E6. cbn [f_left f_a f_b]. rewrite RC. apply v2_eq; cbn; field.
Qed.

(** ** C53 *)
Theorem C53_wls_exact : forall m hs X ghost S, built m hs X ghost S ->
  exists V, WLS_ctor S = Some V /\
  forall (u ug : arr st) (G : arr grad) c ga gb,
    alen u = (sm_ne S + sm_nc S)%nat -> alen ug = sm_nb S -> (sm_ne S <= alen G)%nat ->
    (forall j, (j < sm_ne S + sm_nc S)%nat -> aat u j = linear_field c ga gb (aat (sm_rc S) j)) ->
    (forall k, (k < sm_nb S)%nat -> aat ug k = linear_field c ga gb (aat (sm_rcbp S) k)) ->
    exists G', WLS_gradients S V u ug G = Some G' /\
    forall i, (i < sm_ne S)%nat ->
      let nbr := beyond S (aat (sm_rc S)) (aat (sm_rcbp S)) i in
      (forall k, bounds S i k -> nbr k <> aat (sm_rc S) i) ->
      (exists k l, bounds S i k /\ bounds S i l /\ cross (vsub (nbr k) (aat (sm_rc S) i)) (vsub (nbr l) (aat (sm_rc S) i)) <> 0) ->
      aat G' i = mkgrad ga gb.
Proof.
  intros m hs X ghost S B. pose proof (built_sm _ _ _ _ _ B) as OK.
  destruct (wls_ctor_ok S OK) as (V & EV & LV & IV). exists V. split; auto.
  intros u ug G c ga gb Lu Lg LG Hu Hg.
  destruct (wls_grad_ok S OK u ug Lu Lg V G LV LG) as (G' & EG & _ & IG & _). exists G'. split; auto.
  intros i Hi nbr Hne Hsp. rewrite IG, IV by auto.
  assert (D : forall k, bounds S i k -> (dk S k = vsub (nbr k) (aat (sm_rc S) i) \/ dk S k = vneg (vsub (nbr k) (aat (sm_rc S) i))) /\ (cL S k = nbr k /\ cR S k = aat (sm_rc S) i \/ cR S k = nbr k /\ cL S k = aat (sm_rc S) i)).
  { intros k (Hk & Hb). subst nbr. unfold dk, cL, cR, beyond, left_value.
    destruct (Nat.eqb_spec (f_left (aat (sm_F S) k)) i) as [E|E].
    - rewrite E. split; auto. right. apply v2_eq; cbn; ring.
    - destruct Hb as [Hb|Hb]; [congruence|].
      assert (HR : right_value S (aat (sm_rc S)) (aat (sm_rcbp S)) k = aat (sm_rc S) i).
      { unfold right_value. destruct (Nat.ltb_spec k (sm_nb S)); [pose proof (so_phy _ OK k ltac:(auto)); lia|]. rewrite Hb. reflexivity. }
      rewrite HR. split; auto. }
  apply (wls_linear S OK u ug Lu Lg i c ga gb Hu Hg). apply (det_pos S u ug Lu Lg i).
  - intros k Bk. destruct (D k Bk) as (_ & [(-> & ->)|(-> & ->)]); [|apply not_eq_sym]; auto.
  - destruct Hsp as (k & l & Bk & Bl & Hx). exists k, l. split; auto. split; auto. intros Z. apply Hx.
    destruct (D k Bk) as ([K|K] & _), (D l Bl) as ([L|L] & _); rewrite K, L in Z; unfold cross in *; cbn in *; lra.
Qed.
Print Assumptions C53_wls_exact.
Example C53_ex : exists S, built exo exh exX exg S /\ (2 < sm_ne S)%nat /\
  let nbr := beyond S (aat (sm_rc S)) (aat (sm_rcbp S)) 2%nat in
  bounds S 2 1 /\ bounds S 2 2 /\ cross (vsub (nbr 1%nat) (aat (sm_rc S) 2%nat)) (vsub (nbr 2%nat) (aat (sm_rc S) 2%nat)) <> 0.
Proof.
  destruct ex_built as (S & B). exists S. split; auto. destruct (ex_faces S B) as (E1 & E2 & E3 & F1 & F2 & _ & RC & _ & G1 & G2).
  split; [lia|]. cbv zeta. unfold bounds, beyond, right_value, sm_nf_all. rewrite F1, F2, E2, RC. cbn [f_left f_right]. change (2 =? 2)%nat with true. change (1 <? 5)%nat with true. change (2 <? 5)%nat with true. cbn iota.
  rewrite G1, G2. split; [split; [lia|auto]|]. split; [split; [lia|auto]|]. unfold cross; cbn. lra.
Qed.

(** ** C54 *)
(** what the Green-Gauss scheme computes: area-weighted sum of the distance-weighted face values *)
Theorem C54_formula : forall m hs X ghost S, built m hs X ghost S ->
  forall (u ug : arr st) (G : arr grad), alen u = (sm_ne S + sm_nc S)%nat -> alen ug = sm_nb S -> (sm_ne S <= alen G)%nat ->
  exists G', GreenGauss S u ug G = Some G' /\
  forall i, (i < sm_ne S)%nat -> forall d v, gsel d v (aat G' i) =
    1 / aat (sm_A S) i * rsum (fun k =>
      let wl := / dist2 (left_value S (aat (sm_rc S)) k) (aat (sm_gr S) k) in
      let wr := / dist2 (right_value S (aat (sm_rc S)) (aat (sm_rcbp S)) k) (aat (sm_gr S) k) in
      (cget (left_value S (aat u) k) v * wl + cget (right_value S (aat u) (aat ug) k) v * wr) / (wl + wr) * dget (area_vector S i k) d)
    (seq 0 (sm_nf_all S)).
Proof.
  intros m hs X ghost S B u ug G Lu Lg LG. pose proof (built_sm _ _ _ _ _ B) as OK.
  destruct (gg_formula S u ug OK Lu Lg G LG) as (G' & E & _ & I). exists G'. split; auto. intros i Hi d v. rewrite I by auto. f_equal.
  apply rsum_ext. intros k _. cbv zeta. unfold left_value, mid_at, cR_at, uR_at.
  assert (Q : forall a b, inv_dist a b = / dist2 b a).
  { intros a b. unfold inv_dist, dist2. unfold Rdiv. rewrite Rmult_1_l. f_equal. f_equal. ring. }
  rewrite !Q. reflexivity.
Qed.
Print Assumptions C54_formula.

Theorem C54_constant : forall m hs X ghost S, built m hs X ghost S -> distinct_ends m X ->
  (forall k, (k < sm_nf_all S)%nat -> left_value S (aat (sm_rc S)) k <> aat (sm_gr S) k /\ right_value S (aat (sm_rc S)) (aat (sm_rcbp S)) k <> aat (sm_gr S) k) ->
  forall (u ug : arr st) (G : arr grad) c, alen u = (sm_ne S + sm_nc S)%nat -> alen ug = sm_nb S -> (sm_ne S <= alen G)%nat ->
  (forall j, (j < sm_ne S + sm_nc S)%nat -> aat u j = c) -> (forall k, (k < sm_nb S)%nat -> aat ug k = c) ->
  exists G', GreenGauss S u ug G = Some G' /\
  forall i, (i < sm_ne S)%nat -> 0 < aat (sm_A S) i -> aat G' i = mkgrad szero szero.
Proof.
  intros m hs X ghost S B DE DC u ug G c Lu Lg LG Hu Hg. pose proof (built_sm _ _ _ _ _ B) as OK.
  pose proof (built_closed _ _ _ _ _ B DE) as CL.
  destruct (gg_formula S u ug OK Lu Lg G LG) as (G' & E & _ & I). exists G'. split; auto. intros i Hi _.
  apply grad_ext. intros d v. rewrite I by auto.
  replace (gsel d v (mkgrad szero szero)) with 0 by (destruct d, v; reflexivity).
  transitivity (1 / aat (sm_A S) i * (cget c v * rsum (fun k => dget (area_vector S i k) d) (seq 0 (sm_nf_all S)))).
  - f_equal. rewrite <- rsum_scal. apply rsum_ext. intros k Hk. apply in_seq in Hk. cbv zeta. destruct (DC k ltac:(lia)) as (D1 & D2).
    pose proof (inv_dist_pos (mid_at S k) (aat (sm_rc S) (f_left (aat (sm_F S) k))) (not_eq_sym D1)) as P1.
    pose proof (inv_dist_pos (mid_at S k) (cR_at S k) (not_eq_sym D2)) as P2.
    set (w1 := inv_dist (mid_at S k) (aat (sm_rc S) (f_left (aat (sm_F S) k)))) in *. set (w2 := inv_dist (mid_at S k) (cR_at S k)) in *.
    rewrite Hu by (pose proof (so_left _ OK k ltac:(lia)); lia).
    replace (uR_at S u ug k) with c. 2:{ unfold uR_at, right_value. destruct (Nat.ltb_spec k (sm_nb S)); [rewrite Hg; auto|rewrite Hu; auto]. apply right_lt; auto. lia. }
    f_equal. field. lra.
  - pose proof (CL i Hi) as Z. assert (Z2 : rsum (fun k => dget (area_vector S i k) d) (seq 0 (sm_nf_all S)) = 0).
    { destruct d; [apply (f_equal vx) in Z|apply (f_equal vy) in Z]; cbn [vsum vx vy vzero] in Z; exact Z. }
    rewrite Z2. unfold Rdiv. ring.
Qed.
Print Assumptions C54_constant.
Example C54_ex : exists S, built exo exh exX exg S /\ distinct_ends exo exX /\ 0 < aat (sm_A S) 2%nat /\
  left_value S (aat (sm_rc S)) 1%nat <> aat (sm_gr S) 1%nat.
Proof.
  destruct ex_built as (S & B). exists S. split; auto. split; [exact exX_distinct|]. pose proof (built_sm _ _ _ _ _ B) as OK.
  destruct (built_ok _ _ _ _ _ B) as (_ & _ & _ & _ & _ & _ & _ & _ & _ & _ & _ & _ & EX & _).
  destruct (ex_faces S B) as (E1 & E2 & E3 & F1 & _ & _ & RC & AR & _). rewrite AR. split; [lra|].
  unfold left_value. rewrite (so_mid _ OK) by (unfold sm_nf_all; lia). rewrite F1. cbn [f_left f_a f_b]. rewrite RC, EX. cbn. intros Z. apply (f_equal vy) in Z. cbn in Z. lra.
Qed.

(** ** C55 *)
(** Every order of the atomic scalar updates of a face loop leaves the memory the serial loop leaves. *)
Theorem C55_atomic_order : forall (T : Type) (plus : T -> T -> T) (lay : layout T), (0 < width lay)%nat ->
  (forall j a b, comp lay j (plus a b) = comp lay j a + comp lay j b) ->
  forall lo hi body A A' L sched, (lo <= hi)%nat ->
  (forall k, (lo <= k < hi)%nat -> body k = Some (L k) /\ forall p, In p (L k) -> (fst p < alen A)%nat) ->
  acc_loop plus lo hi body A = Some A' ->
  Permutation sched (flat_map (fun k => flat_map (scalar_ups lay) (L k)) (seq lo (hi - lo))) ->
  forall a, run_atomic sched (flat lay A) a = flat lay A' a.
Proof. intros T plus lay Hw Ha lo hi body A A' L sched. apply atomic_any_order; auto. Qed.
Print Assumptions C55_atomic_order.

(** the scalar updates the iterations of a face loop perform, in program order *)
Definition loop_ups {T} (lay : layout T) (body : nat -> option (list (inc T))) (k : nat) : list (nat * R) :=
  match body k with Some l => flat_map (scalar_ups lay) l | None => [] end.

Lemma lay_grad_add j a b : comp lay_grad j (gadd a b) = comp lay_grad j a + comp lay_grad j b.
Proof. cbn [comp lay_grad]. destruct (_ =? _)%nat; destruct (ix_of _); reflexivity. Qed.
Definition lay_m2 : layout mat2 := mklay 4 (fun j a => match j with 0%nat => m11 a | 1%nat => m21 a | 2%nat => m12 a | _ => m22 a end).

Lemma loop_order {T} (plus : T -> T -> T) (lay : layout T) S lo hi body a b (A A' : arr T) sched : sm_ok S -> (0 < width lay)%nat ->
  (forall j, additive plus (comp lay j)) -> (lo <= hi <= sm_nf_all S)%nat -> (sm_ne S <= alen A)%nat ->
  (forall k, (lo <= k < hi)%nat -> body k = Some (two S a b k)) ->
  acc_loop plus lo hi body A = Some A' -> Permutation sched (flat_map (loop_ups lay body) (seq lo (hi - lo))) ->
  forall x, run_atomic sched (flat lay A) x = flat lay A' x.
Proof.
  intros OK Hw Ha Hlh LA Hb E P. apply (atomic_any_order plus lay Hw Ha lo hi body A A' (two S a b)); auto. lia.
  - intros k Hk. split; auto. intros p Hp. pose proof (two_in S a b k p OK ltac:(lia) Hp). lia.
  - rewrite P. replace (flat_map (loop_ups lay body) (seq lo (hi - lo))) with (flat_map (fun k => flat_map (scalar_ups lay) (two S a b k)) (seq lo (hi - lo))); auto.
    rewrite !flat_map_concat_map. f_equal. apply map_ext_in. intros k Hk. apply in_seq in Hk. unfold loop_ups. rewrite Hb by lia. reflexivity.
Qed.

(** the loops of the gradient schemes whose updates are atomic *)
Theorem C55_gradient_loops : forall m hs X ghost S, built m hs X ghost S ->
  forall (u ug : arr st), alen u = (sm_ne S + sm_nc S)%nat -> alen ug = sm_nb S ->
  (* Green-Gauss, subdomain faces *)
  (forall A A' sched, (sm_ne S <= alen A)%nat ->
     acc_loop gadd (sm_nb S) (sm_nb S + sm_ni S) (gg_interior S u) A = Some A' ->
     Permutation sched (flat_map (loop_ups lay_grad (gg_interior S u)) (seq (sm_nb S) (sm_ni S))) ->
     forall x, run_atomic sched (flat lay_grad A) x = flat lay_grad A' x) /\
  (* least squares, right-hand sides: boundary, subdomain, connectivity *)
  (forall A A' sched, (sm_ne S <= alen A)%nat ->
     acc_loop gadd 0 (sm_nb S) (wls_rhs_outer S u ug) A = Some A' ->
     Permutation sched (flat_map (loop_ups lay_grad (wls_rhs_outer S u ug)) (seq 0 (sm_nb S))) ->
     forall x, run_atomic sched (flat lay_grad A) x = flat lay_grad A' x) /\
  (forall A A' sched, (sm_ne S <= alen A)%nat ->
     acc_loop gadd (sm_nb S) (sm_nb S + sm_ni S) (wls_rhs_inner S u ug) A = Some A' ->
     Permutation sched (flat_map (loop_ups lay_grad (wls_rhs_inner S u ug)) (seq (sm_nb S) (sm_ni S))) ->
     forall x, run_atomic sched (flat lay_grad A) x = flat lay_grad A' x) /\
  (forall A A' sched, (sm_ne S <= alen A)%nat ->
     acc_loop gadd (sm_nb S + sm_ni S) (sm_nf_all S) (wls_rhs_outer S u ug) A = Some A' ->
     Permutation sched (flat_map (loop_ups lay_grad (wls_rhs_outer S u ug)) (seq (sm_nb S + sm_ni S) (sm_nc S))) ->
     forall x, run_atomic sched (flat lay_grad A) x = flat lay_grad A' x) /\
  (* least squares, matrices *)
  (forall A A' sched, (sm_ne S <= alen A)%nat ->
     acc_loop m2add (sm_nb S) (sm_nb S + sm_ni S) (wls_lhs_inner S) A = Some A' ->
     Permutation sched (flat_map (loop_ups lay_m2 (wls_lhs_inner S)) (seq (sm_nb S) (sm_ni S))) ->
     forall x, run_atomic sched (flat lay_m2 A) x = flat lay_m2 A' x) /\
  (forall A A' sched, (sm_ne S <= alen A)%nat ->
     acc_loop m2add 0 (sm_nb S) (wls_lhs_outer S) A = Some A' ->
     Permutation sched (flat_map (loop_ups lay_m2 (wls_lhs_outer S)) (seq 0 (sm_nb S))) ->
     forall x, run_atomic sched (flat lay_m2 A) x = flat lay_m2 A' x) /\
  (forall A A' sched, (sm_ne S <= alen A)%nat ->
     acc_loop m2add (sm_nb S + sm_ni S) (sm_nf_all S) (wls_lhs_outer S) A = Some A' ->
     Permutation sched (flat_map (loop_ups lay_m2 (wls_lhs_outer S)) (seq (sm_nb S + sm_ni S) (sm_nc S))) ->
     forall x, run_atomic sched (flat lay_m2 A) x = flat lay_m2 A' x).
Proof.
  intros m hs X ghost S B u ug Lu Lg. pose proof (built_sm _ _ _ _ _ B) as OK.
  assert (M2 : forall j, additive m2add (comp lay_m2 j)) by (intros j a b; destruct j as [|[|[|j]]]; reflexivity).
  assert (GA : forall j, additive gadd (comp lay_grad j)) by (intros j a b; apply lay_grad_add).
  assert (Z1 : (sm_nb S + sm_ni S - sm_nb S = sm_ni S)%nat) by lia.
  assert (Z2 : (sm_nf_all S - (sm_nb S + sm_ni S) = sm_nc S)%nat) by (unfold sm_nf_all; lia).
  split; [|split; [|split; [|split; [|split; [|split]]]]]; intros A A' sched LA E P.
  - apply (loop_order gadd lay_grad S (sm_nb S) (sm_nb S + sm_ni S) (gg_interior S u) (gL S u ug) (gR S u ug) A A' sched); auto. cbn; lia. unfold sm_nf_all; lia. intros; apply gg_i_ok; auto. rewrite Z1; auto.
  - apply (loop_order gadd lay_grad S 0 (sm_nb S) (wls_rhs_outer S u ug) (fk S u ug) (fk S u ug) A A' sched); auto. cbn; lia. unfold sm_nf_all; lia. intros; apply rhs_outer_ok; auto; lia. rewrite Nat.sub_0_r; auto.
  - apply (loop_order gadd lay_grad S (sm_nb S) (sm_nb S + sm_ni S) (wls_rhs_inner S u ug) (fk S u ug) (fk S u ug) A A' sched); auto. cbn; lia. unfold sm_nf_all; lia. intros; apply rhs_inner_ok; auto; lia. rewrite Z1; auto.
  - apply (loop_order gadd lay_grad S (sm_nb S + sm_ni S) (sm_nf_all S) (wls_rhs_outer S u ug) (fk S u ug) (fk S u ug) A A' sched); auto. cbn; lia. unfold sm_nf_all; lia. intros; apply rhs_outer_ok; auto; lia. rewrite Z2; auto.
  - apply (loop_order m2add lay_m2 S (sm_nb S) (sm_nb S + sm_ni S) (wls_lhs_inner S) (Vk S) (Vk S) A A' sched); auto. cbn; lia. unfold sm_nf_all; lia. intros; apply lhs_inner_ok; auto; lia. rewrite Z1; auto.
  - apply (loop_order m2add lay_m2 S 0 (sm_nb S) (wls_lhs_outer S) (Vk S) (Vk S) A A' sched); auto. cbn; lia. unfold sm_nf_all; lia. intros; apply lhs_outer_ok; auto; lia. rewrite Nat.sub_0_r; auto.
  - apply (loop_order m2add lay_m2 S (sm_nb S + sm_ni S) (sm_nf_all S) (wls_lhs_outer S) (Vk S) (Vk S) A A' sched); auto. cbn; lia. unfold sm_nf_all; lia. intros; apply lhs_outer_ok; auto; lia. rewrite Z2; auto.
Qed.
Print Assumptions C55_gradient_loops.

(** *** the unprotected loops of the Green-Gauss scheme *)
(** Loads and stores of the physical boundary loop: one thread per face. *)
Definition gg_boundary_threads (S : smesh) (u ug : arr st) : list (list step) :=
  map (fun k => nonatomic k (loop_ups lay_grad (gg_boundary S u ug) k)) (seq 0 (sm_nb S)).

(** If a cell has two physical boundary faces, some execution loses the first one's contribution to
    every gradient component of that cell. *)
Theorem C55_green_gauss_race : forall m hs X ghost S, built m hs X ghost S ->
  forall (u ug : arr st) A A' k1 k2, alen u = (sm_ne S + sm_nc S)%nat -> alen ug = sm_nb S -> (sm_ne S <= alen A)%nat ->
  (k1 < k2 < sm_nb S)%nat -> f_left (aat (sm_F S) k1) = f_left (aat (sm_F S) k2) ->
  acc_loop gadd 0 (sm_nb S) (gg_boundary S u ug) A = Some A' ->
  forall j, (j < 8)%nat -> exists x sched, gg_boundary S u ug k1 = Some [x] /\
    interleave (gg_boundary_threads S u ug) sched /\
    forall r, let addr := (f_left (aat (sm_F S) k1) * 8 + j)%nat in
      fst (run_steps sched (flat lay_grad A, r)) addr = flat lay_grad A' addr - comp lay_grad j (snd x).
Proof.
  intros m hs X ghost S B u ug A A' k1 k2 Lu Lg LA Hk EL E j Hj. pose proof (built_sm _ _ _ _ _ B) as OK.
  set (c := f_left (aat (sm_F S) k1)) in *.
  assert (U : forall k, (k < sm_nb S)%nat -> gg_boundary S u ug k = Some [(f_left (aat (sm_F S) k), gL S u ug k)]).
  { intros k H. rewrite (gg_b_ok S u ug OK Lu Lg k H), two_outer; auto. }
  set (ups := loop_ups lay_grad (gg_boundary S u ug)).
  assert (US : forall k, (k < sm_nb S)%nat -> ups k = scalar_ups lay_grad (f_left (aat (sm_F S) k), gL S u ug k)).
  { intros k H. unfold ups, loop_ups. rewrite U by auto. cbn [flat_map]. apply app_nil_r. }
  assert (SP : forall k, (k < sm_nb S)%nat -> f_left (aat (sm_F S) k) = c -> exists pre post, ups k = pre ++ ((c * 8 + j)%nat, comp lay_grad j (gL S u ug k)) :: post).
  { intros k H Ec. rewrite US, Ec by auto. unfold scalar_ups. cbn [width lay_grad fst snd].
    assert (SS : seq 0 8 = seq 0 j ++ j :: seq (j + 1) (8 - j - 1)).
    { clear - Hj. do 8 (destruct j as [|j]; [reflexivity|]). lia. }
    rewrite SS, map_app. cbn [map]. eauto. }
  destruct (SP k1 ltac:(lia) eq_refl) as (pre1 & post1 & E1). destruct (SP k2 ltac:(lia) (eq_sym EL)) as (pre2 & post2 & E2).
  set (v1 := comp lay_grad j (gL S u ug k1)) in *. set (v2 := comp lay_grad j (gL S u ug k2)) in *.
  set (th := fun k => (k, ups k)).
  assert (Ht : k1 <> k2) by lia.
  set (PA := map th (seq 0 k1)). set (PB := map th (seq (k1 + 1) (k2 - k1 - 1))). set (PC := map th (seq (k2 + 1) (sm_nb S - k2 - 1))).
  assert (SQ : seq 0 (sm_nb S) = seq 0 k1 ++ k1 :: seq (k1 + 1) (k2 - k1 - 1) ++ k2 :: seq (k2 + 1) (sm_nb S - k2 - 1)).
  { replace (sm_nb S) with (k1 + (1 + ((k2 - k1 - 1) + (1 + (sm_nb S - k2 - 1)))))%nat at 1 by lia. rewrite !seq_app. cbn [seq app].
    replace (0 + k1)%nat with k1 by lia. replace (k1 + 1 + (k2 - k1 - 1))%nat with k2 by lia. reflexivity. }
  assert (TH : gg_boundary_threads S u ug = lost_threads PA PB PC k1 k2 pre1 post1 pre2 post2 (c * 8 + j) v1 v2).
  { unfold gg_boundary_threads, lost_threads. fold ups. rewrite SQ, !map_app. cbn [map]. rewrite map_app. cbn [map]. rewrite E1, E2. unfold PA, PB, PC, th. rewrite !map_map. reflexivity. }
  assert (PU : flat_map ups (seq 0 (sm_nb S)) = lost_ups PA PB PC pre1 post1 pre2 post2 (c * 8 + j) v1 v2).
  { unfold lost_ups. rewrite SQ, !flat_map_app. cbn [flat_map]. rewrite flat_map_app. cbn [flat_map]. rewrite E1, E2. unfold PA, PB, PC, th. rewrite !map_map. cbn [snd]. rewrite !flat_map_concat_map. reflexivity. }
  exists (c, gL S u ug k1). eexists. split; [apply U; lia|]. rewrite TH. split; [apply lost_interleave|]. intros r. cbv zeta. rewrite lost_result by auto. cbn [snd]. fold v1. f_equal.
  rewrite <- PU.
  apply (loop_order gadd lay_grad S 0 (sm_nb S) (gg_boundary S u ug) (gL S u ug) (gR S u ug) A A' _ OK); auto. cbn; lia. intros q x y; apply lay_grad_add. unfold sm_nf_all; lia.
  intros k Hk'. apply gg_b_ok; auto; lia. rewrite Nat.sub_0_r. reflexivity.
Qed.
Print Assumptions C55_green_gauss_race.
Example C55_race_ex : exists S, built exo exh exX exg S /\ (1 < 3 < sm_nb S)%nat /\ f_left (aat (sm_F S) 1%nat) = f_left (aat (sm_F S) 3%nat).
Proof. destruct ex_built as (S & B). exists S. split; auto. destruct (ex_faces S B) as (_ & E2 & _ & F1 & _ & F3 & _). rewrite F1, F3. cbn. lia. Qed.

(** Without such a cell the unprotected loop is correct in every execution. *)
Theorem C55_green_gauss_no_race : forall m hs X ghost S, built m hs X ghost S ->
  forall (u ug : arr st) A A' sched r, alen u = (sm_ne S + sm_nc S)%nat -> alen ug = sm_nb S -> (sm_ne S <= alen A)%nat ->
  (forall k1 k2, (k1 < sm_nb S)%nat -> (k2 < sm_nb S)%nat -> f_left (aat (sm_F S) k1) = f_left (aat (sm_F S) k2) -> k1 = k2) ->
  acc_loop gadd 0 (sm_nb S) (gg_boundary S u ug) A = Some A' ->
  interleave (gg_boundary_threads S u ug) sched ->
  forall x, fst (run_steps sched (flat lay_grad A, r)) x = flat lay_grad A' x.
Proof.
  intros m hs X ghost S B u ug A A' sched r Lu Lg LA HI E IL x. pose proof (built_sm _ _ _ _ _ B) as OK.
  set (ups := loop_ups lay_grad (gg_boundary S u ug)).
  assert (US : forall k, (k < sm_nb S)%nat -> ups k = scalar_ups lay_grad (f_left (aat (sm_F S) k), gL S u ug k)).
  { intros k H. unfold ups, loop_ups. rewrite (gg_b_ok S u ug OK Lu Lg k H), two_outer by auto. cbn [flat_map]. apply app_nil_r. }
  assert (NT : forall k t w, nth_error (map (fun k => (k, ups k)) (seq 0 (sm_nb S))) k = Some (t, w) -> (k < sm_nb S)%nat /\ t = k /\ w = ups k).
  { intros k t w H. rewrite nth_error_map in H. destruct (nth_error (seq 0 (sm_nb S)) k) as [q|] eqn:Q; [|discriminate].
    assert (K : (k < sm_nb S)%nat). { rewrite <- (seq_length (sm_nb S) 0). rewrite <- nth_error_Some. congruence. }
    rewrite (nth_error_nth' _ 0%nat) in Q by (rewrite seq_length; auto). rewrite seq_nth in Q by auto. rewrite Nat.add_0_l in Q. injection Q as <-. injection H as <- <-. auto. }
  rewrite (race_free _ _ IL (map (fun k => (k, ups k)) (seq 0 (sm_nb S)))).
  - rewrite <- run_atomic_val.
    apply (loop_order gadd lay_grad S 0 (sm_nb S) (gg_boundary S u ug) (gL S u ug) (gR S u ug) A A' _ OK); auto. cbn; lia. intros q a b; apply lay_grad_add. unfold sm_nf_all; lia.
    intros k Hk'. apply gg_b_ok; auto; lia. rewrite Nat.sub_0_r, map_map. cbn [snd]. rewrite flat_map_concat_map. reflexivity.
  - unfold gg_boundary_threads. rewrite !map_length. reflexivity.
  - intros k t w prog H1 H2. destruct (NT k t w H1) as (K & -> & ->). unfold gg_boundary_threads in H2. fold ups in H2. rewrite nth_error_map in H2.
    rewrite (nth_error_nth' _ 0%nat) in H2 by (rewrite seq_length; auto). rewrite seq_nth in H2 by auto. cbn in H2. inversion H2. left; reflexivity.
  - rewrite map_map. cbn. rewrite map_id. apply seq_NoDup.
  - intros j k t w t' w' p p' Hne H1 H2 Hp Hp'. destruct (NT j t w H1) as (K1 & -> & ->). destruct (NT k t' w' H2) as (K2 & -> & ->).
    rewrite US in Hp, Hp' by auto. unfold scalar_ups in *. cbn [width lay_grad fst snd] in *.
    apply in_map_iff in Hp. destruct Hp as (q & <- & Hq). apply in_map_iff in Hp'. destruct Hp' as (q' & <- & Hq'). apply in_seq in Hq, Hq'. cbn [fst].
    intros Z. apply Hne. apply HI; auto. lia.
Qed.
Print Assumptions C55_green_gauss_no_race.
(** a subdomain of one triangle with one boundary and two connectivity faces *)
Definition exX3t : arr v2 := mkarr 3 (fun k => nth k [mkv 0 0; mkv 1 0; mkv 0 1] vzero).
Definition exone : umesh := mkmesh 3 [[0;1;2]]%nat 4 [mkbf 0 1 [1%Z]] [mkcf 0 1 0 0 0; mkcf 0 2 0 0 0].
Example C55_no_race_ex : exists S, built exone [(0,0)%nat] exX3t exg S /\ (0 < sm_nb S)%nat /\
  forall k1 k2, (k1 < sm_nb S)%nat -> (k2 < sm_nb S)%nat -> f_left (aat (sm_F S) k1) = f_left (aat (sm_F S) k2) -> k1 = k2.
Proof.
  destruct (C86_setup_total exone [(0,0)%nat] exX3t exg (fun _ _ => 0%Z) (fun _ => mkface 0 0 0 0) (fun _ _ => 0%nat) (fun _ => []) (fun _ => mkfm vzero 0) (fun _ => 0) (fun _ => vzero) (fun _ => vzero)) as (S & _ & B); auto.
  apply tiledb_ok; vm_compute; reflexivity. intros c [<-|[]]; cbn; auto.
  exists S. split; auto. destruct (built_ok _ _ _ _ _ B) as (_ & _ & _ & _ & _ & _ & _ & _ & E2 & _). rewrite E2. cbn. split; [lia|]. intros; lia.
Qed.
