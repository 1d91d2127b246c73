(** The assembled Jacobian on a part of a mesh, or on a renumbered mesh. *)
From Coq Require Import Reals Lra List Arith Lia ZArith Bool Permutation.
From Verif Require Import Base BaseR BaseSum M_Gas M_Flux M_Visc M_BC M_BCConf M_Mesh M_Geom M_Part M_Space S_Space S_Gas S_Mesh M_Resid S_Resid
  Pf_Esuel Pf_Host Pf_Topo Pf_Incid Pf_Faces Pf_Full Pf_Geom Pf_Space Pf_Grad Pf_Resid Pf_Part Pf_Restrict Pf_Part2 Pf_Linalg S_Par Pf_Resid2 P_Geom P_Flux P_Visc P_Resid P_Part
  S_Deriv S_Deriv2 Pf_Deriv Pf_FluxJac Pf_HLLC Pf_Jac Pf_JacSwap Pf_Par.
Import ListNotations.
Open Scope R_scope.

(** ** A quantity through faces which the law of the face and of the boundary conditions determines from data of the cells *)
Section Law.
Variable T : Type.
Variables (LI : v2 -> v2 -> v2 -> v2 -> T -> T -> st) (LB : flowbc -> v2 -> v2 -> v2 -> T -> st).
Definition thruL (S : smesh) (X : arr v2) (bc : nat -> flowbc) (w : nat -> T) (k : nat) : st :=
  let fc := aat (sm_F S) k in let a := aat X (f_a fc) in let b := aat X (f_b fc) in
  if (k <? sm_nb S)%nat then LB (bc k) a b (aat (sm_rc S) (f_left fc)) (w (f_left fc))
  else LI a b (aat (sm_rc S) (f_left fc)) (aat (sm_rc S) (f_right fc)) (w (f_left fc)) (w (f_right fc)).

Section Value.
Variables (m : umesh) (hs : list (nat * nat)) (X : arr v2) (ghost : nat -> v2) (S : smesh).
Hypothesis B : built m hs X ghost S.
Variables (bc : nat -> flowbc) (w : nat -> T).
Hypothesis RV : forall i f j, across (cells m) i f j ->
  LI (aat X (snd (edge (cell (cells m) i) f))) (aat X (fst (edge (cell (cells m) i) f))) (aat (sm_rc S) j) (aat (sm_rc S) i) (w j) (w i) =
  sneg (LI (aat X (fst (edge (cell (cells m) i) f))) (aat X (snd (edge (cell (cells m) i) f))) (aat (sm_rc S) i) (aat (sm_rc S) j) (w i) (w j)).
Lemma out_value_law i f v : (i < nelem m)%nat -> (f < length (cell (cells m) i))%nat ->
  let a := aat X (fst (edge (cell (cells m) i) f)) in let b := aat X (snd (edge (cell (cells m) i) f)) in
  (exists q, nth_error hs q = Some (i, f) /\ out_edge S (thruL S X bc w) i f v = cget (LB (bc q) a b (aat (sm_rc S) i) (w i)) v) \/
  (exists j, across (cells m) i f j /\ out_edge S (thruL S X bc w) i f v = cget (LI a b (aat (sm_rc S) i) (aat (sm_rc S) j) (w i) (w j)) v) \/
  (exists q cf, nth_error (conns m) q = Some cf /\ cf_elem cf = i /\ cf_face cf = f /\ out_edge S (thruL S X bc w) i f v = cget (LI a b (aat (sm_rc S) i) (ghost q) (w i) (w (nelem m + q)%nat)) v).
Proof.
  intros Hi Hf. cbv zeta. destruct (built_ok _ _ _ _ _ B) as (p & e & ni & s & il & TO & OK & E1 & E2 & E3 & E4 & E5 & E6 & _ & _ & EG & _).
  pose proof (edge_cases m hs X ghost S B i f Hi Hf) as (Hk & EC). unfold out_edge. set (k := at2 (sm_EF S) i f) in *. cbv zeta in *.
  pose proof (lr_ne S k OK Hk) as LR.
  destruct EC as [(K & Eh & L & Ed)|[(K & L & Ac & Ed)|[(K & L & Ac & Ed)|(q & cf & K & Hq & Ec & C1 & C2 & L & Ed)]]].
  - left. exists k. split; auto. rewrite L, Nat.eqb_refl. destruct (Nat.eqb_spec (f_right (aat (sm_F S) k)) i); [congruence|]. rewrite Rminus_0_r. f_equal.
    rewrite <- Ed in *. cbn [fst snd]. unfold thruL. destruct (Nat.ltb_spec k (sm_nb S)); [|lia]. rewrite L. reflexivity.
  - right; left. exists (f_right (aat (sm_F S) k)). split; auto. rewrite L, Nat.eqb_refl. destruct (Nat.eqb_spec (f_right (aat (sm_F S) k)) i); [congruence|]. rewrite Rminus_0_r. f_equal.
    rewrite <- Ed in *. cbn [fst snd]. unfold thruL. destruct (Nat.ltb_spec k (sm_nb S)); [lia|]. rewrite L. reflexivity.
  - right; left. exists (f_left (aat (sm_F S) k)). split; auto. rewrite L, Nat.eqb_refl. destruct (Nat.eqb_spec (f_left (aat (sm_F S) k)) i); [congruence|].
    pose proof (RV i f _ Ac) as R'. rewrite <- Ed in *. cbn [fst snd] in *. unfold thruL. destruct (Nat.ltb_spec k (sm_nb S)); [lia|]. rewrite L.
    rewrite R'. destruct v; cbn; ring.
  - right; right. exists q, cf. split; auto. split; auto. split; auto. rewrite L, Nat.eqb_refl. destruct (Nat.eqb_spec (f_right (aat (sm_F S) k)) i); [congruence|]. rewrite Rminus_0_r. f_equal.
    rewrite <- Ed in *. cbn [fst snd]. unfold thruL. destruct (Nat.ltb_spec k (sm_nb S)); [lia|].
    rewrite L, (so_con _ OK k) by lia. replace (k - sm_nb S - sm_ni S)%nat with q by lia. rewrite E1, EG by lia. reflexivity.
Qed.
End Value.

Section Same.
Variables (g : gmesh) (hs : list (nat * nat)) (lm : lmesh).
Hypothesis SM : sub_mesh g hs lm.
Variables (gh : nat -> v2) (S S' : smesh) (hs' : list (nat * nat)) (gh' : nat -> v2).
Hypothesis B : built (g_m g) hs (g_X g) gh S.
Hypothesis B' : built (l_m lm) hs' (l_X lm) gh' S'.
Hypothesis HG : forall k cf, nth_error (conns (l_m lm)) k = Some cf -> gh' k = aat (sm_rc S) (Z.to_nat (cf_gelem cf)).
Variables (bcs : list (Z * flowbc)) (bc bc' : nat -> flowbc) (w w' : nat -> T).
Hypothesis BC : forall q bf t r, nth_error (bfaces (g_m g)) q = Some bf -> btg bf = t :: r -> mfind bcs t = Some (bc q).
Hypothesis BT : forall bf, In bf (bfaces (g_m g)) -> btg bf <> [].
Hypothesis BC' : forall q bf t r, nth_error (bfaces (l_m lm)) q = Some bf -> btg bf = t :: r -> mfind bcs t = Some (bc' q).
Hypothesis U1 : forall l, (l < nelem (l_m lm))%nat -> w' l = w (aat (l_eglob lm) l).
Hypothesis U2 : forall k cf, nth_error (conns (l_m lm)) k = Some cf -> w' (nelem (l_m lm) + k)%nat = w (Z.to_nat (cf_gelem cf)).
Hypothesis RV : forall i f j, across (cells (g_m g)) i f j ->
  LI (aat (g_X g) (snd (edge (cell (cells (g_m g)) i) f))) (aat (g_X g) (fst (edge (cell (cells (g_m g)) i) f))) (aat (sm_rc S) j) (aat (sm_rc S) i) (w j) (w i) =
  sneg (LI (aat (g_X g) (fst (edge (cell (cells (g_m g)) i) f))) (aat (g_X g) (snd (edge (cell (cells (g_m g)) i) f))) (aat (sm_rc S) i) (aat (sm_rc S) j) (w i) (w j)).

Lemma same_outflow_law l v : (l < nelem (l_m lm))%nat -> outflow S' (thruL S' (l_X lm) bc' w') l v = outflow S (thruL S (g_X g) bc w) (aat (l_eglob lm) l) v.
Proof.
  intros Hl. pose proof SM as (SER & F1 & F4 & F5 & F6). destruct (F1 l Hl) as (A1 & A3 & A4 & A5).
  pose proof (local_centre g hs lm SM gh S S' hs' gh' B B') as LC.
  destruct (built_ok _ _ _ _ _ B) as (p & e & ni & s & il & _ & OK & E1 & _ & _ & _ & _ & _ & _ & _ & _ & En & _).
  destruct (built_ok _ _ _ _ _ B') as (p' & e' & ni' & s' & il' & _ & OK' & E1' & _ & _ & _ & _ & _ & _ & _ & _ & En' & _).
  rewrite (outflow_edges S' _ l v OK') by lia. rewrite (outflow_edges S _ _ v OK) by lia. rewrite En, En', A3 by auto.
  apply rsum_ext. intros f Hf. apply in_seq in Hf. assert (Hf' : (f < length (cell (cells (g_m g)) (aat (l_eglob lm) l)))%nat) by lia. destruct (A4 f Hf') as (X1 & X2).
  assert (RV' : forall i f j, across (cells (l_m lm)) i f j ->
    LI (aat (l_X lm) (snd (edge (cell (cells (l_m lm)) i) f))) (aat (l_X lm) (fst (edge (cell (cells (l_m lm)) i) f))) (aat (sm_rc S') j) (aat (sm_rc S') i) (w' j) (w' i) =
    sneg (LI (aat (l_X lm) (fst (edge (cell (cells (l_m lm)) i) f))) (aat (l_X lm) (snd (edge (cell (cells (l_m lm)) i) f))) (aat (sm_rc S') i) (aat (sm_rc S') j) (w' i) (w' j))).
  { intros i h j Ac. assert (Hi : (i < nelem (l_m lm))%nat) by apply Ac. assert (Hj : (j < nelem (l_m lm))%nat) by apply Ac. assert (Hh : (h < length (cell (cells (l_m lm)) i))%nat) by apply Ac.
    destruct (F1 i Hi) as (_ & L & P & _). rewrite L in Hh. destruct (P h Hh) as (-> & ->). rewrite !LC, !U1 by auto. apply RV. apply F4; auto. }
  pose proof B as (TT & _). pose proof B' as (T' & _).
  pose proof (out_value_law _ _ _ _ _ B' bc' w' RV' l f v Hl ltac:(lia)) as V'.
  pose proof (out_value_law _ _ _ _ _ B bc w RV _ f v A1 Hf') as V. cbv zeta in V, V'.
  rewrite X1, X2, (LC l Hl), (U1 l Hl) in V'.
  destruct V' as [(q & Q1 & Q2)|[(j & J1 & J2)|(q & cf & Q1 & Q2 & Q3 & Q4)]].
  - destruct (nth_error_some _ (bfaces (l_m lm)) q) as (bf & Eb).
    { assert (q < length hs')%nat by (apply nth_error_Some; congruence). destruct (gm_hosts _ _ (tl_good _ _ T')) as (LH & _). unfold nbface in LH. lia. }
    destruct (F6 hs' q bf l f T' Eb Q1) as (p0 & gb & P1 & P2 & P3).
    destruct V as [(p1 & R1 & R2)|[(j & J1 & J2)|(p1 & cf & R1 & _)]].
    + pose proof (tl_nodup _ _ TT) as ND. apply nodup_app in ND. destruct ND as (ND & _). pose proof (nodup_nth_error _ _ _ _ ND P2 R1). subst p1.
      rewrite Q2, R2. assert (bc' q = bc p0); [|congruence].
      destruct (btg gb) as [|t r] eqn:Et; [exfalso; eapply BT; [eapply nth_error_In; exact P1|exact Et]|].
      pose proof (BC p0 gb t r P1 Et). pose proof (BC' q bf t r Eb P3). congruence.
    + exfalso. eapply host_no_across; [exact TT|exact P2|exact J1].
    + exfalso. eapply (no_conn g); [exact SER|eapply nth_error_In; exact R1].
  - pose proof (F4 l f j J1) as Ac. assert (Hj : (j < nelem (l_m lm))%nat) by apply J1.
    destruct V as [(p1 & R1 & R2)|[(j' & R1 & R2)|(p1 & cf & R1 & _)]].
    + exfalso. eapply host_no_across; [exact TT|exact R1|exact Ac].
    + pose proof (gm_conf _ _ (tl_good _ _ TT) _ _ _ _ R1 Ac). subst j'. rewrite J2, R2. rewrite (LC j Hj), (U1 j Hj). reflexivity.
    + exfalso. eapply (no_conn g); [exact SER|eapply nth_error_In; exact R1].
  - destruct (F5 cf (nth_error_In _ _ Q1)) as (j & I1 & I2 & _). rewrite Q2, Q3 in I1.
    destruct V as [(p1 & R1 & R2)|[(j' & R1 & R2)|(p1 & cf' & R1 & _)]].
    + exfalso. eapply host_no_across; [exact TT|exact R1|exact I1].
    + pose proof (gm_conf _ _ (tl_good _ _ TT) _ _ _ _ R1 I1). subst j'. rewrite Q4, R2. rewrite (HG q cf Q1), (U2 q cf Q1), I2, Nat2Z.id. reflexivity.
    + exfalso. eapply (no_conn g); [exact SER|eapply nth_error_In; exact R1].
Qed.
End Same.
End Law.

(** ** The face Jacobians *)
Definition jac_of (f : fluxname) (G : gas) (ul ur : st) (n : v2) : jacs := match get_jacobian f G ul ur n with Some J => J | None => mkjacs mat0 mat0 end.
Definition fjac (fl : flow) (n rl rr : v2) (ul ur : st) : jacs :=
  let J := jac_of (fl_jflux fl) (fl_gas fl) ul ur n in
  if fl_visc fl then let '(a, b) := compute_viscous_flux_jacobian (fl_gas fl) (fl_cst fl) n rl rr ul ur (dfdl J) (dfdr J) in mkjacs a b else J.
Lemma fjac_mirror fl n rl rr ul ur : mirrored (jac_of (fl_jflux fl) (fl_gas fl) ul ur n) (jac_of (fl_jflux fl) (fl_gas fl) ur ul (vneg n)) ->
  mirrored (fjac fl n rl rr ul ur) (fjac fl (vneg n) rr rl ur ul).
Proof.
  intros (E1 & E2). unfold fjac. cbv zeta. destruct (fl_visc fl); [|split; auto]. rewrite E1, E2.
  pose proof (visc_mirror (fl_gas fl) (fl_cst fl) n rl rr ul ur (dfdl (jac_of (fl_jflux fl) (fl_gas fl) ul ur n)) (dfdr (jac_of (fl_jflux fl) (fl_gas fl) ul ur n))) as V.
  destruct (compute_viscous_flux_jacobian (fl_gas fl) (fl_cst fl) n rl rr ul ur _ _) as [a b]. rewrite V. split; reflexivity.
Qed.
Definition has_jac (f : fluxname) : Prop := match f with VANLEER | AUSMPLUS => False | _ => True end.
Lemma jac_some f G ul ur n : has_jac f -> get_jacobian f G ul ur n = Some (jac_of f G ul ur n).
Proof. unfold jac_of. destruct f; intros []; reflexivity. Qed.

Section Lin.
Variables (fl : flow).
(** the change of the flux through a directed segment, by the Jacobians: data of a cell are its state and the change of it *)
Definition lin_in (a b rl rr : v2) (l r : st * st) : st :=
  let J := fjac fl (fm_n (face_metric a b)) rl rr (fst l) (fst r) in
  mkst (fun v => fm_len (face_metric a b) * (sdot (mrow (dfdr J) v) (snd r) - sdot (mrow (dfdl J) v) (snd l))).
Definition lin_bd (bc : flowbc) (a b rl : v2) (l : st * st) : st :=
  let n := fm_n (face_metric a b) in
  match ghost_jac (fl_gas fl) bc (fst l) n with
  | Some r => let J := fjac fl n rl (vsub (vscal 2 (face_mid a b)) rl) (fst l) (g_s r) in
              mkst (fun v => - (fm_len (face_metric a b) * sdot (mrow (msub (dfdl J) (mmul (dfdr J) (g_d r))) v) (snd l)))
  | None => szero
  end.
Lemma lin_rev a b rl rr l r : a <> b -> let n := fm_n (face_metric a b) in
  mirrored (jac_of (fl_jflux fl) (fl_gas fl) (fst l) (fst r) n) (jac_of (fl_jflux fl) (fl_gas fl) (fst r) (fst l) (vneg n)) ->
  lin_in b a rr rl r l = sneg (lin_in a b rl rr l r).
Proof.
  intros H n M. unfold lin_in. rewrite (metric_rev a b H). cbn [fm_n fm_len]. fold n. destruct (fjac_mirror fl n rl rr _ _ M) as (E1 & E2). cbv zeta. rewrite E1, E2.
  apply st_ext. intros v. rewrite cget_mkst. destruct v; cbn; ring.
Qed.
End Lin.

(** ** The assembled matrix, row by row *)
Section Rows.
Variables (m : umesh) (hs : list (nat * nat)) (X : arr v2) (ghost : nat -> v2) (S : smesh).
Hypothesis B : built m hs X ghost S.
Variables (fl : flow) (bc : nat -> flowbc) (u : nat -> st) (row : nat -> nat) (col : option (nat -> nat)) (N : nat).
Hypothesis C : bcs_cover S fl bc.
Hypothesis HJ : has_jac (fl_jflux fl).
Hypothesis HB : forall k, (k < sm_nb S)%nat -> ghost_jac (fl_gas fl) (bc k) (u (f_left (aat (sm_F S) k))) (fm_n (aat (sm_M S) k)) <> None.
Hypothesis Hrow : forall i, (i < sm_ne S)%nat -> (row i < N)%nat.
Hypothesis Hinj : forall i j, (i < sm_ne S)%nat -> (j < sm_ne S)%nat -> row i = row j -> i = j.
Hypothesis Hcol : forall k, (k < sm_nc S)%nat -> exists c, col = Some c /\ (c k < N)%nat.
Let uu : arr st := mkarr (sm_ne S + sm_nc S) u.
(** the change of the cell or ghost cell [j] *)
Definition dof (d : nat -> st) (j : nat) : st := if (j <? sm_ne S)%nat then d (row j) else match col with Some c => d (c (j - sm_ne S)%nat) | None => szero end.
Notation LL d := (thruL (st * st) (lin_in fl) (lin_bd fl) S X bc (fun j => (u j, dof d j))).

Lemma met_X k : (k < sm_nf_all S)%nat -> aat (sm_M S) k = face_metric (aat X (f_a (aat (sm_F S) k))) (aat X (f_b (aat (sm_F S) k))).
Proof. intros Hk. destruct (built_ok _ _ _ _ _ B) as (p & e & ni & s & il & TO & OK & E1 & E2 & E3 & E4 & E5 & E6 & _). rewrite (so_met _ OK k Hk), E6. reflexivity. Qed.
Lemma face_jac_total k ul ur : (k < sm_nf_all S)%nat ->
  face_jac S fl k ul ur = Some (fjac fl (fm_n (aat (sm_M S) k)) (left_value S (aat (sm_rc S)) k) (right_value S (aat (sm_rc S)) (aat (sm_rcbp S)) k) ul ur).
Proof.
  intros Hk. pose proof (built_sm _ _ _ _ _ B) as OK. pose proof (so_left _ OK k Hk). unfold face_jac. rewrite aget_ok by (rewrite (so_M _ OK); auto). cbn [bind]. rewrite aget_ok by (rewrite (so_F _ OK); auto). cbn [bind].
  rewrite jac_some by auto. cbn [bind]. unfold fjac. cbv zeta. destruct (fl_visc fl); [|reflexivity]. rewrite aget_ok by (rewrite (so_rc _ OK); lia). cbn [bind]. rewrite (far_c S OK k Hk). cbn [bind].
  fold (left_value S (aat (sm_rc S)) k). destruct (compute_viscous_flux_jacobian _ _ _ _ _ _ _ _ _). reflexivity.
Qed.

Lemma rows_ok A0 : exists A, assemble_jacobian S fl uu row col A0 = Some A /\
  (forall d i v, (i < sm_ne S)%nat -> app N d A (row i) v = app N d A0 (row i) v + outflow S (LL d) i v) /\
  (forall p q, (forall i, (i < sm_ne S)%nat -> row i <> p) -> A p q = A0 p q).
Proof.
  destruct (built_ok _ _ _ _ _ B) as (p & e & ni & s & il & TO & OK & E1 & E2 & E3 & E4 & E5 & E6 & _ & _ & EG & _).
  set (fc k := aat (sm_F S) k). set (J k := fjac fl (fm_n (aat (sm_M S) k)) (aat (sm_rc S) (f_left (fc k))) (aat (sm_rc S) (f_right (fc k))) (u (f_left (fc k))) (u (f_right (fc k)))).
  set (len k := fm_len (aat (sm_M S) k)).
  set (JL k := mscal (len k) (dfdl (J k))). set (JR k := mscal (len k) (dfdr (J k))).
  set (JB k := match ghost_jac (fl_gas fl) (bc k) (u (f_left (fc k))) (fm_n (aat (sm_M S) k)) with
     | Some r => let K := fjac fl (fm_n (aat (sm_M S) k)) (aat (sm_rc S) (f_left (fc k))) (aat (sm_rcbp S) k) (u (f_left (fc k))) (g_s r) in mscal (len k) (msub (dfdl K) (mmul (dfdr K) (g_d r)))
     | None => mat0 end).
  assert (EB : forall k, (k < sm_nb S)%nat -> local_jacobian_boundary S fl k (aat uu (f_left (aat (sm_F S) k))) = Some (JB k)).
  { intros k Hk. assert (K : (k < sm_nf_all S)%nat) by (unfold sm_nf_all; lia). unfold local_jacobian_boundary. rewrite aget_ok by (rewrite (so_M _ OK); lia). cbn [bind]. rewrite (C k Hk). cbn [bind]. unfold JB. cbn [aat uu]. fold (fc k). 
    destruct (ghost_jac _ _ _ _) as [r|] eqn:EQ; [|exfalso; exact (HB k Hk EQ)]. cbn [bind]. rewrite face_jac_total by auto. cbn [bind]. unfold left_value, right_value. destruct (Nat.ltb_spec k (sm_nb S)); [|lia]. reflexivity. }
  assert (EI : forall k, (sm_nb S <= k < sm_nf_all S)%nat -> local_jacobian_interior S fl k (aat uu (f_left (aat (sm_F S) k))) (aat uu (f_right (aat (sm_F S) k))) = Some (JL k, JR k)).
  { intros k Hk. unfold local_jacobian_interior. rewrite aget_ok by (rewrite (so_M _ OK); lia). cbn [bind]. rewrite face_jac_total by lia. cbn [bind]. unfold left_value, right_value. destruct (Nat.ltb_spec k (sm_nb S)); [lia|]. reflexivity. }
  destruct (assemble_ok S (local_jacobian_boundary S fl) (local_jacobian_interior S fl) uu row col N (fun _ => szero) OK eq_refl Hrow Hcol JB JL JR EB EI A0) as (A & EA & _ & QA).
  exists A. split; auto. split; auto. intros d i v Hi.
  destruct (assemble_ok S (local_jacobian_boundary S fl) (local_jacobian_interior S fl) uu row col N d OK eq_refl Hrow Hcol JB JL JR EB EI A0) as (A' & EA' & PA & _).
  rewrite EA in EA'. injection EA' as <-. rewrite PA. f_equal. unfold outflow. apply rsum_ext. intros k Hk. unfold all_faces in Hk. apply in_seq in Hk. pose proof (so_left _ OK k ltac:(lia)) as HL. fold (fc k) in HL |- *.
  assert (EQ : forall j, (j < sm_ne S)%nat -> (row i =? row j)%nat = (j =? i)%nat).
  { intros j Hj. destruct (Nat.eqb_spec j i) as [->|]. apply Nat.eqb_refl. apply Nat.eqb_neq. intro Q. apply Hinj in Q; auto. }
  assert (DO : forall j, (j < sm_ne S)%nat -> dof d j = d (row j)). { intros j Hj. unfold dof. destruct (Nat.ltb_spec j (sm_ne S)); [reflexivity|lia]. }
  unfold contrib. cbv zeta. fold (fc k). rewrite EQ by auto. unfold thruL. cbv zeta. fold (fc k).
  destruct (Nat.ltb_spec k (sm_nb S)) as [K|K].
  - assert (ER : (f_right (fc k) =? i)%nat = false). { apply Nat.eqb_neq. unfold fc. rewrite (so_phy _ OK k K). lia. } rewrite ER, Rminus_0_r. destruct (f_left (fc k) =? i)%nat; auto.
    pose proof (met_X k ltac:(lia)) as MX. fold (fc k) in MX. unfold lin_bd, JB. cbv zeta. cbn [fst snd]. rewrite <- !MX. destruct (ghost_jac _ _ _ _) as [r|] eqn:EQ'; [|exfalso; exact (HB k K EQ')].
    cbv zeta. rewrite cget_mkst, sdot_mscal, DO by auto. rewrite (so_bp _ OK k K), (so_mid _ OK k ltac:(lia)), E6. fold (fc k). unfold len. ring.
  - assert (EL : forall w, cget (lin_in fl (aat X (f_a (fc k))) (aat X (f_b (fc k))) (aat (sm_rc S) (f_left (fc k))) (aat (sm_rc S) (f_right (fc k))) (u (f_left (fc k)), dof d (f_left (fc k))) (u (f_right (fc k)), w)) v =
       sdot (mrow (JR k) v) w - sdot (mrow (JL k) v) (d (row (f_left (fc k))))).
    { intros w. unfold lin_in. cbv zeta. rewrite cget_mkst. cbn [fst snd]. rewrite DO by auto. unfold JR, JL, J, len. rewrite !sdot_mscal. pose proof (met_X k ltac:(lia)) as MX. fold (fc k) in MX. rewrite <- MX. ring. }
    rewrite EL. destruct (Nat.ltb_spec k (sm_nb S + sm_ni S)) as [K2|K2].
    + pose proof (so_int _ OK k ltac:(lia)) as (_ & HR). fold (fc k) in HR. rewrite EQ by auto. rewrite DO by auto. destruct (f_left (fc k) =? i)%nat, (f_right (fc k) =? i)%nat; ring.
    + pose proof (so_con _ OK k ltac:(lia)) as HR. fold (fc k) in HR. assert (ER : (f_right (fc k) =? i)%nat = false) by (apply Nat.eqb_neq; lia). rewrite ER, Rminus_0_r.
      assert (DR : dof d (f_right (fc k)) = match col with Some c => d (c (k - sm_nb S - sm_ni S)%nat) | None => szero end).
      { unfold dof. rewrite HR. destruct (Nat.ltb_spec (sm_ne S + (k - sm_nb S - sm_ni S)) (sm_ne S)); [lia|]. replace (sm_ne S + (k - sm_nb S - sm_ni S) - sm_ne S)%nat with (k - sm_nb S - sm_ni S)%nat by lia. reflexivity. }
      rewrite DR. destruct (f_left (fc k) =? i)%nat; auto. destruct col; [reflexivity|]. unfold szero, sdot. cbn [s0 s1 s2 s3]. ring.
Qed.
End Rows.
