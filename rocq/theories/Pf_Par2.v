(** Proofs for the second-order part of C66: faces seen from one of their cells, and the comparison
    of gradients, reconstructed states and fluxes of a rank's mesh with those of the whole mesh. *)
From Coq Require Import Reals List Arith ZArith Lia Lra Bool.
From Verif Require Import Base BaseR BaseSum M_Gas M_Flux M_Visc M_BC M_BCConf M_Mesh M_Geom M_Part M_Space M_Grad M_Recon S_Space S_Gas S_Mesh S_Geom S_Recon M_Resid S_Resid
  Pf_Esuel Pf_Host Pf_Topo Pf_Incid Pf_Faces Pf_Full Pf_Geom Pf_Space Pf_Grad Pf_Recon Pf_Resid Pf_Part Pf_Restrict Pf_Part2 S_Par Pf_Resid2 P_Geom P_Flux P_Visc P_Recon P_Resid P_Part Pf_Par.
Import ListNotations.
Open Scope R_scope.

(** ** Time steps, whenever they are computed *)
Lemma timestep_inv S fl (ul ur : arr st) (dt d : arr R) : sm_ok S -> alen ul = sm_nf_all S -> alen ur = sm_nf_all S -> alen dt = sm_ne S ->
  compute_max_timestep S fl ul ur dt = Some d -> alen d = sm_ne S /\ forall i, (i < sm_ne S)%nat -> rate S fl ul ur i <> 0 /\ aat d i = aat (sm_A S) i / rate S fl ul ur i.
Proof.
  intros OK Ll Lr Ld E. assert (E0 := E).
  assert (NZ : forall i, (i < sm_ne S)%nat -> rate S fl ul ur i <> 0).
  { intros i Hi. unfold compute_max_timestep in E.
    destruct (acc_loop_ok Rplus 0 (sm_nf_all S) (specrad_incs S fl ul ur) (aconst (sm_ne S) 0) (two S (spl S fl ul) (spr S fl ur))) as (W & EW & L & P & _).
    - lia.
    - intros k Hk. split; [apply specrad_incs_ok; auto; lia|]. intros p Hp. cbn. eapply two_in; eauto. lia.
    - rewrite EW in E. cbn [bind] in E. cbn in L.
      assert (HW : aat W i = rate S fl ul ur i).
      { rewrite (P (fun x => x) ltac:(intros a b; reflexivity) i). cbn [aconst aat]. rewrite Rplus_0_l, Nat.sub_0_r. unfold rate, all_faces. apply rsum_ext. intros k _. apply added_two; auto. }
      destruct (floop_some _ _ _ _ E i Hi) as (t & t' & Q). rewrite aget_ok in Q by (rewrite (so_A _ OK); auto). cbn [bind] in Q. rewrite aget_ok in Q by lia. cbn [bind] in Q. rewrite HW in Q.
      unfold rdiv in Q. destruct (Req_EM_T (rate S fl ul ur i) 0); [discriminate Q|auto]. }
  destruct (timestep_ok S fl ul ur OK Ll Lr dt Ld NZ) as (d' & E' & L & P). rewrite E' in E0. injection E0 as <-. auto.
Qed.

Lemma run_dt S fl gs rs gg rf u ul0 ur0 res G0 jp dt out : compute_residual2 S fl gs rs gg rf u ul0 ur0 res G0 jp dt = Some out ->
  maybe_dt S fl (ro_left out) (ro_right out) dt = Some (ro_dt out).
Proof.
  intros E. unfold compute_residual2 in E. do 6 step_bind E. destruct x4 as (ul3 & ur3). do 7 step_bind E. injection E as <-. cbn [ro_left ro_right ro_dt]. assumption.
Qed.

Lemma specrad_neg fl a u n len : specrad fl a u (vneg n) len = specrad fl a u n len.
Proof.
  unfold specrad. cbv zeta. replace (dot2 (mom u) (vneg n) / s0 u) with (- (dot2 (mom u) n / s0 u)). rewrite Rabs_Ropp. reflexivity.
  unfold dot2, vneg. cbn [vx vy]. unfold Rdiv. ring.
Qed.

(** ** A face seen from one of its cells *)
Section Seen.
Variable S : smesh.
Notation F k := (aat (sm_F S) k).
Notation fl_ k := (f_left (aat (sm_F S) k)).
Notation fr_ k := (f_right (aat (sm_F S) k)).

(** face states on the side of cell [i] and on the other side *)
Definition own_side (l r : nat -> st) (i k : nat) : st := if (fl_ k =? i)%nat then l k else r k.
Definition far_side (l r : nat -> st) (i k : nat) : st := if (fl_ k =? i)%nat then r k else l k.
(** outward unit normal *)
Definition out_normal (i k : nat) : v2 := if (fl_ k =? i)%nat then fm_n (aat (sm_M S) k) else vneg (fm_n (aat (sm_M S) k)).
(** the gradient used beyond the face *)
Definition grad_beyond (g : nat -> grad) (i k : nat) : grad := if (k <? sm_nb S)%nat then g i else g (other S i k).

Hypothesis OK : sm_ok S.

Lemma out_seen fl (u : nat -> st) (g : nat -> grad) (ub l r : nat -> st) i f v : (i < sm_ne S)%nat -> (f < aat (sm_nf S) i)%nat ->
  1 < gam (fl_gas fl) -> (fl_flux fl = HLLC -> 5/4 <= gam (fl_gas fl)) ->
  let k := at2 (sm_EF S) i f in
  physical (gam (fl_gas fl)) (l k) -> physical (gam (fl_gas fl)) (r k) -> unit_vec (fm_n (aat (sm_M S) k)) ->
  out_edge S (through S fl true u g ub l r) i f v =
  fm_len (aat (sm_M S) k) * cget (face_law fl true (out_normal i k) (aat (sm_rc S) i) (beyond S (aat (sm_rc S)) (aat (sm_rcbp S)) i k)
     (u i) (beyond S u ub i k) (g i) (grad_beyond g i k) (own_side l r i k) (far_side l r i k)) v.
Proof.
  intros Hi Hf Hg Hh k Pl Pr U. destruct (so_ef _ OK i f Hi Hf) as (Hk & W). fold k in Hk, W. cbv zeta in W. pose proof (lr_ne S k OK Hk) as NE.
  unfold out_edge. fold k. unfold own_side, far_side, out_normal, grad_beyond, beyond, other, through, left_value.
  destruct W as [(W & _)|(W & _)].
  - rewrite W, Nat.eqb_refl. destruct (Nat.eqb_spec (fr_ k) i); [congruence|]. rewrite Rminus_0_r, cget_scal. reflexivity.
  - destruct (Nat.eqb_spec (fl_ k) i) as [Q|Q]; [congruence|]. rewrite W, Nat.eqb_refl.
    assert (K : (sm_nb S <= k)%nat). { destruct (Nat.lt_ge_cases k (sm_nb S)) as [L|L]; auto. pose proof (so_phy _ OK k L). lia. }
    unfold right_value. destruct (Nat.ltb_spec k (sm_nb S)); [lia|]. rewrite W.
    rewrite (face_law_rev fl true (fm_n (aat (sm_M S) k)) (aat (sm_rc S) (fl_ k)) (aat (sm_rc S) i) (u (fl_ k)) (u i) (g (fl_ k)) (g i) (l k) (r k)) by auto.
    rewrite cget_scal, cget_neg. ring.
Qed.

(** the rate of waves in terms of what the cell sees *)
Lemma rate_seen fl (ul ur : arr st) i : (i < sm_ne S)%nat ->
  rate S fl ul ur i = rsum (fun f => let k := at2 (sm_EF S) i f in specrad fl (Some (aat (sm_A S) i)) (own_side (aat ul) (aat ur) i k) (out_normal i k) (fm_len (aat (sm_M S) k))) (seq 0 (aat (sm_nf S) i)).
Proof.
  intros Hi. unfold rate. rewrite (sum_by_faces S _ i OK Hi).
  - apply rsum_ext. intros f Hf. apply in_seq in Hf. destruct (so_ef _ OK i f Hi ltac:(lia)) as (Hk & W). cbv zeta in *. pose proof (lr_ne S _ OK Hk) as NE.
    unfold own_side, out_normal, spl, spr. destruct W as [(W & _)|(W & _)].
    + rewrite W, Nat.eqb_refl. destruct (Nat.eqb_spec (fr_ (at2 (sm_EF S) i f)) i); [congruence|]. ring.
    + destruct (Nat.eqb_spec (fl_ (at2 (sm_EF S) i f)) i) as [Q|Q]; [congruence|]. rewrite W, Nat.eqb_refl, specrad_neg. ring.
  - intros k Hk A B. destruct (Nat.eqb_spec (fl_ k) i); [congruence|]. destruct (Nat.eqb_spec (fr_ k) i); [congruence|]. ring.
Qed.

(** sums over faces of a cell *)
Lemma cellsum_edges i h : (i < sm_ne S)%nat -> cellsum S i h = rsum (fun f => h (at2 (sm_EF S) i f)) (seq 0 (aat (sm_nf S) i)).
Proof.
  intros Hi. unfold cellsum. change (seq 0 (sm_nf_all S)) with (all_faces S).
  rewrite (sum_by_faces S _ i OK Hi).
  - apply rsum_ext. intros f Hf. apply in_seq in Hf. destruct (so_ef _ OK i f Hi ltac:(lia)) as (_ & [(A & _)|(A & _)]); cbv zeta in A; rewrite A, Nat.eqb_refl; rewrite ?orb_true_r; reflexivity.
  - intros k Hk A B. destruct (Nat.eqb_spec (fl_ k) i); [congruence|]. destruct (Nat.eqb_spec (fr_ k) i); [congruence|]. reflexivity.
Qed.
End Seen.

(** ** Gradients in terms of what the cell sees *)
Section Gr.
Variables (S : smesh) (u ug : arr st).
Hypothesis OK : sm_ok S.
Hypothesis Lu : alen u = (sm_ne S + sm_nc S)%nat.
Hypothesis Lg : alen ug = sm_nb S.

Notation ub i k := (beyond S (aat u) (aat ug) i k).
Notation cb i k := (beyond S (aat (sm_rc S)) (aat (sm_rcbp S)) i k).

Lemma gg_seen (G : arr grad) : (sm_ne S <= alen G)%nat -> exists G', GreenGauss S u ug G = Some G' /\ alen G' = alen G /\
  forall i, (i < sm_ne S)%nat -> forall d v, gsel d v (aat G' i) = 1 / aat (sm_A S) i * rsum (fun f => let k := at2 (sm_EF S) i f in
    let wi := inv_dist (aat (sm_gr S) k) (aat (sm_rc S) i) in let wb := inv_dist (aat (sm_gr S) k) (cb i k) in
    (cget (aat u i) v * wi + cget (ub i k) v * wb) / (wi + wb) * (fm_len (aat (sm_M S) k) * dget (out_normal S i k) d)) (seq 0 (aat (sm_nf S) i)).
Proof.
  intros HG. destruct (gg_formula S u ug OK Lu Lg G HG) as (G' & E & L & P). exists G'. split; auto. split; auto. intros i Hi d v. rewrite P by auto. f_equal.
  change (seq 0 (sm_nf_all S)) with (all_faces S). rewrite (sum_by_faces S _ i OK Hi).
  - apply rsum_ext. intros f Hf. apply in_seq in Hf. destruct (so_ef _ OK i f Hi ltac:(lia)) as (Hk & W). set (k := at2 (sm_EF S) i f) in *. cbv zeta in *. pose proof (lr_ne S k OK Hk) as NE.
    unfold area_vector, out_normal, beyond, mid_at, uR_at, cR_at, left_value. destruct W as [(W & _)|(W & _)].
    + rewrite W, Nat.eqb_refl. f_equal. destruct d; reflexivity.
    + destruct (Nat.eqb_spec (f_left (aat (sm_F S) k)) i) as [Q|Q]; [congruence|]. rewrite W, Nat.eqb_refl.
      assert (K : (sm_nb S <= k)%nat). { destruct (Nat.lt_ge_cases k (sm_nb S)) as [L'|L']; auto. pose proof (so_phy _ OK k L'). lia. }
      unfold right_value. destruct (Nat.ltb_spec k (sm_nb S)); [lia|]. rewrite W.
      rewrite (Rplus_comm (inv_dist _ (aat (sm_rc S) i))). rewrite (Rplus_comm (cget (aat u i) v * _)). f_equal. destruct d; cbn; ring.
  - intros k Hk A B. unfold area_vector. destruct (Nat.eqb_spec (f_left (aat (sm_F S) k)) i); [congruence|]. destruct (Nat.eqb_spec (f_right (aat (sm_F S) k)) i); [congruence|].
    cbv zeta. destruct d; cbn; ring.
Qed.

Lemma wls_mat_sym a b : wls_mat a b = wls_mat b a.
Proof.
  unfold wls_mat, wls_w2, wls_dr. cbn. replace ((vx b - vx a) * (vx b - vx a)) with ((vx a - vx b) * (vx a - vx b)) by ring.
  replace ((vy b - vy a) * (vy b - vy a)) with ((vy a - vy b) * (vy a - vy b)) by ring. f_equal; ring.
Qed.
Lemma wls_vec_sym a b x y d v : gsel d v (wls_vec a b x y) = gsel d v (wls_vec b a y x).
Proof.
  unfold wls_vec, wls_w2, wls_dr, gsel. cbn. replace ((vx b - vx a) * (vx b - vx a)) with ((vx a - vx b) * (vx a - vx b)) by ring.
  replace ((vy b - vy a) * (vy b - vy a)) with ((vy a - vy b) * (vy a - vy b)) by ring. destruct d; cbn [gx gy]; rewrite !cget_mkst; ring.
Qed.

Lemma sides_seen i f : (i < sm_ne S)%nat -> (f < aat (sm_nf S) i)%nat -> let k := at2 (sm_EF S) i f in
  (cL S k = aat (sm_rc S) i /\ cR S k = cb i k /\ uL S u k = aat u i /\ uRr S u ug k = ub i k) \/
  (cR S k = aat (sm_rc S) i /\ cL S k = cb i k /\ uRr S u ug k = aat u i /\ uL S u k = ub i k).
Proof.
  intros Hi Hf k. destruct (so_ef _ OK i f Hi Hf) as (Hk & W). fold k in Hk, W. cbv zeta in W. pose proof (lr_ne S k OK Hk) as NE.
  unfold cL, cR, uL, uRr, beyond, left_value. destruct W as [(W & _)|(W & _)].
  - left. rewrite W, Nat.eqb_refl. auto.
  - right. destruct (Nat.eqb_spec (f_left (aat (sm_F S) k)) i) as [Q|Q]; [congruence|].
    assert (K : (sm_nb S <= k)%nat). { destruct (Nat.lt_ge_cases k (sm_nb S)) as [L'|L']; auto. pose proof (so_phy _ OK k L'). lia. }
    unfold right_value. destruct (Nat.ltb_spec k (sm_nb S)); [lia|]. rewrite W. auto.
Qed.

Definition seen_mat (i : nat) (phi : mat2 -> R) : R := rsum (fun f => phi (wls_mat (aat (sm_rc S) i) (cb i (at2 (sm_EF S) i f)))) (seq 0 (aat (sm_nf S) i)).
Definition seen_vec (i : nat) (d : dx) (v : ix) : R :=
  rsum (fun f => gsel d v (wls_vec (aat (sm_rc S) i) (cb i (at2 (sm_EF S) i f)) (aat u i) (ub i (at2 (sm_EF S) i f)))) (seq 0 (aat (sm_nf S) i)).

Lemma wls_seen V (G : arr grad) : WLS_ctor S = Some V -> (sm_ne S <= alen G)%nat -> alen V = sm_ne S /\ exists G', WLS_gradients S V u ug G = Some G' /\ alen G' = alen G /\
  forall i, (i < sm_ne S)%nat -> aat G' i = m2grad (m2inv (mkm2 (seen_mat i m11) (seen_mat i m12) (seen_mat i m21) (seen_mat i m22)))
     (mkgrad (mkst (seen_vec i DX)) (mkst (seen_vec i DY))).
Proof.
  intros EV HG. destruct (wls_ctor_ok S OK) as (V1 & E1 & L1 & P1). rewrite EV in E1. injection E1 as <-. split; auto.
  destruct (wls_grad_ok S OK u ug Lu Lg V G L1 HG) as (G' & E & L & P & _). exists G'. split; auto. split; auto. intros i Hi. rewrite P, P1 by auto.
  assert (M : forall phi : mat2 -> R, cellsum S i (fun k => phi (Vk S k)) = seen_mat i phi).
  { intros phi. rewrite (cellsum_edges S OK i _ Hi). apply rsum_ext. intros f Hf. apply in_seq in Hf. unfold Vk. destruct (sides_seen i f Hi ltac:(lia)) as [(A & B & _)|(A & B & _)]; rewrite A, B; auto. rewrite wls_mat_sym. auto. }
  f_equal.
  - unfold Vsum. rewrite !M. reflexivity.
  - apply grad_ext. intros d v.
    assert (N : cellsum S i (fun k => gsel d v (fk S u ug k)) = seen_vec i d v).
    { rewrite (cellsum_edges S OK i _ Hi). apply rsum_ext. intros f Hf. apply in_seq in Hf. unfold fk.
      destruct (sides_seen i f Hi ltac:(lia)) as [(A & B & C & D)|(A & B & C & D)]; rewrite A, B, C, D; auto. apply wls_vec_sym. }
    transitivity (cellsum S i (fun k => gsel d v (fk S u ug k))); [|rewrite N]; destruct d, v; reflexivity.
Qed.
End Gr.

(** ** Reconstructed states in terms of what the cell sees *)
Definition rs_ok (rs : recscheme) : Prop := match rs with RLinear | RAlbada => True | RWENO lambda => 0 < lambda | RBJ | RVenkat _ _ => False end.
(** the gradient WENO uses *)
Definition weno_of (S : smesh) (rs : recscheme) (G : arr grad) (i : nat) : option grad :=
  match rs with RWENO lambda => weno_grad S lambda G i | _ => None end.
(** state on the side of a cell with value [u] and gradient [g], beyond the face [ub] *)
Definition rec_value (rs : recscheme) (lg : option grad) (g : grad) (u ub : st) (gp c cb : v2) : st :=
  match rs with
  | RLinear => linearExtrapolate u g sone gp c | RAlbada => mu_lv c cb u ub g
  | _ => match lg with Some l => weno_val u l gp c | None => u end
  end.

Lemma faces_seen m hs X ghost S rs (u ug : arr st) (G : arr grad) s : built m hs X ghost S -> rs_ok rs ->
  alen u = (sm_ne S + sm_nc S)%nat -> alen ug = sm_nb S -> alen G = (sm_ne S + sm_nc S)%nat -> sized (sm_nf_all S) s ->
  exists s', compute_face_values S rs u ug G s = Some s' /\ sized (sm_nf_all S) s' /\
  forall i k, (i < sm_ne S)%nat -> bounds S i k ->
    own_side S (aat (fst s')) (aat (snd s')) i k = rec_value rs (weno_of S rs G i) (aat G i) (aat u i) (beyond S (aat u) (aat ug) i k) (aat (sm_gr S) k) (aat (sm_rc S) i)
      (beyond S (aat (sm_rc S)) (aat (sm_rcbp S)) i k).
Proof.
  intros B H Lu Lg LG Hs. pose proof (built_sm _ _ _ _ _ B) as OK. destruct rs; cbn [compute_face_values rs_ok rec_value weno_of] in *; try tauto.
  - destruct (C57_formula m hs X ghost S B u G s Lu ltac:(lia) Hs) as (s' & E & Z & P). exists s'. split; auto. split; auto. intros i k Hi (Hk & W). cbv zeta in P. destruct (P k Hk) as (P1 & P2 & _).
    pose proof (lr_ne S k OK Hk) as NE. apply st_ext. intros v. rewrite lim_val, sone_v, Rmult_1_l. unfold own_side. destruct (Nat.eqb_spec (f_left (aat (sm_F S) k)) i) as [Q|Q].
    + rewrite P1, Q. reflexivity.
    + destruct W as [W|W]; [congruence|]. rewrite P2, W. reflexivity. apply right_real; auto. lia.
  - unfold WENO. match goal with |- context [floop _ ?bb s] => set (body := bb) end.
    destruct (cell_loop S OK body (fun i val => exists lg, weno_grad S lambda G i = Some lg /\ val = weno_val (aat u i) lg) s Hs) as (s' & E & SZ & I & _).
    { intros i Hi. destruct (weno_grad_ok S OK lambda G H ltac:(lia) i Hi) as (lg & EL & _). exists (weno_val (aat u i) lg). split; eauto.
      intros t. unfold body. rewrite EL. cbn [bind]. rewrite (aget_ok _ u) by lia. reflexivity. }
    exists s'. split; auto. split; auto. intros i k Hi (Hk & W). destruct (I i Hi) as (val & (lg & EL & ->) & V). destruct (V k Hk) as (V1 & V2). rewrite EL. unfold own_side.
    destruct (Nat.eqb_spec (f_left (aat (sm_F S) k)) i) as [Q|Q]; auto. destruct W; [congruence|auto].
  - destruct (C61_formula m hs X ghost S B u ug G s Lu Lg ltac:(lia) Hs) as (s' & E & Z & P). exists s'. split; auto. split; auto. intros i k Hi (Hk & W).
    apply st_ext. intros v. destruct (P k v Hk) as (P1 & P2 & _). cbv zeta in P1, P2. rewrite left_spec. unfold own_side, beyond.
    destruct (Nat.eqb_spec (f_left (aat (sm_F S) k)) i) as [Q|Q].
    + rewrite P1. unfold left_value. rewrite Q. reflexivity.
    + destruct W as [W|W]; [congruence|]. destruct (right_real S k OK Hk) as (K1 & K2). lia. rewrite P2 by auto. unfold right_value, left_value. destruct (Nat.ltb_spec k (sm_nb S)); [lia|]. rewrite W. reflexivity.
Qed.

Lemma far_of_interior S (l r : nat -> st) i k : sm_ok S -> bounds S i k -> (sm_nb S <= k < sm_nb S + sm_ni S)%nat ->
  (other S i k < sm_ne S)%nat /\ bounds S (other S i k) k /\ far_side S l r i k = own_side S l r (other S i k) k /\
  forall {A} (a ab : nat -> A), beyond S a ab (other S i k) k = a i.
Proof.
  intros OK (Hk & W) K. pose proof (so_int _ OK k K) as J. unfold bounds, far_side, own_side, beyond, other, left_value, right_value.
  destruct (Nat.ltb_spec k (sm_nb S)); [lia|].
  destruct (Nat.eqb_spec (f_left (aat (sm_F S) k)) i) as [Q|Q].
  - destruct (Nat.eqb_spec (f_left (aat (sm_F S) k)) (f_right (aat (sm_F S) k))); [lia|]. split; [lia|]. split; [split; auto|]. split; [reflexivity|]. intros; congruence.
  - rewrite Nat.eqb_refl. destruct W as [W|W]; [congruence|]. split; [lia|]. split; [split; auto|]. split; [reflexivity|]. intros; congruence.
Qed.
Lemma beyond_other S {A} (a ab : nat -> A) i k : sm_ok S -> (k < sm_nf_all S)%nat -> (sm_nb S <= k)%nat -> beyond S a ab i k = a (other S i k).
Proof.
  intros OK Hk K. unfold beyond, other, left_value, right_value. destruct (Nat.ltb_spec k (sm_nb S)); [lia|]. destruct (f_left (aat (sm_F S) k) =? i)%nat; reflexivity.
Qed.
Lemma mid_sym a b : face_mid a b = face_mid b a.
Proof. unfold face_mid. f_equal; lra. Qed.

Lemma weno_same S S' lambda (G G' : arr grad) i i' : sm_ok S -> sm_ok S' -> (i < sm_ne S)%nat -> (i' < sm_ne S')%nat ->
  alen G = (sm_ne S + sm_nc S)%nat -> alen G' = (sm_ne S' + sm_nc S')%nat -> aat (sm_nf S') i' = aat (sm_nf S) i -> aat G' i' = aat G i ->
  (forall f, (f < aat (sm_nf S) i)%nat -> let k := at2 (sm_EF S) i f in let k' := at2 (sm_EF S') i' f in
     ((k < sm_nb S)%nat /\ (k' < sm_nb S')%nat) \/ ((sm_nb S <= k)%nat /\ (sm_nb S' <= k')%nat /\ aat G' (other S' i' k') = aat G (other S i k))) ->
  weno_grad S' lambda G' i' = weno_grad S lambda G i.
Proof.
  intros OK OK' Hi Hi' LG LG' NF GI H. unfold weno_grad. rewrite !aget_ok by (try rewrite (so_nf _ OK); try rewrite (so_nf _ OK'); lia). cbn [bind]. rewrite GI.
  destruct (weno_add lambda (aat G i) (szero, mkgrad szero szero)) as [a0|]; cbn [bind]; auto.
  rewrite NF.
  destruct (so_tab _ OK) as (_ & R2 & R3). specialize (R3 i Hi). destruct (so_tab _ OK') as (_ & R2' & R3'). specialize (R3' i' Hi').
  match goal with |- bind ?x _ = bind ?y _ => assert (Q : x = y); [|rewrite Q; reflexivity] end. apply floop_ext. intros f a Hf.
  rewrite !get2_ok by lia. cbn [bind]. destruct (table_nbr S OK i f Hi Hf) as ((Bk & _) & E). destruct (table_nbr S' OK' i' f Hi' ltac:(lia)) as ((Bk' & _) & E'). cbv zeta in *. rewrite E, E'. specialize (H f Hf). cbv zeta in H.
  set (k := at2 (sm_EF S) i f) in *. set (k' := at2 (sm_EF S') i' f) in *.
  assert (O : forall S i k, sm_ok S -> (i < sm_ne S)%nat -> bounds S i k -> ((k < sm_nb S)%nat -> (sm_ne S + sm_nc S <= other S i k)%nat) /\ ((sm_nb S <= k)%nat -> (other S i k < sm_ne S + sm_nc S)%nat)).
  { clear. intros S i k OK Hi (Hk & W). pose proof (so_left _ OK k Hk). unfold other. split; intros K.
    - pose proof (so_phy _ OK k K). destruct (Nat.eqb_spec (f_left (aat (sm_F S) k)) i); lia.
    - pose proof (right_lt S k OK ltac:(lia)). destruct (Nat.eqb_spec (f_left (aat (sm_F S) k)) i); lia. }
  destruct (O S i k OK Hi (proj1 (table_nbr S OK i f Hi Hf))) as (O1 & O2). destruct (O S' i' k' OK' Hi' (proj1 (table_nbr S' OK' i' f Hi' ltac:(lia)))) as (O1' & O2').
  destruct H as [(K & K')|(K & K' & Q)].
  - destruct (Z.leb_spec (Z.of_nat (sm_ne S + sm_nc S)) (Z.of_nat (other S i k))); [|lia]. destruct (Z.leb_spec (Z.of_nat (sm_ne S' + sm_nc S')) (Z.of_nat (other S' i' k'))); [|lia]. reflexivity.
  - destruct (Z.leb_spec (Z.of_nat (sm_ne S + sm_nc S)) (Z.of_nat (other S i k))); [lia|]. destruct (Z.leb_spec (Z.of_nat (sm_ne S' + sm_nc S')) (Z.of_nat (other S' i' k'))); [lia|].
    rewrite !zget_ok by lia. cbn [bind]. rewrite Q. reflexivity.
Qed.

(** ** What a second-order residual evaluation leaves behind *)
Section Run.
Variables (m : umesh) (hs : list (nat * nat)) (X : arr v2) (ghost : nat -> v2) (S : smesh).
Hypothesis B : built m hs X ghost S.
Variables (fl : flow) (bc : nat -> flowbc) (gs : gradscheme) (rs : recscheme) (gg : nat -> grad) (rf : nat -> st).
Variables (u ul0 ur0 res : arr st) (G0 : arr grad) (jp : nat -> st) (dt : option (arr R)) (out : resout).
Hypothesis C : bcs_cover S fl bc.
Hypothesis Lu : alen u = (sm_ne S + sm_nc S)%nat.
Hypothesis L0 : alen ul0 = sm_nf_all S.
Hypothesis R0 : alen ur0 = sm_nf_all S.
Hypothesis LR : alen res = sm_ne S.
Hypothesis LG : alen G0 = (sm_ne S + sm_nc S)%nat.
Hypothesis RS : rs_ok rs.
Hypothesis VS : match gs with GLeastSquares V => alen V = sm_ne S | _ => True end.
Hypothesis E : compute_residual2 S fl gs rs gg rf u ul0 ur0 res G0 jp dt = Some out.
Let ga := fl_gas fl.

Lemma run_facts : exists up ug G1, alen up = (sm_ne S + sm_nc S)%nat /\ alen ug = sm_nb S /\
  (forall i, (i < sm_ne S + sm_nc S)%nat -> aat up i = getPrimitiveFromConserved ga (aat u i)) /\
  (forall k, (k < sm_nb S)%nat -> aat ug k = getPrimitiveFromConserved_inplace ga (bghost S fl bc u k)) /\
  compute_gradients S gs up ug G0 = Some G1 /\ alen (ro_grad out) = (sm_ne S + sm_nc S)%nat /\
  alen (ro_left out) = sm_nf_all S /\ alen (ro_right out) = sm_nf_all S /\
  (forall i, (i < sm_ne S)%nat -> aat (ro_grad out) i = aat G1 i) /\
  (forall q, (q < sm_nc S)%nat -> aat (ro_grad out) (sm_ne S + q)%nat = gg q) /\
  (forall i k, (i < sm_ne S)%nat -> bounds S i k -> own_side S (aat (ro_left out)) (aat (ro_right out)) i k =
     getConservedFromPrimitive_inplace ga (rec_value rs (weno_of S rs (ro_grad out) i) (aat (ro_grad out) i) (aat up i) (beyond S (aat up) (aat ug) i k)
        (aat (sm_gr S) k) (aat (sm_rc S) i) (beyond S (aat (sm_rc S)) (aat (sm_rcbp S)) i k))) /\
  (forall k, (k < sm_nb S)%nat -> aat (ro_right out) k = ghost_state ga (bc k) (aat (ro_left out) k) (fm_n (aat (sm_M S) k))) /\
  (forall q, (q < sm_nc S)%nat -> aat (ro_right out) (sm_nb S + sm_ni S + q)%nat = rf q).
Proof.
  pose proof (built_sm _ _ _ _ _ B) as OK.
  destruct (residual2_ok S fl bc gs rs gg rf u ul0 ur0 res G0 jp dt OK C Lu L0 R0 LR) as (up & ug & s1 & A1 & A2 & A3 & A4 & A5 & K).
  destruct (gradients_run S gs up ug G0 OK VS A1 A2 LG) as (G1 & EG & LG1).
  set (G2 := if is_weno rs then ghost_gradients S gg G1 else G1) in *.
  assert (LG2 : alen G2 = (sm_ne S + sm_nc S)%nat) by (unfold G2; destruct (is_weno rs); auto).
  destruct (faces_seen m hs X ghost S rs up ug G2 s1 B RS A1 A2 LG2 A3) as ((ul3 & ur3) & ER & Z & FS).
  destruct (K G1 ul3 ur3 EG LG1 ER Z) as (ul & ur & G & res' & B1 & B2 & B3 & B4 & B5 & E' & _). rewrite E in E'.
  destruct (maybe_dt S fl ul ur dt) as [dt'|]; [|discriminate]. cbn [bind] in E'. injection E' as ->. cbn [ro_grad ro_left ro_right].
  assert (GI : forall i, (i < sm_ne S)%nat -> aat G i = aat G1 i). { intros i Hi. rewrite B5 by lia. unfold grad2. destruct (Nat.ltb_spec i (sm_ne S)); [auto|lia]. }
  assert (GQ : forall q, (q < sm_nc S)%nat -> aat G (sm_ne S + q)%nat = gg q). { intros q Hq. rewrite B5 by lia. unfold grad2. destruct (Nat.ltb_spec (sm_ne S + q) (sm_ne S)); [lia|]. f_equal. lia. }
  exists up, ug, G1. split; auto. split; auto. split; auto. split; auto. split; auto. split; auto. split; auto. split; auto. split; auto. split; auto. split; [|split].
  - intros i k Hi Bk. pose proof Bk as (Hk & W). cbn [fst snd] in FS.
    assert (T : own_side S (aat ul) (aat ur) i k = getConservedFromPrimitive_inplace ga (own_side S (aat ul3) (aat ur3) i k)).
    { unfold own_side. destruct (B4 k Hk) as (Q1 & Q2). rewrite Q1, Q2. destruct (Nat.eqb_spec (f_left (aat (sm_F S) k)) i) as [Q|Q]; [reflexivity|].
      destruct W as [W|W]; [congruence|]. destruct (right_real S k OK Hk) as (K1 & K2). lia. unfold right2. destruct (Nat.ltb_spec k (sm_nb S)); [lia|]. destruct (Nat.ltb_spec k (sm_nb S + sm_ni S)); [reflexivity|lia]. }
    rewrite T, FS by auto. f_equal.
    assert (G2I : aat G2 i = aat G i). { rewrite GI by auto. unfold G2. destruct (is_weno rs); auto. cbn. destruct (Nat.ltb_spec i (sm_ne S)); [auto|lia]. }
    rewrite G2I. destruct rs; cbn [rec_value weno_of]; auto.
    rewrite (weno_same S S lambda G G2 i i); auto. intros f Hf. cbv zeta. destruct (table_nbr S OK i f Hi Hf) as (Bf & _). set (kf := at2 (sm_EF S) i f) in *. destruct (Nat.lt_ge_cases kf (sm_nb S)) as [D1|D1]; [left; auto|right]. split; auto. split; auto.
    assert (O : (other S i kf < sm_ne S + sm_nc S)%nat). { destruct Bf as (Hkf & _). pose proof (so_left _ OK kf Hkf). pose proof (right_lt S kf OK ltac:(lia)). unfold other. destruct (Nat.eqb_spec (f_left (aat (sm_F S) kf)) i); lia. }
    rewrite B5 by auto. reflexivity.
  - intros k Hk. destruct (B4 k ltac:(unfold sm_nf_all; lia)) as (Q1 & Q2). rewrite Q1, Q2. unfold right2. destruct (Nat.ltb_spec k (sm_nb S)); [reflexivity|lia].
  - intros q Hq. destruct (B4 (sm_nb S + sm_ni S + q)%nat ltac:(unfold sm_nf_all; lia)) as (_ & Q2). rewrite Q2. unfold right2. destruct (Nat.ltb_spec (sm_nb S + sm_ni S + q) (sm_nb S)); [lia|]. destruct (Nat.ltb_spec (sm_nb S + sm_ni S + q) (sm_nb S + sm_ni S)); [lia|]. f_equal. lia.
Qed.
End Run.

(** ** A rank's mesh against the whole mesh *)
Section Same2.
Variables (g : gmesh) (hs : list (nat * nat)) (lm : lmesh).
Hypothesis SM : sub_mesh g hs lm.
Variables (gh : nat -> v2) (S S' : smesh) (hs' : list (nat * nat)) (gh' : nat -> v2).
Hypothesis B : built (g_m g) hs (g_X g) gh S.
Hypothesis B' : built (l_m lm) hs' (l_X lm) gh' S'.
Hypothesis HG : forall k cf, nth_error (conns (l_m lm)) k = Some cf -> gh' k = aat (sm_rc S) (Z.to_nat (cf_gelem cf)).
Hypothesis D : distinct_ends (g_m g) (g_X g).
Variables (fl : flow) (bc bc' : nat -> flowbc).
Hypothesis BC : forall q bf t r, nth_error (bfaces (g_m g)) q = Some bf -> btg bf = t :: r -> mfind (fl_bcs fl) t = Some (bc q).
Hypothesis BT : forall bf, In bf (bfaces (g_m g)) -> btg bf <> [].
Hypothesis BC' : forall q bf t r, nth_error (bfaces (l_m lm)) q = Some bf -> btg bf = t :: r -> mfind (fl_bcs fl) t = Some (bc' q).
Notation el l := (aat (l_eglob lm) l).

Lemma counts : sm_ne S = nelem (g_m g) /\ sm_nc S = 0%nat /\ sm_ne S' = nelem (l_m lm) /\ sm_nc S' = nconnface (l_m lm) /\
  (forall l, (l < nelem (l_m lm))%nat -> aat (sm_nf S') l = length (cell (cells (l_m lm)) l)) /\
  (forall l, (l < nelem (l_m lm))%nat -> (el l < sm_ne S)%nat /\ aat (sm_nf S) (el l) = aat (sm_nf S') l /\ aat (sm_A S') l = aat (sm_A S) (el l)).
Proof.
  destruct SM as (SER & F1 & F4 & F5 & F6).
  destruct (built_ok _ _ _ _ _ B) as (p & e & ni & s & il & _ & OK & E1 & _ & _ & E4 & _ & _ & EA & _ & _ & En & _).
  destruct (built_ok _ _ _ _ _ B') as (p' & e' & ni' & s' & il' & _ & OK' & E1' & _ & _ & E4' & _ & _ & EA' & _ & _ & En' & _).
  split; auto. split. { rewrite E4. unfold nconnface. rewrite SER. reflexivity. } split; auto. split; auto. split; auto.
  intros l Hl. destruct (F1 l Hl) as (A1 & A3 & A4 & A5). split; [lia|]. split; [rewrite En, En', A3 by auto; reflexivity|].
  rewrite EA, EA' by auto. f_equal. apply (nth_ext _ _ vzero vzero). rewrite !map_length; auto. intros n Hn. rewrite map_length in Hn.
  rewrite (map_nth_in _ _ _ _ n vzero 0%nat) by auto. rewrite (map_nth_in _ _ _ _ n vzero 0%nat) by lia. apply (A4 n). lia.
Qed.

Lemma same_view l f : (l < nelem (l_m lm))%nat -> (f < aat (sm_nf S') l)%nat -> let k' := at2 (sm_EF S') l f in let i := el l in let k := at2 (sm_EF S) i f in
  (bounds S' l k' /\ bounds S i k) /\
  (aat (sm_gr S') k' = aat (sm_gr S) k /\ fm_len (aat (sm_M S') k') = fm_len (aat (sm_M S) k) /\ out_normal S' l k' = out_normal S i k /\ unit_vec (fm_n (aat (sm_M S) k)) /\ unit_vec (fm_n (aat (sm_M S') k'))) /\
  (((k' < sm_nb S')%nat /\ (k < sm_nb S)%nat /\ bc' k' = bc k /\ f_left (aat (sm_F S') k') = l /\ f_left (aat (sm_F S) k) = i) \/
   ((sm_nb S' <= k' < sm_nb S' + sm_ni S')%nat /\ (sm_nb S <= k < sm_nb S + sm_ni S)%nat /\ (other S' l k' < nelem (l_m lm))%nat /\ other S i k = el (other S' l k')) \/
   (exists q cf, k' = (sm_nb S' + sm_ni S' + q)%nat /\ nth_error (conns (l_m lm)) q = Some cf /\ (q < sm_nc S')%nat /\ cf_elem cf = l /\ cf_face cf = f /\ other S' l k' = (nelem (l_m lm) + q)%nat /\
      f_left (aat (sm_F S') k') = l /\ (sm_nb S <= k < sm_nb S + sm_ni S)%nat /\ other S i k = Z.to_nat (cf_gelem cf))).
Proof.
  intros Hl Hf. cbv zeta. destruct counts as (N1 & N2 & N3 & N4 & N5 & N6). destruct (N6 l Hl) as (Hi & N7 & _). rewrite (N5 l Hl) in Hf, N7.
  destruct SM as (SER & F1 & F4 & F5 & F6).
  destruct (F1 l Hl) as (A1 & A3 & A4 & A5). assert (Hf' := Hf). rewrite A3 in Hf'. destruct (A4 f Hf') as (X1 & X2).
  pose proof B as (T & _). pose proof B' as (T' & _).
  destruct (built_ok _ _ _ _ _ B) as (p & e & ni & s & il & _ & OK & E1 & E2 & E3 & E4 & E5 & E6 & _).
  destruct (built_ok _ _ _ _ _ B') as (p' & e' & ni' & s' & il' & _ & OK' & E1' & E2' & E3' & E4' & E5' & E6' & _).
  pose proof (edge_cases _ _ _ _ _ B (el l) f A1 Hf') as V. pose proof (edge_cases _ _ _ _ _ B' l f Hl Hf) as V'. cbv zeta in V, V'.
  destruct V as (Hk & V). destruct V' as (Hk' & V'). set (i := el l) in *. set (k := at2 (sm_EF S) i f) in *. set (k' := at2 (sm_EF S') l f) in *.
  pose proof (lr_ne S k OK Hk) as NE. pose proof (lr_ne S' k' OK' Hk') as NE'. pose proof (D i f A1 Hf') as DD.
  assert (Bd : bounds S i k). { split; auto. destruct V as [V|[V|[V|V]]]; [| | |destruct V as (? & ? & ? & ? & V)]; tauto. }
  assert (Bd' : bounds S' l k'). { split; auto. destruct V' as [V'|[V'|[V'|V']]]; [| | |destruct V' as (? & ? & ? & ? & V')]; tauto. }
  (* geometry from either direction *)
  assert (GE : aat (sm_gr S) k = face_mid (aat (g_X g) (fst (edge (cell (cells (g_m g)) i) f))) (aat (g_X g) (snd (edge (cell (cells (g_m g)) i) f))) /\
     fm_len (aat (sm_M S) k) = fm_len (face_metric (aat (g_X g) (fst (edge (cell (cells (g_m g)) i) f))) (aat (g_X g) (snd (edge (cell (cells (g_m g)) i) f)))) /\
     out_normal S i k = fm_n (face_metric (aat (g_X g) (fst (edge (cell (cells (g_m g)) i) f))) (aat (g_X g) (snd (edge (cell (cells (g_m g)) i) f)))) /\ unit_vec (fm_n (aat (sm_M S) k))).
  { rewrite (so_mid _ OK k Hk), (so_met _ OK k Hk), E6. unfold out_normal. rewrite (so_met _ OK k Hk), E6. pose proof (metric_unit _ _ DD) as U.
    assert (FW : (f_left (aat (sm_F S) k) = i /\ (f_a (aat (sm_F S) k), f_b (aat (sm_F S) k)) = edge (cell (cells (g_m g)) i) f) \/ (f_right (aat (sm_F S) k) = i /\ (f_b (aat (sm_F S) k), f_a (aat (sm_F S) k)) = edge (cell (cells (g_m g)) i) f)).
    { destruct V as [V|[V|[V|V]]]; [| | |destruct V as (? & ? & V)]; tauto. }
    destruct FW as [(L & Ed)|(L & Ed)]; rewrite <- Ed in *; cbn [fst snd] in *.
    - rewrite L, Nat.eqb_refl. split; auto. split; auto. split; auto. unfold unit_vec, dot2 in *. lra.
    - destruct (Nat.eqb_spec (f_left (aat (sm_F S) k)) i) as [Q|Q]; [congruence|]. rewrite mid_sym. split; auto. rewrite (metric_rev _ _ DD). cbn [fm_len fm_n].
      split; auto. unfold unit_vec, dot2, vneg in *. cbn [vx vy]. split; [|lra]. destruct (fm_n _); cbn; f_equal; ring. }
  assert (GE' : aat (sm_gr S') k' = face_mid (aat (g_X g) (fst (edge (cell (cells (g_m g)) i) f))) (aat (g_X g) (snd (edge (cell (cells (g_m g)) i) f))) /\
     fm_len (aat (sm_M S') k') = fm_len (face_metric (aat (g_X g) (fst (edge (cell (cells (g_m g)) i) f))) (aat (g_X g) (snd (edge (cell (cells (g_m g)) i) f)))) /\
     out_normal S' l k' = fm_n (face_metric (aat (g_X g) (fst (edge (cell (cells (g_m g)) i) f))) (aat (g_X g) (snd (edge (cell (cells (g_m g)) i) f)))) /\ unit_vec (fm_n (aat (sm_M S') k'))).
  { rewrite (so_mid _ OK' k' Hk'), (so_met _ OK' k' Hk'), E6'. unfold out_normal. rewrite (so_met _ OK' k' Hk'), E6'. rewrite <- X1, <- X2 in DD |- *. pose proof (metric_unit _ _ DD) as U.
    assert (FW : (f_left (aat (sm_F S') k') = l /\ (f_a (aat (sm_F S') k'), f_b (aat (sm_F S') k')) = edge (cell (cells (l_m lm)) l) f) \/ (f_right (aat (sm_F S') k') = l /\ (f_b (aat (sm_F S') k'), f_a (aat (sm_F S') k')) = edge (cell (cells (l_m lm)) l) f)).
    { destruct V' as [V'|[V'|[V'|V']]]; [| | |destruct V' as (? & ? & V')]; tauto. }
    destruct FW as [(L & Ed)|(L & Ed)]; rewrite <- Ed in *; cbn [fst snd] in *.
    - rewrite L, Nat.eqb_refl. split; auto. split; auto. split; auto. unfold unit_vec, dot2 in *. lra.
    - destruct (Nat.eqb_spec (f_left (aat (sm_F S') k')) l) as [Q|Q]; [congruence|]. rewrite mid_sym. split; auto. rewrite (metric_rev _ _ DD). cbn [fm_len fm_n].
      split; auto. unfold unit_vec, dot2, vneg in *. cbn [vx vy]. split; [|lra]. destruct (fm_n _); cbn; f_equal; ring. }
  destruct GE as (G1 & G2 & G3 & G4). destruct GE' as (G1' & G2' & G3' & G4').
  split; [split; assumption|]. split; [split; [congruence|]; split; [congruence|]; split; [congruence|]; split; assumption|].
  (* what the whole mesh has beyond an interior face *)
  assert (INT : forall j, across (cells (g_m g)) i f j -> (sm_nb S <= k < sm_nb S + sm_ni S)%nat /\ other S i k = j).
  { intros j Ac. unfold other. destruct V as [(K & Eh & L & Ed)|[(K & L & Ac' & Ed)|[(K & L & Ac' & Ed)|(q & cf & K & Hq & Ec & _)]]].
    - exfalso. eapply host_no_across; [exact T|exact Eh|exact Ac].
    - split; auto. rewrite L, Nat.eqb_refl. exact (gm_conf _ _ (tl_good _ _ T) _ _ _ _ Ac' Ac).
    - split; auto. destruct (Nat.eqb_spec (f_left (aat (sm_F S) k)) i) as [Q|Q]; [congruence|]. exact (gm_conf _ _ (tl_good _ _ T) _ _ _ _ Ac' Ac).
    - exfalso. eapply (no_conn g); [exact SER|eapply nth_error_In; exact Ec]. }
  destruct V' as [(K & Eh & L & Ed)|[(K & L & Ac & Ed)|[(K & L & Ac & Ed)|(q & cf & K & Hq & Ec & C1 & C2 & L & Ed)]]].
  - left. destruct (nth_error_some _ (bfaces (l_m lm)) k') as (bf & Eb). { unfold nbface in E2'. lia. }
    destruct (F6 hs' k' bf l f T' Eb Eh) as (p1 & gb & P1 & P2 & P3). fold i in P2.
    destruct V as [(K2 & Eh2 & L2 & _)|[(_ & _ & Ac & _)|[(_ & _ & Ac & _)|(q & cf & _ & _ & Ec & _)]]].
    + pose proof (tl_nodup _ _ T) as ND. apply nodup_app in ND. destruct ND as (ND & _). pose proof (nodup_nth_error _ _ _ _ ND P2 Eh2) as Q. rewrite Q in P1.
      split; auto. split; auto. split; auto.
      destruct (btg gb) as [|t r] eqn:Et; [exfalso; eapply BT; [eapply nth_error_In; exact P1|exact Et]|].
      pose proof (BC _ gb t r P1 Et). pose proof (BC' k' bf t r Eb P3). congruence.
    + exfalso. eapply host_no_across; [exact T|exact P2|exact Ac].
    + exfalso. eapply host_no_across; [exact T|exact P2|exact Ac].
    + exfalso. eapply (no_conn g); [exact SER|eapply nth_error_In; exact Ec].
  - right; left. pose proof (F4 l f _ Ac) as AG. fold i in AG. destruct (INT _ AG) as (I1 & I2). unfold other at 1 3. rewrite L, Nat.eqb_refl. split; auto. split; auto. split; auto. apply Ac.
  - right; left. pose proof (F4 l f _ Ac) as AG. fold i in AG. destruct (INT _ AG) as (I1 & I2). unfold other at 1 3. destruct (Nat.eqb_spec (f_left (aat (sm_F S') k')) l) as [Q|Q]; [congruence|].
    split; auto. split; auto. split; auto. apply Ac.
  - right; right. destruct (F5 cf (nth_error_In _ _ Ec)) as (j & I1 & I2 & _). rewrite C1, C2 in I1. fold i in I1. destruct (INT _ I1) as (J1 & J2).
    exists q, cf. split; auto. split; auto. split; auto. split; auto. split; auto.
    assert (O : other S' l k' = (nelem (l_m lm) + q)%nat). { unfold other. rewrite L, Nat.eqb_refl. rewrite (so_con _ OK' k') by lia. lia. }
    rewrite O, J2, I2, Nat2Z.id. auto.
Qed.

(** values on a rank's cells and ghost cells are those of the whole mesh *)
Definition agree {A} (a a' : nat -> A) : Prop :=
  (forall l, (l < nelem (l_m lm))%nat -> a' l = a (el l)) /\
  (forall q cf, nth_error (conns (l_m lm)) q = Some cf -> a' (nelem (l_m lm) + q)%nat = a (Z.to_nat (cf_gelem cf))).

Lemma beyond_same {A} (a a' ab ab' : nat -> A) l f : (l < nelem (l_m lm))%nat -> (f < aat (sm_nf S') l)%nat -> agree a a' ->
  let k' := at2 (sm_EF S') l f in let k := at2 (sm_EF S) (el l) f in ((k' < sm_nb S')%nat -> (k < sm_nb S)%nat -> ab' k' = ab k) ->
  beyond S' a' ab' l k' = beyond S a ab (el l) k.
Proof.
  intros Hl Hf (A1 & A2) k' k H. destruct (same_view l f Hl Hf) as (((Bd' & _) & (Bd & _)) & _ & V). fold k' k in Bd, Bd', V. cbv zeta in V.
  pose proof (built_sm _ _ _ _ _ B) as OK. pose proof (built_sm _ _ _ _ _ B') as OK'.
  destruct V as [(K' & K & _ & L' & L)|[(K' & K & O & V)|(q & cf & Q & Ec & _ & _ & _ & O & _ & K & V)]].
  - unfold beyond, right_value. rewrite L, L', !Nat.eqb_refl. destruct (Nat.ltb_spec k (sm_nb S)); [|lia]. destruct (Nat.ltb_spec k' (sm_nb S')); [|lia]. auto.
  - rewrite !beyond_other by (auto; lia). rewrite V. apply A1; auto.
  - rewrite !beyond_other by (auto; lia). rewrite V, O. apply A2; auto.
Qed.

Lemma agree_centres : agree (aat (sm_rc S)) (aat (sm_rc S')).
Proof.
  split.
  - intros l Hl. exact (local_centre g hs lm SM gh S S' hs' gh' B B' l Hl).
  - intros q cf Ec. destruct (built_ok _ _ _ _ _ B') as (p' & e' & ni' & s' & il' & _ & _ & E1' & _ & _ & _ & _ & _ & _ & _ & EG & _).
    rewrite EG. apply HG; auto. unfold nconnface. apply nth_error_Some. congruence.
Qed.
Lemma centre_beyond l f : (l < nelem (l_m lm))%nat -> (f < aat (sm_nf S') l)%nat ->
  beyond S' (aat (sm_rc S')) (aat (sm_rcbp S')) l (at2 (sm_EF S') l f) = beyond S (aat (sm_rc S)) (aat (sm_rcbp S)) (el l) (at2 (sm_EF S) (el l) f).
Proof.
  intros Hl Hf. apply beyond_same; auto. apply agree_centres. intros K' K.
  pose proof (built_sm _ _ _ _ _ B) as OK. pose proof (built_sm _ _ _ _ _ B') as OK'.
  destruct (same_view l f Hl Hf) as (_ & (V1 & _) & V). cbv zeta in V, V1. destruct V as [(_ & _ & _ & L' & L)|[(W & _)|(q & cf & Q & _)]]; [|lia|lia].
  rewrite (so_bp _ OK), (so_bp _ OK') by auto. rewrite V1, L, L'. rewrite (proj1 agree_centres l Hl). reflexivity.
Qed.

Section Fields.
Variables (u u' ug ug' : arr st).
Hypothesis Lu : alen u = (sm_ne S + sm_nc S)%nat.
Hypothesis Lg : alen ug = sm_nb S.
Hypothesis Lu' : alen u' = (sm_ne S' + sm_nc S')%nat.
Hypothesis Lg' : alen ug' = sm_nb S'.
Hypothesis AU : agree (aat u) (aat u').
Hypothesis AG : forall l f, (l < nelem (l_m lm))%nat -> (f < aat (sm_nf S') l)%nat -> (at2 (sm_EF S') l f < sm_nb S')%nat -> (at2 (sm_EF S) (el l) f < sm_nb S)%nat ->
  aat ug' (at2 (sm_EF S') l f) = aat ug (at2 (sm_EF S) (el l) f).

Definition same_scheme (gs gs' : gradscheme) : Prop := match gs, gs' with
  | GZero, GZero | GGreenGauss, GGreenGauss => True
  | GLeastSquares V, GLeastSquares V' => WLS_ctor S = Some V /\ WLS_ctor S' = Some V'
  | _, _ => False end.

Lemma value_beyond l f : (l < nelem (l_m lm))%nat -> (f < aat (sm_nf S') l)%nat ->
  beyond S' (aat u') (aat ug') l (at2 (sm_EF S') l f) = beyond S (aat u) (aat ug) (el l) (at2 (sm_EF S) (el l) f).
Proof. intros Hl Hf. apply beyond_same; auto. Qed.

Lemma grads_same gs gs' (G0 G0' G1 G1' : arr grad) : same_scheme gs gs' -> (sm_ne S <= alen G0)%nat -> (sm_ne S' <= alen G0')%nat ->
  compute_gradients S gs u ug G0 = Some G1 -> compute_gradients S' gs' u' ug' G0' = Some G1' ->
  forall l, (l < nelem (l_m lm))%nat -> aat G1' l = aat G1 (el l).
Proof.
  intros SS L0 L0' E E' l Hl. destruct counts as (N1 & N2 & N3 & N4 & N5 & N6). destruct (N6 l Hl) as (Hi & N7 & N8).
  pose proof (built_sm _ _ _ _ _ B) as OK. pose proof (built_sm _ _ _ _ _ B') as OK'.
  destruct gs, gs'; cbn [same_scheme compute_gradients] in *; try tauto.
  - destruct (zero_ok S G0 L0) as (Z & Q & _ & P & _). destruct (zero_ok S' G0' L0') as (Z' & Q' & _ & P' & _). unfold ZeroGradients in *.
    rewrite Q in E. rewrite Q' in E'. injection E as <-. injection E' as <-. rewrite P, P' by lia. reflexivity.
  - destruct (gg_seen S u ug OK Lu Lg G0 L0) as (Z & Q & _ & P). destruct (gg_seen S' u' ug' OK' Lu' Lg' G0' L0') as (Z' & Q' & _ & P').
    rewrite Q in E. rewrite Q' in E'. injection E as <-. injection E' as <-. apply grad_ext. intros d v. rewrite P, P' by lia. rewrite N8, N7. f_equal.
    apply rsum_ext. intros f Hf. apply in_seq in Hf. destruct (same_view l f Hl ltac:(lia)) as (_ & (V1 & V2 & V3 & _) & _). cbv zeta in *.
    rewrite V1, V2, V3, (centre_beyond l f), (value_beyond l f), (proj1 agree_centres l Hl), (proj1 AU l Hl) by (auto; lia). reflexivity.
  - destruct SS as (W & W'). destruct (wls_seen S u ug OK Lu Lg V G0 W L0) as (_ & Z & Q & _ & P). destruct (wls_seen S' u' ug' OK' Lu' Lg' V0 G0' W' L0') as (_ & Z' & Q' & _ & P').
    rewrite Q in E. rewrite Q' in E'. injection E as <-. injection E' as <-. rewrite P, P' by lia.
    assert (M : forall phi, seen_mat S' l phi = seen_mat S (el l) phi).
    { intros phi. unfold seen_mat. rewrite N7. apply rsum_ext. intros f Hf. apply in_seq in Hf. rewrite (centre_beyond l f), (proj1 agree_centres l Hl) by (auto; lia). reflexivity. }
    assert (M2 : forall d v, seen_vec S' u' ug' l d v = seen_vec S u ug (el l) d v).
    { intros d v. unfold seen_vec. rewrite N7. apply rsum_ext. intros f Hf. apply in_seq in Hf. rewrite (centre_beyond l f), (value_beyond l f), (proj1 agree_centres l Hl), (proj1 AU l Hl) by (auto; lia). reflexivity. }
    rewrite !M. f_equal. apply grad_ext. intros d v. unfold gsel. destruct d; cbn [gx gy]; rewrite !cget_mkst; apply M2.
Qed.
End Fields.

(** *** Two evaluations of the residual *)
Section Runs.
Variables (gs gs' : gradscheme) (rs : recscheme) (gg gg' : nat -> grad) (rf rf' : nat -> st).
Variables (u ul0 ur0 res u' ul0' ur0' res' : arr st) (G0 G0' : arr grad) (jp jp' : nat -> st) (dt dt' : option (arr R)) (out out' : resout).
Hypothesis C : bcs_cover S fl bc.
Hypothesis C' : bcs_cover S' fl bc'.
Hypothesis Lu : alen u = (sm_ne S + sm_nc S)%nat.
Hypothesis L0 : alen ul0 = sm_nf_all S.
Hypothesis R0 : alen ur0 = sm_nf_all S.
Hypothesis LR : alen res = sm_ne S.
Hypothesis LG : alen G0 = (sm_ne S + sm_nc S)%nat.
Hypothesis Lu' : alen u' = (sm_ne S' + sm_nc S')%nat.
Hypothesis L0' : alen ul0' = sm_nf_all S'.
Hypothesis R0' : alen ur0' = sm_nf_all S'.
Hypothesis LR' : alen res' = sm_ne S'.
Hypothesis LG' : alen G0' = (sm_ne S' + sm_nc S')%nat.
Hypothesis RS : rs_ok rs.
Hypothesis SS : same_scheme gs gs'.
Hypothesis E : compute_residual2 S fl gs rs gg rf u ul0 ur0 res G0 jp dt = Some out.
Hypothesis E' : compute_residual2 S' fl gs' rs gg' rf' u' ul0' ur0' res' G0' jp' dt' = Some out'.
Hypothesis AU : agree (aat u) (aat u').

Lemma vs_ok : match gs with GLeastSquares V => alen V = sm_ne S | _ => True end /\ match gs' with GLeastSquares V => alen V = sm_ne S' | _ => True end.
Proof.
  pose proof (built_sm _ _ _ _ _ B) as OK. pose proof (built_sm _ _ _ _ _ B') as OK'. destruct gs, gs'; cbn [same_scheme] in SS; try tauto. destruct SS as (W & W').
  destruct (wls_ctor_ok S OK) as (V1 & Q & L1 & _). rewrite W in Q. injection Q as <-. destruct (wls_ctor_ok S' OK') as (V2 & Q & L2 & _). rewrite W' in Q. injection Q as <-. auto.
Qed.

Lemma ghosts_same l f : (l < nelem (l_m lm))%nat -> (f < aat (sm_nf S') l)%nat -> (at2 (sm_EF S') l f < sm_nb S')%nat -> (at2 (sm_EF S) (el l) f < sm_nb S)%nat ->
  bghost S' fl bc' u' (at2 (sm_EF S') l f) = bghost S fl bc u (at2 (sm_EF S) (el l) f).
Proof.
  intros Hl Hf K' K. destruct (same_view l f Hl Hf) as (_ & (_ & _ & V3 & _) & V). cbv zeta in *. destruct V as [(_ & _ & V & L' & L)|[(W & _)|(q & cf & Q & _)]]; [|lia|lia].
  unfold bghost, left_value. unfold out_normal in V3. rewrite L, L' in *. rewrite !Nat.eqb_refl in V3. rewrite V3, V, (proj1 AU l Hl). reflexivity.
Qed.

(** primitive fields of the two runs *)
Lemma prims_agree (up up' : arr st) : (forall i, (i < sm_ne S + sm_nc S)%nat -> aat up i = getPrimitiveFromConserved (fl_gas fl) (aat u i)) ->
  (forall i, (i < sm_ne S' + sm_nc S')%nat -> aat up' i = getPrimitiveFromConserved (fl_gas fl) (aat u' i)) -> agree (aat up) (aat up').
Proof.
  intros P P'. destruct counts as (N1 & N2 & N3 & N4 & N5 & N6). destruct SM as (SER & F1 & F4 & F5 & F6). split.
  - intros l Hl. destruct (N6 l Hl) as (Hi & _). rewrite P, P' by lia. rewrite (proj1 AU l Hl). reflexivity.
  - intros q cf Ec. assert (Hq : (q < nconnface (l_m lm))%nat) by (unfold nconnface; apply nth_error_Some; congruence).
    destruct (F5 cf (nth_error_In _ _ Ec)) as (j & I & I2 & _). assert (Hj : (j < nelem (g_m g))%nat) by apply I.
    rewrite P, P' by (rewrite ?I2, ?Nat2Z.id; lia). rewrite (proj2 AU q cf Ec). reflexivity.
Qed.

Lemma run_grads : (forall l, (l < nelem (l_m lm))%nat -> aat (ro_grad out') l = aat (ro_grad out) (el l)) /\
  exists up ug up' ug', agree (aat up) (aat up') /\
   (forall l f, (l < nelem (l_m lm))%nat -> (f < aat (sm_nf S') l)%nat -> beyond S' (aat up') (aat ug') l (at2 (sm_EF S') l f) = beyond S (aat up) (aat ug) (el l) (at2 (sm_EF S) (el l) f)) /\
   (forall i k, (i < sm_ne S)%nat -> bounds S i k -> own_side S (aat (ro_left out)) (aat (ro_right out)) i k =
     getConservedFromPrimitive_inplace (fl_gas fl) (rec_value rs (weno_of S rs (ro_grad out) i) (aat (ro_grad out) i) (aat up i) (beyond S (aat up) (aat ug) i k)
        (aat (sm_gr S) k) (aat (sm_rc S) i) (beyond S (aat (sm_rc S)) (aat (sm_rcbp S)) i k))) /\
   (forall i k, (i < sm_ne S')%nat -> bounds S' i k -> own_side S' (aat (ro_left out')) (aat (ro_right out')) i k =
     getConservedFromPrimitive_inplace (fl_gas fl) (rec_value rs (weno_of S' rs (ro_grad out') i) (aat (ro_grad out') i) (aat up' i) (beyond S' (aat up') (aat ug') i k)
        (aat (sm_gr S') k) (aat (sm_rc S') i) (beyond S' (aat (sm_rc S')) (aat (sm_rcbp S')) i k))).
Proof.
  destruct counts as (N1 & N2 & N3 & N4 & N5 & N6). destruct vs_ok as (V1 & V2).
  destruct (run_facts _ _ _ _ _ B fl bc gs rs gg rf u ul0 ur0 res G0 jp dt out C Lu L0 R0 LR LG RS V1 E) as (up & ug & G1 & A1 & A2 & A3 & A4 & A5 & A6 & A7 & A8 & A9 & A10 & A11 & _).
  destruct (run_facts _ _ _ _ _ B' fl bc' gs' rs gg' rf' u' ul0' ur0' res' G0' jp' dt' out' C' Lu' L0' R0' LR' LG' RS V2 E') as (up' & ug' & G1' & B1 & B2 & B3 & B4 & B5 & B6 & B7 & B8 & B9 & B10 & B11 & _).
  pose proof (prims_agree up up' A3 B3) as AP.
  assert (AG : forall l f, (l < nelem (l_m lm))%nat -> (f < aat (sm_nf S') l)%nat -> (at2 (sm_EF S') l f < sm_nb S')%nat -> (at2 (sm_EF S) (el l) f < sm_nb S)%nat -> aat ug' (at2 (sm_EF S') l f) = aat ug (at2 (sm_EF S) (el l) f)).
  { intros l f Hl Hf K' K. rewrite A4, B4 by auto. f_equal. apply ghosts_same; auto. }
  split.
  - intros l Hl. destruct (N6 l Hl) as (Hi & _). rewrite A9, B9 by lia. exact (grads_same up up' ug ug' A1 A2 B1 B2 AP AG gs gs' G0 G0' G1 G1' SS ltac:(lia) ltac:(lia) A5 B5 l Hl).
  - exists up, ug, up', ug'. split; auto. split; [|split; auto]. intros l f Hl Hf. apply value_beyond; auto.
Qed.

(** gradients of ghost cells received from their owners *)
Hypothesis GGr : forall q cf, nth_error (conns (l_m lm)) q = Some cf -> gg' q = aat (ro_grad out) (Z.to_nat (cf_gelem cf)).

Lemma grads_agree : agree (aat (ro_grad out)) (aat (ro_grad out')).
Proof.
  split; [apply run_grads|]. intros q cf Ec. destruct counts as (N1 & N2 & N3 & N4 & N5 & N6). destruct vs_ok as (V1 & V2).
  destruct (run_facts _ _ _ _ _ B' fl bc' gs' rs gg' rf' u' ul0' ur0' res' G0' jp' dt' out' C' Lu' L0' R0' LR' LG' RS V2 E') as (_ & _ & _ & _ & _ & _ & _ & _ & _ & _ & _ & _ & B10 & _).
  rewrite <- N3. rewrite B10. apply GGr; auto. rewrite N4. unfold nconnface. apply nth_error_Some. congruence.
Qed.

Lemma weno_agree l : (l < nelem (l_m lm))%nat -> weno_of S' rs (ro_grad out') l = weno_of S rs (ro_grad out) (el l).
Proof.
  intros Hl. destruct counts as (N1 & N2 & N3 & N4 & N5 & N6). destruct (N6 l Hl) as (Hi & N7 & _). destruct vs_ok as (V1 & V2).
  pose proof (built_sm _ _ _ _ _ B) as OK. pose proof (built_sm _ _ _ _ _ B') as OK'.
  destruct (run_facts _ _ _ _ _ B fl bc gs rs gg rf u ul0 ur0 res G0 jp dt out C Lu L0 R0 LR LG RS V1 E) as (_ & _ & _ & _ & _ & _ & _ & _ & A6 & _).
  destruct (run_facts _ _ _ _ _ B' fl bc' gs' rs gg' rf' u' ul0' ur0' res' G0' jp' dt' out' C' Lu' L0' R0' LR' LG' RS V2 E') as (_ & _ & _ & _ & _ & _ & _ & _ & B6 & _).
  pose proof grads_agree as GA. destruct rs; cbn [weno_of]; auto. apply weno_same; auto; try lia.
  - apply GA; auto.
  - intros f Hf. cbv zeta. destruct (same_view l f Hl ltac:(lia)) as (_ & _ & V). cbv zeta in V. destruct V as [(K' & K & _)|[(K' & K & O & V)|(q & cf & Q & Ec & _ & _ & _ & O & _ & K & V)]].
    + left. auto.
    + right. split; [lia|]. split; [lia|]. rewrite V. apply GA; auto.
    + right. split; [lia|]. split; [lia|]. rewrite V, O. apply GA; auto.
Qed.

Lemma own_same l f : (l < nelem (l_m lm))%nat -> (f < aat (sm_nf S') l)%nat ->
  own_side S' (aat (ro_left out')) (aat (ro_right out')) l (at2 (sm_EF S') l f) = own_side S (aat (ro_left out)) (aat (ro_right out)) (el l) (at2 (sm_EF S) (el l) f).
Proof.
  intros Hl Hf. destruct counts as (N1 & N2 & N3 & N4 & N5 & N6). destruct (N6 l Hl) as (Hi & N7 & _).
  destruct (same_view l f Hl Hf) as ((Bd' & Bd) & (V1 & _) & _). cbv zeta in *.
  destruct run_grads as (RG & up & ug & up' & ug' & AP & VB & OW & OW'). rewrite OW, OW' by (auto; lia).
  rewrite (weno_agree l Hl), RG, (proj1 AP l Hl), (VB l f Hl Hf), V1, (proj1 agree_centres l Hl), (centre_beyond l f Hl Hf) by auto. reflexivity.
Qed.

Lemma rate_same l : (l < nelem (l_m lm))%nat -> rate S' fl (ro_left out') (ro_right out') l = rate S fl (ro_left out) (ro_right out) (el l).
Proof.
  intros Hl. destruct counts as (N1 & N2 & N3 & N4 & N5 & N6). destruct (N6 l Hl) as (Hi & N7 & N8).
  pose proof (built_sm _ _ _ _ _ B) as OK. pose proof (built_sm _ _ _ _ _ B') as OK'.
  rewrite (rate_seen S' OK') by lia. rewrite (rate_seen S OK) by lia. rewrite N7. apply rsum_ext. intros f Hf. apply in_seq in Hf. cbv zeta.
  destruct (same_view l f Hl ltac:(lia)) as (_ & (_ & V2 & V3 & _) & _). cbv zeta in *. rewrite (own_same l f Hl ltac:(lia)), N8, V2, V3. reflexivity.
Qed.

(** the same time step, whether or not the other rank's face states have arrived *)
Lemma dt_same l d0 d0' : (l < nelem (l_m lm))%nat -> dt = Some d0 -> alen d0 = sm_ne S -> dt' = Some d0' -> alen d0' = sm_ne S' ->
  exists d d', ro_dt out = Some d /\ ro_dt out' = Some d' /\ aat d' l = aat d (el l).
Proof.
  intros Hl Q LD Q' LD'. destruct counts as (N1 & N2 & N3 & N4 & N5 & N6). destruct (N6 l Hl) as (Hi & N7 & N8). destruct vs_ok as (W1 & W2).
  pose proof (built_sm _ _ _ _ _ B) as OK. pose proof (built_sm _ _ _ _ _ B') as OK'.
  destruct (run_facts _ _ _ _ _ B fl bc gs rs gg rf u ul0 ur0 res G0 jp dt out C Lu L0 R0 LR LG RS W1 E) as (_ & _ & _ & _ & _ & _ & _ & _ & _ & A7 & A8 & _).
  destruct (run_facts _ _ _ _ _ B' fl bc' gs' rs gg' rf' u' ul0' ur0' res' G0' jp' dt' out' C' Lu' L0' R0' LR' LG' RS W2 E') as (_ & _ & _ & _ & _ & _ & _ & _ & _ & B7 & B8 & _).
  pose proof (run_dt _ _ _ _ _ _ _ _ _ _ _ _ _ _ E) as M. pose proof (run_dt _ _ _ _ _ _ _ _ _ _ _ _ _ _ E') as M'. rewrite Q in M. rewrite Q' in M'. cbn [maybe_dt] in M, M'.
  step_bind M. injection M as M. step_bind M'. injection M' as M'. exists x, x0. split; auto. split; auto.
  destruct (timestep_inv S fl _ _ _ _ OK A7 A8 LD Q0) as (_ & P). destruct (timestep_inv S' fl _ _ _ _ OK' B7 B8 LD' Q1) as (_ & P').
  destruct (P (el l) ltac:(lia)) as (_ & ->). destruct (P' l ltac:(lia)) as (_ & ->). rewrite rate_same, N8 by auto. reflexivity.
Qed.

(** states of shared faces received from the rank on the other side *)
Hypothesis RFr : forall q cf, nth_error (conns (l_m lm)) q = Some cf ->
  rf' q = far_side S (aat (ro_left out)) (aat (ro_right out)) (el (cf_elem cf)) (at2 (sm_EF S) (el (cf_elem cf)) (cf_face cf)).

Lemma far_same l f : (l < nelem (l_m lm))%nat -> (f < aat (sm_nf S') l)%nat ->
  far_side S' (aat (ro_left out')) (aat (ro_right out')) l (at2 (sm_EF S') l f) = far_side S (aat (ro_left out)) (aat (ro_right out)) (el l) (at2 (sm_EF S) (el l) f).
Proof.
  intros Hl Hf. destruct counts as (N1 & N2 & N3 & N4 & N5 & N6). destruct (N6 l Hl) as (Hi & N7 & _). destruct vs_ok as (W1 & W2).
  pose proof (built_sm _ _ _ _ _ B) as OK. pose proof (built_sm _ _ _ _ _ B') as OK'.
  destruct (same_view l f Hl Hf) as ((Bd' & Bd) & (V1 & V2 & V3 & _) & V). cbv zeta in *.
  destruct (run_facts _ _ _ _ _ B fl bc gs rs gg rf u ul0 ur0 res G0 jp dt out C Lu L0 R0 LR LG RS W1 E) as (_ & _ & _ & _ & _ & _ & _ & _ & _ & _ & _ & _ & _ & _ & A12 & _).
  destruct (run_facts _ _ _ _ _ B' fl bc' gs' rs gg' rf' u' ul0' ur0' res' G0' jp' dt' out' C' Lu' L0' R0' LR' LG' RS W2 E') as (_ & _ & _ & _ & _ & _ & _ & _ & _ & _ & _ & _ & _ & _ & B12 & B13).
  pose proof (own_same l f Hl Hf) as OW0. set (k' := at2 (sm_EF S') l f) in *. set (k := at2 (sm_EF S) (el l) f) in *.
  destruct V as [(K' & K & V & L' & L)|[(K' & K & O & V)|(q & cf & Q & Ec & Hq & C1 & C2 & O & L' & K & V)]].
  - unfold far_side, own_side, out_normal in *. rewrite L, L' in *. rewrite !Nat.eqb_refl in *. rewrite A12, B12 by auto. rewrite V, OW0, V3. reflexivity.
  - destruct (far_of_interior S (aat (ro_left out)) (aat (ro_right out)) (el l) k OK Bd K) as (I1 & I2 & I3 & I4).
    destruct (far_of_interior S' (aat (ro_left out')) (aat (ro_right out')) l k' OK' Bd' K') as (I1' & I2' & I3' & I4').
    rewrite I3, I3'. destruct run_grads as (RG & up & ug & up' & ug' & AP & VB & OW & OW'). rewrite OW, OW' by auto.
    rewrite !I4, !I4', V. rewrite (weno_agree _ O), RG, (proj1 AP _ O), (proj1 AP l Hl), V1, (proj1 agree_centres _ O), (proj1 agree_centres l Hl) by auto. reflexivity.
  - unfold far_side at 1. rewrite L', Nat.eqb_refl. rewrite Q, B13 by auto. rewrite (RFr q cf Ec), C1, C2. reflexivity.
Qed.

Lemma outflow_same2 l v : (l < nelem (l_m lm))%nat -> 1 < gam (fl_gas fl) -> (fl_flux fl = HLLC -> 5/4 <= gam (fl_gas fl)) ->
  (forall k, (k < sm_nf_all S)%nat -> physical (gam (fl_gas fl)) (aat (ro_left out) k) /\ physical (gam (fl_gas fl)) (aat (ro_right out) k)) ->
  outflow S' (through S' fl true (aat u') (aat (ro_grad out')) (bghost S' fl bc' u') (aat (ro_left out')) (aat (ro_right out'))) l v =
  outflow S (through S fl true (aat u) (aat (ro_grad out)) (bghost S fl bc u) (aat (ro_left out)) (aat (ro_right out))) (el l) v.
Proof.
  intros Hl Hg Hh PH. destruct counts as (N1 & N2 & N3 & N4 & N5 & N6). destruct (N6 l Hl) as (Hi & N7 & _).
  pose proof (built_sm _ _ _ _ _ B) as OK. pose proof (built_sm _ _ _ _ _ B') as OK'.
  rewrite (outflow_edges S' _ l v OK') by lia. rewrite (outflow_edges S _ _ v OK) by lia. rewrite N7. apply rsum_ext. intros f Hf. apply in_seq in Hf.
  assert (Hf1 : (f < aat (sm_nf S') l)%nat) by lia.
  destruct (same_view l f Hl Hf1) as ((Bd' & Bd) & (V1 & V2 & V3 & V4 & V5) & V). cbv zeta in *.
  pose proof (own_same l f Hl Hf1) as OW. pose proof (far_same l f Hl Hf1) as FA.
  destruct (PH _ (proj1 Bd)) as (P1 & P2).
  assert (P' : physical (gam (fl_gas fl)) (aat (ro_left out') (at2 (sm_EF S') l f)) /\ physical (gam (fl_gas fl)) (aat (ro_right out') (at2 (sm_EF S') l f))).
  { unfold own_side, far_side in OW, FA. destruct (_ =? l)%nat, (_ =? el l)%nat; rewrite OW, FA; auto. }
  rewrite (out_seen S' OK') by (auto; try lia; tauto). rewrite (out_seen S OK) by (auto; lia).
  rewrite OW, FA, V2, V3, (centre_beyond l f Hl Hf1), (proj1 agree_centres l Hl), (proj1 AU l Hl), (proj1 grads_agree l Hl).
  rewrite (beyond_same (aat u) (aat u') (bghost S fl bc u) (bghost S' fl bc' u') l f Hl Hf1 AU) by (intros; apply ghosts_same; auto).
  assert (GB : grad_beyond S' (aat (ro_grad out')) l (at2 (sm_EF S') l f) = grad_beyond S (aat (ro_grad out)) (el l) (at2 (sm_EF S) (el l) f)); [|rewrite GB; reflexivity].
  unfold grad_beyond. destruct V as [(K' & K & V & L' & L)|[(K' & K & O & V)|(q & cf & Q & Ec & Hq & C1 & C2 & O & L' & K & V)]].
  - destruct (Nat.ltb_spec (at2 (sm_EF S) (el l) f) (sm_nb S)); [|lia]. destruct (Nat.ltb_spec (at2 (sm_EF S') l f) (sm_nb S')); [|lia]. apply grads_agree; auto.
  - destruct (Nat.ltb_spec (at2 (sm_EF S) (el l) f) (sm_nb S)); [lia|]. destruct (Nat.ltb_spec (at2 (sm_EF S') l f) (sm_nb S')); [lia|]. rewrite V. apply grads_agree; auto.
  - destruct (Nat.ltb_spec (at2 (sm_EF S) (el l) f) (sm_nb S)); [lia|]. destruct (Nat.ltb_spec (at2 (sm_EF S') l f) (sm_nb S')); [lia|]. rewrite V, O. apply grads_agree; auto.
Qed.
End Runs.
End Same2.
