(** Lemmas about M_Linalg.v. *)
From Coq Require Import Reals Lra List Arith Lia ZArith Bool.
From Verif Require Import Base BaseR BaseSum M_Gas M_Flux M_Visc M_BC M_BCConf M_Mesh S_Mesh Pf_Full Pf_Incid M_Geom M_Space S_Space Pf_Space Pf_Grad M_Resid S_Resid Pf_Resid Pf_Jac M_Linalg.
Import ListNotations.

(** ** The trace is what assemble_jacobian inserts *)
Definition insert_all (t : list (nat * nat * mat4)) (A : bmat) : bmat :=
  fold_left (fun A w => mat_add A (fst (fst w)) (snd (fst w)) (snd w)) t A.
Lemma insert_app t1 t2 A : insert_all (t1 ++ t2) A = insert_all t2 (insert_all t1 A).
Proof. apply fold_left_app. Qed.

Lemma floop_sim {T1 T2} (f : T1 -> T2) n (b1 : nat -> T1 -> option T1) (b2 : nat -> T2 -> option T2) :
  (forall k x, (k < n)%nat -> b2 k (f x) = option_map f (b1 k x)) -> forall x, floop n b2 (f x) = option_map f (floop n b1 x).
Proof.
  induction n as [|n IH]; intros H x. reflexivity. cbn [floop]. rewrite IH by (intros; apply H; lia).
  destruct (floop n b1 x) as [y|]; [|reflexivity]. cbn [option_map bind]. apply H. lia.
Qed.
Lemma frange_sim {T1 T2} (f : T1 -> T2) lo hi (b1 : nat -> T1 -> option T1) (b2 : nat -> T2 -> option T2) :
  (forall k x, b2 k (f x) = option_map f (b1 k x)) -> forall x, frange lo hi b2 (f x) = option_map f (frange lo hi b1 x).
Proof. intros H x. unfold frange. apply floop_sim. intros; apply H. Qed.

Ltac sim_step := match goal with |- context [bind ?e _] => destruct e; [cbn [bind]|reflexivity] end.

Lemma sim_bind {T1 T2} (f : T1 -> T2) (e2 : option T2) (e1 : option T1) k1 k2 : e2 = option_map f e1 ->
  (forall y, k2 (f y) = option_map f (k1 y)) -> bind e2 k2 = option_map f (bind e1 k1).
Proof. intros -> H. destruct e1; cbn; auto. Qed.

Theorem trace_assembles S fl u row col A :
  assemble_jacobian S fl u row col A = option_map (fun t => insert_all t A) (assembly_trace S fl u row col).
Proof.
  set (f := fun t => insert_all t A). unfold assemble_jacobian, assemble_with, assembly_trace.
  apply sim_bind.
  - change A with (f []) at 1. apply floop_sim. intros k t _. repeat sim_step. unfold f. cbn [option_map]. rewrite insert_app. reflexivity.
  - intros t. apply sim_bind.
    + apply frange_sim. intros k t'. repeat sim_step. unfold f. cbn [option_map]. rewrite insert_app. reflexivity.
    + intros t'. apply frange_sim. intros k t2. repeat sim_step. unfold f. cbn [option_map]. cbv zeta. rewrite insert_app. destruct col; reflexivity.
Qed.

(** ** Which positions are written *)
Section Positions.
Variables (S : smesh) (fl : flow) (u : arr st) (row : nat -> nat) (col : option (nat -> nat)).
Hypothesis OK : sm_ok S.
Let L k := f_left (aat (sm_F S) k).
Let Rr k := f_right (aat (sm_F S) k).
Definition face_positions (k : nat) : list (nat * nat) :=
  if (k <? sm_nb S)%nat then [(row (L k), row (L k))]
  else if (k <? sm_nb S + sm_ni S)%nat then [(row (Rr k), row (L k)); (row (L k), row (Rr k)); (row (L k), row (L k)); (row (Rr k), row (Rr k))]
  else match col with Some c => [(row (L k), c (k - sm_nb S - sm_ni S)%nat)] | None => [] end ++ [(row (L k), row (L k))].

Lemma frange_trace lo hi (b : nat -> list (nat * nat * mat4) -> option (list (nat * nat * mat4))) t t' : (lo <= hi)%nat ->
  (forall k a a', (lo <= k < hi)%nat -> b k a = Some a' -> map fst a' = map fst a ++ face_positions k) ->
  frange lo hi b t = Some t' -> map fst t' = map fst t ++ flat_map face_positions (seq lo (hi - lo)).
Proof.
  intros Hlh H. unfold frange. remember (hi - lo)%nat as n. assert (Hn : (lo + n <= hi)%nat) by lia. clear Heqn. revert t'. induction n as [|n IH]; intros t' E.
  - cbn in E. injection E as <-. cbn. rewrite app_nil_r. reflexivity.
  - cbn [floop] in E. destruct (floop n (fun k => b (lo + k)%nat) t) as [a|]; [|discriminate E]. cbn [bind] in E.
    rewrite (H (lo + n)%nat a t' ltac:(lia) E), (IH ltac:(lia) a eq_refl), seq_S, flat_map_app, app_assoc. cbn. rewrite app_nil_r. reflexivity.
Qed.

Lemma trace_positions t : assembly_trace S fl u row col = Some t -> map fst t = flat_map face_positions (all_faces S).
Proof.
  unfold assembly_trace. rewrite floop_frange.
  match goal with |- context [frange 0 (sm_nb S) ?b []] => destruct (frange 0 (sm_nb S) b []) as [t1|] eqn:E1; [|discriminate] end. cbn [bind].
  match goal with |- context [frange (sm_nb S) (sm_nb S + sm_ni S) ?b t1] => destruct (frange (sm_nb S) (sm_nb S + sm_ni S) b t1) as [t2|] eqn:E2; [|discriminate] end. cbn [bind].
  intros E3. apply frange_trace in E1; [|lia|]. apply frange_trace in E2; [|lia|]. apply frange_trace in E3; [|unfold sm_nf_all; lia|].
  - rewrite E3, E2, E1. cbn [map app]. unfold all_faces. replace (sm_nf_all S) with (sm_nb S + (sm_ni S + sm_nc S))%nat at 2 by (unfold sm_nf_all; lia). rewrite !seq_app, !flat_map_app, <- app_assoc.
    rewrite Nat.sub_0_r. replace (sm_nb S + sm_ni S - sm_nb S)%nat with (sm_ni S) by lia. replace (sm_nf_all S - (sm_nb S + sm_ni S))%nat with (sm_nc S) by (unfold sm_nf_all; lia). reflexivity.
  - intros k a a' Hk E. rewrite aget_ok in E by (rewrite (so_F _ OK); lia). cbn [bind] in E.
    destruct (aget u (f_left _)); [|discriminate E]. cbn [bind] in E. destruct (aget u (f_right _)); [|discriminate E]. cbn [bind] in E.
    destruct (local_jacobian_interior _ _ _ _ _); [|discriminate E]. cbn [bind] in E. cbv zeta in E. injection E as <-. rewrite map_app. f_equal.
    unfold face_positions. destruct (Nat.ltb_spec k (sm_nb S)); [lia|]. destruct (Nat.ltb_spec k (sm_nb S + sm_ni S)); [lia|]. rewrite map_app. destruct col; reflexivity.
  - intros k a a' Hk E. rewrite aget_ok in E by (rewrite (so_F _ OK); unfold sm_nf_all; lia). cbn [bind] in E.
    destruct (aget u (f_left _)); [|discriminate E]. cbn [bind] in E. destruct (aget u (f_right _)); [|discriminate E]. cbn [bind] in E.
    destruct (local_jacobian_interior _ _ _ _ _); [|discriminate E]. cbn [bind] in E. cbv zeta in E. injection E as <-. rewrite map_app. f_equal.
    unfold face_positions. destruct (Nat.ltb_spec k (sm_nb S)); [lia|]. destruct (Nat.ltb_spec k (sm_nb S + sm_ni S)); [|lia]. reflexivity.
  - intros k a a' Hk E. rewrite aget_ok in E by (rewrite (so_F _ OK); unfold sm_nf_all; lia). cbn [bind] in E.
    destruct (aget u (f_left _)); [|discriminate E]. cbn [bind] in E.
    destruct (local_jacobian_boundary _ _ _ _); [|discriminate E]. cbn [bind] in E. injection E as <-. rewrite map_app. f_equal.
    unfold face_positions. destruct (Nat.ltb_spec k (sm_nb S)); [|lia]. reflexivity.
Qed.

(** neighbours through the faces of a cell *)
Definition other (i k : nat) : nat := if (L k =? i)%nat then Rr k else L k.

Lemma own_columns i j : (forall a b, (a < sm_ne S)%nat -> (b < sm_ne S)%nat -> row a = row b -> a = b) -> (i < sm_ne S)%nat ->
  (forall c k, col = Some c -> (k < sm_nc S)%nat -> c k <> j) ->
  In (row i, j) (flat_map face_positions (all_faces S)) ->
  In j (row i :: map (fun f => row (other i (at2 (sm_EF S) i f))) (seq 0 (aat (sm_nf S) i))).
Proof.
  intros Hinj Hi Hc H. apply in_flat_map in H. destruct H as (k & Hk & H). unfold all_faces in Hk. apply in_seq in Hk. assert (K : (k < sm_nf_all S)%nat) by lia.
  pose proof (so_left _ OK k K) as HL. unfold face_positions in H.
  assert (N : forall f, (f < aat (sm_nf S) i)%nat -> at2 (sm_EF S) i f = k -> j = row (other i k) -> In j (row i :: map (fun f => row (other i (at2 (sm_EF S) i f))) (seq 0 (aat (sm_nf S) i)))).
  { intros f Hf Ef ->. right. apply in_map_iff. exists f. rewrite Ef. split; auto. apply in_seq. lia. }
  destruct (Nat.ltb_spec k (sm_nb S)).
  - destruct H as [H|[]]. injection H as E1 E2. left. congruence.
  - destruct (Nat.ltb_spec k (sm_nb S + sm_ni S)).
    + pose proof (so_int _ OK k ltac:(lia)) as HR. fold (L k) (Rr k) in HR, HL. destruct H as [H|[H|[H|[H|[]]]]]; injection H as E1 E2.
      * apply Hinj in E1; try lia. destruct (so_sur _ OK k i K Hi) as (f & Hf & Ef). right; exact E1. apply (N f Hf Ef). unfold other. destruct (Nat.eqb_spec (L k) i); [lia|congruence].
      * apply Hinj in E1; try lia. destruct (so_sur _ OK k i K Hi) as (f & Hf & Ef). left; exact E1. apply (N f Hf Ef). unfold other. destruct (Nat.eqb_spec (L k) i); [congruence|lia].
      * left. congruence.
      * left. congruence.
    + apply in_app_or in H. destruct H as [H|[H|[]]].
      * destruct col as [c|]; [|destruct H]. destruct H as [H|[]]. injection H as E1 E2. exfalso. apply (Hc c (k - sm_nb S - sm_ni S)%nat eq_refl); auto. unfold sm_nf_all in K. lia.
      * injection H as E1 E2. left. congruence.
Qed.
End Positions.

(** ** Counts *)
Lemma incl_len (l l' : list nat) : NoDup l -> (forall x, In x l -> In x l') -> (length l <= length l')%nat.
Proof. intros N H. apply NoDup_incl_length; auto. Qed.

Lemma block_dnnz_ok S : sm_ok S -> exists a, block_dnnz S = Some a /\ alen a = sm_ne S /\ forall i, (i < sm_ne S)%nat -> aat a i = (aat (sm_nf S) i + 1)%nat.
Proof.
  intros OK. unfold block_dnnz.
  destruct (floop_inv _ (fun j (a : arr nat) => alen a = sm_ne S /\ forall i, (i < j)%nat -> aat a i = (aat (sm_nf S) i + 1)%nat) (sm_ne S)
    (fun i a => n <- aget (sm_nf S) i ;; aset a i (n + 1)%nat) (aconst (sm_ne S) 0%nat)) as (a & E & L & P).
  - split; [reflexivity|]. intros; lia.
  - intros j a Hj (L & P). rewrite aget_ok by (rewrite (so_nf _ OK); auto). cbn [bind]. rewrite aset_ok by lia. eexists; split; [reflexivity|]. cbn [alen aat]. split; auto.
    intros i Hi. destruct (Nat.eq_dec i j) as [->|]. apply upd_eq. rewrite upd_ne by auto. apply P. lia.
  - eauto.
Qed.

Lemma block_onnz_ok m S : (forall c, In c (conns m) -> (cf_elem c < sm_ne S)%nat) -> exists a, block_onnz m S = Some a /\ alen a = sm_ne S /\
  forall i, (i < sm_ne S)%nat -> aat a i = (if existsb (fun c => cf_elem c =? i)%nat (conns m) then 1 else 0)%nat.
Proof.
  intros H. unfold block_onnz.
  destruct (ofold_inv _ _ (fun l (a : arr nat) => alen a = sm_ne S /\ forall i, (i < sm_ne S)%nat -> aat a i = (if existsb (fun c => cf_elem c =? i)%nat l then 1 else 0)%nat)
    (fun c a => aset a (cf_elem c) 1%nat) (conns m) (aconst (sm_ne S) 0%nat)) as (a & E & L & P).
  - split; reflexivity.
  - intros l1 c l2 a El (L & P). assert (Hc : (cf_elem c < sm_ne S)%nat) by (apply H; rewrite El; apply in_or_app; right; left; auto).
    rewrite aset_ok by lia. eexists; split; [reflexivity|]. cbn [alen aat]. split; auto. intros i Hi. rewrite existsb_app. cbn [existsb].
    destruct (Nat.eqb_spec (cf_elem c) i) as [E|E]. subst. rewrite upd_eq, orb_true_r. reflexivity. rewrite upd_ne by auto. rewrite P, !orb_false_r by auto. reflexivity.
  - eauto.
Qed.

Section Count.
Variables (S : smesh) (fl : flow) (u : arr st) (row : nat -> nat) (col : option (nat -> nat)).
Hypothesis OK : sm_ok S.
Hypothesis Hinj : forall a b, (a < sm_ne S)%nat -> (b < sm_ne S)%nat -> row a = row b -> a = b.

(** ghost columns of row [i] come from connectivity faces of cell [i] *)
Lemma ghost_columns i j t : assembly_trace S fl u row col = Some t -> (i < sm_ne S)%nat -> (forall a, (a < sm_ne S)%nat -> row a <> j) ->
  In (row i, j) (map fst t) -> exists c k, col = Some c /\ (k < sm_nc S)%nat /\ f_left (aat (sm_F S) (sm_nb S + sm_ni S + k)) = i /\ j = c k.
Proof.
  intros E Hi Hj H. rewrite (trace_positions S fl u row col OK t E) in H. apply in_flat_map in H. destruct H as (k & Hk & H). unfold all_faces in Hk. apply in_seq in Hk.
  pose proof (so_left _ OK k ltac:(lia)) as HL. unfold face_positions in H.
  destruct (Nat.ltb_spec k (sm_nb S)).
  - destruct H as [H|[]]. injection H as E1 E2. exfalso. apply (Hj _ HL). auto.
  - destruct (Nat.ltb_spec k (sm_nb S + sm_ni S)).
    + pose proof (so_int _ OK k ltac:(lia)) as HR. exfalso. destruct H as [H|[H|[H|[H|[]]]]]; injection H as E1 E2; first [exact (Hj _ HL E2) | exact (Hj _ (proj2 HR) E2)].
    + apply in_app_or in H. destruct H as [H|[H|[]]].
      * destruct col as [c|]; [|destruct H]. destruct H as [H|[]]. injection H as E1 E2. exists c, (k - sm_nb S - sm_ni S)%nat. split; auto.
        assert (K : (k < sm_nb S + sm_ni S + sm_nc S)%nat) by (unfold sm_nf_all in Hk; lia). split; [lia|]. replace (sm_nb S + sm_ni S + (k - sm_nb S - sm_ni S))%nat with k by lia. split; auto.
      * injection H as E1 E2. exfalso. apply (Hj _ HL). auto.
Qed.
End Count.

Lemma scalar_dnnz_ok n S : sm_ok S -> exists a, scalar_dnnz n S = Some a /\ alen a = (sm_ne S * n)%nat /\
  forall i c, (i < sm_ne S)%nat -> (c < n)%nat -> aat a (i * n + c)%nat = ((aat (sm_nf S) i + 1) * n)%nat.
Proof.
  intros OK. unfold scalar_dnnz.
  match goal with |- context [floop (sm_ne S) ?b ?s] =>
  destruct (floop_inv _ (fun j (a : arr nat) => alen a = (sm_ne S * n)%nat /\ forall i c, (i < j)%nat -> (c < n)%nat -> aat a (i * n + c)%nat = ((aat (sm_nf S) i + 1) * n)%nat) (sm_ne S) b s) as (a & E & L & P) end.
  - split; [reflexivity|]. intros; lia.
  - intros j a Hj (L & P). rewrite aget_ok by (rewrite (so_nf _ OK); auto). cbn [bind].
    match goal with |- context [floop n ?b a] =>
    destruct (floop_inv _ (fun e (a : arr nat) => alen a = (sm_ne S * n)%nat /\ (forall i c, (i < j)%nat -> (c < n)%nat -> aat a (i * n + c)%nat = ((aat (sm_nf S) i + 1) * n)%nat) /\
      forall c, (c < e)%nat -> aat a (j * n + c)%nat = ((aat (sm_nf S) j + 1) * n)%nat) n b a) as (a' & E' & L' & P' & Q') end.
    + split; auto. split; auto. intros; lia.
    + intros e a' He (L' & P' & Q'). assert (B : (j * n + e < sm_ne S * n)%nat) by nia. rewrite aset_ok by lia. eexists; split; [reflexivity|]. cbn [alen aat]. split; auto. split.
      * intros i c Hi Hc. rewrite upd_ne by nia. auto.
      * intros c Hc. destruct (Nat.eq_dec c e) as [->|]. apply upd_eq. rewrite upd_ne by lia. apply Q'. lia.
    + exists a'. split; auto. split; auto. intros i c Hi Hc. destruct (Nat.eq_dec i j) as [->|]. apply Q'; auto. apply P'; auto. lia.
  - eauto.
Qed.

Lemma built_conn m hs X ghost S q cf : built m hs X ghost S -> nth_error (conns m) q = Some cf ->
  (q < sm_nc S)%nat /\ aat (sm_F S) (sm_nb S + sm_ni S + q)%nat =
    mkface (cf_elem cf) (sm_ne S + q) (fst (edge (cell (cells m) (cf_elem cf)) (cf_face cf))) (snd (edge (cell (cells m) (cf_elem cf)) (cf_face cf))).
Proof.
  intros B Eq. destruct (built_ok _ _ _ _ _ B) as (p & e & ni & s & il & TO & OK & E1 & E2 & E3 & E4 & E5 & _).
  assert (Hq : (q < nconnface m)%nat) by (apply nth_error_Some; congruence). split; [lia|].
  destruct (to_ranges _ _ _ _ _ _ _ TO) as (bl & cl & F & Lb & Lc & _ & Hc & _). pose proof (Hc q cf Eq) as Q.
  rewrite E5, E2, E3, E1. pose proof (to_ni _ _ _ _ _ _ _ TO) as NI.
  assert (K : nth_error (alist (intfac s)) (nbface m + ni + q) = Some (Pf_Faces.conn_entry m q cf)).
  { rewrite F, nth_error_app2, nth_error_app2 by lia. rewrite Lb. replace (nbface m + ni + q - nbface m - length il)%nat with q by lia. exact Q. }
  unfold alist in K. rewrite nth_error_map in K. destruct (nth_error (seq 0 (alen (intfac s))) (nbface m + ni + q)) as [x|] eqn:Ex; [|discriminate K]. cbn in K. injection K as K.
  assert (x = (nbface m + ni + q)%nat). { pose proof (to_len _ _ _ _ _ _ _ TO). rewrite (nth_error_nth' _ 0%nat) in Ex by (rewrite seq_length; lia). injection Ex as <-. rewrite seq_nth; lia. }
  subst x. exact K.
Qed.
Lemma built_bnd m hs X ghost S q bf h : built m hs X ghost S -> nth_error (bfaces m) q = Some bf -> nth_error hs q = Some h ->
  (q < sm_nb S)%nat /\ aat (sm_F S) q = mkface (fst h) (sm_ne S + sm_nc S + q) (b0 bf) (b1 bf).
Proof.
  intros B Eq Eh. destruct (built_ok _ _ _ _ _ B) as (p & e & ni & s & il & TO & OK & E1 & E2 & E3 & E4 & E5 & _).
  assert (Hq : (q < nbface m)%nat) by (apply nth_error_Some; congruence). split; [lia|].
  destruct (to_ranges _ _ _ _ _ _ _ TO) as (bl & cl & F & Lb & Lc & Hb & _ & _). pose proof (Hb q bf h Eq Eh) as Q.
  rewrite E5, E1, E4.
  assert (K : nth_error (alist (intfac s)) q = Some (Pf_Faces.bface_entry m q bf h)).
  { rewrite F, nth_error_app1 by lia. exact Q. }
  unfold alist in K. rewrite nth_error_map in K. destruct (nth_error (seq 0 (alen (intfac s))) q) as [x|] eqn:Ex; [|discriminate K]. cbn in K. injection K as K.
  assert (x = q). { pose proof (to_len _ _ _ _ _ _ _ TO). rewrite (nth_error_nth' _ 0%nat) in Ex by (rewrite seq_length; lia). injection Ex as <-. rewrite seq_nth; lia. }
  subst x. exact K.
Qed.

(** ** The assembly completes for every flux with a Jacobian *)
Definition has_jacobian (f : fluxname) : Prop := f <> VANLEER /\ f <> AUSMPLUS.
Definition bc_has_jacobian (b : flowbc) : Prop := match b with BInflow _ _ => False | _ => True end.
Lemma trace_total S fl bc u row col : sm_ok S -> bcs_cover S fl bc -> alen u = (sm_ne S + sm_nc S)%nat -> has_jacobian (fl_jflux fl) ->
  (forall k, (k < sm_nb S)%nat -> bc_has_jacobian (bc k)) -> exists t, assembly_trace S fl u row col = Some t.
Proof.
  intros OK C Lu (J1 & J2) HB.
  assert (FJ : forall k ul ur, (k < sm_nf_all S)%nat -> exists J, face_jac S fl k ul ur = Some J).
  { intros k ul ur Hk. unfold face_jac. rewrite aget_ok by (rewrite (so_M _ OK); auto). cbn [bind]. rewrite aget_ok by (rewrite (so_F _ OK); auto). cbn [bind].
    assert (exists J, get_jacobian (fl_jflux fl) (fl_gas fl) ul ur (fm_n (aat (sm_M S) k)) = Some J) as (J & ->). { destruct (fl_jflux fl); try congruence; eexists; reflexivity. }
    cbn [bind]. destruct (fl_visc fl); [|eauto]. pose proof (so_left _ OK k Hk). rewrite aget_ok by (rewrite (so_rc _ OK); lia). cbn [bind]. rewrite (far_c S OK k Hk). cbn [bind].
    destruct (compute_viscous_flux_jacobian _ _ _ _ _ _ _ _ _). eauto. }
  assert (LI : forall k ul ur, (k < sm_nf_all S)%nat -> exists P, local_jacobian_interior S fl k ul ur = Some P).
  { intros k ul ur Hk. unfold local_jacobian_interior. rewrite aget_ok by (rewrite (so_M _ OK); auto). cbn [bind]. destruct (FJ k ul ur Hk) as (J & ->). cbn [bind]. eauto. }
  unfold assembly_trace. rewrite floop_frange.
  match goal with |- context [frange 0 (sm_nb S) ?b ?s] => destruct (frange_inv _ (fun _ _ => True) 0 (sm_nb S) b s) as (t1 & -> & _) end; auto. lia.
  - intros k t Hk _. assert (K : (k < sm_nf_all S)%nat) by (unfold sm_nf_all; lia). pose proof (so_left _ OK k K). rewrite aget_ok by (rewrite (so_F _ OK); auto). cbn [bind]. rewrite aget_ok by lia. cbn [bind].
    unfold local_jacobian_boundary. rewrite aget_ok by (rewrite (so_M _ OK); auto). cbn [bind]. rewrite (C k ltac:(lia)). cbn [bind].
    assert (exists r, ghost_jac (fl_gas fl) (bc k) (aat u (f_left (aat (sm_F S) k))) (fm_n (aat (sm_M S) k)) = Some r) as (r & ->).
    { pose proof (HB k ltac:(lia)) as Q. destruct (bc k); cbn in Q |- *; try (eexists; reflexivity). destruct Q. }
    cbn [bind]. destruct (FJ k (aat u (f_left (aat (sm_F S) k))) (g_s r) K) as (J & ->). cbn [bind]. eauto.
  - cbn [bind].
    match goal with |- context [frange (sm_nb S) (sm_nb S + sm_ni S) ?b ?s] => destruct (frange_inv _ (fun _ _ => True) (sm_nb S) (sm_nb S + sm_ni S) b s) as (t2 & -> & _) end; auto. lia.
    + intros k t Hk _. assert (K : (k < sm_nf_all S)%nat) by (unfold sm_nf_all; lia). pose proof (so_int _ OK k Hk). rewrite aget_ok by (rewrite (so_F _ OK); auto). cbn [bind]. rewrite aget_ok by lia. cbn [bind]. rewrite aget_ok by lia. cbn [bind].
      edestruct (LI k) as (P & ->); auto. cbn [bind]. eauto.
    + cbn [bind].
      match goal with |- context [frange (sm_nb S + sm_ni S) (sm_nf_all S) ?b ?s] => destruct (frange_inv _ (fun _ _ => True) (sm_nb S + sm_ni S) (sm_nf_all S) b s) as (t3 & -> & _) end; eauto. unfold sm_nf_all; lia.
      intros k t Hk _. pose proof (so_left _ OK k ltac:(lia)). pose proof (right_lt S k OK ltac:(lia)). rewrite aget_ok by (rewrite (so_F _ OK); lia). cbn [bind]. rewrite aget_ok by lia. cbn [bind]. rewrite aget_ok by lia. cbn [bind].
      edestruct (LI k) as (P & ->); [lia|]. cbn [bind]. eauto.
Qed.
