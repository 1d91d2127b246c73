(** Properties C69 (preallocation of the Jacobian matrix) and C70 (matrix-free product). *)
From Coq Require Import Reals Lra List Arith Lia ZArith Bool.
From Verif Require Import Base BaseR BaseSum M_Gas M_Flux M_Visc M_BC M_BCConf M_Mesh S_Mesh Pf_Full Pf_Incid ChkMesh M_Geom P_Geom M_Space S_Space Pf_Space Pf_Grad P_Grad
  M_Resid S_Resid Pf_Resid P_Resid Pf_Jac M_Linalg Pf_Linalg P_Flux Pf_Deriv.
Import ListNotations.

(** ** C69 *)

(** Number of connectivity faces of cell [i]. *)
Definition conn_faces_of (S : smesh) (i : nat) : list nat :=
  filter (fun k => f_left (aat (sm_F S) (sm_nb S + sm_ni S + k)) =? i)%nat (seq 0 (sm_nc S)).

(** The own columns inserted in the row of a cell never exceed the diagonal preallocation:
    block format and scalar format ([n] unknowns per cell). *)
Theorem C69_diagonal : forall m hs X ghost S, built m hs X ghost S ->
  forall fl u row col t, assembly_trace S fl u row col = Some t ->
  (forall a b, (a < sm_ne S)%nat -> (b < sm_ne S)%nat -> row a = row b -> a = b) ->
  (forall c k i, col = Some c -> (k < sm_nc S)%nat -> (i < sm_ne S)%nat -> c k <> row i) ->
  (exists a, block_dnnz S = Some a /\ forall i l, (i < sm_ne S)%nat -> NoDup l ->
     (forall j, In j l -> In (row i, j) (map fst t) /\ exists b, (b < sm_ne S)%nat /\ j = row b) -> (length l <= aat a i)%nat) /\
  (forall n, exists a, scalar_dnnz n S = Some a /\ forall i c l, (i < sm_ne S)%nat -> (c < n)%nat -> NoDup l ->
     (forall x, In x l -> exists j e, (e < n)%nat /\ x = (j * n + e)%nat /\ In (row i, j) (map fst t) /\ exists b, (b < sm_ne S)%nat /\ j = row b) ->
     (length l <= aat a (i * n + c))%nat).
Proof.
  intros m hs X ghost S B fl u row col t Et Hinj Hcol. pose proof (built_sm _ _ _ _ _ B) as OK.
  pose proof (trace_positions S fl u row col OK t Et) as TP.
  set (cols_of := fun i => row i :: map (fun f => row (other S i (at2 (sm_EF S) i f))) (seq 0 (aat (sm_nf S) i))).
  assert (Q : forall i j, (i < sm_ne S)%nat -> In (row i, j) (map fst t) -> (exists b, (b < sm_ne S)%nat /\ j = row b) -> In j (cols_of i)).
  { intros i j Hi H (b & Hb & ->). rewrite TP in H. apply (own_columns S row col OK i (row b) Hinj Hi) in H. exact H. intros c k Ec Hk. apply Hcol; auto. }
  assert (LC : forall i, length (cols_of i) = (aat (sm_nf S) i + 1)%nat) by (intros; unfold cols_of; cbn; rewrite map_length, seq_length; lia).
  split.
  - destruct (block_dnnz_ok S OK) as (a & E & L & P). exists a. split; auto. intros i l Hi N H. rewrite P, <- LC by auto. apply incl_len; auto. intros j Hj. destruct (H j Hj). auto.
  - intros n. destruct (scalar_dnnz_ok n S OK) as (a & E & L & P). exists a. split; auto. intros i c l Hi Hc N H. rewrite P by auto.
    replace ((aat (sm_nf S) i + 1) * n)%nat with (length (flat_map (fun j => map (fun e => j * n + e)%nat (seq 0 n)) (cols_of i))).
    + apply incl_len; auto. intros x Hx. destruct (H x Hx) as (j & e & He & -> & Hj & Hb). apply in_flat_map. exists j. split; auto. apply in_map_iff. exists e. split; auto. apply in_seq. lia.
    + rewrite <- LC. clear. induction (cols_of i); cbn [flat_map length]; auto. rewrite app_length, map_length, seq_length, IHl. lia.
Qed.
Print Assumptions C69_diagonal.

(** The columns of other processes in the row of a cell are at most as many as its connectivity
    faces, so the off-diagonal preallocation suffices for cells with at most one of them ... *)
Theorem C69_off_diagonal : forall m hs X ghost S, built m hs X ghost S ->
  forall fl u row col t, assembly_trace S fl u row col = Some t ->
  (forall a b, (a < sm_ne S)%nat -> (b < sm_ne S)%nat -> row a = row b -> a = b) ->
  exists a, block_onnz m S = Some a /\ forall i l, (i < sm_ne S)%nat -> NoDup l ->
    (forall j, In j l -> In (row i, j) (map fst t) /\ forall b, (b < sm_ne S)%nat -> row b <> j) ->
    (length l <= length (conn_faces_of S i))%nat /\
    aat a i = Nat.min 1 (length (conn_faces_of S i)).
Proof.
  intros m hs X ghost S B fl u row col t Et Hinj. pose proof (built_sm _ _ _ _ _ B) as OK. pose proof B as (T & _).
  destruct (built_ok _ _ _ _ _ B) as (p & e & ni & s & il & TO & _ & E1 & E2 & E3 & E4 & _).
  assert (HC : forall c, In c (conns m) -> (cf_elem c < sm_ne S)%nat). { intros c Hc. rewrite E1. apply (Pf_Topo.gm_conns _ _ (tl_good _ _ T) c Hc). }
  destruct (block_onnz_ok m S HC) as (a & E & L & P). exists a. split; auto. intros i l Hi N H. split.
  - assert (IN : forall x, In x l -> exists k, In k (conn_faces_of S i) /\ exists c, col = Some c /\ x = c k).
    { intros x Hx. destruct (H x Hx) as (H1 & H2). destruct (ghost_columns S fl u row col OK Hinj i x t Et Hi H2 H1) as (c & k & Ec & Hk & Hl & ->).
      exists k. split; eauto. unfold conn_faces_of. apply filter_In. split. apply in_seq; lia. apply Nat.eqb_eq. auto. }
    destruct col as [c|].
    + rewrite <- (map_length c (conn_faces_of S i)). apply incl_len; auto. intros x Hx. destruct (IN x Hx) as (k & Hk & c' & Ec & ->). injection Ec as <-. apply in_map. auto.
    + destruct l as [|x l]; [cbn; lia|]. destruct (IN x (or_introl eq_refl)) as (k & _ & c & Ec & _). discriminate Ec.
  - rewrite P by auto. destruct (existsb (fun c => cf_elem c =? i)%nat (conns m)) eqn:X1.
    + apply existsb_exists in X1. destruct X1 as (c & Hc & Ei). apply Nat.eqb_eq in Ei. apply In_nth_error in Hc. destruct Hc as (q & Eq).
      destruct (built_conn m hs X ghost S q c B Eq) as (Hq & EF). assert (In q (conn_faces_of S i)). { apply filter_In. split. apply in_seq; lia. rewrite EF. cbn [f_left]. apply Nat.eqb_eq; auto. }
      destruct (conn_faces_of S i); [destruct H0|cbn [length]]. lia.
    + destruct (conn_faces_of S i) as [|q r] eqn:X2; [reflexivity|]. exfalso. assert (Hq : In q (conn_faces_of S i)) by (rewrite X2; left; auto). apply filter_In in Hq. destruct Hq as (Hq & El).
      apply in_seq in Hq. destruct (nth_error (conns m) q) as [c|] eqn:Eq. 2:{ apply nth_error_None in Eq. unfold nconnface in E4. lia. }
      destruct (built_conn m hs X ghost S q c B Eq) as (_ & EF). rewrite EF in El. cbn [f_left] in El. apply nth_error_In in Eq.
      assert (existsb (fun c => cf_elem c =? i)%nat (conns m) = true) by (apply existsb_exists; eauto). congruence.
Qed.
Print Assumptions C69_off_diagonal.

(** ... and is too small for every cell with two, towards different cells. *)
Theorem C69_too_small : forall m hs X ghost S, built m hs X ghost S ->
  forall fl u row c t i k1 k2, assembly_trace S fl u row (Some c) = Some t ->
  (i < sm_ne S)%nat -> In k1 (conn_faces_of S i) -> In k2 (conn_faces_of S i) -> c k1 <> c k2 ->
  exists a, block_onnz m S = Some a /\ exists l, NoDup l /\ (forall j, In j l -> In (row i, j) (map fst t) /\ exists k, j = c k) /\ (aat a i < length l)%nat.
Proof.
  intros m hs X ghost S B fl u row c t i k1 k2 Et Hi H1 H2 Hc. pose proof (built_sm _ _ _ _ _ B) as OK. pose proof B as (T & _).
  destruct (built_ok _ _ _ _ _ B) as (p & e & ni & s & il & TO & _ & E1 & E2 & E3 & E4 & _).
  assert (HC : forall c, In c (conns m) -> (cf_elem c < sm_ne S)%nat). { intros c' Hc'. rewrite E1. apply (Pf_Topo.gm_conns _ _ (tl_good _ _ T) c' Hc'). }
  destruct (block_onnz_ok m S HC) as (a & E & L & P). exists a. split; auto. exists [c k1; c k2]. split.
  { constructor; [intros [Q|[]]; congruence|]. constructor; [intros []|constructor]. }
  assert (W : forall k, In k (conn_faces_of S i) -> In (row i, c k) (map fst t)).
  { intros k Hk. apply filter_In in Hk. destruct Hk as (Hk & Hl). apply in_seq in Hk. apply Nat.eqb_eq in Hl. rewrite (trace_positions S fl u row (Some c) OK t Et). apply in_flat_map.
    exists (sm_nb S + sm_ni S + k)%nat. split. unfold all_faces, sm_nf_all. apply in_seq. lia. unfold face_positions.
    destruct (Nat.ltb_spec (sm_nb S + sm_ni S + k) (sm_nb S)); [lia|]. destruct (Nat.ltb_spec (sm_nb S + sm_ni S + k) (sm_nb S + sm_ni S)); [lia|].
    rewrite Hl. replace (sm_nb S + sm_ni S + k - sm_nb S - sm_ni S)%nat with k by lia. left. reflexivity. }
  split. { intros j [<-|[<-|[]]]; split; eauto. }
  rewrite P by auto. destruct (existsb _ _); cbn; lia.
Qed.
Print Assumptions C69_too_small.

(** A subdomain of one triangle with two connectivity faces; the assembly completes. *)
Definition oneflow : flow := mkflow air LLF LLF false true [(1%Z, BFar exU)].
Lemma one_built : exists S, built exone [(0,0)%nat] exX3t exg S.
Proof.
  destruct (C86_setup_total exone [(0,0)%nat] exX3t exg (fun _ _ => 0%Z) (fun _ => mkface 0 0 0 0) (fun _ _ => 0%nat) (fun _ => []) (fun _ => mkfm vzero 0) (fun _ => 0%R) (fun _ => vzero) (fun _ => vzero)) as (S & _ & B); eauto.
  apply tiledb_ok; vm_compute; reflexivity. intros c [<-|[]]; cbn; auto.
Qed.
Lemma one_trace S : built exone [(0,0)%nat] exX3t exg S -> exists t, assembly_trace S oneflow (mkarr 3 (fun _ => exU)) (fun i => i) (Some (fun k => 1 + k)%nat) = Some t.
Proof.
  intros B. destruct (cover_by_tag exone [(0,0)%nat] exX3t exg S oneflow B) as (bc & C & Q). { intros bf [<-|[]]. do 3 eexists. split; reflexivity. }
  destruct (built_ok _ _ _ _ _ B) as (p & e & ni & s & il & TO & OK & E1 & E2 & E3 & E4 & _).
  apply (trace_total S oneflow bc); auto. cbn [alen]. rewrite E1, E4. reflexivity. split; discriminate.
  intros k Hk. rewrite E2 in Hk. cbn in Hk. assert (k = 0%nat) by lia. subst k. specialize (Q 0%nat _ _ _ eq_refl eq_refl). cbn in Q. injection Q as <-. exact I.
Qed.
Theorem C69_off_diagonal_refuted : exists m hs X ghost S fl u row c t a i l, built m hs X ghost S /\ assembly_trace S fl u row (Some c) = Some t /\
  block_onnz m S = Some a /\ (i < sm_ne S)%nat /\ NoDup l /\ (forall j, In j l -> In (row i, j) (map fst t) /\ forall b, (b < sm_ne S)%nat -> row b <> j) /\ (aat a i < length l)%nat.
Proof.
  destruct one_built as (S & B). destruct (one_trace S B) as (t & Et).
  destruct (built_conn _ _ _ _ _ 0 (mkcf 0 1 0 0 0) B eq_refl) as (H0 & F0). destruct (built_conn _ _ _ _ _ 1 (mkcf 0 2 0 0 0) B eq_refl) as (H1 & F1).
  destruct (built_ok _ _ _ _ _ B) as (p & e & ni & s & il & TO & _ & E1 & _). assert (E : sm_ne S = 1%nat) by exact E1.
  destruct (C69_too_small _ _ _ _ _ B oneflow (mkarr 3 (fun _ => exU)) (fun i => i) (fun k => 1 + k)%nat t 0 0 1 Et) as (a & Ea & l & N & W & Q).
  - lia.
  - apply filter_In. split. apply in_seq; lia. rewrite F0. reflexivity.
  - apply filter_In. split. apply in_seq; lia. rewrite F1. reflexivity.
  - lia.
  - do 13 eexists. split; [exact B|]. split; [exact Et|]. split; [exact Ea|]. split; [|split; [exact N|split; [|exact Q]]]. lia.
    intros j Hj. destruct (W j Hj) as (W1 & k & ->). split; auto. intros b Hb. lia.
Qed.
Print Assumptions C69_off_diagonal_refuted.
(** the hypotheses of C69_diagonal *)
Example C69_ex : exists S t, built exone [(0,0)%nat] exX3t exg S /\ assembly_trace S oneflow (mkarr 3 (fun _ => exU)) (fun i => i) (Some (fun k => 1 + k)%nat) = Some t.
Proof. destruct one_built as (S & B). destruct (one_trace S B) as (t & Et). eauto. Qed.

(** ** C70 *)
Open Scope R_scope.

Definition own (L : layout) (r i : nat) : Prop := (r < ranks L)%nat /\ (i < l_ne L r * nv L)%nat.
Definition local (L : layout) (r i : nat) : Prop := (r < ranks L)%nat /\ (i < (l_ne L r + l_nc L r) * nv L)%nat.
(** ghost cells are cells of some rank *)
Definition layout_ok (L : layout) : Prop := (0 < nv L)%nat /\
  forall r k, (r < ranks L)%nat -> (k < l_nc L r)%nat -> (fst (owner L r k) < ranks L /\ snd (owner L r k) < l_ne L (fst (owner L r k)))%nat.
(** The residual depends on the entries of the local arrays only. *)
Definition reads_local (L : layout) (F : dvec -> dvec) : Prop :=
  forall a b, (forall r i, local L r i -> a r i = b r i) -> forall r i, own L r i -> F a r i = F b r i.
Definition nonzero (L : layout) (x : dvec) : Prop := exists r i, own L r i /\ x r i <> 0.
(** state [u] moved by [h] along [x], ghosts updated *)
Definition moved (L : layout) (u x : dvec) (h : R) : dvec := ghost_forward L (fun r i => u r i + h * x r i).
(** no content left in the ghost entries of a new vector, beyond those the loop clears *)
Definition ghosts_clear (L : layout) (j : dvec) : Prop := forall r i, local L r i -> ~ own L r i -> (l_ne L r + l_nc L r <= i)%nat -> j r i = 0.

Lemma own_idx L r e c : (e < l_ne L r)%nat -> (c < nv L)%nat -> (e * nv L + c < l_ne L r * nv L)%nat.
Proof. intros. nia. Qed.

Lemma forward_ext L a b : layout_ok L -> (forall r i, own L r i -> a r i = b r i) -> forall r i, local L r i -> ghost_forward L a r i = ghost_forward L b r i.
Proof.
  intros (N & HO) H r i (Hr & Hi). unfold ghost_forward. destruct (Nat.ltb_spec i (l_ne L r * nv L)) as [K|K]. apply H; split; auto.
  destruct (Nat.ltb_spec i ((l_ne L r + l_nc L r) * nv L)); [|lia]. cbv zeta.
  assert (D1 : (l_ne L r <= i / nv L)%nat) by (apply Nat.div_le_lower_bound; lia).
  assert (D2 : (i / nv L < l_ne L r + l_nc L r)%nat) by (apply Nat.div_lt_upper_bound; lia).
  destruct (HO r (i / nv L - l_ne L r)%nat Hr ltac:(lia)) as (O1 & O2). apply H. split; auto. apply own_idx; auto. apply Nat.mod_upper_bound. lia.
Qed.

Lemma norm_pos L x : nonzero L x -> 0 < vec_norm L x.
Proof.
  intros (r & i & (Hr & Hi) & Hx). unfold vec_norm. apply sqrt_lt_R0.
  assert (P : forall r i, 0 <= x r i ^ 2) by (intros; apply pow2_ge_0).
  apply rsum_pos_one with r. { intros. apply rsum_nonneg. auto. } { apply in_seq; lia. }
  apply rsum_pos_one with i; auto. apply in_seq; lia. rewrite <- Rsqr_pow2. apply Rsqr_pos_lt. auto.
Qed.

Lemma copies_zero L y r i : (0 < nv L)%nat -> (forall q k c, (q < ranks L)%nat -> (k < l_nc L q)%nat -> (c < nv L)%nat -> y q ((l_ne L q + k) * nv L + c)%nat = 0) -> ghost_copies L y r i = 0.
Proof.
  intros N H. unfold ghost_copies. apply rsum_zero. intros q Hq. apply in_seq in Hq. apply rsum_zero. intros k Hk. apply in_seq in Hk. destruct (_ && _)%bool; auto. apply H; try lia. apply Nat.mod_upper_bound. lia.
Qed.

(** The product is a difference quotient of the residual, plus what the ghost entries held. *)
Lemma apply_gen L F eps u ja jy x res dtm : layout_ok L -> reads_local L F ->
  forall r i, own L r i -> let h := eps / vec_norm L x in
  matfree_apply L F eps u res dtm ja jy x r i = dtm r (i / nv L)%nat * x r i + (res r i - F (moved L u x h) r i - ghost_copies L (clear_yg L jy) r i) / h.
Proof.
  intros LO RL r i O h. destruct O as (Hr & Hi). unfold matfree_apply. cbv zeta. fold h. unfold ghost_reverse. destruct (Nat.ltb_spec i (l_ne L r * nv L)); [|lia].
  assert (E1 : clear_yg L jy r i = 0). { unfold clear_yg. destruct (Nat.ltb_spec i (l_ne L r * nv L)); [reflexivity|lia]. }
  assert (E2 : F (ghost_forward L (fill_aux L h u x ja)) r i = F (moved L u x h) r i).
  { apply RL; [|split; auto]. intros. apply forward_ext; auto. intros q j (Q1 & Q2). unfold fill_aux. destruct (Nat.ltb_spec j (l_ne L q * nv L)); [reflexivity|lia]. }
  assert (E3 : ghost_copies L (fun r i => if (i <? l_ne L r * nv L)%nat then clear_yg L jy r i + F (ghost_forward L (fill_aux L h u x ja)) r i else clear_yg L jy r i) r i = ghost_copies L (clear_yg L jy) r i).
  { unfold ghost_copies. apply rsum_ext. intros q _. apply rsum_ext. intros k _. destruct (_ && _)%bool; auto. destruct (Nat.ltb_spec ((l_ne L q + k) * nv L + i mod nv L) (l_ne L q * nv L)); [nia|reflexivity]. }
  rewrite E3, E1, E2. f_equal. f_equal. ring.
Qed.

Theorem C70_difference : forall L F eps u ja jy x res dtm, layout_ok L -> reads_local L F -> ghosts_clear L jy ->
  forall r i, own L r i -> let h := eps / vec_norm L x in
  matfree_apply L F eps u res dtm ja jy x r i = dtm r (i / nv L)%nat * x r i + (res r i - F (moved L u x h) r i) / h.
Proof.
  intros L F eps u ja jy x res dtm LO RL GC r i O h. rewrite apply_gen by auto. fold h. f_equal. f_equal.
  rewrite copies_zero. ring. apply LO. intros q k c Hq Hk Hc. unfold clear_yg. destruct (Nat.ltb_spec ((l_ne L q + k) * nv L + c) (l_ne L q * nv L)); [reflexivity|].
  destruct (Nat.leb_spec (l_ne L q) ((l_ne L q + k) * nv L + c)); cbn [andb].
  - destruct (Nat.ltb_spec ((l_ne L q + k) * nv L + c) (l_ne L q + l_nc L q)); [reflexivity|]. apply GC; auto. split; auto. nia. intros (_ & K). lia.
  - destruct LO as (N & _). nia.
Qed.
Print Assumptions C70_difference.

(** exact for residuals that are affine in the local entries, for every step; [res] is the residual
    at [u] *)
Definition affine (L : layout) (F : dvec -> dvec) (b : dvec) (M : nat -> nat -> nat -> R) : Prop :=
  forall a r i, own L r i -> F a r i = b r i + rsum (fun j => M r i j * a r j) (seq 0 ((l_ne L r + l_nc L r) * nv L)).
Lemma affine_local L F b M : affine L F b M -> reads_local L F.
Proof.
  intros A a a' H r i O. rewrite !A by auto. f_equal. apply rsum_ext. intros j Hj. apply in_seq in Hj. rewrite (H r j); auto. split. apply O. lia.
Qed.
Lemma forward_lin L u x h r i : ghost_forward L (fun r i => u r i + h * x r i) r i = ghost_forward L u r i + h * ghost_forward L x r i.
Proof. unfold ghost_forward. destruct (_ <? _)%nat; auto. destruct (_ <? _)%nat; auto. Qed.
Theorem C70_affine_exact : forall L F b M eps u ja jy x res dtm, layout_ok L -> affine L F b M -> ghosts_clear L jy -> eps <> 0 -> nonzero L x ->
  (forall r i, own L r i -> res r i = F (ghost_forward L u) r i) ->
  forall r i, own L r i -> matfree_apply L F eps u res dtm ja jy x r i =
    dtm r (i / nv L)%nat * x r i - rsum (fun j => M r i j * ghost_forward L x r j) (seq 0 ((l_ne L r + l_nc L r) * nv L)).
Proof.
  intros L F b M eps u ja jy x res dtm LO A GC He Hx HR r i O. rewrite C70_difference by (auto; eapply affine_local; eauto). cbv zeta.
  rewrite HR, !A by auto. unfold moved. set (h := eps / vec_norm L x). set (n := ((l_ne L r + l_nc L r) * nv L)%nat).
  assert (Hh : h <> 0). { pose proof (norm_pos L x Hx). unfold h. intro Q. apply He. apply (f_equal (fun t => t * vec_norm L x)) in Q. field_simplify in Q; lra. }
  assert (E : rsum (fun j => M r i j * ghost_forward L (fun r i => u r i + h * x r i) r j) (seq 0 n) = rsum (fun j => M r i j * ghost_forward L u r j) (seq 0 n) + h * rsum (fun j => M r i j * ghost_forward L x r j) (seq 0 n)).
  { rewrite <- rsum_scal, <- rsum_plus. apply rsum_ext. intros j _. rewrite forward_lin. ring. }
  rewrite E. field. auto.
Qed.
Print Assumptions C70_affine_exact.

(** hence linear *)
Theorem C70_linear : forall L F b M eps u ja jy x y res dtm c d, layout_ok L -> affine L F b M -> ghosts_clear L jy -> eps <> 0 ->
  nonzero L x -> nonzero L y -> nonzero L (fun r i => c * x r i + d * y r i) ->
  (forall r i, own L r i -> res r i = F (ghost_forward L u) r i) -> forall r i, own L r i ->
  matfree_apply L F eps u res dtm ja jy (fun r i => c * x r i + d * y r i) r i =
  c * matfree_apply L F eps u res dtm ja jy x r i + d * matfree_apply L F eps u res dtm ja jy y r i.
Proof.
  intros L F b M eps u ja jy x y res dtm c d LO A GC He Hx Hy Hz HR r i O.
  rewrite !(C70_affine_exact L F b M) by auto. set (n := ((l_ne L r + l_nc L r) * nv L)%nat).
  assert (E : rsum (fun j => M r i j * ghost_forward L (fun r i => c * x r i + d * y r i) r j) (seq 0 n) = c * rsum (fun j => M r i j * ghost_forward L x r j) (seq 0 n) + d * rsum (fun j => M r i j * ghost_forward L y r j) (seq 0 n)).
  { rewrite <- !rsum_scal, <- rsum_plus. apply rsum_ext. intros j _. unfold ghost_forward. destruct (_ <? _)%nat; [ring|]. destruct (_ <? _)%nat; cbv zeta; ring. }
  rewrite E. ring.
Qed.
Print Assumptions C70_linear.

(** For a residual with a derivative [D] along [x] the product tends to dtm x - D as the step tends
    to zero. *)
Theorem C70_limit : forall L F u ja jy x res dtm D, layout_ok L -> reads_local L F -> ghosts_clear L jy -> nonzero L x ->
  forall r i, own L r i -> res r i = F (moved L u x 0) r i -> derivable_pt_lim (fun h => F (moved L u x h) r i) 0 D ->
  forall e, 0 < e -> exists delta, 0 < delta /\ forall eps, eps <> 0 -> Rabs eps < delta ->
    Rabs (matfree_apply L F eps u res dtm ja jy x r i - (dtm r (i / nv L)%nat * x r i - D)) < e.
Proof.
  intros L F u ja jy x res dtm D LO RL GC Hx r i O HR HD e He. pose proof (norm_pos L x Hx) as Hn. destruct (HD e He) as (dl & Hdl).
  exists (dl * vec_norm L x). split. { apply Rmult_lt_0_compat; auto. apply cond_pos. }
  intros eps E0 El. rewrite C70_difference by auto. cbv zeta. set (h := eps / vec_norm L x).
  assert (Hh : h <> 0). { unfold h. intro Q. apply E0. apply (f_equal (fun t => t * vec_norm L x)) in Q. field_simplify in Q; lra. }
  assert (Hl : Rabs h < dl). { unfold h, Rdiv. rewrite Rabs_mult, (Rabs_right (/ vec_norm L x)) by (apply Rle_ge, Rlt_le, Rinv_0_lt_compat; auto).
    apply Rmult_lt_reg_r with (vec_norm L x); auto. rewrite Rmult_assoc, Rinv_l, Rmult_1_r by lra. auto. }
  specialize (Hdl h Hh Hl). rewrite Rplus_0_l in Hdl. rewrite HR. rewrite <- Rabs_Ropp. replace (- _) with ((F (moved L u x h) r i - F (moved L u x 0) r i) / h - D); auto. field. auto.
Qed.
Print Assumptions C70_limit.

(** With one unknown per cell the second loop clears all ghost entries, so nothing depends on what a
    new vector holds; with more unknowns it does not. *)
Theorem C70_one_unknown : forall L j, nv L = 1%nat -> ghosts_clear L j.
Proof. intros L j N r i (H1 & H2) _ H. rewrite N in H2. lia. Qed.
Print Assumptions C70_one_unknown.

Theorem C70_ghosts_not_cleared : forall L F eps u ja jy x res dtm, layout_ok L -> reads_local L F -> eps <> 0 -> nonzero L x ->
  forall r i, own L r i ->
  matfree_apply L F eps u res dtm ja jy x r i - matfree_apply L F eps u res dtm ja (fun _ _ => 0) x r i =
  - ghost_copies L (fun q j => if (j <? l_ne L q + l_nc L q)%nat then 0 else jy q j) r i * (vec_norm L x / eps).
Proof.
  intros L F eps u ja jy x res dtm LO RL He Hx r i O. pose proof (norm_pos L x Hx) as Hn. rewrite apply_gen, C70_difference by (auto; intros ? ?; auto). cbv zeta.
  assert (E : ghost_copies L (clear_yg L jy) r i = ghost_copies L (fun q j => if (j <? l_ne L q + l_nc L q)%nat then 0 else jy q j) r i).
  { unfold ghost_copies. apply rsum_ext. intros q Hq. apply in_seq in Hq. apply rsum_ext. intros k Hk. destruct (_ && _)%bool; auto. destruct LO as (N & _). unfold clear_yg.
    destruct (Nat.ltb_spec ((l_ne L q + k) * nv L + i mod nv L) (l_ne L q * nv L)); [nia|].
    destruct (Nat.leb_spec (l_ne L q) ((l_ne L q + k) * nv L + i mod nv L)); [reflexivity|nia]. }
  rewrite E. field. split; lra.
Qed.
Print Assumptions C70_ghosts_not_cleared.

(** Two ranks with one cell and one ghost each, four unknowns: what the new vector held in its ghost
    entries changes the product. *)
Definition lay2 : layout := mklay 2 (fun _ => 1%nat) (fun _ => 1%nat) (fun r _ => (1 - r, 0)%nat) 4.
Lemma lay2_ok : layout_ok lay2.
Proof. split; [cbn; lia|]. intros r k Hr Hk. cbn [lay2 ranks l_ne l_nc owner fst snd] in *. lia. Qed.
Theorem C70_clearing_refuted : exists L F b M eps u ja jy x res dtm r i, layout_ok L /\ affine L F b M /\ eps <> 0 /\ nonzero L x /\ own L r i /\
  (forall r i, own L r i -> res r i = F (ghost_forward L u) r i) /\
  matfree_apply L F eps u res dtm ja jy x r i <>
    dtm r (i / nv L)%nat * x r i - rsum (fun j => M r i j * ghost_forward L x r j) (seq 0 ((l_ne L r + l_nc L r) * nv L)).
Proof.
  set (F := fun (_ : dvec) (_ _ : nat) => 0). set (x := fun _ _ : nat => 1). set (z := fun _ _ : nat => 0).
  assert (A : affine lay2 F z (fun _ _ _ => 0)). { intros a r i _. unfold F, z. rewrite rsum_zero by (intros; ring). ring. }
  assert (NX : nonzero lay2 x). { exists 0%nat, 0%nat. split. split; cbn; lia. unfold x. lra. }
  assert (O : own lay2 0%nat 0%nat) by (split; cbn; lia).
  exists lay2, F, z, (fun _ _ _ => 0), 1, z, z, x, x, z, z, 0%nat, 0%nat. split; [exact lay2_ok|]. split; [exact A|]. split; [lra|]. split; [exact NX|]. split; [exact O|]. split.
  { intros r i _. reflexivity. }
  assert (N1 : (1:R) <> 0) by lra.
  assert (GZ : ghosts_clear lay2 (fun _ _ => 0)) by (intros ? ? ? ? ?; reflexivity).
  assert (HRz : forall r i, own lay2 r i -> z r i = F (ghost_forward lay2 z) r i) by (intros; reflexivity).
  pose proof (C70_affine_exact lay2 F z (fun _ _ _ => 0) 1 z z (fun _ _ => 0) x z z lay2_ok A GZ N1 NX HRz 0%nat 0%nat O) as E.
  pose proof (C70_ghosts_not_cleared lay2 F 1 z z x x z z lay2_ok (affine_local _ _ _ _ A) N1 NX 0%nat 0%nat O) as D. pose proof (norm_pos lay2 x NX) as P.
  intros Q. rewrite Q, E in D. assert (G : ghost_copies lay2 (fun q j => if (j <? l_ne lay2 q + l_nc lay2 q)%nat then 0 else x q j) 0 0 = 1).
  { unfold ghost_copies. cbn. unfold x. assert (B1 : (0 =? 0 / 4)%nat = true) by reflexivity. assert (B2 : (Datatypes.S (Datatypes.S (Datatypes.S (Datatypes.S (0 mod 4)))) <? 2)%nat = false) by reflexivity.
    rewrite B1, B2. change (1 =? 0)%nat with false. change (0 =? 0)%nat with true. cbn [andb]. lra. }
  rewrite G in D. lra.
Qed.
Print Assumptions C70_clearing_refuted.
Example C70_ex : layout_ok lay2 /\ ghosts_clear lay2 (fun _ _ => 0) /\ nonzero lay2 (fun r i => INR (r + i)).
Proof. split; [exact lay2_ok|]. split; [intros ? ? ? ? ?; reflexivity|]. exists 1%nat, 0%nat. split. split; cbn; lia. cbn. lra. Qed.
