(** Proofs about the trace vectors of M_Trace. *)
From Coq Require Import List Arith ZArith Bool Lia Permutation.
From Verif Require Import Base M_Mesh M_Async Pf_Async M_Trace.
Import ListNotations.
Open Scope nat_scope.

Definition cf0 : cfrec := mkcf 0 0 0 0 0.
Definition cfn (cf : list cfrec) (i : nat) : cfrec := nth i cf cf0.
Lemma cfn_ok cf i : i < length cf -> nth_error cf i = Some (cfn cf i).
Proof. intros. apply nth_error_nth'. auto. Qed.

(** ** std::set *)
Inductive incr : list Z -> Prop := incr0 : incr [] | incr1 : forall x l, (forall y, In y l -> (x < y)%Z) -> incr l -> incr (x :: l).
Lemma insert_in x l y : In y (set_insert x l) <-> y = x \/ In y l.
Proof.
  induction l as [|a l IH]; cbn. { intuition. }
  destruct (Z.ltb_spec x a); cbn; [intuition|]. destruct (Z.eqb_spec x a); cbn; [subst; intuition|]. rewrite IH. intuition.
Qed.
Lemma insert_incr x l : incr l -> incr (set_insert x l).
Proof.
  induction 1 as [|a l A I IH]; cbn. { constructor; [intros y []|constructor]. }
  destruct (Z.ltb_spec x a). { constructor; [|constructor; auto]. intros y [<-|Hy]; auto. specialize (A y Hy). lia. }
  destruct (Z.eqb_spec x a); [constructor; auto|]. constructor; auto. intros y Hy. apply insert_in in Hy. destruct Hy as [->|]; auto. lia.
Qed.
Lemma incr_nodup l : incr l -> NoDup l.
Proof. induction 1; constructor; auto. intros H1. specialize (H x H1). lia. Qed.

(** faces of one rank shared with rank [d] *)
Definition sharing (cf : list cfrec) (d : Z) : list nat := filter (fun i => Z.eqb (cf_rank (cfn cf i)) d) (seq 0 (length cf)).
Lemma sharing_in cf d i : In i (sharing cf d) <-> i < length cf /\ cf_rank (cfn cf i) = d.
Proof. unfold sharing. rewrite filter_In, in_seq, Z.eqb_eq. split; intros []; split; auto; lia. Qed.
Lemma sharing_nodup cf d : NoDup (sharing cf d).
Proof. apply NoDup_filter, seq_NoDup. Qed.

Record comm_ok (cf : list cfrec) (nb : list Z) (mp : arr nat) (sh : arr (list nat)) : Prop := {
  co_incr : incr nb;
  co_in : forall d, In d nb <-> exists i, i < length cf /\ cf_rank (cfn cf i) = d;
  co_mplen : alen mp = length cf;
  co_mp : forall i, i < length cf -> nth_error nb (aat mp i) = Some (cf_rank (cfn cf i));
  co_shlen : alen sh = length nb;
  co_sh : forall k d, nth_error nb k = Some d -> aat sh k = sharing cf d }.

Lemma filter_seq_S (p : nat -> bool) i : filter p (seq 0 (i + 1)) = filter p (seq 0 i) ++ (if p i then [i] else []).
Proof. rewrite Nat.add_1_r, seq_S, filter_app. cbn. destruct (p i); auto. Qed.

Lemma comm_faces_ok cf jm : exists nb mp sh, comm_faces cf jm = Some (nb, mp, sh) /\ comm_ok cf nb mp sh.
Proof.
  unfold comm_faces.
  match goal with |- context [floop _ ?bb ?ss] => destruct (floop_inv _ (fun n l => incr l /\ forall d, In d l <-> exists i, i < n /\ cf_rank (cfn cf i) = d) (length cf) bb ss) as (nb & -> & I1 & I2) end.
  { split; [constructor|]. intros d. split; [intros []|intros (i & Hi & _); lia]. }
  { intros i s Hi (I1 & I2). rewrite cfn_ok by auto. cbn. eexists. split; [reflexivity|]. split; [apply insert_incr; auto|]. intros d. rewrite insert_in, I2. split.
    - intros [->|(j & J & E)]; [exists i; split; auto; lia|exists j; split; auto; lia].
    - intros (j & J & E). destruct (Nat.eq_dec j i); [subst; auto|right; exists j; split; auto; lia]. }
  cbn [bind].
  match goal with |- context [floop _ ?bb ?ss] => destruct (floop_inv _ (fun n (mp : arr nat) => alen mp = length cf /\ forall i, i < n -> nth_error nb (aat mp i) = Some (cf_rank (cfn cf i))) (length cf) bb ss) as (mp & -> & M1 & M2) end.
  { split; auto. intros; lia. }
  { intros i mp Hi (M1 & M2). rewrite cfn_ok by auto. cbn [bind].
    destruct (ofind_spec (length nb) (fun k => x <- nth_error nb k;; Some (cf_rank (cfn cf i) =? x)%Z) (fun k => (cf_rank (cfn cf i) =? nth k nb 0)%Z)) as [(k & K1 & K2 & _ & ->)|(K & _)].
    - intros k Hk. rewrite (nth_error_nth' _ 0%Z) by auto. auto.
    - cbn. rewrite aset_ok by lia. eexists. split; [reflexivity|]. cbn. split; auto. intros j Hj. destruct (Nat.eq_dec j i) as [->|].
      + rewrite upd_eq. rewrite (nth_error_nth' _ 0%Z) by auto. apply Z.eqb_eq in K2. rewrite K2. auto.
      + rewrite upd_ne by auto. apply M2. lia.
    - exfalso. assert (H : In (cf_rank (cfn cf i)) nb) by (apply I2; eauto). apply In_nth with (d := 0%Z) in H. destruct H as (k & Hk & E). specialize (K k Hk). rewrite E, Z.eqb_refl in K. discriminate. }
  cbn [bind].
  match goal with |- context [floop _ ?bb ?ss] => destruct (floop_inv _ (fun n (sh : arr (list nat)) => alen sh = length nb /\ forall k d, nth_error nb k = Some d -> aat sh k = filter (fun i => Z.eqb (cf_rank (cfn cf i)) d) (seq 0 n)) (length cf) bb ss) as (sh & -> & S1 & S2) end.
  { split; auto. }
  { intros i sh Hi (S1 & S2). rewrite aget_ok by lia. cbn [bind]. assert (Hk := M2 i Hi). assert (Lk : aat mp i < length nb) by (apply nth_error_Some; congruence).
    rewrite aget_ok by lia. cbn. rewrite aset_ok by lia. eexists. split; [reflexivity|]. cbn. split; auto. intros k d Hd. rewrite filter_seq_S. destruct (Nat.eq_dec k (aat mp i)) as [->|Nk].
    - rewrite upd_eq. rewrite Hk in Hd. injection Hd as <-. rewrite Z.eqb_refl. f_equal. apply S2. auto.
    - rewrite upd_ne by auto. destruct (Z.eqb_spec (cf_rank (cfn cf i)) d).
      + exfalso. apply Nk. apply (proj1 (NoDup_nth_error nb) (incr_nodup _ I1)); [apply nth_error_Some; congruence|congruence].
      + rewrite app_nil_r. apply S2. auto. }
  exists nb, mp, sh. split; [reflexivity|]. split; auto.
Qed.

Lemma firstn_nth : forall A (l : list A) i d, i < length l -> firstn (S i) l = firstn i l ++ [nth i l d].
Proof. induction l as [|a l IH]; intros [|i] d Hi; cbn in *; try lia; auto. f_equal. apply IH. lia. Qed.

Lemma gfaces_ok cf nb mp sh k d : comm_ok cf nb mp sh -> nth_error nb k = Some d ->
  my_gfaces cf sh k = Some (map (fun i => cf_gface (cfn cf i)) (sharing cf d)).
Proof.
  intros C K. assert (Lk : k < length nb) by (apply nth_error_Some; congruence). unfold my_gfaces. rewrite aget_ok by (rewrite (co_shlen _ _ _ _ C); auto). cbn. rewrite (co_sh _ _ _ _ C k d K).
  set (l := sharing cf d).
  destruct (floop_inv _ (fun n o => o = map (fun i => cf_gface (cfn cf i)) (firstn n l)) (length l) (fun i o => f <- nth_error l i;; c <- nth_error cf f;; Some (o ++ [cf_gface c])) []) as (o & -> & I); auto.
  { intros i o Hi ->. rewrite (nth_error_nth' _ 0) by auto. cbn. assert (Hin : In (nth i l 0) l) by (apply nth_In; auto). rewrite cfn_ok by (apply sharing_in in Hin; apply Hin). cbn. eexists. split; [reflexivity|].
    rewrite Nat.add_1_r. rewrite (firstn_nth _ l i 0 Hi), map_app. auto. }
  rewrite I, firstn_all. auto.
Qed.

(** ** Matching meshes: the connectivity faces of all ranks pair up *)
Record paired (ranks : list Z) (cfs : Z -> list cfrec) : Prop := {
  pr_nodup : forall r, In r ranks -> NoDup (map (fun c => (cf_rank c, cf_gface c)) (cfs r));
  pr_pair : forall r c, In r ranks -> In c (cfs r) -> In (cf_rank c) ranks /\
      exists c', In c' (cfs (cf_rank c)) /\ cf_rank c' = r /\ cf_gface c' = cf_gface c }.

Definition glist (cfs : Z -> list cfrec) (r d : Z) : list Z := map (fun i => cf_gface (cfn (cfs r) i)) (sharing (cfs r) d).

Section P.
Context (ranks : list Z) (cfs : Z -> list cfrec) (PR : paired ranks cfs).

Lemma key_inj r i j : In r ranks -> i < length (cfs r) -> j < length (cfs r) -> cf_rank (cfn (cfs r) i) = cf_rank (cfn (cfs r) j) -> cf_gface (cfn (cfs r) i) = cf_gface (cfn (cfs r) j) -> i = j.
Proof.
  intros Hr Hi Hj E1 E2. assert (N := pr_nodup _ _ PR r Hr). rewrite NoDup_nth_error in N. apply N; [rewrite map_length; auto|].
  rewrite !nth_error_map, !cfn_ok by auto. cbn. rewrite E1, E2. auto.
Qed.
Lemma glist_nodup r d : In r ranks -> NoDup (glist cfs r d).
Proof.
  intros Hr. unfold glist. assert (A := sharing_nodup (cfs r) d). assert (B : forall i, In i (sharing (cfs r) d) -> i < length (cfs r) /\ cf_rank (cfn (cfs r) i) = d) by (intros; apply sharing_in; auto).
  induction A as [|x l N A IH]; cbn; constructor.
  - intros H. apply in_map_iff in H. destruct H as (y & E & Hy). apply N. destruct (B x) as (B1 & B2); [left; auto|]. destruct (B y) as (B3 & B4); [right; auto|].
    rewrite (key_inj r x y); auto. congruence.
  - apply IH. intros; apply B; right; auto.
Qed.
Lemma glist_sym r d g : In r ranks -> In g (glist cfs r d) -> In g (glist cfs d r).
Proof.
  intros Hr H. unfold glist in *. apply in_map_iff in H. destruct H as (i & E & Hi). apply sharing_in in Hi. destruct Hi as (Hi & Er).
  assert (Hc : In (cfn (cfs r) i) (cfs r)) by (apply nth_In; auto). destruct (pr_pair _ _ PR r _ Hr Hc) as (Hd & c' & C1 & C2 & C3). rewrite Er in *.
  apply In_nth with (d := cf0) in C1. destruct C1 as (j & Hj & Ej). apply in_map_iff. exists j. unfold cfn. rewrite Ej. split; [congruence|]. apply sharing_in. split; auto. unfold cfn. rewrite Ej. auto.
Qed.
Lemma nb_rank r d : In r ranks -> sharing (cfs r) d <> [] -> In d ranks.
Proof.
  intros Hr H. destruct (sharing (cfs r) d) as [|i l] eqn:E; [congruence|]. assert (Hi : In i (sharing (cfs r) d)) by (rewrite E; left; auto). apply sharing_in in Hi. destruct Hi as (Hi & <-).
  apply (pr_pair _ _ PR r); auto. apply nth_In. auto.
Qed.
Lemma glist_len r d : In r ranks -> In d ranks -> length (sharing (cfs r) d) = length (sharing (cfs d) r).
Proof.
  intros Hr Hd. rewrite <- (map_length (fun i => cf_gface (cfn (cfs r) i)) (sharing (cfs r) d)), <- (map_length (fun i => cf_gface (cfn (cfs d) i)) (sharing (cfs d) r)).
  apply Permutation_length. apply NoDup_Permutation; [apply (glist_nodup r d Hr)|apply (glist_nodup d r Hd)|]. intros g. split; intros H.
  - apply (glist_sym r d g Hr H).
  - apply (glist_sym d r g Hd H).
Qed.
(** the face of r that is face number j in the list of d *)
Lemma partner r d j : In r ranks -> In d ranks -> j < length (sharing (cfs d) r) -> exists i, In i (sharing (cfs r) d) /\ cf_gface (cfn (cfs r) i) = nth j (glist cfs d r) 0%Z.
Proof.
  intros Hr Hd Hj. assert (H : In (nth j (glist cfs d r) 0%Z) (glist cfs r d)). { apply (glist_sym d r _ Hd). apply nth_In. unfold glist. rewrite map_length. auto. }
  unfold glist at 2 in H. apply in_map_iff in H. destruct H as (i & E & Hi). eauto.
Qed.

Definition match_ok (r : Z) (nb : list Z) (ot : arr (arr Z)) : Prop :=
  alen ot = length nb /\ forall k d, nth_error nb k = Some d -> alen (aat ot k) = length (sharing (cfs d) r) /\
    forall j, j < length (sharing (cfs d) r) -> exists i, aat (aat ot k) j = Z.of_nat i /\ In i (sharing (cfs r) d) /\ cf_gface (cfn (cfs r) i) = nth j (glist cfs d r) 0%Z.

Lemma match_faces_ok r nb mp sh nbdG : In r ranks -> comm_ok (cfs r) nb mp sh ->
  alen nbdG = length nb -> (forall k d, nth_error nb k = Some d -> alen (aat nbdG k) = length (sharing (cfs r) d) /\ forall j, j < length (sharing (cfs r) d) -> aat (aat nbdG k) j = nth j (glist cfs d r) 0%Z) ->
  exists ot, match_faces (cfs r) mp sh nbdG = Some ot /\ match_ok r nb ot.
Proof.
  intros Hr C GL GD. unfold match_faces.
  assert (RK : forall i, i < length (cfs r) -> In (cf_rank (cfn (cfs r) i)) ranks). { intros i Hi. apply (pr_pair _ _ PR r); auto. apply nth_In. auto. }
  match goal with |- context [floop _ ?bb ?ss] => destruct (floop_inv _ (fun n (ot : arr (arr Z)) => alen ot = length nb /\ forall k d, nth_error nb k = Some d -> alen (aat ot k) = length (sharing (cfs r) d) /\
     forall i j, i < n -> j < length (sharing (cfs r) d) -> cf_rank (cfn (cfs r) i) = d -> cf_gface (cfn (cfs r) i) = nth j (glist cfs d r) 0%Z -> aat (aat ot k) j = Z.of_nat i) (length (cfs r)) bb ss) as (ot & -> & O1 & O2) end.
  { cbn. split; [apply (co_shlen _ _ _ _ C)|]. intros k d K. rewrite (co_sh _ _ _ _ C k d K). split; auto. intros; lia. }
  { intros ic ot Hi (O1 & O2). rewrite aget_ok by (rewrite (co_mplen _ _ _ _ C); auto). cbn [bind]. assert (K := co_mp _ _ _ _ C ic Hi). set (k := aat mp ic) in *. set (d := cf_rank (cfn (cfs r) ic)) in *.
    assert (Lk : k < length nb) by (apply nth_error_Some; congruence). rewrite aget_ok by (rewrite (co_shlen _ _ _ _ C); auto). cbn [bind]. rewrite (co_sh _ _ _ _ C k d K). rewrite cfn_ok by auto. cbn [bind]. rewrite (aget_ok _ nbdG) by lia. cbn [bind].
    destruct (GD k d K) as (G1 & G2).
    destruct (ofind_spec (length (sharing (cfs r) d)) (fun j => g <- aget (aat nbdG k) j;; Some (g =? cf_gface (cfn (cfs r) ic))%Z) (fun j => (nth j (glist cfs d r) 0 =? cf_gface (cfn (cfs r) ic))%Z)) as [(j & J1 & J2 & _ & ->)|(J & _)].
    - intros j Hj. rewrite aget_ok by lia. cbn. rewrite G2 by auto. auto.
    - cbn [bind]. rewrite aget_ok by lia. cbn [bind]. destruct (O2 k d K) as (O3 & O4). rewrite aset_ok by lia. cbn [bind]. rewrite aset_ok by lia. eexists. split; [reflexivity|]. cbn. split; auto.
      intros k' d' K'. destruct (Nat.eq_dec k' k) as [->|Nk].
      + rewrite upd_eq. cbn. assert (d' = d) by congruence. subst d'. split; auto. intros i j' Hi' Hj' Ed Eg. destruct (Nat.eq_dec j' j) as [->|Nj].
        * rewrite upd_eq. f_equal. apply Z.eqb_eq in J2. apply (key_inj r); auto; try lia; try congruence.
        * rewrite upd_ne by auto. apply O4; auto. destruct (Nat.eq_dec i ic) as [->|]; [|lia]. exfalso. apply Nj.
          apply Z.eqb_eq in J2. assert (Ldr : length (glist cfs d r) = length (sharing (cfs r) d)). { unfold glist. rewrite map_length. apply glist_len; auto. apply (RK ic Hi). } apply (proj1 (NoDup_nth (glist cfs d r) 0%Z) (glist_nodup d r (RK ic Hi))); try lia; try congruence.
      + rewrite upd_ne by auto. destruct (O2 k' d' K') as (O5 & O6). split; auto. intros i j' Hi' Hj' Ed Eg. apply O6; auto. destruct (Nat.eq_dec i ic) as [->|]; [|lia].
        exfalso. apply Nk. apply (proj1 (NoDup_nth_error nb) (incr_nodup _ (co_incr _ _ _ _ C))); [apply nth_error_Some; congruence|]. unfold d in K. congruence.
    - exfalso. assert (H : In (cf_gface (cfn (cfs r) ic)) (glist cfs d r)). { apply (glist_sym r d); auto. unfold glist. apply in_map_iff. exists ic. split; auto. apply sharing_in. auto. }
      apply In_nth with (d := 0%Z) in H. destruct H as (j & Hj & E). unfold glist in Hj. rewrite map_length in Hj. rewrite <- (glist_len r d Hr (RK ic Hi)) in Hj. specialize (J j Hj). rewrite E, Z.eqb_refl in J. discriminate. }
  exists ot. split; auto. split; auto. intros k d K. destruct (O2 k d K) as (O3 & O4).
  assert (Hd : In d ranks). { assert (Hin : In d nb) by (eapply nth_error_In; eauto). apply (co_in _ _ _ _ C) in Hin. destruct Hin as (i & Hi & <-). auto. }
  rewrite <- (glist_len r d Hr Hd). split; auto. intros j Hj. destruct (partner r d j Hr Hd) as (i & I1 & I2). { rewrite <- (glist_len r d Hr Hd). auto. }
  exists i. apply sharing_in in I1 as I3. destruct I3. split; [|auto]. apply O4; auto.
Qed.

(** ** Buffers *)
Context (T : Type) (t0 : T) (nvars : nat).

Lemma recv_exact {A} (buf : arr A) (l : list A) : length l = alen buf -> exists b, recv_buf buf l = Some b /\ alen b = length l /\ forall i d, i < length l -> aat b i = nth i l d.
Proof.
  intros H. unfold recv_buf. rewrite (proj2 (Nat.leb_le _ _)) by lia. eexists. split; [reflexivity|]. cbn. split; auto. intros. apply nth_indep. auto.
Qed.

Lemma divmod_eq a b c d n : b < n -> d < n -> a * n + b = c * n + d -> a = c /\ b = d.
Proof. intros. assert (a = c) by nia. subst. lia. Qed.

(** the message for neighbour k holds the left values of the shared faces *)
Definition sent (rm : rmesh) (tv : tvec T) (d : Z) (M : list T) : Prop :=
  length M = length (sharing (rm_cf rm) d) * nvars /\
  forall f v, f < length (sharing (rm_cf rm) d) -> v < nvars -> nth (f * nvars + v) M t0 = aat (tv_left tv) ((nth f (sharing (rm_cf rm) d) 0 + rm_fstart rm) * nvars + v).

Lemma send_ok rm tv k d : comm_ok (rm_cf rm) (tv_nbd tv) (tv_map tv) (tv_shared tv) -> nth_error (tv_nbd tv) k = Some d ->
  alen (tv_left tv) = rm_naface rm * nvars -> rm_fstart rm + length (rm_cf rm) <= rm_naface rm ->
  exists M, send_buffer T t0 nvars rm tv k = Some M /\ sent rm tv d M.
Proof.
  intros C K HL HF. unfold send_buffer. assert (Lk : k < length (tv_nbd tv)) by (apply nth_error_Some; congruence). rewrite aget_ok by (rewrite (co_shlen _ _ _ _ C); auto). cbn [bind]. rewrite (co_sh _ _ _ _ C k d K).
  set (l := sharing (rm_cf rm) d). assert (Hl : forall f, f < length l -> nth f l 0 < length (rm_cf rm)). { intros f Hf. assert (In (nth f l 0) l) by (apply nth_In; auto). apply sharing_in in H. tauto. }
  match goal with |- context [floop _ ?bb ?ss] => destruct (floop_inv _ (fun n (b : arr T) => alen b = length l * nvars /\ forall f v, f < n -> v < nvars -> aat b (f * nvars + v) = aat (tv_left tv) ((nth f l 0 + rm_fstart rm) * nvars + v)) (length l) bb ss) as (b & -> & B1 & B2) end.
  { split; auto. intros; lia. }
  { intros f b Hf (B1 & B2). rewrite (nth_error_nth' _ 0) by auto. cbn [bind]. specialize (Hl f Hf).
    match goal with |- context [floop _ ?bb ?ss] => destruct (floop_inv _ (fun n (b : arr T) => alen b = length l * nvars /\ forall g v, (g < f /\ v < nvars) \/ (g = f /\ v < n) -> aat b (g * nvars + v) = aat (tv_left tv) ((nth g l 0 + rm_fstart rm) * nvars + v)) nvars bb ss) as (b' & -> & B3 & B4) end.
    - split; auto. intros g v [(G1 & G2)|(-> & G)]; [auto|lia].
    - intros v b1 Hv (B3 & B4). rewrite aget_ok by nia. cbn [bind]. rewrite aset_ok by nia. eexists. split; [reflexivity|]. cbn. split; auto. intros g w Hg.
      destruct (Nat.eq_dec (g * nvars + w) (f * nvars + v)) as [E|E].
      + rewrite E, upd_eq. assert (w < nvars) by lia. destruct (divmod_eq _ _ _ _ _ H Hv E) as (-> & ->). auto.
      + rewrite upd_ne by auto. apply B4. destruct Hg as [|(-> & Hw)]; auto. right. split; auto. assert (w <> v) by congruence. lia.
    - eexists. split; [reflexivity|]. split; auto. intros g v Hg Hv. apply B4. destruct (Nat.eq_dec g f); [right|left]; split; auto; lia. }
  cbn [bind]. eexists. split; [reflexivity|]. split; [rewrite alist_length; auto|]. intros f v Hf Hv. unfold alist.
  assert (f * nvars + v < alen b) by (rewrite B1; fold l in Hf; nia).
  rewrite (nth_indep _ t0 (aat b 0)) by (rewrite map_length, seq_length; auto). rewrite map_nth, seq_nth by auto. cbn. apply B2; auto.
Qed.

(** receiving messages [Ms], one per neighbour, that are the send buffers of the states [tvs] *)
Lemma scatter_ok r rm tv (nbt : Z -> tvec T) (nrm : Z -> rmesh) Ms : In r ranks -> rm_cf rm = cfs r ->
  (forall d, In d (tv_nbd tv) -> rm_cf (nrm d) = cfs d) ->
  comm_ok (rm_cf rm) (tv_nbd tv) (tv_map tv) (tv_shared tv) -> match_ok r (tv_nbd tv) (tv_other tv) ->
  alen (tv_right tv) = rm_naface rm * nvars -> rm_fstart rm + length (rm_cf rm) <= rm_naface rm ->
  length Ms = length (tv_nbd tv) ->
  (forall k d, nth_error (tv_nbd tv) k = Some d -> sent (nrm d) (nbt d) r (nth k Ms [])) ->
  exists tv', scatter T t0 nvars rm tv Ms = Some tv' /\
    tv_left tv' = tv_left tv /\ tv_nbd tv' = tv_nbd tv /\ tv_map tv' = tv_map tv /\ tv_shared tv' = tv_shared tv /\ tv_other tv' = tv_other tv /\
    alen (tv_right tv') = alen (tv_right tv) /\
    (forall i j d v, i < length (cfs r) -> cf_rank (cfn (cfs r) i) = d -> j < length (cfs d) -> cf_rank (cfn (cfs d) j) = r ->
       cf_gface (cfn (cfs d) j) = cf_gface (cfn (cfs r) i) -> v < nvars ->
       aat (tv_right tv') ((rm_fstart rm + i) * nvars + v) = aat (tv_left (nbt d)) ((rm_fstart (nrm d) + j) * nvars + v)) /\
    (forall p, p < rm_fstart rm * nvars \/ (rm_fstart rm + length (cfs r)) * nvars <= p -> aat (tv_right tv') p = aat (tv_right tv) p).
Proof.
  intros Hr Ecf Encf C (O1 & O2) HR HF LM HM. unfold scatter. rewrite Ecf in *.
  assert (RK : forall k d, nth_error (tv_nbd tv) k = Some d -> In d ranks). { intros k d K. assert (Hin : In d (tv_nbd tv)) by (eapply nth_error_In; eauto). apply (co_in _ _ _ _ C) in Hin. destruct Hin as (i & Hi & <-). apply (pr_pair _ _ PR r); auto. apply nth_In. auto. }
  (* target of face (k,f) *)
  set (tgt := fun k f => Z.to_nat (aat (aat (tv_other tv) k) f)).
  assert (TG : forall k d f, nth_error (tv_nbd tv) k = Some d -> f < length (sharing (cfs d) r) -> aat (aat (tv_other tv) k) f = Z.of_nat (tgt k f) /\ In (tgt k f) (sharing (cfs r) d) /\ cf_gface (cfn (cfs r) (tgt k f)) = nth f (glist cfs d r) 0%Z).
  { intros k d f K Hf. destruct (O2 k d K) as (_ & O3). destruct (O3 f Hf) as (i & E & I1 & I2). unfold tgt. rewrite E, Nat2Z.id. auto. }
  assert (INJ : forall k d f k' d' f', nth_error (tv_nbd tv) k = Some d -> f < length (sharing (cfs d) r) -> nth_error (tv_nbd tv) k' = Some d' -> f' < length (sharing (cfs d') r) -> tgt k f = tgt k' f' -> k = k' /\ f = f').
  { intros k d f k' d' f' K Hf K' Hf' E. destruct (TG k d f K Hf) as (_ & A1 & A2). destruct (TG k' d' f' K' Hf') as (_ & B1 & B2). rewrite <- E in *. apply sharing_in in A1, B1. assert (d' = d) by (destruct A1, B1; congruence). subst d'.
    assert (k = k'). { apply (proj1 (NoDup_nth_error _) (incr_nodup _ (co_incr _ _ _ _ C))); [apply nth_error_Some; congruence|congruence]. } subst k'. split; auto.
    apply (proj1 (NoDup_nth (glist cfs d r) 0%Z) (glist_nodup d r (RK k d K))); try (unfold glist; rewrite map_length; auto). congruence. }
  pose (P := fun (w : nat -> nat -> nat -> Prop) (rt : arr T) => alen rt = rm_naface rm * nvars /\
     (forall k d f v, nth_error (tv_nbd tv) k = Some d -> f < length (sharing (cfs d) r) -> v < nvars -> w k f v -> aat rt ((rm_fstart rm + tgt k f) * nvars + v) = nth (f * nvars + v) (nth k Ms []) t0) /\
     (forall p, p < rm_fstart rm * nvars \/ (rm_fstart rm + length (cfs r)) * nvars <= p -> aat rt p = aat (tv_right tv) p)).
  match goal with |- context [floop _ ?bb ?ss] => destruct (floop_inv _ (fun n => P (fun k f v => k < n)) (length (tv_nbd tv)) bb ss) as (rt & -> & P1 & P2 & P3) end.
  { split; auto. split; auto. intros; lia. }
  { intros k rt Hk Hrt. destruct (nth_error (tv_nbd tv) k) as [d|] eqn:K; [|apply nth_error_None in K; lia]. specialize (RK k d K).
    rewrite aget_ok by (rewrite (co_shlen _ _ _ _ C); auto). cbn [bind]. rewrite (co_sh _ _ _ _ C k d K). rewrite (nth_error_nth' Ms []) by lia. cbn [bind].
    assert (Hs := HM k d K). destruct Hs as (S1 & S2). rewrite Encf in S1, S2 by (eapply nth_error_In; eauto).
    assert (LEN := glist_len r d Hr RK).
    destruct (recv_exact (aconst (length (sharing (cfs r) d) * nvars) t0) (nth k Ms [])) as (b & -> & B1 & B2). { cbn. rewrite S1, LEN. auto. }
    cbn [bind]. rewrite aget_ok by lia. cbn [bind]. destruct (O2 k d K) as (O3 & _). rewrite LEN.
    match goal with |- context [floop _ ?bb ?ss] => destruct (floop_inv _ (fun n => P (fun k' f v => k' < k \/ (k' = k /\ f < n))) (length (sharing (cfs d) r)) bb ss) as (rt' & E' & Q1 & Q2 & Q3) end.
    - destruct Hrt as (H1 & H2 & H3). split; auto. split; auto. intros k' d' f v K' Hf Hv [|]; [eauto|lia].
    - intros f rt1 Hf H1.
      match goal with |- context [floop _ ?bb ?ss] => destruct (floop_inv _ (fun n => P (fun k' f' v => k' < k \/ (k' = k /\ f' < f) \/ (k' = k /\ f' = f /\ v < n))) nvars bb ss) as (rt2 & E2 & Q1 & Q2 & Q3) end.
      + destruct H1 as (H1 & H2 & H3). split; auto. split; auto. intros k' d' f' v K' Hf' Hv [|[|]]; [eauto|eauto|lia].
      + intros v rt2 Hv (H2 & H3 & H4). rewrite aget_ok by lia. cbn [bind]. rewrite aget_ok by (rewrite B1, S1; nia). cbn [bind]. destruct (TG k d f K Hf) as (T1 & T2 & T3). rewrite T1.
        replace ((Z.of_nat (rm_fstart rm) + Z.of_nat (tgt k f)) * Z.of_nat nvars + Z.of_nat v)%Z with (Z.of_nat ((rm_fstart rm + tgt k f) * nvars + v)) by lia.
        rewrite (proj2 (Z.ltb_ge _ _)) by lia. rewrite Nat2Z.id. apply sharing_in in T2. rewrite aset_ok by nia. eexists. split; [reflexivity|]. cbn [alen aat]. split; auto. split.
        * intros k' d' f' v' K' Hf' Hv' W. cbn [alen aat]. destruct (Nat.eq_dec ((rm_fstart rm + tgt k' f') * nvars + v') ((rm_fstart rm + tgt k f) * nvars + v)) as [E|E].
          -- rewrite E, upd_eq. destruct (divmod_eq _ _ _ _ _ Hv' Hv E) as (E1 & ->). destruct (INJ k' d' f' k d f) as (-> & ->); auto; try lia. apply B2. rewrite S1. nia.
          -- rewrite upd_ne by auto. apply (H3 k' d' f' v'); auto. destruct W as [|[|(-> & -> & W)]]; auto. right. right. split; auto. split; auto. assert (v' <> v) by congruence. lia.
        * intros p Hp. cbn [aat]. rewrite upd_ne; [auto|]. nia.
      + exists rt2. split; [exact E2|]. split; auto. split; auto. intros k' d' f' v' K' Hf' Hv' W. apply (Q2 k' d' f' v'); auto. lia.
    - exists rt'. split; [exact E'|]. split; auto. split; auto. intros k' d' f' v' K' Hf' Hv' W. apply (Q2 k' d' f' v'); auto. destruct (Nat.eq_dec k' k) as [->|]; [|lia]. right. split; auto. rewrite K in K'. injection K' as <-. auto. }
  cbn [bind]. eexists. split; [reflexivity|]. cbn. repeat (split; [solve [auto|lia]|]). split; auto.
  intros i j d v Hi Ed Hj Ej Eg Hv.
  assert (Hd : In d (tv_nbd tv)) by (apply (co_in _ _ _ _ C); eauto). apply In_nth_error in Hd. destruct Hd as (k & K). assert (Hdr := RK k d K).
  (* j is face number f of d's list *)
  assert (Hjs : In j (sharing (cfs d) r)) by (apply sharing_in; auto). apply In_nth with (d := 0) in Hjs. destruct Hjs as (f & Hf & Ef).
  destruct (TG k d f K Hf) as (T1 & T2 & T3). apply sharing_in in T2 as T4. destruct T4 as (T4 & T5).
  assert (Ei : tgt k f = i). { apply (key_inj r); auto; [congruence|]. rewrite T3, <- Eg. unfold glist. rewrite (nth_indep _ 0%Z (cf_gface (cfn (cfs d) 0))) by (rewrite map_length; auto). rewrite (map_nth (fun i => cf_gface (cfn (cfs d) i))), Ef. auto. }
  rewrite <- Ei. rewrite (P2 k d f v); auto; [|apply nth_error_Some; congruence].
  assert (Hs := HM k d K). destruct Hs as (S1 & S2). rewrite Encf in S1, S2 by (eapply nth_error_In; eauto). rewrite S2 by auto. rewrite Ef. f_equal. lia.
Qed.

(** ** All ranks *)
Context (rms : Z -> rmesh) (jm : Z -> nat -> nat) (user : nat -> Z -> arr T * arr T -> arr T * arr T).
Context (Hcf : forall r, rm_cf (rms r) = cfs r)
        (Hfit : forall r, In r ranks -> rm_fstart (rms r) + length (rm_cf (rms r)) <= rm_naface (rms r))
        (Huser : forall k r a b, alen (fst (user k r (a, b))) = alen a /\ alen (snd (user k r (a, b))) = alen b).

Notation nbs := (t_nbs rms jm).
Notation out := (t_out T t0 nvars rms user).
Notation upd' := (t_upd T t0 nvars rms user).
Notation run := (run (tmsg T) (option (tvec T)) nbs out upd' (t_init T t0 nvars rms jm)).

Lemma nbs_ok r : exists mp sh, comm_faces (cfs r) (jm r) = Some (nbs r, mp, sh) /\ comm_ok (cfs r) (nbs r) mp sh.
Proof. unfold t_nbs. rewrite Hcf. destruct (comm_faces_ok (cfs r) (jm r)) as (nb & mp & sh & -> & C). eauto. Qed.
Lemma nbs_nodup r : NoDup (nbs r).
Proof. destruct (nbs_ok r) as (mp & sh & _ & C). apply incr_nodup. apply C. Qed.
Lemma nbs_in r d : In d (nbs r) <-> sharing (cfs r) d <> [].
Proof.
  destruct (nbs_ok r) as (mp & sh & _ & C). rewrite (co_in _ _ _ _ C). split.
  - intros (i & Hi & E) S. assert (In i (sharing (cfs r) d)) by (apply sharing_in; auto). rewrite S in H. destruct H.
  - intros S. destruct (sharing (cfs r) d) as [|i l] eqn:E; [congruence|]. exists i. apply sharing_in. rewrite E. left; auto.
Qed.
Lemma nbs_sym r d : In r ranks -> In d (nbs r) -> In d ranks /\ In r (nbs d).
Proof.
  intros Hr Hd. apply nbs_in in Hd. assert (R := nb_rank r d Hr Hd). split; auto. apply nbs_in. intros E. apply Hd.
  assert (L := glist_len r d Hr R). rewrite E in L. destruct (sharing (cfs r) d); auto; discriminate.
Qed.

Lemma pos_ok d l : NoDup l -> In d l -> nth_error l (pos d l) = Some d.
Proof.
  induction l as [|a l IH]; intros N []; cbn; inversion N; subst.
  - rewrite Z.eqb_refl. auto.
  - destruct (Z.eqb_spec d a); [subst; auto|]. cbn. auto.
Qed.

Record tv_ok (r : Z) (tv : tvec T) : Prop := {
  tk_nbd : tv_nbd tv = nbs r;
  tk_comm : comm_ok (cfs r) (tv_nbd tv) (tv_map tv) (tv_shared tv);
  tk_left : alen (tv_left tv) = rm_naface (rms r) * nvars;
  tk_right : alen (tv_right tv) = rm_naface (rms r) * nvars }.

Lemma init_ok r : exists tv, t_init T t0 nvars rms jm r = Some tv /\ tv_ok r tv.
Proof.
  unfold t_init, tv_init. rewrite Hcf. destruct (nbs_ok r) as (mp & sh & -> & C). cbn. eexists. split; [reflexivity|]. split; cbn; auto.
Qed.
Lemma user_ok k r tv : tv_ok r tv -> tv_ok r (t_user T user k r tv).
Proof.
  intros [A B C D]. unfold t_user. destruct (user k r (tv_left tv, tv_right tv)) as (l, rt) eqn:E. destruct (Huser k r (tv_left tv) (tv_right tv)) as (U1 & U2). rewrite E in *. cbn in *. split; cbn; auto; lia.
Qed.

Lemma ints_ok (f : Z -> list Z) l : int_msgs T (map (fun d => MInt (f d)) l) = Some (map f l).
Proof. induction l; cbn; auto. rewrite IHl. auto. Qed.
Lemma reals_ok (f : Z -> list T) l : real_msgs T (map (fun d => MReal (f d)) l) = Some (map f l).
Proof. induction l; cbn; auto. rewrite IHl. auto. Qed.

Lemma run1_ok r : In r ranks -> exists tv, run 1 r = Some tv /\ tv_ok r tv /\ match_ok r (tv_nbd tv) (tv_other tv).
Proof.
  intros Hr. cbn [Pf_Async.run]. destruct (init_ok r) as (tv & E & K). rewrite E. unfold t_upd. cbn [bind].
  rewrite (map_ext_in _ (fun d => MInt (glist cfs d r))).
  2:{ intros d Hd. destruct (nbs_sym r d Hr Hd) as (Hd1 & Hd2). destruct (init_ok d) as (tvd & Ed & Kd). unfold t_out. rewrite Ed. rewrite Hcf. rewrite (gfaces_ok (cfs d) (tv_nbd tvd) (tv_map tvd) (tv_shared tvd) _ r); [auto|apply Kd|]. rewrite (tk_nbd _ _ Kd). apply pos_ok; auto. apply nbs_nodup. }
  rewrite ints_ok. cbn [bind]. unfold tv_match. rewrite Hcf. assert (C := tk_comm _ _ K). rewrite (tk_nbd _ _ K) in *.
  match goal with |- context [floop _ ?bb ?ss] => destruct (floop_inv _ (fun n (a : arr (arr Z)) => alen a = length (nbs r) /\ forall k d, k < n -> nth_error (nbs r) k = Some d -> alen (aat a k) = length (sharing (cfs r) d) /\ forall j, j < length (sharing (cfs r) d) -> aat (aat a k) j = nth j (glist cfs d r) 0%Z) (length (nbs r)) bb ss) as (nbdG & -> & G1 & G2) end.
  { split; auto. intros; lia. }
  { intros k a Hk (A1 & A2). destruct (nth_error (nbs r) k) as [d|] eqn:Kd; [|apply nth_error_None in Kd; lia]. rewrite nth_error_map, Kd. cbn [option_map bind]. rewrite aget_ok by (rewrite (co_shlen _ _ _ _ C); auto). cbn [bind].
    rewrite (co_sh _ _ _ _ C k d Kd). assert (Hd : In d (nbs r)) by (eapply nth_error_In; eauto). destruct (nbs_sym r d Hr Hd) as (Hd1 & Hd2).
    assert (LEN := glist_len r d Hr Hd1). destruct (recv_exact (aconst (length (sharing (cfs r) d)) 0%Z) (glist cfs d r)) as (b & -> & B1 & B2). { unfold glist. rewrite map_length. cbn. lia. }
    cbn [bind]. rewrite aset_ok by lia. eexists. split; [reflexivity|]. cbn. split; auto. assert (LG : length (glist cfs d r) = length (sharing (cfs r) d)) by (unfold glist; rewrite map_length; lia).
    intros k' d' Hk' K'. destruct (Nat.eq_dec k' k) as [->|].
    - rewrite upd_eq. rewrite Kd in K'. injection K' as <-. split; [lia|]. intros j Hj. apply B2. lia.
    - rewrite upd_ne by auto. apply A2; auto. lia. }
  cbn [bind]. destruct (match_faces_ok r (nbs r) (tv_map tv) (tv_shared tv) nbdG Hr C G1) as (ot & -> & M).
  { intros k d Kd. apply G2; auto. apply nth_error_Some. congruence. }
  cbn [bind]. eexists. split; [reflexivity|]. cbn. split; auto. split; cbn; auto; apply K.
Qed.

(** The result of every later exchange *)
Definition delivered (k : nat) (r : Z) (tv' : tvec T) (st : Z -> tvec T) : Prop :=
  (forall i j d v, i < length (cfs r) -> cf_rank (cfn (cfs r) i) = d -> j < length (cfs d) -> cf_rank (cfn (cfs d) j) = r ->
     cf_gface (cfn (cfs d) j) = cf_gface (cfn (cfs r) i) -> v < nvars ->
     aat (tv_right tv') ((rm_fstart (rms r) + i) * nvars + v) = aat (tv_left (t_user T user k d (st d))) ((rm_fstart (rms d) + j) * nvars + v)) /\
  (forall p, p < rm_fstart (rms r) * nvars \/ (rm_fstart (rms r) + length (cfs r)) * nvars <= p -> aat (tv_right tv') p = aat (tv_right (t_user T user k r (st r))) p) /\
  tv_left tv' = tv_left (t_user T user k r (st r)).

Lemma runS_ok k : (forall r, In r ranks -> exists tv, run (S k) r = Some tv /\ tv_ok r tv /\ match_ok r (tv_nbd tv) (tv_other tv)) /\
  exists st, (forall r, In r ranks -> run (S k) r = Some (st r)) /\ forall r, In r ranks -> exists tv', run (S (S k)) r = Some tv' /\ tv_ok r tv' /\ match_ok r (tv_nbd tv') (tv_other tv') /\ delivered k r tv' st.
Proof.
  assert (STEP : forall k, (forall r, In r ranks -> exists tv, run (S k) r = Some tv /\ tv_ok r tv /\ match_ok r (tv_nbd tv) (tv_other tv)) ->
    exists st, (forall r, In r ranks -> run (S k) r = Some (st r)) /\ forall r, In r ranks -> exists tv', run (S (S k)) r = Some tv' /\ tv_ok r tv' /\ match_ok r (tv_nbd tv') (tv_other tv') /\ delivered k r tv' st).
  { clear k. intros k H.
    set (st := fun r => match run (S k) r with Some tv => tv | None => mktv (aconst 0 t0) (aconst 0 t0) [] (aconst 0 0) (aconst 0 []) (aconst 0 (aconst 0 0%Z)) end).
    assert (ST : forall r, In r ranks -> run (S k) r = Some (st r) /\ tv_ok r (st r) /\ match_ok r (tv_nbd (st r)) (tv_other (st r))).
    { intros r Hr. destruct (H r Hr) as (tv & E & K). unfold st. rewrite E. auto. }
    exists st. split. { intros r Hr. apply ST. auto. }
    intros r Hr. destruct (ST r Hr) as (E & K & M). remember (S k) as k1. cbn [Pf_Async.run]. rewrite E. subst k1. unfold t_upd at 1. cbn [bind].
    assert (UK := user_ok k r _ K). set (ut := fun d => t_user T user k d (st d)).
    assert (UM : tv_nbd (ut r) = tv_nbd (st r) /\ tv_other (ut r) = tv_other (st r)) by (unfold ut, t_user; destruct (user k r (tv_left (st r), tv_right (st r))); auto).
    assert (BUF : exists f : Z -> list T, forall d, In d (nbs r) -> out (S k) d (run (S k) d) r = MReal (f d) /\ sent (rms d) (ut d) r (f d)).
    { exists (fun d => match send_buffer T t0 nvars (rms d) (ut d) (pos r (tv_nbd (ut d))) with Some x => x | None => [] end). intros d Hd. destruct (nbs_sym r d Hr Hd) as (Hd1 & Hd2).
      destruct (ST d Hd1) as (Ed & Kd & Md). assert (UKd := user_ok k d _ Kd). fold (ut d) in UKd.
      assert (UNd : tv_nbd (ut d) = tv_nbd (st d)) by (unfold ut, t_user; destruct (user k d (tv_left (st d), tv_right (st d))); auto).
      destruct (send_ok (rms d) (ut d) (pos r (tv_nbd (ut d))) r) as (Mg & Sg & Sp).
      - rewrite Hcf. apply UKd.
      - rewrite (tk_nbd _ _ UKd). apply pos_ok; auto. apply nbs_nodup.
      - apply UKd.
      - apply Hfit. auto.
      - rewrite Sg. split; auto. rewrite Ed. unfold t_out. change (t_user T user k d (st d)) with (ut d). rewrite <- UNd, Sg. auto. }
    destruct BUF as (f & BUF).
    rewrite (map_ext_in _ (fun d => MReal (f d))) by (intros d Hd; apply (BUF d Hd)). rewrite reals_ok. cbn [bind].
    fold (ut r). fold (ut r) in UK. destruct UM as (UM1 & UM2).
    destruct (scatter_ok r (rms r) (ut r) ut rms (map f (nbs r)) Hr (Hcf r)) as (tv' & E' & S1 & S2 & S3 & S4 & S5 & S6 & S7 & S8); auto.
    - rewrite Hcf. apply UK.
    - rewrite UM1, UM2. auto.
    - apply UK.
    - rewrite map_length. rewrite (tk_nbd _ _ UK). auto.
    - intros k' d K'. rewrite (tk_nbd _ _ UK) in K'. assert (Hd : In d (nbs r)) by (eapply nth_error_In; eauto).
      replace (nth k' (map f (nbs r)) []) with (f d); [apply BUF; auto|]. symmetry. apply nth_error_nth. rewrite nth_error_map, K'. auto.
    - exists tv'. split; auto. split; [|split].
      + split; rewrite ?S2, ?S3, ?S4; [apply UK|apply UK|rewrite S1; apply UK|rewrite S6; apply UK].
      + rewrite S2, S5, UM1, UM2. auto.
      + split; [|split]; auto. }
  assert (ALL : forall r, In r ranks -> exists tv, run (S k) r = Some tv /\ tv_ok r tv /\ match_ok r (tv_nbd tv) (tv_other tv)).
  { induction k as [|k IH]; [intros r Hr; apply run1_ok; auto|]. destruct (STEP k IH) as (st & _ & H). intros r Hr. destruct (H r Hr) as (tv & A & B & C & _). eauto. }
  split; auto.
Qed.
End P.
