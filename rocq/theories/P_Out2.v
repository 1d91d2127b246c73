(** Properties C77 (continued), C89, C90: surface output on partitioned meshes, friction, rows, entropy. Vocabulary: S_Out.v. *)
From Coq Require Import Reals Lra List Arith Lia Permutation ZArith Bool.
From Verif Require Import Base BaseR BaseSum M_Gas M_Flux M_Mesh M_Geom M_Part S_Gas Pf_Gas P_Gas P_Flux S_Mesh S_Geom Pf_Topo Pf_Faces Pf_Full Pf_Incid ChkMesh Pf_Geom P_Geom
  M_Space S_Space Pf_Space M_Grad P_Grad M_Recon Pf_Grad S_Resid Pf_Resid P_Resid P_Part Pf_Linalg Pf_Par P_Par P_Ode3 M_Out S_Out Pf_Out P_Out.
Import ListNotations.
Open Scope R_scope.

(** ** C77 on a partitioned mesh *)
(** the wall face that is local face [snd h] of cell [fst h] *)
Definition half_wall (m : umesh) (X : arr v2) (u : arr st) (gr : arr grad) (h : nat * nat) : wface :=
  let e := edge (cell (cells m) (fst h)) (snd h) in let M := face_metric (aat X (fst e)) (aat X (snd e)) in
  mkwf (fm_n M) (fm_len M) (aat u (fst h)) (aat gr (fst h)).
Definition tagged (tag : Z) (bf : bfrec) : bool := match btg bf with t :: _ => (t =? tag)%Z | [] => (0 =? tag)%Z end.

Lemma nodup_left {A} (l c : list A) : NoDup (l ++ c) -> NoDup l.
Proof. induction l as [|x l IH]; intros N; [constructor|]. inversion N as [|? ? N1 N2]; subst. constructor; [intros Q; apply N1, in_or_app; auto|auto]. Qed.

Section Halves.
Variables (m : umesh) (hs : list (nat * nat)) (X : arr v2) (ghost : nat -> v2) (S : smesh).
Hypothesis B : built m hs X ghost S.

Lemma hs_len : length hs = nbface m.
Proof. pose proof B as (T & _). exact (proj1 (gm_hosts _ _ (tl_good _ _ T))). Qed.
Lemma nb_is : sm_nb S = nbface m.
Proof. destruct (built_ok _ _ _ _ _ B) as (p & e & ni & s & il & _ & _ & _ & E & _). exact E. Qed.
Lemma tag_is k bf tag : nth_error (bfaces m) k = Some bf -> (tag_at S k =? tag)%Z = tagged tag bf.
Proof.
  intros En. destruct (built_ok _ _ _ _ _ B) as (p & e & ni & s & il & TO & OK & E1 & E2 & _ & _ & _ & _ & _ & _ & _ & _ & _ & _ & _ & EB).
  assert (k < nbface m)%nat by (apply nth_error_Some; congruence).
  unfold tag_at, face_tag, tagged. rewrite EB, aget_ok by (rewrite (to_blen _ _ _ _ _ _ _ TO); auto). cbn [bind]. rewrite (to_btags _ _ _ _ _ _ _ TO k bf En). destruct (btg bf); reflexivity.
Qed.
Lemma wall_half u gr k h : nth_error hs k = Some h -> wf_at S u gr k = half_wall m X u gr h.
Proof.
  intros Eh. assert (Hk : (k < nbface m)%nat) by (rewrite <- hs_len; apply nth_error_Some; congruence).
  destruct (nth_error (bfaces m) k) as [bf|] eqn:En. 2:{ apply nth_error_None in En. unfold nbface in Hk. lia. }
  destruct (built_bnd _ _ _ _ _ k bf h B En Eh) as (K & F). pose proof (built_sm _ _ _ _ _ B) as OK. pose proof B as (T & _).
  pose proof (tl_bor _ _ T k bf h En Eh) as TB. destruct (built_ok _ _ _ _ _ B) as (p & e & ni & s & il & _ & _ & _ & _ & _ & _ & _ & EX & _).
  unfold wf_at, half_wall, left_value. cbv zeta. rewrite (so_met _ OK) by (unfold sm_nf_all; lia). rewrite F, EX, <- TB. reflexivity.
Qed.
Lemma marked_is tag : marked S tag = filter (fun k => match nth_error (bfaces m) k with Some bf => tagged tag bf | None => false end) (seq 0 (nbface m)).
Proof.
  unfold marked, marked_upto. rewrite nb_is. apply filter_ext_in. intros k Hk. apply in_seq in Hk. destruct (nth_error (bfaces m) k) as [bf|] eqn:En; [apply (tag_is k bf tag En)|].
  apply nth_error_None in En. unfold nbface in Hk. lia.
Qed.
Lemma walls_are u gr tag : walls S u gr tag = map (fun k => half_wall m X u gr (nth k hs (0, 0)%nat)) (marked S tag).
Proof.
  unfold walls. apply map_ext_in. intros k Hk. rewrite marked_is in Hk. apply filter_In in Hk. destruct Hk as (Hk & _). apply in_seq in Hk.
  apply wall_half. apply nth_error_nth'. rewrite hs_len. lia.
Qed.
Lemma marked_count tag : length (marked S tag) = length (filter (tagged tag) (bfaces m)).
Proof.
  rewrite marked_is. unfold nbface.
  assert (K : forall (l : list bfrec) n, length (filter (fun k => match nth_error l (k - n) with Some bf => tagged tag bf | None => false end) (seq n (length l))) = length (filter (tagged tag) l)).
  { induction l as [|b l IH]; intros n; cbn [length seq filter]; auto. rewrite Nat.sub_diag. cbn [nth_error]. specialize (IH (Datatypes.S n)).
    assert (Q : filter (fun k => match nth_error (b :: l) (k - n) with Some bf => tagged tag bf | None => false end) (seq (Datatypes.S n) (length l)) =
                filter (fun k => match nth_error l (k - Datatypes.S n) with Some bf => tagged tag bf | None => false end) (seq (Datatypes.S n) (length l))).
    { apply filter_ext_in. intros k Hk. apply in_seq in Hk. replace (k - n)%nat with (Datatypes.S (k - Datatypes.S n)) by lia. reflexivity. }
    rewrite Q. destruct (tagged tag b); cbn [length]; rewrite IH; reflexivity. }
  specialize (K (bfaces m) 0%nat). rewrite <- K. f_equal. apply filter_ext. intros k. rewrite Nat.sub_0_r. reflexivity.
Qed.
Lemma hs_nodup : NoDup hs.
Proof. pose proof B as (T & _). pose proof (tl_nodup _ _ T) as N. exact (nodup_left _ _ N). Qed.
End Halves.

Section Split.
Variables (g : gmesh) (hs : list (nat * nat)) (dist : arr nat) (nr : nat) (lm : nat -> lmesh).
Variables (jc : nat -> nat -> list nat) (jr : nat -> nat -> list Z) (ji : nat -> nat -> nat) (jx : nat -> nat -> v2) (j0 : nat -> nat -> nat -> Z).
Variables (hsl : nat -> list (nat * nat)) (gh : nat -> nat -> v2) (S : nat -> smesh).
Hypothesis SR : split_run g hs dist nr lm jc jr ji jx j0 hsl gh S.
Variables (ghg : nat -> v2) (Sg : smesh).
Hypothesis BG : built (g_m g) hs (g_X g) ghg Sg.
Variable tag : Z.

Definition ghalves : list (nat * nat) := map (fun k => nth k hs (0, 0)%nat) (marked Sg tag).
Definition lhalves (a : nat) : list (nat * nat) := map (fun k => let h := nth k (hsl a) (0, 0)%nat in (aat (l_eglob (lm a)) (fst h), snd h)) (marked (S a) tag).

Lemma local_half a k : (a < nr)%nat -> In k (marked (S a) tag) -> exists bf h, nth_error (bfaces (l_m (lm a))) k = Some bf /\ nth_error (hsl a) k = Some h /\ tagged tag bf = true /\
  nth k (hsl a) (0, 0)%nat = h /\ (fst h < nelem (l_m (lm a)))%nat /\ (snd h < length (cell (cells (l_m (lm a))) (fst h)))%nat.
Proof.
  intros Ha Hk. pose proof (sr_built _ _ _ _ _ _ _ _ _ _ _ _ _ SR a Ha) as BA. rewrite (marked_is _ _ _ _ _ BA) in Hk. apply filter_In in Hk. destruct Hk as (Hk & Ht). apply in_seq in Hk.
  destruct (nth_error (bfaces (l_m (lm a))) k) as [bf|] eqn:En; [|discriminate Ht]. destruct (nth_error (hsl a) k) as [h|] eqn:Eh. 2:{ apply nth_error_None in Eh. rewrite (hs_len _ _ _ _ _ BA) in Eh. lia. }
  exists bf, h. split; auto. split; auto. split; auto. split; [apply nth_error_nth; auto|]. pose proof BA as (T & _).
  destruct (proj2 (gm_hosts _ _ (tl_good _ _ T)) k bf h En Eh) as (_ & _ & H1 & H2 & _). auto.
Qed.

Lemma lhalves_in a : (a < nr)%nat -> incl (lhalves a) ghalves /\ NoDup (lhalves a) /\ forall h, In h (lhalves a) -> aat dist (fst h) = a.
Proof.
  intros Ha. destruct SR as [G Hd Hr RM SE BU D].
  destruct (restr_facts g hs dist a (lm a) G Hd _ _ _ _ _ (RM a Ha)) as (F1 & F2 & _ & _ & _ & F6 & _). pose proof (BU a Ha) as BA. pose proof BA as (TA & _).
  split; [|split].
  - intros x Hx. apply in_map_iff in Hx. destruct Hx as (k & <- & Hk). destruct (local_half a k Ha Hk) as (bf & (l & f) & Eb & Eh & Tg & -> & Hl & Hf).
    destruct (F6 (hsl a) k bf l f TA Eb Eh) as (p & gb & P1 & P2 & P3). cbn [fst snd] in *. apply in_map_iff. exists p. split; [apply nth_error_nth; auto|].
    rewrite (marked_is _ _ _ _ _ BG). apply filter_In. rewrite P1. split; [apply in_seq; split; [lia|apply nth_error_Some; congruence]|]. unfold tagged in *. rewrite <- P3. exact Tg.
  - unfold lhalves. apply nodup_map_in. { apply NoDup_filter, seq_NoDup. }
    intros k k' Hk Hk' E. cbv zeta in E. destruct (local_half a k Ha Hk) as (bf & (l & f) & Eb & Eh & _ & E1 & Hl & _). destruct (local_half a k' Ha Hk') as (bf' & (l' & f') & Eb' & Eh' & _ & E1' & Hl' & _).
    rewrite E1, E1' in E. cbn [fst snd] in *. injection E as E2 E3. apply F2 in E2; auto. subst. eapply nodup_nth_error; [apply (hs_nodup _ _ _ _ _ BA)| |]; eauto.
  - intros h Hh. apply in_map_iff in Hh. destruct Hh as (k & <- & Hk). destruct (local_half a k Ha Hk) as (bf & (l & f) & _ & _ & _ & -> & Hl & _). cbn [fst] in *. apply F1; auto.
Qed.

Lemma filter_flat {A C} (f : A -> list C) t l : filter t (flat_map f l) = flat_map (fun x => filter t (f x)) l.
Proof. induction l as [|x l IH]; cbn; auto. rewrite filter_app, IH. reflexivity. Qed.
Lemma length_flat {A C D} (f : A -> list C) (h : A -> list D) l : (forall x, In x l -> length (f x) = length (h x)) -> length (flat_map f l) = length (flat_map h l).
Proof. induction l as [|x l IH]; intros H; cbn; auto. rewrite !app_length, IH by (intros; apply H; right; auto). rewrite H by (left; auto). reflexivity. Qed.
Lemma perm_filter {A} (t : A -> bool) l l' : Permutation l l' -> Permutation (filter t l) (filter t l').
Proof. induction 1; cbn; auto. - destruct (t x); auto. - destruct (t x), (t y); auto. apply perm_swap. - etransitivity; eauto. Qed.

Lemma halves_split : Permutation (flat_map lhalves (seq 0 nr)) ghalves.
Proof.
  destruct SR as [G Hd Hr RM SE BU D].
  apply NoDup_Permutation_bis.
  - apply NoDup_flat_map; [apply seq_NoDup| |].
    + intros a Ha. apply in_seq in Ha. apply lhalves_in. lia.
    + intros a b z Ha Hb Hz Hz'. apply in_seq in Ha, Hb. rewrite <- (proj2 (proj2 (lhalves_in a ltac:(lia))) z Hz). apply (proj2 (proj2 (lhalves_in b ltac:(lia))) z Hz').
  - unfold ghalves. rewrite map_length, (marked_count _ _ _ _ _ BG).
    pose proof (C16_boundary_faces g hs dist nr G Hd Hr lm jc jr ji jx j0 RM) as P. apply (perm_filter (tagged tag)) in P. apply Permutation_length in P. rewrite <- P, filter_flat.
    apply Nat.eq_le_incl. apply length_flat. intros a Ha. apply in_seq in Ha. unfold lhalves. rewrite map_length, (marked_count _ _ _ _ _ (BU a ltac:(lia))).
    clear. induction (bfaces (l_m (lm a))) as [|b l IH]; cbn; auto. change (tagged tag (back_bf (lm a) b)) with (tagged tag b). destruct (tagged tag b); cbn; lia.
  - intros h Hh. apply in_flat_map in Hh. destruct Hh as (a & Ha & Hh). apply in_seq in Ha. apply (proj1 (lhalves_in a ltac:(lia))). exact Hh.
Qed.

Variables (u : arr st) (gr : arr grad) (ul : nat -> arr st) (gl : nat -> arr grad).
Hypothesis UL : forall a l, (a < nr)%nat -> (l < nelem (l_m (lm a)))%nat -> aat (ul a) l = aat u (aat (l_eglob (lm a)) l) /\ aat (gl a) l = aat gr (aat (l_eglob (lm a)) l).

Lemma walls_split : Permutation (flat_map (fun a => walls (S a) (ul a) (gl a) tag) (seq 0 nr)) (walls Sg u gr tag).
Proof.
  assert (EG : walls Sg u gr tag = map (half_wall (g_m g) (g_X g) u gr) ghalves) by (rewrite (walls_are _ _ _ _ _ BG); unfold ghalves; rewrite map_map; reflexivity).
  rewrite EG, <- halves_split. rewrite !flat_map_concat_map, concat_map, map_map. rewrite <- !flat_map_concat_map.
  erewrite flat_map_ext_in; [apply Permutation_refl|]. intros a Ha. apply in_seq in Ha. destruct SR as [G Hd Hr RM SE BU D]. rewrite (walls_are _ _ _ _ _ (BU a ltac:(lia))). unfold lhalves. rewrite map_map.
  apply map_ext_in. intros k Hk. destruct (local_half a k ltac:(lia) Hk) as (bf & (l & f) & _ & _ & _ & -> & Hl & Hf). cbn [fst snd] in *.
  destruct (restr_facts g hs dist a (lm a) G Hd _ _ _ _ _ (RM a ltac:(lia))) as (F1 & _). destruct (F1 l Hl) as (A1 & A2 & A3 & A4 & _). rewrite A3 in Hf. destruct (A4 f Hf) as (X1 & X2).
  destruct (UL a l ltac:(lia) Hl) as (U1 & U2). unfold half_wall. cbv zeta. cbn [fst snd]. rewrite X1, X2, U1, U2. reflexivity.
Qed.
End Split.

(** The coefficients computed on a partitioned mesh are those of the whole mesh on one process, if
    the ranks hold the states and gradients of their cells. *)
Theorem C77_partition : forall g hs dist nr lm jc jr ji jx j0 hsl gh S, split_run g hs dist nr lm jc jr ji jx j0 hsl gh S ->
  forall ghg Sg, built (g_m g) hs (g_X g) ghg Sg -> (forall bf, In bf (bfaces (g_m g)) -> btg bf <> []) ->
  forall G aoa tag j (u : arr st) (gr : arr grad) (ul : nat -> arr st) (gl : nat -> arr grad),
  alen u = nelem (g_m g) -> alen gr = nelem (g_m g) -> (forall i, (i < nelem (g_m g))%nat -> physical (gam G) (aat u i)) ->
  (forall a, (a < nr)%nat -> (nelem (l_m (lm a)) <= alen (ul a))%nat /\ (nelem (l_m (lm a)) <= alen (gl a))%nat) ->
  (forall a l, (a < nr)%nat -> (l < nelem (l_m (lm a)))%nat -> aat (ul a) l = aat u (aat (l_eglob (lm a)) l) /\ aat (gl a) l = aat gr (aat (l_eglob (lm a)) l)) ->
  exists whole parts, export_wall G Sg aoa u gr tag j = Some whole /\
    Forall2 (fun a s => export_wall G (S a) aoa (ul a) (gl a) tag j = Some s) (seq 0 nr) parts /\
    surface_reduce parts = surface_reduce [whole].
Proof.
  intros g hs dist nr lm jc jr ji jx j0 hsl gh S SR ghg Sg BG HT G aoa tag j u gr ul gl Lu Lg PU LL UL.
  pose proof SR as [GO Hd Hr RM SE BU D].
  set (rs := map (fun a => mkrank (S a) (ul a) (gl a)) (seq 0 nr)).
  assert (NE : forall a, (a < nr)%nat -> sm_ne (S a) = nelem (l_m (lm a))). { intros a Ha. destruct (built_ok _ _ _ _ _ (BU a Ha)) as (? & ? & ? & ? & ? & _ & _ & E & _). exact E. }
  assert (RO : Forall (rank_ok G) rs).
  { apply Forall_forall. intros r Hin. apply in_map_iff in Hin. destruct Hin as (a & <- & Ha). apply in_seq in Ha. destruct (restr_facts g hs dist a (lm a) GO Hd _ _ _ _ _ (RM a ltac:(lia))) as (F1 & _ & _ & _ & _ & F6 & _).
    exists (l_m (lm a)), (hsl a), (l_X (lm a)), (gh a). cbn [rk_S rk_u rk_g]. rewrite (NE a) by lia. split; [apply BU; lia|]. split; [|split; [|split; [apply LL; lia|split; [apply LL; lia|]]]].
    - intros l f Hl Hf. destruct (F1 l Hl) as (A1 & A2 & A3 & A4 & _). rewrite A3 in Hf. destruct (A4 f Hf) as (X1 & X2). rewrite X1, X2. apply D; auto.
    - intros bf Hb. apply In_nth_error in Hb. destruct Hb as (q & Eq). pose proof (BU a ltac:(lia)) as BA. pose proof BA as (TA & _).
      destruct (nth_error (hsl a) q) as [(l & f)|] eqn:Eh. 2:{ apply nth_error_None in Eh. rewrite (hs_len _ _ _ _ _ BA) in Eh. assert (q < nbface (l_m (lm a)))%nat by (apply nth_error_Some; congruence). lia. }
      destruct (F6 (hsl a) q bf l f TA Eq Eh) as (p & gb & P1 & _ & P3). rewrite P3. apply HT. eapply nth_error_In; eauto.
    - intros l Hl. destruct (UL a l ltac:(lia) Hl) as (-> & _). apply PU. apply F1; auto. }
  assert (ROG : Forall (rank_ok G) [mkrank Sg u gr]).
  { constructor; [|constructor]. exists (g_m g), hs, (g_X g), ghg. cbn [rk_S rk_u rk_g]. destruct (built_ok _ _ _ _ _ BG) as (? & ? & ? & ? & ? & _ & _ & E & _). rewrite E. repeat (split; [solve [auto; lia]|]). auto. }
  destruct (all_run G aoa tag j rs RO) as (parts & HP & _). destruct (all_run G aoa tag j _ ROG) as (q & HQ & _). pose proof HQ as HQ'. inversion HQ as [|? w ? ? E1 E2]; subst. inversion E2; subst.
  exists w, parts. split; [exact E1|]. split.
  - unfold rs in HP. clear -HP. revert parts HP. unfold run_all. induction (seq 0 nr) as [|a l IH]; intros parts HP; inversion HP; subst; constructor; auto.
  - apply (C77_distribution G aoa tag j rs [mkrank Sg u gr]); auto. unfold all_walls. cbn [flat_map]. rewrite app_nil_r. unfold rs.
    rewrite flat_map_concat_map, map_map, <- flat_map_concat_map. unfold rank_walls at 2. cbn [rk_S rk_u rk_g].
    apply (walls_split g hs dist nr lm jc jr ji jx j0 hsl gh S SR ghg Sg BG tag u gr ul gl UL).
Qed.
Print Assumptions C77_partition.

(** the ring of seven triangles on two ranks meets the hypotheses *)
Example C77_partition_ex : exists g lm jc jr ji jx j0 hsl gh S ghg Sg (u : arr st) (gr : arr grad) (ul : nat -> arr st) (gl : nat -> arr grad),
  split_run g ring_h ring_d 2 lm jc jr ji jx j0 hsl gh S /\ g_m g = ring /\ built (g_m g) ring_h (g_X g) ghg Sg /\ (forall bf, In bf (bfaces (g_m g)) -> btg bf <> []) /\
  alen u = nelem (g_m g) /\ alen gr = nelem (g_m g) /\ (forall i, (i < nelem (g_m g))%nat -> physical (gam air) (aat u i)) /\
  (forall a, (a < 2)%nat -> (nelem (l_m (lm a)) <= alen (ul a))%nat /\ (nelem (l_m (lm a)) <= alen (gl a))%nat) /\
  (forall a l, (a < 2)%nat -> (l < nelem (l_m (lm a)))%nat -> aat (ul a) l = aat u (aat (l_eglob (lm a)) l) /\ aat (gl a) l = aat gr (aat (l_eglob (lm a)) l)) /\
  length (walls Sg u gr 2%Z) = 1%nat.
Proof.
  destruct (global_of ring ring_h ring_tiled eq_refl ringX (mkarr 7 (fun _ => [])) eq_refl eq_refl) as (t & G).
  assert (H34 : forall c, In c (cells ring) -> (length c = 3 \/ length c = 4)%nat).
  { intros c Hc. left. unfold ring in Hc. cbn [cells In] in Hc. repeat (destruct Hc as [<-|Hc]; [reflexivity|]). contradiction. }
  assert (RR : forall i, (i < 7)%nat -> (aat ring_d i < 2)%nat) by (intros i _; unfold ring_d; cbn; destruct (i =? 0)%nat; lia).
  set (U := fun i => if (i =? 0)%nat then uA else uB).
  destruct (C64_runs_exist _ ring_h ring_d 2 G eq_refl RR H34 ringX_distinct (ring_seen t _) U) as (lm & jc & jr & ji & jx & j0 & hsl & gh & S & u & SR & SU & EX).
  destruct (C86_setup_total ring ring_h ringX (fun _ => vzero) (fun _ _ => 0%Z) (fun _ => mkface 0 0 0 0) (fun _ _ => 0%nat) (fun _ => []) (fun _ => mkfm vzero 0) (fun _ => 0) (fun _ => vzero) (fun _ => vzero) ring_tiled H34 eq_refl) as (Sg & _ & B).
  exists (mkgm ring t ringX (mkarr 7 (fun _ => []))), lm, jc, jr, ji, jx, j0, hsl, gh, S, (fun _ => vzero), Sg, (mkarr 7 U), (mkarr 7 (fun i => mkgrad szero (mks 0 (INR i) 0 0))), u, (fun a => mkarr (nelem (l_m (lm a))) (fun l => mkgrad szero (mks 0 (INR (aat (l_eglob (lm a)) l)) 0 0))).
  split; auto. split; [reflexivity|]. split; [exact B|]. split. { intros bf Hb. cbn in Hb. destruct Hb as [<-|[<-|[<-|[]]]]; discriminate. }
  split; [reflexivity|]. split; [reflexivity|]. split. { intros i _. cbn [aat]. unfold U. destruct (i =? 0)%nat; apply ex_physical. }
  split. { intros a Ha. destruct (SU a Ha) as (L & _ & N). cbn [alen]. split; lia. }
  split. { intros a l Ha Hl. destruct (SU a Ha) as (_ & Q & N). rewrite Q by lia. cbn [aat]. auto. }
  unfold walls. rewrite map_length, (marked_is _ _ _ _ _ B). reflexivity.
Qed.

(** ** Friction *)
(** When the shear stress on the wall drags it along the wind, the friction drag is negative. *)
Theorem C77_friction_sign_refuted : forall G aoa tag j rs parts, Forall (rank_ok G) rs -> all_walls tag rs <> [] -> run_all G aoa tag j rs parts ->
  (forall w, In w (all_walls tag rs) -> 0 < dot2 (wall_shear (getViscosityCoeffFromConserved G (wf_u w)) (wf_u w) (wf_g w) (wf_n w)) (wind_dir aoa)) ->
  exists cl cdp cdf, surface_reduce parts = Some (cl, cdp, cdf) /\ cdf < 0.
Proof.
  intros G aoa tag j rs parts HR NE HRun HS. destruct (C77_coefficients G aoa tag j rs HR NE) as (q & cl & cdp & cdf & Q & E & _ & _ & _ & E3). rewrite (run_unique _ _ _ _ _ _ _ HRun Q).
  exists cl, cdp, cdf. split; auto. pose proof (walls_area_pos G tag rs HR NE) as HA.
  assert (P : 0 < dot2 (shear_force G (all_walls tag rs)) (wind_dir aoa)).
  { replace (dot2 (shear_force G (all_walls tag rs)) (wind_dir aoa)) with (rsum (fun f => 2 * wf_len f * dot2 (wall_shear (getViscosityCoeffFromConserved G (wf_u f)) (wf_u f) (wf_g f) (wf_n f)) (wind_dir aoa)) (all_walls tag rs)).
    2:{ unfold shear_force, vsum, dot2. cbn [vx vy]. rewrite <- !rsum_scal_r, <- rsum_plus. apply rsum_ext. intros f _. unfold vscal; cbn [vx vy]. ring. }
    assert (K : forall w, In w (all_walls tag rs) -> 0 < 2 * wf_len w * dot2 (wall_shear (getViscosityCoeffFromConserved G (wf_u w)) (wf_u w) (wf_g w) (wf_n w)) (wind_dir aoa)).
    { intros w Hw. pose proof (HS w Hw). destruct (wall_pos G tag rs w HR Hw) as (L & _). apply Rmult_lt_0_compat; [lra|auto]. }
    destruct (all_walls tag rs) as [|w l]; [congruence|]. cbn [rsum].
    match goal with |- 0 < ?a + ?b => assert (0 < a) by (apply K; left; auto); assert (0 <= b) by (apply rsum_nonneg; intros x Hx; apply Rlt_le, K; right; auto); lra end. }
  rewrite E3. unfold Rdiv. assert (I : 0 < / wall_area (all_walls tag rs)) by (apply Rinv_0_lt_compat; auto). pose proof (Rmult_lt_0_compat _ _ P I). lra.
Qed.
Print Assumptions C77_friction_sign_refuted.

(** a flat plate: bottom of the unit square, wind along x, velocity growing away from the wall *)
Definition pl : umesh := mkmesh 4 [[0;1;2;3]]%nat 4 [mkbf 0 1 [1%Z]; mkbf 1 2 [2%Z]; mkbf 2 3 [2%Z]; mkbf 3 0 [2%Z]] [].
Definition plX : arr v2 := mkarr 4 (fun k => nth k [mkv 0 0; mkv 1 0; mkv 1 1; mkv 0 1] vzero).
Definition plh : list (nat * nat) := [(0,0); (0,1); (0,2); (0,3)]%nat.
Definition plg : nat -> v2 := fun _ => vzero.
Lemma pl_built : exists S, built pl plh plX plg S.
Proof.
  destruct (C86_setup_total pl plh plX plg (fun _ _ => 0%Z) (fun _ => mkface 0 0 0 0) (fun _ _ => 0%nat) (fun _ => []) (fun _ => mkfm vzero 0) (fun _ => 0%R) (fun _ => vzero) (fun _ => vzero)) as (S & _ & B); eauto.
  apply tiledb_ok; vm_compute; reflexivity. intros c [<-|[]]; cbn; auto.
Qed.
Lemma pl_distinct : distinct_ends pl plX.
Proof. intros i f Hi Hf. cbn in Hi. destruct i as [|i]; try lia; cbn in Hf; destruct f as [|[|[|[|f]]]]; try lia; cbn; intros E; inversion E; lra. Qed.
Definition plu : arr st := mkarr 1 (fun _ => mks 1 (1/10) 0 3).
Definition plgr : arr grad := mkarr 1 (fun _ => mkgrad szero (mks 0 1 0 0)).
Lemma pl_metric : face_metric (mkv 0 0) (mkv 1 0) = mkfm (mkv 0 (-1)) 1.
Proof.
  unfold face_metric. cbn [vx vy]. replace ((0 - 0) ^ 2 + (-1 * (1 - 0)) ^ 2) with 1 by ring. rewrite sqrt_1. f_equal. apply v2_eq; cbn; field.
Qed.
Lemma pl_walls S c q : built pl plh plX plg S -> walls S (mkarr 1 (fun _ => c)) (mkarr 1 (fun _ => q)) 1%Z = [mkwf (mkv 0 (-1)) 1 c q].
Proof.
  intros B. rewrite (walls_are _ _ _ _ _ B), (marked_is _ _ _ _ _ B).
  transitivity [let M := face_metric (mkv 0 0) (mkv 1 0) in mkwf (fm_n M) (fm_len M) c q]; [reflexivity|]. rewrite pl_metric. reflexivity.
Qed.
Lemma pl_rank G S : gam G = 7/5 -> built pl plh plX plg S -> rank_ok G (mkrank S plu plgr) /\ all_walls 1%Z [mkrank S plu plgr] = [mkwf (mkv 0 (-1)) 1 (mks 1 (1/10) 0 3) (mkgrad szero (mks 0 1 0 0))].
Proof.
  intros HG B. split.
  - exists pl, plh, plX, plg. cbn [rk_S rk_u rk_g]. destruct (built_ok _ _ _ _ _ B) as (? & ? & ? & ? & ? & _ & _ & E & _). rewrite E. split; auto. split; [exact pl_distinct|]. split; [|split; [cbn; lia|split; [cbn; lia|]]].
    + intros bf Hb. cbn in Hb. destruct Hb as [<-|[<-|[<-|[<-|[]]]]]; discriminate.
    + intros i _. rewrite HG. cbn [plu aat]. unfold physical, pressure; cbn. split; lra.
  - unfold all_walls. cbn [flat_map]. rewrite app_nil_r. unfold rank_walls. cbn [rk_S rk_u rk_g]. apply pl_walls; auto.
Qed.
Example C77_friction_ex : exists S parts cl cdp cdf, rank_ok air (mkrank S plu plgr) /\ run_all air 0 1%Z (fun _ => mksrow 0 0 0 0) [mkrank S plu plgr] parts /\
  (forall w, In w (all_walls 1%Z [mkrank S plu plgr]) -> 0 < dot2 (wall_shear (getViscosityCoeffFromConserved air (wf_u w)) (wf_u w) (wf_g w) (wf_n w)) (wind_dir 0)) /\
  surface_reduce parts = Some (cl, cdp, cdf) /\ cdf < 0.
Proof.
  destruct pl_built as (S & B). destruct (pl_rank air S eq_refl B) as (RO & W). destruct (all_run air 0 1%Z (fun _ => mksrow 0 0 0 0) [mkrank S plu plgr]) as (parts & HP & _); [repeat constructor; auto|].
  assert (K : forall w, In w (all_walls 1%Z [mkrank S plu plgr]) -> 0 < dot2 (wall_shear (getViscosityCoeffFromConserved air (wf_u w)) (wf_u w) (wf_g w) (wf_n w)) (wind_dir 0)).
  { rewrite W. intros w [<-|[]]. cbn [wf_u wf_g wf_n]. set (u0 := mks 1 (1/10) 0 3).
    assert (MU : 0 < getViscosityCoeffFromConserved air u0).
    { assert (P0 : physical (gam air) u0) by (unfold physical, pressure, u0; cbn; split; lra).
      unfold getViscosityCoeffFromConserved.
      assert (T : 0 < getTemperatureFromConserved air u0).
      { unfold getTemperatureFromConserved, getTemperature. rewrite pressure_code by (cbn; lra). unfold pressure, u0; cbn. lra. }
      apply (C31_sutherland air); cbn; try lra. }
    unfold wall_shear, strain_n, dvel, wind_dir, dot2, vscal. cbn. rewrite cos_0, sin_0. lra. }
  destruct (C77_friction_sign_refuted air 0 1%Z (fun _ => mksrow 0 0 0 0) [mkrank S plu plgr] parts) as (cl & cdp & cdf & E & H); auto. rewrite W; discriminate.
  exists S, parts, cl, cdp, cdf. auto.
Qed.

(** The friction coefficients use the viscosity of Sutherland's law even when the flow is computed
    with the constant viscosity 1/Re (fl_visc, M_Resid.v): rows of the plate with another viscosity. *)
Definition plhot : arr st := mkarr 1 (fun _ => mks 1 0 0 (200/7)).
Theorem C77_constant_viscosity_refuted : exists S s, built pl plh plX plg S /\ export_wall air S 0 plhot plgr 1%Z (fun _ => mksrow 0 0 0 0) = Some s /\ let w := mkwf (mkv 0 (-1)) 1 (mks 1 0 0 (200/7)) (mkgrad szero (mks 0 1 0 0)) in walls S plhot plgr 1%Z = [w] /\ sr_cf (aat (su_out s) 0) <> 2 * getConstantViscosityCoeff air * dot2 (strain_n (wf_u w) (wf_g w) (wf_n w)) (mkv (vy (wf_n w)) (- vx (wf_n w))).
Proof.
  destruct pl_built as (S & B). set (w := mkwf (mkv 0 (-1)) 1 (mks 1 0 0 (200/7)) (mkgrad szero (mks 0 1 0 0))).
  assert (W : walls S plhot plgr 1%Z = [w]).
  { apply pl_walls; auto. }
  assert (RO : rank_ok air (mkrank S plhot plgr)).
  { exists pl, plh, plX, plg. cbn [rk_S rk_u rk_g]. destruct (built_ok _ _ _ _ _ B) as (? & ? & ? & ? & ? & _ & _ & E & _). rewrite E. split; auto. split; [exact pl_distinct|]. split; [|split; [cbn; lia|split; [cbn; lia|]]].
    - intros bf Hb. cbn in Hb. destruct Hb as [<-|[<-|[<-|[<-|[]]]]]; discriminate.
    - intros i _. unfold physical, pressure; cbn. split; lra. }
  destruct (rank_runs air 0 1%Z (fun _ => mksrow 0 0 0 0) _ RO) as (s & E & N & L & P & _). cbn [rk_S rk_u rk_g] in *. exists S, s. split; auto. split; auto. cbv zeta. split; auto.
  assert (ML : marked S 1%Z = [0%nat]) by (rewrite (marked_is _ _ _ _ _ B); reflexivity).
  rewrite P by (rewrite ML; cbn; lia). rewrite ML. cbn [nth]. unfold row_at. cbv zeta. cbn [sr_cf].
  assert (Ew : wf_at S plhot plgr 0 = w) by (unfold walls in W; rewrite ML in W; cbn [map] in W; exact (f_equal (fun l => hd w l) W)). rewrite Ew. unfold cf_of.
  assert (MU : getViscosityCoeffFromConserved air (wf_u w) = (1 + 221/2/288) / (4 + 221/2/288) * 8 / 1000).
  { unfold getViscosityCoeffFromConserved. replace (getTemperatureFromConserved air (wf_u w)) with 4.
    2:{ unfold getTemperatureFromConserved, getTemperature. rewrite pressure_code by (cbn; lra). unfold pressure; cbn. field. }
    rewrite (proj1 (C31_sutherland air 4 ltac:(cbn; lra) ltac:(cbn; lra) ltac:(lra))). unfold sutherland. cbn [Tinf Reinf air]. cbv zeta.
    replace (sqrt 4) with 2 by (symmetry; replace 4 with (2 * 2) by ring; apply sqrt_square; lra). field. }
  rewrite MU. unfold getConstantViscosityCoeff, strain_n, dvel, dot2. cbn. intros H. lra.
Qed.
Print Assumptions C77_constant_viscosity_refuted.

(** ** C89: rows of the surface files *)
(** the boundary faces of a mesh with a marker, in order *)
Definition boundary_ids (m : umesh) (tag : Z) : list nat :=
  filter (fun k => match nth_error (bfaces m) k with Some bf => tagged tag bf | None => false end) (seq 0 (nbface m)).
Definition midpoint (a b : v2) : v2 := mkv ((vx a + vx b) / 2) ((vy a + vy b) / 2).

Lemma bface_points m hs X ghost S k bf h : built m hs X ghost S -> nth_error (bfaces m) k = Some bf -> nth_error hs k = Some h ->
  mid_at S k = midpoint (aat X (b0 bf)) (aat X (b1 bf)) /\ f_left (aat (sm_F S) k) = fst h.
Proof.
  intros B En Eh. destruct (built_bnd _ _ _ _ _ k bf h B En Eh) as (K & F). destruct (built_ok _ _ _ _ _ B) as (p & e & ni & s & il & _ & _ & _ & _ & _ & _ & _ & EX & _).
  unfold mid_at. rewrite F, EX. cbn [f_left f_a f_b]. split; auto. unfold face_mid, midpoint. apply v2_eq; cbn; field.
Qed.

(** The wall table has one row for each face with the marker, in the order of the boundary faces, and all rows
    are written: midpoint of the face, pressure coefficient and friction coefficient of the cell that has the face. *)
Theorem C89_wall_rows : forall G aoa tag j r m hs X ghost, rank_ok G r -> built m hs X ghost (rk_S r) ->
  exists s, export_wall G (rk_S r) aoa (rk_u r) (rk_g r) tag j = Some s /\ su_n s = length (boundary_ids m tag) /\ alen (su_out s) = length (boundary_ids m tag) /\ forall q k bf h, nth_error (boundary_ids m tag) q = Some k -> nth_error (bfaces m) k = Some bf -> nth_error hs k = Some h ->
    let c := midpoint (aat X (b0 bf)) (aat X (b1 bf)) in let w := half_wall m X (rk_u r) (rk_g r) h in
    aat (su_out s) q = mksrow (vx c) (vy c) (cp_of (gam G) (getFreestreamPressure G) (wf_u w)) (cf_of G w).
Proof.
  intros G aoa tag j r m hs X ghost RO B. destruct (rank_runs G aoa tag j r RO) as (s & E & N & L & P & _). pose proof (marked_is _ _ _ _ _ B tag) as MI. fold (boundary_ids m tag) in MI. rewrite MI in N, L, P.
  exists s. split; auto. split; auto. split; auto. intros q k bf h Eq Eb Eh. cbv zeta.
  assert (Hq : (q < length (boundary_ids m tag))%nat) by (apply nth_error_Some; congruence). rewrite (P q Hq). rewrite (nth_error_nth _ _ _ Eq).
  destruct (bface_points _ _ _ _ _ k bf h B Eb Eh) as (M1 & M2). unfold row_at. cbv zeta. rewrite M1, (wall_half _ _ _ _ _ B _ _ _ _ Eh). reflexivity.
Qed.
Print Assumptions C89_wall_rows.

(** Likewise for the other markers: midpoint and velocity. *)
Theorem C89_other_rows : forall G tag j r m hs X ghost, rank_ok G r -> built m hs X ghost (rk_S r) ->
  exists out, export_other (rk_S r) (rk_u r) tag j = Some out /\ alen out = length (boundary_ids m tag) /\ forall q k bf h, nth_error (boundary_ids m tag) q = Some k -> nth_error (bfaces m) k = Some bf -> nth_error hs k = Some h ->
    let c := midpoint (aat X (b0 bf)) (aat X (b1 bf)) in let v := velocity (aat (rk_u r) (fst h)) in aat out q = mksrow (vx c) (vy c) (vx v) (vy v).
Proof.
  intros G tag j r m hs X ghost RO B. destruct (rank_ranges G r RO) as (T & OK & RG). pose proof (marked_is _ _ _ _ _ B tag) as MI. fold (boundary_ids m tag) in MI.
  unfold export_other. rewrite count_ok by auto. cbn [bind]. set (S := rk_S r) in *.
  set (row := fun k => let c := mid_at S k in let v := velocity (aat (rk_u r) (f_left (aat (sm_F S) k))) in mksrow (vx c) (vy c) (vx v) (vy v)).
  match goal with |- context [floop _ ?bb ?ss] =>
    destruct (floop_inv _ (fun n (s : nat * arr srow) => fst s = length (marked_upto S tag n) /\ alen (snd s) = length (marked S tag) /\     forall q, (q < length (marked_upto S tag n))%nat -> aat (snd s) q = row (nth q (marked_upto S tag n) 0%nat)) (sm_nb S) bb ss) as ((n & out) & E & P1 & P2 & P3) end.
  - cbn. split; auto. split; auto. intros; lia.
  - intros k (n & o) Hk (Q1 & Q2 & Q3). cbn [fst snd] in *. rewrite (tag_some S k T Hk). cbn [bind]. pose proof (marked_snoc S tag k) as MS. destruct (tag_at S k =? tag)%Z eqn:Et.
    + destruct (RG k Hk) as (H1 & H2 & H3 & H4 & H5 & H6). rewrite aget_ok by auto. cbn [bind]. rewrite get_mid_ok by auto. cbn [bind]. rewrite aget_ok by auto. cbn [bind].
      assert (Hn : (n < alen o)%nat). { pose proof (marked_mono S tag (k + 1) (sm_nb S) ltac:(lia)) as MM. rewrite MS, app_length in MM. cbn in MM. rewrite Q1, Q2. unfold marked. lia. }
      rewrite aset_ok by auto. cbn [bind]. eexists; split; [reflexivity|]. cbn [fst snd alen aat]. replace (Datatypes.S k) with (k + 1)%nat by lia. rewrite MS, app_length. cbn [length]. split; [lia|]. split; auto.
      intros q Hq. unfold upd. destruct (Nat.eqb_spec q n) as [->|N].
      * rewrite app_nth2 by lia. rewrite Q1, Nat.sub_diag. reflexivity.
      * rewrite app_nth1 by lia. apply Q3. lia.
    + eexists; split; [reflexivity|]. cbn [fst snd]. replace (Datatypes.S k) with (k + 1)%nat by lia. rewrite MS, app_nil_r. auto.
  - rewrite E. cbn [bind snd]. cbn [snd] in P2, P3. exists out. fold (marked S tag) in P3. rewrite MI in P2, P3. split; auto. split; auto. intros q k bf h Eq Eb Eh. cbv zeta.
    assert (Hq : (q < length (boundary_ids m tag))%nat) by (apply nth_error_Some; congruence). rewrite (P3 q Hq), (nth_error_nth _ _ _ Eq).
    destruct (bface_points _ _ _ _ _ k bf h B Eb Eh) as (M1 & M2). unfold row. cbv zeta. fold S in M1, M2. rewrite M1, M2. reflexivity.
Qed.
Print Assumptions C89_other_rows.

(** the plate has one wall face and three others *)
Example C89_ex : exists S, built pl plh plX plg S /\ rank_ok air (mkrank S plu plgr) /\ boundary_ids pl 1%Z = [0%nat] /\ boundary_ids pl 2%Z = [1; 2; 3]%nat.
Proof. destruct pl_built as (S & B). exists S. split; auto. split; [apply (pl_rank air S eq_refl B)|]. split; reflexivity. Qed.

(** ** C90: entropy error *)
(** relative error of the entropy of a cell with respect to the free stream *)
Definition sinf_of (G : gas) : R := 1 / (gam G * Minf G ^ 2).
Definition entropy_error (G : gas) (u : st) : R := (entropy (gam G) u - sinf_of G) / sinf_of G.
Record part := mkpart { pt_n : nat; pt_A : arr R; pt_u : arr st }.
Definition part_ok (G : gas) (p : part) : Prop := (pt_n p <= alen (pt_A p))%nat /\ (pt_n p <= alen (pt_u p))%nat /\ forall i, (i < pt_n p)%nat -> 0 < aat (pt_A p) i /\ 0 < s0 (aat (pt_u p) i).
(** area and state of every cell of every process *)
Definition part_cells (p : part) : list (R * st) := map (fun i => (aat (pt_A p) i, aat (pt_u p) i)) (seq 0 (pt_n p)).

Lemma sinf_code G aoa : 1 < gam G -> 0 < Minf G -> getEntropyFromConserved G (compute_freestream_state G aoa) = sinf_of G /\ 0 < sinf_of G.
Proof.
  intros Hg HM. destruct (C27_freestream G aoa Hg HM) as (E0 & _ & _ & _ & EP & _). cbv zeta in *. split.
  - unfold getEntropyFromConserved. rewrite pressure_code by (rewrite E0; lra). rewrite EP, E0.
    replace (Rpower 1 (gam G)) with 1 by (unfold Rpower; rewrite ln_1, Rmult_0_r, exp_0; reflexivity). unfold sinf_of. field. lra.
  - unfold sinf_of. apply Rdiv_lt_0_compat; [lra|]. assert (0 < Minf G * Minf G) by nra. cbn. nra.
Qed.
Lemma entropy_local_ok G aoa p : 1 < gam G -> 0 < Minf G -> part_ok G p ->
  entropy_local G aoa (pt_n p) (pt_A p) (pt_u p) = Some (rsum (fun c => entropy_error G (snd c) ^ 2 * fst c) (part_cells p)).
Proof.
  intros Hg HM (LA & LU & HC). unfold entropy_local. cbv zeta. destruct (sinf_code G aoa Hg HM) as (-> & HS).
  match goal with |- floop _ ?bb ?ss = _ =>
    destruct (floop_inv _ (fun n (e : R) => e = rsum (fun c => entropy_error G (snd c) ^ 2 * fst c) (map (fun i => (aat (pt_A p) i, aat (pt_u p) i)) (seq 0 n))) (pt_n p) bb ss) as (e & E & P) end.
  - reflexivity.
  - intros i e Hi ->. rewrite aget_ok by lia. cbn [bind]. rewrite aget_ok by lia. cbn [bind]. eexists; split; [reflexivity|].
    replace (Datatypes.S i) with (i + 1)%nat by lia. rewrite seq_snoc, map_app, rsum_app. cbn [map rsum fst snd]. unfold getEntropyFromConserved. rewrite pressure_code by (apply Rgt_not_eq, HC; auto).
    unfold entropy_error, entropy. cbn [pow]. ring.
  - rewrite E, P. reflexivity.
Qed.

(** The entropy error is the root of the sum over all cells of all processes of area times squared relative
    entropy error; the free-stream entropy is 1 / (gamma M^2). *)
Theorem C90_value : forall G aoa ps, 1 < gam G -> 0 < Minf G -> Forall (part_ok G) ps ->
  exists parts, Forall2 (fun p e => entropy_local G aoa (pt_n p) (pt_A p) (pt_u p) = Some e) ps parts /\ let E := compute_entropy_cell parts in
  E ^ 2 = rsum (fun c => entropy_error G (snd c) ^ 2 * fst c) (flat_map part_cells ps) /\ 0 <= E /\ (E = 0 <-> forall c, In c (flat_map part_cells ps) -> entropy (gam G) (snd c) = entropy (gam G) (compute_freestream_state G aoa)).
Proof.
  intros G aoa ps Hg HM HP. exists (map (fun p => rsum (fun c => entropy_error G (snd c) ^ 2 * fst c) (part_cells p)) ps). split.
  { induction HP as [|p ps H _ IH]; cbn; constructor; auto. apply entropy_local_ok; auto. }
  assert (EQ : rsum (fun x => x) (map (fun p => rsum (fun c => entropy_error G (snd c) ^ 2 * fst c) (part_cells p)) ps) = rsum (fun c => entropy_error G (snd c) ^ 2 * fst c) (flat_map part_cells ps)).
  { rewrite rsum_map, rsum_flat_map. reflexivity. }
  assert (PO : forall c, In c (flat_map part_cells ps) -> 0 < fst c /\ 0 < s0 (snd c)).
  { intros c Hc. apply in_flat_map in Hc. destruct Hc as (p & Hp & Hc). rewrite Forall_forall in HP. destruct (HP p Hp) as (_ & _ & H). apply in_map_iff in Hc. destruct Hc as (i & <- & Hi). apply in_seq in Hi. cbn. apply H. lia. }
  assert (NN : forall c, In c (flat_map part_cells ps) -> 0 <= entropy_error G (snd c) ^ 2 * fst c).
  { intros c Hc. destruct (PO c Hc). apply Rmult_le_pos; [apply pow2_ge_0|lra]. }
  assert (SN : 0 <= rsum (fun c => entropy_error G (snd c) ^ 2 * fst c) (flat_map part_cells ps)) by (apply rsum_nonneg; auto).
  cbv zeta. unfold compute_entropy_cell. rewrite EQ. split; [rewrite <- Rsqr_pow2; apply Rsqr_sqrt; auto|]. split; [apply sqrt_pos|].
  destruct (sinf_code G aoa Hg HM) as (SI & HS).
  assert (SE : entropy (gam G) (compute_freestream_state G aoa) = sinf_of G).
  { rewrite <- SI. unfold getEntropyFromConserved. rewrite pressure_code. reflexivity. destruct (C27_freestream G aoa Hg HM) as (E0 & _). rewrite E0. lra. }
  rewrite SE. split.
  - intros Z c Hc. apply sqrt_eq_0 in Z; auto.
    assert (Q : entropy_error G (snd c) ^ 2 * fst c = 0).
    { assert (K : forall l, (forall c, In c l -> 0 <= entropy_error G (snd c) ^ 2 * fst c) -> rsum (fun c => entropy_error G (snd c) ^ 2 * fst c) l = 0 -> forall c, In c l -> entropy_error G (snd c) ^ 2 * fst c = 0).
      { induction l as [|x l IH]; intros N Z' y Hy; [destruct Hy|]. cbn [rsum] in Z'. assert (0 <= entropy_error G (snd x) ^ 2 * fst x) by (apply N; left; auto).
        assert (0 <= rsum (fun c => entropy_error G (snd c) ^ 2 * fst c) l) by (apply rsum_nonneg; intros; apply N; right; auto). destruct Hy as [<-|Hy]; [lra|apply IH; auto; try lra]. intros; apply N; right; auto. }
      apply (K _ NN Z c Hc). }
    destruct (PO c Hc) as (A0 & _). apply Rmult_integral in Q. destruct Q as [Q|Q]; [|lra]. assert (Q' : entropy_error G (snd c) = 0) by (cbn in Q; nra).
    unfold entropy_error in Q'. assert (entropy (gam G) (snd c) - sinf_of G = 0); [|lra]. apply (Rmult_eq_reg_r (/ sinf_of G)); [unfold Rdiv in Q'; lra|]. apply Rinv_neq_0_compat. lra.
  - intros H. rewrite rsum_zero, sqrt_0; auto. intros c Hc. unfold entropy_error. rewrite (H c Hc). field. lra.
Qed.
Print Assumptions C90_value.

(** It depends only on the cells, not on their order and distribution. *)
Theorem C90_distribution : forall G aoa ps ps' parts parts', 1 < gam G -> 0 < Minf G -> Forall (part_ok G) ps -> Forall (part_ok G) ps' ->
  Permutation (flat_map part_cells ps) (flat_map part_cells ps') ->
  Forall2 (fun p e => entropy_local G aoa (pt_n p) (pt_A p) (pt_u p) = Some e) ps parts -> Forall2 (fun p e => entropy_local G aoa (pt_n p) (pt_A p) (pt_u p) = Some e) ps' parts' ->
  compute_entropy_cell parts = compute_entropy_cell parts'.
Proof.
  intros G aoa ps ps' parts parts' Hg HM HP HP' PM H H'.
  assert (K : forall ps parts, Forall (part_ok G) ps -> Forall2 (fun p e => entropy_local G aoa (pt_n p) (pt_A p) (pt_u p) = Some e) ps parts -> rsum (fun x => x) parts = rsum (fun c => entropy_error G (snd c) ^ 2 * fst c) (flat_map part_cells ps)).
  { clear -Hg HM. intros ps parts HP H. induction H as [|p e ps parts E _ IH]; [reflexivity|]. inversion HP; subst. cbn [rsum flat_map]. rewrite rsum_app, <- IH by auto. rewrite entropy_local_ok in E by auto. injection E as <-. reflexivity. }
  unfold compute_entropy_cell. rewrite (K ps parts HP H), (K ps' parts' HP' H'). rewrite (rsum_perm _ _ _ PM). reflexivity.
Qed.
Print Assumptions C90_distribution.

(** two processes with different states; the error is not zero *)
Example C90_ex : exists ps, Forall (part_ok air) ps /\ length ps = 2%nat /\ exists c, In c (flat_map part_cells ps) /\ entropy (gam air) (snd c) <> entropy (gam air) (compute_freestream_state air 0).
Proof.
  exists [mkpart 1 (mkarr 1 (fun _ => 1)) (mkarr 1 (fun _ => mks 1 0 0 3)); mkpart 2 bxA (mkarr 2 (fun _ => exU))].
  split; [|split; [reflexivity|]].
  - repeat constructor; cbn; try lia; try lra; destruct i; lra.
  - exists (1, mks 1 0 0 3). split; [left; reflexivity|]. destruct (C27_freestream air 0 ltac:(cbn; lra) ltac:(cbn; lra)) as (E0 & _ & _ & _ & EP & _). cbv zeta in *. unfold entropy. rewrite EP, E0.
    cbn [snd s0]. replace (Rpower 1 (gam air)) with 1 by (unfold Rpower; rewrite ln_1, Rmult_0_r, exp_0; reflexivity). unfold pressure; cbn. lra.
Qed.

(** the box of two quadrilaterals, all of whose boundary is a wall, at two levels of pressure *)
Definition lvl (c : R) : arr st := mkarr 2 (fun i => mks 1 (INR i) 0 (3 + c * (5/2))).
Lemma lvl_rank S c : 0 <= c -> built bx bxh bxX bxg S -> rank_ok air (mkrank S (lvl c) (mkarr 2 (fun _ => mkgrad szero szero))).
Proof.
  intros Hc B. exists bx, bxh, bxX, bxg. cbn [rk_S rk_u rk_g]. destruct (bx_shape S B) as (E1 & _). rewrite E1. split; auto. split; [exact bx_distinct|]. split; [|split; [cbn; lia|split; [cbn; lia|]]].
  - intros bf Hb. cbn in Hb. destruct Hb as [<-|[<-|[<-|[<-|[<-|[<-|[]]]]]]]; discriminate.
  - intros i Hi. unfold physical, pressure. destruct i as [|[|i]]; [| |lia]; cbn; split; lra.
Qed.
Example C77_level_ex : exists S, let r c := mkrank S (lvl c) (mkarr 2 (fun _ => mkgrad szero szero)) in
  rank_ok air (r 0) /\ rank_ok air (r 1) /\ all_walls 1%Z [r 0] <> [] /\ wall_closed (all_walls 1%Z [r 0]) /\
  Forall2 (fun w w' => wf_n w = wf_n w' /\ wf_len w = wf_len w' /\ pressure (gam air) (wf_u w') = pressure (gam air) (wf_u w) + 1) (all_walls 1%Z [r 0]) (all_walls 1%Z [r 1]).
Proof.
  destruct bx_built as (S & B). exists S. cbv zeta. split; [apply lvl_rank; auto; lra|]. split; [apply lvl_rank; auto; lra|].
  unfold all_walls. cbn [flat_map]. rewrite !app_nil_r. unfold rank_walls. cbn [rk_S rk_u rk_g].
  split. { rewrite (walls_are _ _ _ _ _ B), (marked_is _ _ _ _ _ B). cbn. discriminate. }
  split. { eapply C77_closed; [exact B|exact bx_distinct|apply (bx_shape S B)|]. intros bf Hb. cbn in Hb. destruct Hb as [<-|[<-|[<-|[<-|[<-|[<-|[]]]]]]]; eexists; reflexivity. }
  unfold walls. assert (K : forall (f h : nat -> wface) (P : wface -> wface -> Prop) (l : list nat), (forall k, P (f k) (h k)) -> Forall2 P (map f l) (map h l)) by (intros f h P l H; induction l; constructor; auto).
  apply K. intros k. split; [reflexivity|]. split; [reflexivity|]. unfold wf_at, left_value, pressure. cbn. lra.
Qed.
