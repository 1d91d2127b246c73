(** C95: the control file. *)
From Coq Require Import Reals Lra List String Ascii ZArith Bool Arith Lia Permutation.
From Verif Require Import BaseR M_Gas M_BC M_BCConf M_Ctl.
Import ListNotations.
Open Scope nat_scope.
Open Scope string_scope.

(** ** Specification *)
(** kinds of entries *)
Inductive kind := KText | KName | KReal | KInt | KBool.
Definition entry := (list string * kind)%type.
(** the entries that every file must have *)
Definition always : list entry :=
  [(["io"; "mesh_file"], KText); (["io"; "solution_output_file"], KText); (["io"; "log_file_prefix"], KText); (["io"; "convergence_history_required"], KBool);
   (["flow_conditions"; "flow_type"], KName); (["flow_conditions"; "adiabatic_index"], KReal); (["flow_conditions"; "angle_of_attack"], KReal);
   (["flow_conditions"; "freestream_Mach_number"], KReal); (["time"; "simulation_type"], KName);
   (["spatial_discretization"; "inviscid_flux"], KName); (["spatial_discretization"; "gradient_method"], KName); (["spatial_discretization"; "limiter"], KName);
   (["pseudotime"; "pseudotime_stepping_type"], KName); (["pseudotime"; "main"; "cfl_min"], KReal); (["pseudotime"; "main"; "cfl_max"], KReal);
   (["pseudotime"; "main"; "tolerance"], KReal); (["pseudotime"; "main"; "max_timesteps"], KInt)].
(** those of viscous cases, of unsteady ones, of the starter, of implicit pseudo-time stepping *)
Definition viscous_e : list entry := [(["flow_conditions"; "freestream_temperature"], KReal); (["flow_conditions"; "freestream_Reynolds_number"], KReal); (["flow_conditions"; "Prandtl_number"], KReal)].
Definition unsteady_e : list entry := [(["time"; "final_time"], KReal); (["time"; "time_integrator"], KName); (["time"; "temporal_order"], KInt)].
Definition starter_e : list entry := [(["pseudotime"; "initialization"; "cfl_min"], KReal); (["pseudotime"; "initialization"; "cfl_max"], KReal);
   (["pseudotime"; "initialization"; "tolerance"], KReal); (["pseudotime"; "initialization"; "max_timesteps"], KInt)].
Definition implicit_e : list entry := [(["Jacobian_inviscid_flux"], KName); (["pseudotime"; "nonlinear_update_scheme"], KName)].
(** the entry at [path] is the name [n], in any mixture of cases *)
Definition named (t : ptree) (path : list string) (n : string) : Prop := exists s, get_str t path = Some s /\ to_upper s = n.
Definition present (t : ptree) (path : list string) : Prop := exists s, get_str t path = Some s.

(** entries read as names *)
Definition name_paths : list (list string) :=
  [["flow_conditions"; "flow_type"]; ["time"; "simulation_type"]; ["time"; "time_integrator"]; ["spatial_discretization"; "inviscid_flux"];
   ["spatial_discretization"; "gradient_method"]; ["spatial_discretization"; "limiter"]; ["pseudotime"; "pseudotime_stepping_type"]; ["Jacobian_inviscid_flux"];
   ["pseudotime"; "nonlinear_update_scheme"]].
(** two files that give the same text everywhere, except that names may differ in case *)
Definition same_file (t t' : ptree) : Prop := forall path,
  (In path name_paths -> option_map to_upper (get_str t path) = option_map to_upper (get_str t' path)) /\
  (~ In path name_paths -> get_str t path = get_str t' path).
(** the same, except for the name of the mesh file *)
Definition same_but_mesh (t t' : ptree) : Prop := forall path, path <> ["io"; "mesh_file"] -> get_str t path = get_str t' path.

(** trees that differ in the order of entries only, names being distinct in every section *)
Inductive reorder : ptree -> ptree -> Prop :=
| reo d l l' : Forall2 (fun a b => fst a = fst b /\ reorder (snd a) (snd b)) l l' -> forall l'', Permutation l' l'' -> NoDup (map fst l') -> reorder (PNode d l) (PNode d l'').

(** the settings of two option sets that the file determines *)
Definition same_settings (t : ptree) (o o' : fpopts) : Prop :=
  o_meshfile o = o_meshfile o' /\ o_vtu o = o_vtu o' /\ o_log o = o_log o' /\ o_flowtype o = o_flowtype o' /\ o_invflux o = o_invflux o' /\ o_invfluxjac o = o_invfluxjac o' /\
  o_grad o = o_grad o' /\ o_lim o = o_lim o' /\ o_ptype o = o_ptype o' /\ o_surf o = o_surf o' /\ o_vol o = o_vol o' /\ o_volreq o = o_volreq o' /\ o_sim o = o_sim o' /\ o_tint o = o_tint o' /\
  o_nlu o = o_nlu o' /\ o_cfl0 o = o_cfl0 o' /\ o_cfl1 o = o_cfl1 o' /\ o_tol o = o_tol o' /\ o_Minf o = o_Minf o' /\ o_alpha o = o_alpha o' /\ o_Re o = o_Re o' /\ o_Tinf o = o_Tinf o' /\
  o_Pr o = o_Pr o' /\ o_gam o = o_gam o' /\ o_maxit o = o_maxit o' /\ o_bc o = o_bc o' /\ o_lognres o = o_lognres o' /\ o_wlin o = o_wlin o' /\ o_cvisc o = o_cvisc o' /\ o_visc o = o_visc o' /\
  o_order2 o = o_order2 o' /\ o_lwalls o = o_lwalls o' /\ o_lothers o = o_lothers o' /\
  (named t ["time"; "simulation_type"] "UNSTEADY" -> o_ftime o = o_ftime o' /\ o_torder o = o_torder o' /\
     (named t ["time"; "time_integrator"] "TVDRK" -> o_pcfl o = o_pcfl o') /\ (~ named t ["time"; "time_integrator"] "TVDRK" -> o_dt o = o_dt o')) /\
  (present t ["pseudotime"; "initialization"] -> o_starter o = 1%Z /\ o_starter o' = 1%Z /\ o_fcfl0 o = o_fcfl0 o' /\ o_fcfl1 o = o_fcfl1 o' /\ o_ftol o = o_ftol o' /\ o_fmaxit o = o_fmaxit o') /\
  (named t ["pseudotime"; "pseudotime_stepping_type"] "IMPLICIT" -> o_minnl o = o_minnl o').

(** ** Decimal numbers *)
Fixpoint dval (s : string) (a : nat) : nat := match s with EmptyString => a | String c r => dval r (10 * a + (nat_of_ascii c - 48)) end.
Lemma digit_val n : nat_of_ascii (digit n) - 48 = n mod 10.
Proof. unfold digit. pose proof (Nat.mod_upper_bound n 10 ltac:(lia)). rewrite nat_ascii_embedding by lia. lia. Qed.
Lemma dec_fuel_val f : forall n acc, n < f -> dval (dec_fuel f n acc) 0 = dval acc n.
Proof.
  induction f as [|f IH]; intros n acc H; [lia|]. cbn [dec_fuel]. destruct (Nat.ltb_spec n 10) as [L|L].
  - cbn [dval]. rewrite digit_val, Nat.mod_small by lia. f_equal; lia.
  - rewrite IH by (apply Nat.le_lt_trans with (n / 2); [apply Nat.div_le_compat_l; lia|pose proof (Nat.div_lt n 2); lia]). cbn [dval]. rewrite digit_val. f_equal. pose proof (Nat.div_mod n 10). lia.
Qed.
Lemma to_dec_inj n m : to_dec n = to_dec m -> n = m.
Proof. intros E. assert (H : dval (to_dec n) 0 = dval (to_dec m) 0) by congruence. unfold to_dec in H. rewrite !dec_fuel_val in H by lia. exact H. Qed.

(** ** Look-up *)
Lemma get_str_child t path : get_str t path = None <-> get_child t path = None.
Proof. unfold get_str. destruct (get_child t path); split; congruence. Qed.
Lemma p_find_in k l c : p_find k l = Some c -> In k (map fst l).
Proof. unfold p_find. destruct (find _ l) as [p|] eqn:E; [|discriminate]. intros _. apply find_some in E. destruct E as (I0 & E). apply String.eqb_eq in E. subst. apply in_map, I0. Qed.
Lemma p_find_not k l : p_find k l = None <-> ~ In k (map fst l).
Proof.
  unfold p_find. split.
  - destruct (find _ l) eqn:E; [discriminate|]. intros _ I0. apply in_map_iff in I0. destruct I0 as (p & <- & I0). apply (find_none _ _ E) in I0. rewrite String.eqb_refl in I0. discriminate.
  - intros N. destruct (find _ l) as [p|] eqn:E; auto. apply find_some in E. destruct E as (I0 & E). apply String.eqb_eq in E. contradiction N. subst. apply in_map, I0.
Qed.
Lemma p_find_nodup k l c : NoDup (map fst l) -> In (k, c) l -> p_find k l = Some c.
Proof.
  unfold p_find. induction l as [|(k', c') l IH]; intros N I0; [contradiction|]. cbn in *. inversion N; subst. destruct I0 as [E|I0].
  - injection E as -> ->. rewrite String.eqb_refl. reflexivity.
  - destruct (String.eqb_spec k' k) as [->|]; auto. contradiction H1. apply (in_map fst) in I0. exact I0.
Qed.
Lemma p_find_perm k l l' : NoDup (map fst l) -> Permutation l l' -> p_find k l = p_find k l'.
Proof.
  intros N P. assert (N' : NoDup (map fst l')) by (eapply Permutation_NoDup; [apply Permutation_map, P|exact N]).
  destruct (p_find k l) as [c|] eqn:E; symmetry.
  - apply p_find_nodup; auto. apply (Permutation_in _ P). unfold p_find in E. destruct (find _ l) as [(k', c')|] eqn:F; [|discriminate]. apply find_some in F. destruct F as (I0 & F). apply String.eqb_eq in F. cbn in *. congruence.
  - apply p_find_not. intros I0. apply p_find_not in E. apply E. apply (Permutation_in k (Permutation_sym (Permutation_map fst P))), I0.
Qed.

Lemma bc_sections_end ri rds ris t : exists n, n < bc_fuel t /\ bc_section ri rds ris t n = None.
Proof.
  unfold bc_fuel. destruct (get_child t ["bc"]) as [c|] eqn:E.
  - set (N := List.length (p_children c)).
    destruct (in_dec Nat.eq_dec 0 (map (fun i => match p_find ("bc" ++ to_dec i) (p_children c) with Some _ => 1 | None => 0 end) (seq 0 (S N)))) as [I0|I0].
    + apply in_map_iff in I0. destruct I0 as (n & F & I0). apply in_seq in I0. exists n. split; [lia|]. unfold bc_section, get_str. cbn [get_child] in E |- *.
      destruct (p_find "bc" (p_children t)) as [c'|]; [|discriminate]. injection E as ->. destruct (p_find _ (p_children c)); [discriminate|reflexivity].
    + exfalso. assert (L : List.length (map (fun i => "bc" ++ to_dec i) (seq 0 (S N))) <= List.length (map fst (p_children c))).
      { apply NoDup_incl_length.
        - apply FinFun.Injective_map_NoDup; [|apply seq_NoDup]. intros x y H. apply to_dec_inj. cbn [append] in H. injection H as H. exact H.
        - intros k Hk. apply in_map_iff in Hk. destruct Hk as (i & <- & Hi). destruct (p_find ("bc" ++ to_dec i) (p_children c)) as [d|] eqn:F; [eapply p_find_in; eauto|].
          exfalso. apply I0. apply in_map_iff. exists i. rewrite F. auto. }
      rewrite !map_length, seq_length in L. fold N in L. lia.
  - exists 0. split; [lia|]. unfold bc_section, get_str. cbn [get_child] in E |- *. destruct (p_find "bc" (p_children t)); [discriminate|reflexivity].
Qed.
Lemma bc_loop_fuel ri rds ris t n : bc_section ri rds ris t n = None -> forall f1 f2 i, i <= n -> n < f1 + i -> n < f2 + i -> bc_loop ri rds ris f1 t i = bc_loop ri rds ris f2 t i.
Proof.
  intros N. induction f1 as [|f1 IH]; intros f2 i Hi H1 H2; [lia|]. destruct f2 as [|f2]; [lia|]. cbn [bc_loop]. destruct (bc_section ri rds ris t i) as [s|] eqn:E; auto.
  destruct (Nat.eq_dec i n) as [->|]; [congruence|]. destruct (need (parse_sec s)); cbn [cbind]; auto. rewrite (IH f2 (S i)) by lia. reflexivity.
Qed.
Lemma bc_loop_ext ri rds ris t t' f : (forall i, bc_section ri rds ris t i = bc_section ri rds ris t' i) -> forall i, bc_loop ri rds ris f t i = bc_loop ri rds ris f t' i.
Proof. intros H. induction f as [|f IH]; intros i; cbn [bc_loop]; auto. rewrite H. destruct (bc_section _ _ _ t' i); auto. rewrite IH. reflexivity. Qed.
Lemma parse_bcs_ext ri rds ris t t' : (forall i, bc_section ri rds ris t i = bc_section ri rds ris t' i) -> parse_bcs ri rds ris t = parse_bcs ri rds ris t'.
Proof.
  intros H. unfold parse_bcs. rewrite (bc_loop_ext ri rds ris t t' _ H). destruct (bc_sections_end ri rds ris t) as (n & L & N). destruct (bc_sections_end ri rds ris t') as (n' & L' & N').
  destruct (Nat.le_gt_cases n n').
  - apply (bc_loop_fuel ri rds ris t' n); try lia. rewrite <- H. exact N.
  - apply (bc_loop_fuel ri rds ris t' n'); try lia. exact N'.
Qed.

Section P.
Context (rd : string -> option R) (ri : string -> option Z) (rb : string -> option bool) (rds : string -> list R) (ris : string -> list Z).
Notation parse := (parse_flow_controlfile rd ri rb rds ris).

Definition readable (t : ptree) (e : entry) : Prop :=
  exists s, get_str t (fst e) = Some s /\ match snd e with KText | KName => True | KReal => rd s <> None | KInt => ri s <> None | KBool => rb s <> None end.
(** the numbered sections for boundary conditions, up to the first missing number, can be read *)
Definition bcs_readable (t : ptree) : Prop := exists l, parse_bcs ri rds ris t = COut l.
Definition outputs (t : ptree) (p : string) : list Z := match get_str t ["bc"; p] with Some s => ris s | None => [] end.

(** *** When a file is accepted *)
Definition accepted (t : ptree) : Prop :=
  Forall (readable t) always /\
  (named t ["flow_conditions"; "flow_type"] "NAVIERSTOKES" -> Forall (readable t) viscous_e) /\
  ~ named t ["flow_conditions"; "flow_type"] "RANS" /\
  bcs_readable t /\
  (outputs t "listof_output_wall_boundaries" <> [] \/ outputs t "listof_output_other_boundaries" <> [] -> present t ["bc"; "surface_output_file_prefix"]) /\
  (named t ["time"; "simulation_type"] "UNSTEADY" -> Forall (readable t) unsteady_e /\
     (named t ["time"; "time_integrator"] "TVDRK" -> readable t (["time"; "physical_cfl"], KReal)) /\
     (~ named t ["time"; "time_integrator"] "TVDRK" -> readable t (["time"; "physical_time_step"], KReal))) /\
  (present t ["pseudotime"; "initialization"] -> Forall (readable t) starter_e) /\
  (named t ["pseudotime"; "pseudotime_stepping_type"] "IMPLICIT" -> Forall (readable t) implicit_e).

Lemma need_out A (x : option A) B (k : A -> cout B) b : cbind (need x) k = COut b -> exists a, x = Some a /\ k a = COut b.
Proof. destruct x as [a|]; cbn; [eauto|discriminate]. Qed.
Lemma get_as_real t p a : get_as rd t p = Some a -> readable t (p, KReal).
Proof. unfold get_as, readable. cbn. destruct (get_str t p); [|discriminate]. intros E. eexists. split; eauto. congruence. Qed.
Lemma get_as_int t p a : get_as ri t p = Some a -> readable t (p, KInt).
Proof. unfold get_as, readable. cbn. destruct (get_str t p); [|discriminate]. intros E. eexists. split; eauto. congruence. Qed.
Lemma get_as_bool t p a : get_as rb t p = Some a -> readable t (p, KBool).
Proof. unfold get_as, readable. cbn. destruct (get_str t p); [|discriminate]. intros E. eexists. split; eauto. congruence. Qed.
Lemma get_upper_name t p a : get_upper t p = Some a -> readable t (p, KName) /\ named t p a.
Proof. unfold get_upper, readable, named. cbn. destruct (get_str t p); [|discriminate]. intros E. injection E as <-. split; eauto. Qed.
Lemma get_str_text t p a : get_str t p = Some a -> readable t (p, KText).
Proof. unfold readable. cbn. eauto. Qed.
Lemma real_get t p : readable t (p, KReal) -> exists a, get_as rd t p = Some a.
Proof. intros (s & E & N). cbn in *. unfold get_as. rewrite E. destruct (rd s); [eauto|congruence]. Qed.
Lemma int_get t p : readable t (p, KInt) -> exists a, get_as ri t p = Some a.
Proof. intros (s & E & N). cbn in *. unfold get_as. rewrite E. destruct (ri s); [eauto|congruence]. Qed.
Lemma bool_get t p : readable t (p, KBool) -> exists a, get_as rb t p = Some a.
Proof. intros (s & E & N). cbn in *. unfold get_as. rewrite E. destruct (rb s); [eauto|congruence]. Qed.
Lemma name_get t p : readable t (p, KName) -> exists a, get_upper t p = Some a.
Proof. intros (s & E & N). cbn in *. unfold get_upper. rewrite E. eauto. Qed.
Lemma text_get t p : readable t (p, KText) -> exists a, get_str t p = Some a.
Proof. intros (s & E & N). cbn in *. eauto. Qed.
Lemma upper_named t p a n : get_upper t p = Some a -> (named t p n <-> a = n).
Proof. unfold get_upper, named. destruct (get_str t p); [|discriminate]. intros E. injection E as <-. split; [intros (s' & E & <-); congruence|eauto]. Qed.


Lemma cbind_out A B (x : cout A) (k : A -> cout B) b : cbind x k = COut b -> exists a, x = COut a /\ k a = COut b.
Proof. destruct x; cbn; try discriminate. eauto. Qed.
Tactic Notation "nd" hyp(H) ident(a) ident(E) := apply need_out in H; destruct H as (a & E & H).
Tactic Notation "bd" hyp(H) simple_intropattern(a) ident(E) := apply cbind_out in H; destruct H as (a & E & H).
Ltac gets t := repeat match goal with H : readable t (_, KReal) |- _ => apply real_get in H; destruct H as (? & H) | H : readable t (_, KInt) |- _ => apply int_get in H; destruct H as (? & H)
  | H : readable t (_, KBool) |- _ => apply bool_get in H; destruct H as (? & H) | H : readable t (_, KName) |- _ => apply name_get in H; destruct H as (? & H)
  | H : readable t (_, KText) |- _ => apply text_get in H; destruct H as (? & H) end.
Ltac puts t := repeat match goal with H : get_str t ?p = Some _ |- context [need (get_str t ?p)] => rewrite H; cbn [need cbind] | H : get_as ?f t ?p = Some _ |- context [need (get_as ?f t ?p)] => rewrite H; cbn [need cbind]
  | H : get_upper t ?p = Some _ |- context [need (get_upper t ?p)] => rewrite H; cbn [need cbind] end.
Theorem C95_accepted : forall argc j t cmd, 2 <= argc -> ((exists o, parse argc j t cmd = COut o) <-> accepted t).
Proof.
  intros argc j t cmd Ha. unfold parse_flow_controlfile. destruct (Nat.ltb_spec argc 2) as [Hc|Hc]; [lia|]. clear Hc. split.
  - intros (o & H). nd H mesh E1. nd H vtu E2. nd H log E3. nd H lognres E4. nd H flowtype E5. nd H gamma E6. nd H aoa E7. nd H minf E8.
    bd H ((((visc & Tinf) & Re) & Pr) & cv) Ep. bd H bcs Eb. fold (outputs t "listof_output_wall_boundaries") in H. fold (outputs t "listof_output_other_boundaries") in H.
    bd H surf Es. destruct (match get_str t ["bc"; "volume_output_file_prefix"] with Some s => _ | None => _ end) as (vol & volreq) in H.
    nd H sim E9. bd H ((((ft & ti) & tor) & pc) & dt) Et. nd H invflux E10. nd H gm E11. nd H lim E12. nd H ptype E13. nd H cfl0 E14. nd H cfl1 E15. nd H tol E16. nd H maxit E17.
    bd H ((((us & f0) & f1) & ftol) & fmax) Est. bd H ((fj & nu) & mn) Ei. clear H.
    unfold accepted. split; [|split; [|split; [|split; [|split; [|split; [|split]]]]]].
    + repeat constructor; eauto using get_str_text, get_as_bool, get_as_real, get_as_int; match goal with |- readable _ (?p, KName) => match goal with H : get_upper t p = _ |- _ => apply (get_upper_name _ _ _ H) end end.
    + intros N. apply (upper_named _ _ _ _ E5) in N. subst flowtype. unfold parse_phys in Ep. cbn [String.eqb Ascii.eqb Bool.eqb orb] in Ep. nd Ep q1 Q1. nd Ep q2 Q2. nd Ep q3 Q3. repeat constructor; eauto using get_as_real.
    + intros N. apply (upper_named _ _ _ _ E5) in N. subst flowtype. unfold parse_phys in Ep. cbn [String.eqb Ascii.eqb Bool.eqb orb] in Ep. nd Ep q1 Q1. nd Ep q2 Q2. nd Ep q3 Q3. discriminate.
    + exists bcs. exact Eb.
    + intros N. destruct ((0 <? List.length (outputs t "listof_output_other_boundaries"))%nat || (0 <? List.length (outputs t "listof_output_wall_boundaries"))%nat) eqn:O.
      * unfold need in Es. destruct (get_str t ["bc"; "surface_output_file_prefix"]) eqn:G; [|discriminate]. eexists; eauto.
      * apply orb_false_iff in O. destruct O as (O1 & O2). apply Nat.ltb_ge in O1, O2. destruct (outputs t "listof_output_wall_boundaries"), (outputs t "listof_output_other_boundaries"); cbn in *; try lia. intuition congruence.
    + intros N. apply (upper_named _ _ _ _ E9) in N. subst sim. unfold parse_time in Et. cbn [String.eqb Ascii.eqb Bool.eqb] in Et. nd Et q1 Q1. nd Et q2 Q2. nd Et q3 Q3.
      split; [|split].
      * repeat constructor; eauto using get_as_real, get_as_int. apply (get_upper_name _ _ _ Q2).
      * intros N. apply (upper_named _ _ _ _ Q2) in N. subst. cbn [String.eqb Ascii.eqb Bool.eqb] in Et. nd Et q4 Q4. eauto using get_as_real.
      * intros N. rewrite (upper_named _ _ _ _ Q2) in N. apply String.eqb_neq in N. rewrite N in Et. nd Et q4 Q4. eauto using get_as_real.
    + intros (s & N). unfold parse_starter in Est. destruct (get_child t ["pseudotime"; "initialization"]) eqn:G; [|unfold get_str in N; rewrite G in N; discriminate].
      nd Est q1 Q1. nd Est q2 Q2. nd Est q3 Q3. nd Est q4 Q4. repeat constructor; eauto using get_as_real, get_as_int.
    + intros N. apply (upper_named _ _ _ _ E13) in N. subst. unfold parse_impl in Ei. cbn [String.eqb Ascii.eqb Bool.eqb] in Ei. nd Ei q1 Q1. nd Ei q2 Q2. repeat constructor.
      * apply (get_upper_name _ _ _ Q1).
      * apply (get_upper_name _ _ _ Q2).
  - intros (A & B & C & (bcs & D) & F & G & Hs & Hi). unfold always in A. repeat match goal with H : Forall _ (_ :: _) |- _ => inversion H; clear H; subst end.
    gets t. puts t.
    assert (P1 : exists r, parse_phys rd rb t x12 = COut r).
    { unfold parse_phys. destruct (String.eqb_spec x12 "NAVIERSTOKES") as [->|N1]; cbn [orb].
      - specialize (B (proj2 (upper_named _ _ _ _ H5) eq_refl)). unfold viscous_e in B. repeat match goal with H : Forall _ (_ :: _) |- _ => inversion H; clear H; subst end. gets t. puts t.
        cbn [String.eqb Ascii.eqb Bool.eqb]. eauto.
      - destruct (String.eqb_spec x12 "RANS") as [->|N2]; [contradiction C; apply (upper_named _ _ _ _ H5); auto|]. eauto. }
    destruct P1 as (((((visc & Tinf) & Re) & Pr) & cv) & ->). cbn [cbind]. rewrite D. cbn [cbind].
    fold (outputs t "listof_output_wall_boundaries"). fold (outputs t "listof_output_other_boundaries").
    match goal with |- exists o, cbind ?e _ = _ => assert (P2 : exists r, e = COut r) end.
    { destruct (_ || _) eqn:O; [|eauto]. destruct F as (s & ->); [|cbn; eauto]. apply orb_true_iff in O. destruct O as [O|O]; apply Nat.ltb_lt in O; [right|left]; intros Z; rewrite Z in O; cbn in O; lia. }
    destruct P2 as (surf & ->). cbn [cbind]. destruct (match get_str t ["bc"; "volume_output_file_prefix"] with Some s => _ | None => _ end) as (vol & volreq).
    puts t. match goal with Hx : get_upper t ["time"; "simulation_type"] = Some ?x |- _ => assert (P3 : exists r, parse_time rd ri t j x = COut r) end.
    { unfold parse_time. match goal with |- context [String.eqb ?x "UNSTEADY"] => destruct (String.eqb_spec x "UNSTEADY") as [N1|N1] end; [|eauto]. subst.
      match goal with Hx : get_upper t ["time"; "simulation_type"] = Some _ |- _ => destruct (G (proj2 (upper_named _ _ _ _ Hx) eq_refl)) as (G1 & G2 & G3) end.
      unfold unsteady_e in G1. repeat match goal with H : Forall _ (_ :: _) |- _ => inversion H; clear H; subst end. gets t. puts t.
      match goal with Hx : get_upper t ["time"; "time_integrator"] = Some ?x |- _ => rewrite (upper_named _ _ _ _ Hx) in G2, G3; destruct (String.eqb_spec x "TVDRK") as [N2|N2] end.
      - destruct (real_get _ _ (G2 N2)) as (? & ->). cbn. eauto.
      - destruct (real_get _ _ (G3 N2)) as (? & ->). cbn. eauto. }
    destruct P3 as (((((ft & ti) & tor) & pc) & dt) & ->). cbn [cbind]. puts t.
    assert (P4 : exists r, parse_starter rd ri t j = COut r).
    { unfold parse_starter. destruct (get_child t ["pseudotime"; "initialization"]) as [c|] eqn:Q; [|eauto].
      assert (S1 : present t ["pseudotime"; "initialization"]) by (exists (p_data c); unfold get_str; rewrite Q; auto). apply Hs in S1. unfold starter_e in S1.
      repeat match goal with H : Forall _ (_ :: _) |- _ => inversion H; clear H; subst end. gets t. puts t. eauto. }
    destruct P4 as (((((us & f0) & f1) & ftol) & fmax) & ->). cbn [cbind].
    match goal with |- exists o, cbind (parse_impl rd t j ?x ?y) _ = _ => assert (P5 : exists r, parse_impl rd t j x y = COut r) end.
    { unfold parse_impl. match goal with |- context [String.eqb ?x "IMPLICIT"] => destruct (String.eqb_spec x "IMPLICIT") as [N1|N1] end; [|eauto]. subst.
      match goal with Hx : get_upper t ["pseudotime"; "pseudotime_stepping_type"] = Some _ |- _ => pose proof (Hi (proj2 (upper_named _ _ _ _ Hx) eq_refl)) as S2 end. unfold implicit_e in S2.
      repeat match goal with H : Forall _ (_ :: _) |- _ => inversion H; clear H; subst end. gets t. puts t. eauto. }
    destruct P5 as (((fj & nu) & mn) & ->). cbn [cbind]. eauto.
Qed.

(** *** What the options hold *)
Theorem C95_values : forall argc j t cmd o, parse argc j t cmd = COut o ->
  (* texts *)
  Some (o_meshfile o) = match c_mesh cmd with Some s => Some s | None => get_str t ["io"; "mesh_file"] end /\
  Some (o_log o) = match c_log cmd with Some s => Some s | None => get_str t ["io"; "log_file_prefix"] end /\
  o_wlin o = match c_wlin cmd with Some b => b | None => false end /\
  Some (o_vtu o) = get_str t ["io"; "solution_output_file"] /\ Some (o_lognres o) = get_as rb t ["io"; "convergence_history_required"] /\
  (* flow *)
  Some (o_gam o) = get_as rd t ["flow_conditions"; "adiabatic_index"] /\ Some (o_Minf o) = get_as rd t ["flow_conditions"; "freestream_Mach_number"] /\
  (exists deg, get_as rd t ["flow_conditions"; "angle_of_attack"] = Some deg /\ (o_alpha o * 180 = deg * PI)%R) /\
  (o_visc o = true <-> named t ["flow_conditions"; "flow_type"] "NAVIERSTOKES") /\
  (o_visc o = true -> exists r p, get_as rd t ["flow_conditions"; "freestream_Reynolds_number"] = Some r /\ o_Re o = XR r /\ get_as rd t ["flow_conditions"; "Prandtl_number"] = Some p /\ o_Pr o = XR p /\
     get_as rd t ["flow_conditions"; "freestream_temperature"] = Some (o_Tinf o) /\ (o_cvisc o = true <-> get_as rb t ["flow_conditions"; "use_constant_viscosity"] = Some true)) /\
  (o_visc o = false -> o_Re o = XInf /\ o_Pr o = XNaN /\ o_Tinf o = 298%R /\ o_cvisc o = false) /\
  (* output *)
  o_lwalls o = outputs t "listof_output_wall_boundaries" /\ o_lothers o = outputs t "listof_output_other_boundaries" /\
  (o_volreq o = "YES" <-> present t ["bc"; "volume_output_file_prefix"]) /\
  (* schemes *)
  named t ["spatial_discretization"; "inviscid_flux"] (o_invflux o) /\ named t ["spatial_discretization"; "gradient_method"] (o_grad o) /\ named t ["spatial_discretization"; "limiter"] (o_lim o) /\
  (o_order2 o = false <-> named t ["spatial_discretization"; "gradient_method"] "NONE") /\
  named t ["pseudotime"; "pseudotime_stepping_type"] (o_ptype o) /\
  (o_ptype o = "IMPLICIT" -> named t ["pseudotime"; "nonlinear_update_scheme"] (o_nlu o) /\
     (named t ["Jacobian_inviscid_flux"] "CONSISTENT" -> o_invfluxjac o = o_invflux o) /\
     (~ named t ["Jacobian_inviscid_flux"] "CONSISTENT" -> named t ["Jacobian_inviscid_flux"] (o_invfluxjac o))) /\
  (o_ptype o <> "IMPLICIT" -> o_invfluxjac o = "" /\ o_nlu o = "") /\
  (* steps *)
  Some (o_cfl0 o) = get_as rd t ["pseudotime"; "main"; "cfl_min"] /\ Some (o_cfl1 o) = get_as rd t ["pseudotime"; "main"; "cfl_max"] /\
  Some (o_tol o) = get_as rd t ["pseudotime"; "main"; "tolerance"] /\ Some (o_maxit o) = get_as ri t ["pseudotime"; "main"; "max_timesteps"] /\
  (present t ["pseudotime"; "initialization"] -> o_starter o = 1%Z /\
     Some (o_fcfl0 o) = get_as rd t ["pseudotime"; "initialization"; "cfl_min"] /\ Some (o_fcfl1 o) = get_as rd t ["pseudotime"; "initialization"; "cfl_max"] /\
     Some (o_ftol o) = get_as rd t ["pseudotime"; "initialization"; "tolerance"] /\ Some (o_fmaxit o) = get_as ri t ["pseudotime"; "initialization"; "max_timesteps"]).
Proof.
  intros argc j t cmd o H. unfold parse_flow_controlfile in H. destruct (Nat.ltb_spec argc 2) as [Hc|Hc]; [discriminate|]. clear Hc.
  nd H mesh E1. nd H vtu E2. nd H log E3. nd H lognres E4. nd H flowtype E5. nd H gamma E6. nd H aoa E7. nd H minf E8.
  bd H ((((visc & Tinf) & Re) & Pr) & cv) Ep. bd H bcs Eb. fold (outputs t "listof_output_wall_boundaries") in H. fold (outputs t "listof_output_other_boundaries") in H.
  bd H surf Es. destruct (match get_str t ["bc"; "volume_output_file_prefix"] with Some s => _ | None => _ end) as (vol & volreq) eqn:Ev in H.
  nd H sim E9. bd H ((((ft & ti) & tor) & pc) & dt) Et. nd H invflux E10. nd H gm E11. nd H lim E12. nd H ptype E13. nd H cfl0 E14. nd H cfl1 E15. nd H tol E16. nd H maxit E17.
  bd H ((((us & f0) & f1) & ftol) & fmax) Est. bd H ((fj & nu) & mn) Ei. injection H as <-. cbn [o_meshfile o_log o_wlin o_vtu o_lognres o_gam o_Minf o_alpha o_visc o_Re o_Pr o_Tinf o_cvisc o_lwalls o_lothers o_volreq o_invflux o_grad o_lim o_order2 o_ptype o_nlu o_invfluxjac o_cfl0 o_cfl1 o_tol o_maxit o_starter o_fcfl0 o_fcfl1 o_ftol o_fmaxit].
  assert (PH : (visc = true <-> flowtype = "NAVIERSTOKES") /\ (visc = true -> exists r p, get_as rd t ["flow_conditions"; "freestream_Reynolds_number"] = Some r /\ Re = XR r /\ get_as rd t ["flow_conditions"; "Prandtl_number"] = Some p /\ Pr = XR p /\
     get_as rd t ["flow_conditions"; "freestream_temperature"] = Some Tinf /\ (cv = true <-> get_as rb t ["flow_conditions"; "use_constant_viscosity"] = Some true)) /\
     (visc = false -> Re = XInf /\ Pr = XNaN /\ Tinf = 298%R /\ cv = false)).
  { unfold parse_phys in Ep. destruct (String.eqb_spec flowtype "NAVIERSTOKES") as [->|N1]; cbn [orb] in Ep.
    - nd Ep q1 Q1. nd Ep q2 Q2. nd Ep q3 Q3. cbn [String.eqb Ascii.eqb Bool.eqb] in Ep. injection Ep as <- <- <- <- <-. split; [tauto|]. split; [|discriminate]. intros _. exists q2, q3. do 5 (split; auto).
      unfold get_def. destruct (get_as rb t ["flow_conditions"; "use_constant_viscosity"]) as [[|]|]; split; congruence.
    - destruct (String.eqb_spec flowtype "RANS") as [->|N2]; cbn [orb] in Ep.
      + nd Ep q1 Q1. nd Ep q2 Q2. nd Ep q3 Q3. discriminate.
      + injection Ep as <- <- <- <- <-. split; [split; congruence|]. split; [discriminate|auto]. }
  destruct PH as (PH1 & PH2 & PH3).
  assert (PI1 : (ptype = "IMPLICIT" -> named t ["pseudotime"; "nonlinear_update_scheme"] nu /\ (named t ["Jacobian_inviscid_flux"] "CONSISTENT" -> fj = invflux) /\
      (~ named t ["Jacobian_inviscid_flux"] "CONSISTENT" -> named t ["Jacobian_inviscid_flux"] fj)) /\ (ptype <> "IMPLICIT" -> fj = "" /\ nu = "")).
  { unfold parse_impl in Ei. destruct (String.eqb_spec ptype "IMPLICIT") as [->|N1].
    - nd Ei q1 Q1. nd Ei q2 Q2. injection Ei as <- <- <-. split; [intros _|congruence]. split; [apply (get_upper_name _ _ _ Q2)|]. rewrite (upper_named _ _ _ _ Q1). destruct (String.eqb_spec q1 "CONSISTENT") as [->|N2]; split; auto; try congruence.
      intros _. apply (get_upper_name _ _ _ Q1).
    - injection Ei as <- <- <-. split; [congruence|auto]. }
  repeat match goal with |- _ /\ _ => split end; auto; try (symmetry; assumption); try (apply PI1); try (rewrite (upper_named _ _ _ _ E5); assumption);
    try match goal with |- named t ?p _ => match goal with Hx : get_upper t p = _ |- _ => apply (get_upper_name _ _ _ Hx) end end.
  - destruct (c_mesh cmd); auto.
  - destruct (c_log cmd); auto.
  - exists aoa. split; auto. field.
  - unfold present. destruct (get_str t ["bc"; "volume_output_file_prefix"]); injection Ev as <- <-; split; eauto; try discriminate. intros (s & Z). discriminate.
  - rewrite (upper_named _ _ _ _ E11). destruct (String.eqb_spec gm "NONE"); split; congruence.
  - intros (s & N). unfold parse_starter in Est. destruct (get_child t ["pseudotime"; "initialization"]) eqn:G; [|unfold get_str in N; rewrite G in N; discriminate].
    nd Est q1 Q1. nd Est q2 Q2. nd Est q3 Q3. nd Est q4 Q4. injection Est as <- <- <- <- <-. auto.
Qed.

(** *** The remaining entries *)
Theorem C95_more_values : forall argc j t cmd o, parse argc j t cmd = COut o ->
  (outputs t "listof_output_wall_boundaries" <> [] \/ outputs t "listof_output_other_boundaries" <> [] -> get_str t ["bc"; "surface_output_file_prefix"] = Some (o_surf o)) /\
  (present t ["bc"; "volume_output_file_prefix"] -> get_str t ["bc"; "volume_output_file_prefix"] = Some (o_vol o)) /\
  named t ["flow_conditions"; "flow_type"] (o_flowtype o) /\ named t ["time"; "simulation_type"] (o_sim o) /\
  (o_sim o = "UNSTEADY" -> get_as rd t ["time"; "final_time"] = Some (o_ftime o) /\ named t ["time"; "time_integrator"] (o_tint o) /\ get_as ri t ["time"; "temporal_order"] = Some (o_torder o) /\
    (o_tint o = "TVDRK" -> get_as rd t ["time"; "physical_cfl"] = Some (o_pcfl o)) /\ (o_tint o <> "TVDRK" -> get_as rd t ["time"; "physical_time_step"] = Some (o_dt o))) /\
  (o_sim o <> "UNSTEADY" -> o_tint o = "NONE") /\
  (o_ptype o = "IMPLICIT" -> match get_as rd t ["pseudotime"; "min_nonlinear_relaxation_factor"] with Some x => o_minnl o = x | None => (5 * o_minnl o = 1)%R end).
Proof.
  intros argc j t cmd o H. unfold parse_flow_controlfile in H. destruct (Nat.ltb_spec argc 2) as [Hc|Hc]; [discriminate|]. clear Hc.
  nd H mesh E1. nd H vtu E2. nd H log E3. nd H lognres E4. nd H flowtype E5. nd H gamma E6. nd H aoa E7. nd H minf E8.
  bd H ((((visc & Tinf) & Re) & Pr) & cv) Ep. bd H bcs Eb. fold (outputs t "listof_output_wall_boundaries") in H. fold (outputs t "listof_output_other_boundaries") in H.
  bd H surf Es. destruct (match get_str t ["bc"; "volume_output_file_prefix"] with Some s => _ | None => _ end) as (vol & volreq) eqn:Ev in H.
  nd H sim E9. bd H ((((ft & ti) & tor) & pc) & dt) Et. nd H invflux E10. nd H gm E11. nd H lim E12. nd H ptype E13. nd H cfl0 E14. nd H cfl1 E15. nd H tol E16. nd H maxit E17.
  bd H ((((us & f0) & f1) & ftol) & fmax) Est. bd H ((fj & nu) & mn) Ei. injection H as <-. cbn [o_surf o_vol o_flowtype o_sim o_ftime o_tint o_torder o_pcfl o_dt o_ptype o_minnl].
  fold (outputs t "listof_output_wall_boundaries") in Es. fold (outputs t "listof_output_other_boundaries") in Es.
  split; [|split; [|split; [exact (proj2 (get_upper_name _ _ _ E5))|split; [exact (proj2 (get_upper_name _ _ _ E9))|split; [|split]]]]].
  - intros Q. assert (B : ((0 <? List.length (outputs t "listof_output_other_boundaries"))%nat || (0 <? List.length (outputs t "listof_output_wall_boundaries"))%nat)%bool = true).
    { destruct (outputs t "listof_output_other_boundaries"), (outputs t "listof_output_wall_boundaries"); try reflexivity. destruct Q as [Q|Q]; contradiction. }
    rewrite B in Es. destruct (get_str t ["bc"; "surface_output_file_prefix"]) as [x|]; [|discriminate]. cbn [need] in Es. injection Es as <-. reflexivity.
  - intros (x & Q). rewrite Q in Ev. injection Ev as <- <-. exact Q.
  - intros ->. unfold parse_time in Et. cbn [String.eqb Ascii.eqb Bool.eqb] in Et. nd Et q1 Q1. nd Et q2 Q2. nd Et q3 Q3. destruct (String.eqb_spec q2 "TVDRK") as [T|T].
    + nd Et q4 Q4. injection Et as <- <- <- <- <-. split; auto. split; [exact (proj2 (get_upper_name _ _ _ Q2))|]. split; auto. split; [auto|congruence].
    + nd Et q4 Q4. injection Et as <- <- <- <- <-. split; auto. split; [exact (proj2 (get_upper_name _ _ _ Q2))|]. split; auto. split; [congruence|auto].
  - intros N. unfold parse_time in Et. destruct (String.eqb_spec sim "UNSTEADY") as [Q|_]; [contradiction|]. injection Et as <- <- <- <- <-. reflexivity.
  - intros ->. unfold parse_impl in Ei. cbn [String.eqb Ascii.eqb Bool.eqb] in Ei. nd Ei q1 Q1. nd Ei q2 Q2. injection Ei as <- <- <-. unfold get_def. destruct (get_as rd t ["pseudotime"; "min_nonlinear_relaxation_factor"]); [reflexivity|field].
Qed.
(** *** What the spatial discretization gets of the physics: the entries of the file *)
Theorem C95_physics : forall argc j t cmd o, parse argc j t cmd = COut o -> let p := extract_spatial_physics_config o in
  get_as rd t ["flow_conditions"; "adiabatic_index"] = Some (pc_gam p) /\ get_as rd t ["flow_conditions"; "freestream_Mach_number"] = Some (pc_Minf p) /\
  (exists deg, get_as rd t ["flow_conditions"; "angle_of_attack"] = Some deg /\ (pc_aoa p * 180 = deg * PI)%R) /\
  (pc_visc p = true <-> named t ["flow_conditions"; "flow_type"] "NAVIERSTOKES") /\
  (pc_visc p = true -> (exists r, get_as rd t ["flow_conditions"; "freestream_Reynolds_number"] = Some r /\ pc_Re p = XR r) /\ (exists r, get_as rd t ["flow_conditions"; "Prandtl_number"] = Some r /\ pc_Pr p = XR r) /\
     get_as rd t ["flow_conditions"; "freestream_temperature"] = Some (pc_Tinf p) /\ (pc_cvisc p = true <-> get_as rb t ["flow_conditions"; "use_constant_viscosity"] = Some true)) /\
  (pc_visc p = false -> pc_Re p = XInf /\ pc_Pr p = XNaN /\ pc_Tinf p = 298%R /\ pc_cvisc p = false) /\ pc_bc p = o_bc o.
Proof.
  intros argc j t cmd o E. cbv zeta. destruct (C95_values _ _ _ _ _ E) as (_ & _ & _ & _ & _ & V1 & V2 & V3 & V4 & V5 & V6 & _).
  unfold extract_spatial_physics_config. cbn [pc_gam pc_Minf pc_Tinf pc_Re pc_Pr pc_aoa pc_visc pc_cvisc pc_bc].
  split; [symmetry; exact V1|]. split; [symmetry; exact V2|]. split; [exact V3|]. split; [exact V4|]. split; [|split; [exact V6|reflexivity]].
  intros Q. destruct (V5 Q) as (r & p & Q1 & Q2 & Q3 & Q4 & Q5 & Q6). split; [exists r; split; [exact Q1|exact Q2]|]. split; [exists p; split; [exact Q3|exact Q4]|]. split; [exact Q5|exact Q6].
Qed.

(** *** The boundary conditions: the numbered sections in order, up to the first missing number *)
Theorem C95_boundaries : forall argc j t cmd o, parse argc j t cmd = COut o ->
  get_str t ["bc"; "bc" ++ to_dec (List.length (o_bc o))] = None /\
  (forall i c, nth_error (o_bc o) i = Some c ->
    get_as ri t ["bc"; "bc" ++ to_dec i; "marker"] = Some (fb_tag c) /\
    (exists ty, get_str t ["bc"; "bc" ++ to_dec i; "type"] = Some ty /\ right_at bcTypeMap (to_lower ty) = Some (fb_type c)) /\
    (In (fb_type c) [ADIABATIC_WALL_BC; ISOTHERMAL_WALL_BC; SUBSONIC_INFLOW_BC] -> exists v, get_str t ["bc"; "bc" ++ to_dec i; "boundary_values"] = Some v /\ fb_vals c = rds v) /\
    (fb_type c = PERIODIC_BC -> exists v, get_str t ["bc"; "bc" ++ to_dec i; "options"] = Some v /\ fb_opts c = ris v)).
Proof.
  intros argc j t cmd o H. assert (Eb : parse_bcs ri rds ris t = COut (o_bc o)).
  { unfold parse_flow_controlfile in H. destruct (Nat.ltb_spec argc 2) as [Hc|Hc]; [discriminate|]. clear Hc.
    nd H mesh E1. nd H vtu E2. nd H log E3. nd H lognres E4. nd H flowtype E5. nd H gamma E6. nd H aoa E7. nd H minf E8.
    bd H ((((visc & Tinf) & Re) & Pr) & cv) Ep. bd H bcs Eb.
    bd H surf Es. destruct (match get_str t ["bc"; "volume_output_file_prefix"] with Some s => _ | None => _ end) as (vol & volreq) eqn:Ev in H.
    nd H sim E9. bd H ((((ft & ti) & tor) & pc) & dt) Et. nd H invflux E10. nd H gm E11. nd H lim E12. nd H ptype E13. nd H cfl0 E14. nd H cfl1 E15. nd H tol E16. nd H maxit E17.
    bd H ((((us & f0) & f1) & ftol) & fmax) Est. bd H ((fj & nu) & mn) Ei. injection H as <-. exact Eb. }
  clear H. unfold parse_bcs in Eb. revert Eb. generalize (o_bc o) as l. clear o.
  assert (G : forall f k l, bc_loop ri rds ris f t k = COut l -> bc_section ri rds ris t (k + List.length l) = None /\
    forall i c, nth_error l i = Some c -> exists s, bc_section ri rds ris t (k + i) = Some s /\ parse_sec s = Some c).
  { induction f as [|f IH]; intros k l; [discriminate|]. cbn [bc_loop]. destruct (bc_section ri rds ris t k) as [s|] eqn:S1.
    - intros H. nd H c Q1. bd H l' Q2. injection H as <-. destruct (IH _ _ Q2) as (A & B). cbn [List.length]. rewrite <- plus_n_Sm. split; [exact A|]. intros [|i] c' E; cbn in E.
      + injection E as <-. exists s. rewrite Nat.add_0_r. auto.
      + rewrite <- plus_n_Sm. apply (B i c' E).
    - intros H. injection H as <-. cbn. rewrite Nat.add_0_r. split; auto. intros [|i] c E; discriminate. }
  intros l Eb. destruct (G _ _ _ Eb) as (A & B). cbn [Nat.add] in A, B. split.
  - unfold bc_section in A. destruct (get_str t _); [discriminate|reflexivity].
  - intros i c E. destruct (B i c E) as (s & S1 & S2). unfold bc_section in S1. revert S1. generalize ("bc" ++ to_dec i) as sec. intros sec S1. cbv zeta in S1. destruct (get_str t ["bc"; sec]); [|discriminate]. injection S1 as <-. cbn [app] in S2.
    unfold parse_sec in S2. cbn [f_type f_marker f_values f_options] in S2. destruct (get_str t ["bc"; sec; "type"]) as [ty|]; [|discriminate].
    destruct (right_at bcTypeMap (to_lower ty)) as [b|] eqn:Rb; [|discriminate]. destruct (get_as ri t ["bc"; sec; "marker"]) as [tag|]; [|discriminate].
    destruct (get_str t ["bc"; sec; "boundary_values"]) as [v|], (get_str t ["bc"; sec; "options"]) as [w|];
      destruct b; cbn in S2; try discriminate; injection S2 as <-; cbn [fb_tag fb_type fb_vals fb_opts]; (split; [reflexivity|split; [eauto|split]]); cbn; intros Hb; try discriminate; eauto; decompose [or] Hb; try discriminate; try contradiction; eauto.
Qed.

(** *** What the options depend on *)
Lemma parse_ext argc j t t' cmd : (forall p, In p name_paths -> get_upper t p = get_upper t' p) -> (forall p, ~ In p name_paths -> p <> ["io"; "mesh_file"] -> get_str t p = get_str t' p) ->
  match get_str t ["io"; "mesh_file"], get_str t' ["io"; "mesh_file"] with Some a, Some b => c_mesh cmd <> None \/ a = b | None, None => True | _, _ => False end ->
  parse argc j t cmd = parse argc j t' cmd.
Proof.
  intros U Gs M.
  assert (A : forall T (tr : string -> option T) p, ~ In p name_paths -> p <> ["io"; "mesh_file"] -> get_as tr t p = get_as tr t' p) by (intros; unfold get_as; rewrite Gs; auto).
  assert (Dd : forall T (tr : string -> option T) p d, ~ In p name_paths -> p <> ["io"; "mesh_file"] -> get_def tr t p d = get_def tr t' p d) by (intros; unfold get_def; rewrite A; auto).
  assert (Bs : parse_bcs ri rds ris t = parse_bcs ri rds ris t').
  { apply parse_bcs_ext. intros i. unfold bc_section. cbn [app].
    assert (N : forall x y, ~ In ("bc" :: x :: y) name_paths /\ "bc" :: x :: y <> ["io"; "mesh_file"]) by (intros; split; [cbn; intuition discriminate|discriminate]).
    rewrite !Gs, A by apply N. reflexivity. }
  assert (K : forall p, ~ In p name_paths -> p <> ["io"; "mesh_file"] -> get_child t p = None <-> get_child t' p = None) by (intros p N1 N2; rewrite <- !get_str_child, Gs by auto; reflexivity).
  unfold parse_flow_controlfile, parse_phys, parse_time, parse_starter, parse_impl. rewrite Bs. destruct (argc <? 2)%nat; auto.
  repeat match goal with |- context [get_upper t ?p] => rewrite (U p) by (cbn; auto 20)
    | |- context [get_as ?f t ?p] => rewrite (A _ f p) by (cbn; intuition discriminate)
    | |- context [get_def ?f t ?p ?d] => rewrite (Dd _ f p d) by (cbn; intuition discriminate) end.
  rewrite (Gs ["io"; "solution_output_file"]), (Gs ["io"; "log_file_prefix"]), (Gs ["bc"; "listof_output_wall_boundaries"]), (Gs ["bc"; "listof_output_other_boundaries"]),
    (Gs ["bc"; "surface_output_file_prefix"]), (Gs ["bc"; "volume_output_file_prefix"]) by (cbn; intuition discriminate).
  destruct (get_str t ["io"; "mesh_file"]) as [a|], (get_str t' ["io"; "mesh_file"]) as [b|]; cbn [need cbind]; [|destruct M|destruct M|reflexivity].
  assert (Em : match c_mesh cmd with Some s => s | None => a end = match c_mesh cmd with Some s => s | None => b end) by (destruct (c_mesh cmd); auto; destruct M; congruence).
  rewrite Em. pose proof (K ["pseudotime"; "initialization"] ltac:(cbn; intuition discriminate) ltac:(discriminate)) as Kc.
  destruct (get_child t ["pseudotime"; "initialization"]) as [p|], (get_child t' ["pseudotime"; "initialization"]) as [p'|]; [reflexivity|exfalso|exfalso|reflexivity].
  - assert (Some p = None) by (apply Kc; auto). discriminate.
  - assert (Some p' = None) by (apply Kc; auto). discriminate.
Qed.

(** names may be written in any case *)
Theorem C95_case : forall argc j t t' cmd, same_file t t' -> parse argc j t cmd = parse argc j t' cmd.
Proof.
  intros argc j t t' cmd S1. apply parse_ext.
  - intros p Hp. destruct (S1 p) as (E & _). specialize (E Hp). unfold get_upper. destruct (get_str t p), (get_str t' p); cbn in E; congruence.
  - intros p N _. apply S1, N.
  - destruct (S1 ["io"; "mesh_file"]) as (_ & E). rewrite E by (cbn; intuition discriminate). destruct (get_str t' ["io"; "mesh_file"]); auto.
Qed.
(** the order of the entries does not matter *)
Lemma reorder_find k l l' : Forall2 (fun a b => fst a = fst b /\ reorder (snd a) (snd b)) l l' ->
  match p_find k l, p_find k l' with Some c, Some c' => reorder c c' | None, None => True | _, _ => False end.
Proof.
  unfold p_find. induction 1 as [|(k1 & c1) (k2 & c2) l l' (E & R0) F IH]; cbn [find fst snd]; auto. cbn in E. subst k2. destruct (String.eqb k1 k); auto.
Qed.
Lemma reorder_str path : forall t t', reorder t t' -> get_str t path = get_str t' path.
Proof.
  unfold get_str. induction path as [|k r IH]; intros t t' R0; inversion R0 as [d l l' F l'' P N E1 E2]; subst; cbn [get_child p_data p_children]; auto.
  rewrite <- (p_find_perm k l' l'' N P). pose proof (reorder_find k _ _ F) as Q. destruct (p_find k l), (p_find k l'); try contradiction; auto.
Qed.
Theorem C95_order : forall argc j t t' cmd, reorder t t' -> parse argc j t cmd = parse argc j t' cmd.
Proof. intros argc j t t' cmd R0. apply C95_case. intros path. rewrite (reorder_str path t t' R0). auto. Qed.
(** a mesh on the command line has the effect of another name in the file (which must have one) *)
Theorem C95_mesh_override : forall argc j t t' w l m, same_but_mesh t t' -> present t ["io"; "mesh_file"] -> get_str t' ["io"; "mesh_file"] = Some m ->
  parse argc j t (mkcmd (Some m) w l) = parse argc j t' (mkcmd None w l).
Proof.
  intros argc j t t' w l m S1 (s & P0) E. transitivity (parse argc j t' (mkcmd (Some m) w l)).
  - apply parse_ext.
    + intros p Hp. unfold get_upper. rewrite S1; auto. intros ->. cbn in Hp. intuition discriminate.
    + intros p _ N. apply S1, N.
    + rewrite P0, E. left. discriminate.
  - unfold parse_flow_controlfile. rewrite E. destruct (argc <? 2)%nat; [reflexivity|]. cbn [need cbind c_mesh c_wlin c_log]. reflexivity.
Qed.
(** without the entry in the file it is not enough *)
Theorem C95_mesh_needed : forall argc j t cmd, 2 <= argc -> ~ present t ["io"; "mesh_file"] -> parse argc j t cmd = CBad.
Proof.
  intros argc j t cmd Ha N. unfold parse_flow_controlfile. destruct (Nat.ltb_spec argc 2); [lia|]. destruct (get_str t ["io"; "mesh_file"]) eqn:E; cbn [need cbind]; [|reflexivity]. contradiction N. eexists; eauto.
Qed.

(** *** What the file determines *)
Theorem C95_determined : forall argc j j' t cmd o, parse argc j t cmd = COut o -> exists o', parse argc j' t cmd = COut o' /\ same_settings t o o'.
Proof.
  intros argc j j' t cmd o H. unfold parse_flow_controlfile in *. destruct (Nat.ltb_spec argc 2) as [Hc|Hc]; [discriminate|]. clear Hc.
  nd H mesh E1. nd H vtu E2. nd H log E3. nd H lognres E4. nd H flowtype E5. nd H gamma E6. nd H aoa E7. nd H minf E8.
  bd H ((((visc & Tinf) & Re) & Pr) & cv) Ep. bd H bcs Eb.
  bd H surf Es. destruct (match get_str t ["bc"; "volume_output_file_prefix"] with Some s => _ | None => _ end) as (vol & volreq) eqn:Ev in H.
  nd H sim E9. bd H ((((ft & ti) & tor) & pc) & dt) Et. nd H invflux E10. nd H gm E11. nd H lim E12. nd H ptype E13. nd H cfl0 E14. nd H cfl1 E15. nd H tol E16. nd H maxit E17.
  bd H ((((us & f0) & f1) & ftol) & fmax) Est. bd H ((fj & nu) & mn) Ei. injection H as <-.
  rewrite E1. cbn [need cbind]. rewrite E2. cbn [need cbind]. rewrite E3. cbn [need cbind]. rewrite E4. cbn [need cbind]. rewrite E5. cbn [need cbind]. rewrite E6. cbn [need cbind]. rewrite E7. cbn [need cbind].
  rewrite E8. cbn [need cbind]. rewrite Ep. cbn [cbind]. rewrite Eb. cbn [cbind]. rewrite Es. cbn [cbind]. rewrite Ev, E9. cbn [need cbind].
  assert (T1 : exists ft' tor' pc' dt', parse_time rd ri t j' sim = COut (ft', ti, tor', pc', dt') /\ (sim = "UNSTEADY" -> ft = ft' /\ tor = tor' /\
     (named t ["time"; "time_integrator"] "TVDRK" -> pc = pc') /\ (~ named t ["time"; "time_integrator"] "TVDRK" -> dt = dt'))).
  { unfold parse_time in *. destruct (String.eqb_spec sim "UNSTEADY") as [->|N1].
    - nd Et q1 Q1. nd Et q2 Q2. nd Et q3 Q3. rewrite Q1. cbn [need cbind]. rewrite Q2. cbn [need cbind]. rewrite Q3. cbn [need cbind]. pose proof (upper_named _ _ _ "TVDRK" Q2) as UN. destruct (String.eqb_spec q2 "TVDRK") as [->|N2]; nd Et q4 Q4.
      + rewrite Q4. cbn [need cbind]. injection Et as <- <- <- <- <-. do 4 eexists. split; [reflexivity|]. intros _. do 2 (split; [reflexivity|]). split; intros N; try reflexivity; tauto.
      + rewrite Q4. cbn [need cbind]. injection Et as <- <- <- <- <-. do 4 eexists. split; [reflexivity|]. intros _. do 2 (split; [reflexivity|]). split; intros N; try reflexivity; tauto.
    - injection Et as <- <- <- <- <-. do 4 eexists. split; [reflexivity|]. congruence. }
  destruct T1 as (ft' & tor' & pc' & dt' & -> & T1). cbn [cbind]. rewrite E10. cbn [need cbind]. rewrite E11. cbn [need cbind]. rewrite E12. cbn [need cbind]. rewrite E13. cbn [need cbind].
  rewrite E14. cbn [need cbind]. rewrite E15. cbn [need cbind]. rewrite E16. cbn [need cbind]. rewrite E17. cbn [need cbind].
  assert (T2 : exists us' f0' f1' ftol' fmax', parse_starter rd ri t j' = COut (us', f0', f1', ftol', fmax') /\
     (present t ["pseudotime"; "initialization"] -> us = 1%Z /\ us' = 1%Z /\ f0 = f0' /\ f1 = f1' /\ ftol = ftol' /\ fmax = fmax')).
  { unfold parse_starter in *. destruct (get_child t ["pseudotime"; "initialization"]) eqn:Gc.
    - rewrite Est. do 5 eexists. split; [reflexivity|]. intros _. nd Est q1 Q1. nd Est q2 Q2. nd Est q3 Q3. nd Est q4 Q4. injection Est as <- <- <- <- <-. repeat split.
    - do 5 eexists. split; [reflexivity|]. intros (s & N). unfold get_str in N. rewrite Gc in N. discriminate. }
  destruct T2 as (us' & f0' & f1' & ftol' & fmax' & -> & T2). cbn [cbind].
  assert (T3 : exists mn', parse_impl rd t j' ptype invflux = COut (fj, nu, mn') /\ (ptype = "IMPLICIT" -> mn = mn')).
  { unfold parse_impl in *. destruct (String.eqb_spec ptype "IMPLICIT") as [->|N1].
    - rewrite Ei. eauto.
    - injection Ei as <- <- <-. eexists. split; [reflexivity|]. congruence. }
  destruct T3 as (mn' & -> & T3). cbn [cbind]. eexists. split; [reflexivity|]. unfold same_settings.
  cbn [o_meshfile o_vtu o_log o_flowtype o_invflux o_invfluxjac o_grad o_lim o_ptype o_surf o_vol o_volreq o_sim o_tint o_nlu o_cfl0 o_cfl1 o_tol o_fcfl0 o_fcfl1 o_ftol o_Minf o_alpha o_Re o_Tinf o_Pr o_gam o_ftime o_dt o_pcfl o_minnl o_maxit o_fmaxit o_torder o_bc o_starter o_lognres o_wlin o_cvisc o_visc o_order2 o_lwalls o_lothers].
  do 33 (split; [reflexivity|]). split; [|split].
  - intros N. apply T1, (upper_named _ _ _ _ E9), N.
  - exact T2.
  - intros N. apply T3, (upper_named _ _ _ _ E13), N.
Qed.

(** what it does not: the parameter of the limiters is whatever the memory held; so are the starter's flag and settings without an
    initialization section *)
Lemma parse_junk argc j t cmd o : parse argc j t cmd = COut o -> o_limpar o = o_limpar j /\
  (~ present t ["pseudotime"; "initialization"] -> o_starter o = o_starter j /\ o_fcfl0 o = o_fcfl0 j /\ o_fcfl1 o = o_fcfl1 j /\ o_ftol o = o_ftol j /\ o_fmaxit o = o_fmaxit j).
Proof.
  intros H. unfold parse_flow_controlfile in *. destruct (Nat.ltb_spec argc 2) as [Hc|Hc]; [discriminate|]. clear Hc.
  nd H mesh E1. nd H vtu E2. nd H log E3. nd H lognres E4. nd H flowtype E5. nd H gamma E6. nd H aoa E7. nd H minf E8.
  bd H ((((visc & Tinf) & Re) & Pr) & cv) Ep. bd H bcs Eb.
  bd H surf Es. destruct (match get_str t ["bc"; "volume_output_file_prefix"] with Some s => _ | None => _ end) as (vol & volreq) eqn:Ev in H.
  nd H sim E9. bd H ((((ft & ti) & tor) & pc) & dt) Et. nd H invflux E10. nd H gm E11. nd H lim E12. nd H ptype E13. nd H cfl0 E14. nd H cfl1 E15. nd H tol E16. nd H maxit E17.
  bd H ((((us & f0) & f1) & ftol) & fmax) Est. bd H ((fj & nu) & mn) Ei. injection H as <-. cbn [o_limpar o_starter o_fcfl0 o_fcfl1 o_ftol o_fmaxit]. split; auto. intros N.
  unfold parse_starter in Est. destruct (get_child t ["pseudotime"; "initialization"]) eqn:Gc; [contradiction N; exists (p_data p); unfold get_str; rewrite Gc; auto|]. injection Est as <- <- <- <- <-. auto.
Qed.
Definition with_limpar (j : fpopts) (x : R) : fpopts :=
  mkopts (o_meshfile j) (o_vtu j) (o_log j) (o_flowtype j) (o_invflux j) (o_invfluxjac j) (o_grad j) (o_lim j) (o_ptype j) (o_surf j) (o_vol j) (o_volreq j) (o_sim j) (o_tint j) (o_nlu j)
    (o_cfl0 j) (o_cfl1 j) (o_tol j) (o_fcfl0 j) (o_fcfl1 j) (o_ftol j) (o_Minf j) (o_alpha j) (o_Re j) (o_Tinf j) (o_Pr j) (o_gam j) x (o_ftime j) (o_dt j) (o_pcfl j) (o_minnl j)
    (o_maxit j) (o_ramp0 j) (o_ramp1 j) (o_fmaxit j) (o_framp0 j) (o_framp1 j) (o_torder j) (o_bc j) (o_starter j) (o_lognres j) (o_wlin j) (o_cvisc j) (o_visc j) (o_order2 j) (o_lwalls j) (o_lothers j).
Definition with_starter (j : fpopts) (us : Z) (mx : Z) : fpopts :=
  mkopts (o_meshfile j) (o_vtu j) (o_log j) (o_flowtype j) (o_invflux j) (o_invfluxjac j) (o_grad j) (o_lim j) (o_ptype j) (o_surf j) (o_vol j) (o_volreq j) (o_sim j) (o_tint j) (o_nlu j)
    (o_cfl0 j) (o_cfl1 j) (o_tol j) (o_fcfl0 j) (o_fcfl1 j) (o_ftol j) (o_Minf j) (o_alpha j) (o_Re j) (o_Tinf j) (o_Pr j) (o_gam j) (o_limpar j) (o_ftime j) (o_dt j) (o_pcfl j) (o_minnl j)
    (o_maxit j) (o_ramp0 j) (o_ramp1 j) mx (o_framp0 j) (o_framp1 j) (o_torder j) (o_bc j) us (o_lognres j) (o_wlin j) (o_cvisc j) (o_visc j) (o_order2 j) (o_lwalls j) (o_lothers j).
Definition scheme_of (o : fpopts) : scheme := create_flowSpatialDiscretization (extract_spatial_physics_config o) (extract_spatial_numerics_config o).
(** for every accepted file that asks for the WENO or the Venkatakrishnan scheme, whatever it says about the parameter, every value can come out *)
Theorem C95_limiter_parameter_refuted : forall argc (j : fpopts) t cmd, 2 <= argc -> accepted t -> forall x, exists j' o, parse argc j' t cmd = COut o /\
  (named t ["spatial_discretization"; "limiter"] "WENO" -> sc_rec (scheme_of o) = Some (RWENO x)) /\
  (named t ["spatial_discretization"; "limiter"] "VENKATAKRISHNAN" -> sc_rec (scheme_of o) = Some (RVenkatakrishnan x)).
Proof.
  intros argc j t cmd Ha A x. destruct (proj2 (C95_accepted argc (with_limpar j x) t cmd Ha) A) as (o & E). exists (with_limpar j x), o. split; auto.
  destruct (parse_junk _ _ _ _ _ E) as (L & _). destruct (C95_values _ _ _ _ _ E) as (_ & _ & _ & _ & _ & _ & _ & _ & _ & _ & _ & _ & _ & _ & _ & _ & N & _).
  destruct N as (s & N1 & N2). unfold scheme_of, create_flowSpatialDiscretization, extract_spatial_numerics_config. cbn [sc_rec nc_rec nc_par]. rewrite L. cbn [with_limpar o_limpar].
  split; intros (s' & M1 & M2); assert (s' = s) by congruence; subst s'; rewrite <- N2, M2; reflexivity.
Qed.
(** for every accepted file without an initialization section, the starter may or may not run, for any number of steps *)
Theorem C95_starter_flag_refuted : forall argc (j : fpopts) t cmd, 2 <= argc -> accepted t -> ~ present t ["pseudotime"; "initialization"] -> forall us mx, exists j' o,
  parse argc j' t cmd = COut o /\ o_starter o = us /\ o_fmaxit o = mx.
Proof.
  intros argc j t cmd Ha A N us mx. destruct (proj2 (C95_accepted argc (with_starter j us mx) t cmd Ha) A) as (o & E). exists (with_starter j us mx), o. split; auto.
  destruct (parse_junk _ _ _ _ _ E) as (_ & S1). destruct (S1 N) as (-> & _ & _ & _ & ->). auto.
Qed.

(** *** The schemes *)
Definition fluxes : list (string * fluxk) := [("VANLEER", FVanLeer); ("ROE", FRoe); ("HLL", FHLL); ("HLLC", FHLLC); ("LLF", FLLF); ("AUSM", FAUSM); ("AUSMPLUS", FAUSMPlus)].
Definition limiters : list string := ["NONE"; "WENO"; "VANALBADA"; "BARTHJESPERSEN"; "VENKATAKRISHNAN"].
Theorem C95_schemes : forall argc j t cmd o, parse argc j t cmd = COut o -> let s := scheme_of o in
  (* the flux is the named one; any other name leaves a null pointer *)
  (forall k, sc_flux s = Some k <-> exists n, In (n, k) fluxes /\ named t ["spatial_discretization"; "inviscid_flux"] n) /\
  (* explicit stepping leaves the flux of the Jacobian null *)
  (~ named t ["pseudotime"; "pseudotime_stepping_type"] "IMPLICIT" -> sc_jac s = None) /\
  (named t ["pseudotime"; "pseudotime_stepping_type"] "IMPLICIT" -> named t ["Jacobian_inviscid_flux"] "CONSISTENT" -> sc_jac s = sc_flux s) /\
  (* gradients *)
  (sc_grad s = GLeastSquares <-> named t ["spatial_discretization"; "gradient_method"] "LEASTSQUARES") /\ (sc_grad s = GGreenGauss <-> named t ["spatial_discretization"; "gradient_method"] "GREENGAUSS") /\
  (sc_order2 s = false <-> named t ["spatial_discretization"; "gradient_method"] "NONE") /\
  (* a scheme called second order whose gradients are zero: exactly for gradient methods with another name *)
  (sc_order2 s = true /\ sc_grad s = GZero <-> forall n, In n ["LEASTSQUARES"; "GREENGAUSS"; "NONE"] -> ~ named t ["spatial_discretization"; "gradient_method"] n) /\
  (* reconstruction *)
  (sc_rec s <> None <-> exists n, In n limiters /\ named t ["spatial_discretization"; "limiter"] n) /\
  (* the starter *)
  let s1 := create_flowSpatialDiscretization (extract_spatial_physics_config o) (firstorder_spatial_numerics_config o) in
  sc_flux s1 = sc_flux s /\ sc_jac s1 = sc_jac s /\ sc_grad s1 = GZero /\ sc_order2 s1 = false /\ sc_rec s1 = Some RLinear.
Proof.
  intros argc j t cmd o E. cbv zeta. destruct (C95_values _ _ _ _ _ E) as (_ & _ & _ & _ & _ & _ & _ & _ & _ & _ & _ & _ & _ & _ & N1 & N2 & N3 & O2 & N4 & I1 & I2 & _).
  assert (NQ : forall p a n, named t p a -> (named t p n <-> a = n)). { intros p a n (s & Q1 & Q2). split; [intros (s' & Q3 & Q4); congruence|]. intros <-. exists s. auto. }
  rewrite (NQ _ _ "IMPLICIT" N4), (NQ _ _ "LEASTSQUARES" N2), (NQ _ _ "GREENGAUSS" N2). setoid_rewrite (NQ _ _ _ N1). setoid_rewrite (NQ _ _ _ N2). setoid_rewrite (NQ _ _ _ N3). rewrite (NQ _ _ _ N2) in O2.
  unfold scheme_of, create_flowSpatialDiscretization, extract_spatial_numerics_config, firstorder_spatial_numerics_config. cbn [sc_flux sc_jac sc_grad sc_order2 sc_rec nc_flux nc_jac nc_grad nc_rec nc_par nc_order2].
  split; [|split; [|split; [|split; [|split; [|split; [|split; [|split; [|repeat split]]]]]]]].
  - intros k. unfold create_inviscidflux. split.
    + intros H. repeat match type of H with (if String.eqb ?a ?b then _ else _) = _ => destruct (String.eqb_spec a b) as [Q|_]; [injection H as <-; exists b; split; [cbn; auto 10|exact Q]|] end. discriminate.
    + intros (n & I0 & ->). cbn in I0. decompose [or] I0; try contradiction; match goal with H : (_, _) = (_, _) |- _ => injection H as <- <- end; reflexivity.
  - intros N. destruct (I2 N) as (-> & _). reflexivity.
  - intros N C. destruct (I1 N) as (_ & C1 & _). rewrite (C1 C). reflexivity.
  - unfold create_gradientscheme. destruct (String.eqb_spec (o_grad o) "LEASTSQUARES"); [tauto|]. destruct (String.eqb_spec (o_grad o) "GREENGAUSS"); split; congruence.
  - unfold create_gradientscheme. destruct (String.eqb_spec (o_grad o) "LEASTSQUARES"); [split; congruence|]. destruct (String.eqb_spec (o_grad o) "GREENGAUSS"); split; congruence.
  - exact O2.
  - unfold create_gradientscheme. split.
    + intros (A & B) n I0 G0. cbn in I0. destruct I0 as [<-|[<-|[<-|[]]]]; rewrite G0 in B; try discriminate. rewrite (proj2 O2 G0) in A. discriminate.
    + intros N. split.
      * destruct (o_order2 o); auto. exfalso. apply (N "NONE"); cbn; auto. apply O2. auto.
      * destruct (String.eqb_spec (o_grad o) "LEASTSQUARES") as [Q|_]; [exfalso; eapply N; [|exact Q]; cbn; auto|]. destruct (String.eqb_spec (o_grad o) "GREENGAUSS") as [Q|_]; auto. exfalso; eapply N; [|exact Q]; cbn; auto.
  - unfold create_reconstruction. split.
    + intros H. repeat match type of H with (if String.eqb ?a ?b then _ else _) <> _ => destruct (String.eqb_spec a b) as [Q|_]; [exists b; split; [cbn; auto 10|exact Q]|] end. congruence.
    + intros (n & I0 & ->). cbn in I0. decompose [or] I0; try contradiction; subst n; discriminate.
Qed.
End P.
Print Assumptions C95_accepted.
Print Assumptions C95_values.
Print Assumptions C95_more_values.
Print Assumptions C95_physics.
Print Assumptions C95_boundaries.
Print Assumptions C95_case.
Print Assumptions C95_order.
Print Assumptions C95_mesh_override.
Print Assumptions C95_mesh_needed.
Print Assumptions C95_determined.
Print Assumptions C95_limiter_parameter_refuted.
Print Assumptions C95_starter_flag_refuted.
Print Assumptions C95_schemes.

(** ** testcases/naca0012/transonic-explicit.ctrl: the hypotheses are met *)
Definition leaf (k v : string) : string * ptree := (k, PNode v []).
Definition naca : ptree := PNode "" [
  ("io", PNode "" [leaf "mesh_file" "NACA0012_inv.su2"; leaf "solution_output_file" "naca.vtu"; leaf "log_file_prefix" "naca-log"; leaf "convergence_history_required" "false"]);
  ("flow_conditions", PNode "" [leaf "flow_type" "euler"; leaf "adiabatic_index" "1.4"; leaf "angle_of_attack" "1.25"; leaf "freestream_Mach_number" "0.8"]);
  ("bc", PNode "" [("bc0", PNode "" [leaf "type" "slipwall"; leaf "marker" "2"]); ("bc1", PNode "" [leaf "type" "farfield"; leaf "marker" "4"]);
                   leaf "listof_output_wall_boundaries" "2"; leaf "surface_output_file_prefix" "inv-naca"]);
  ("time", PNode "" [leaf "simulation_type" "steady"]);
  ("spatial_discretization", PNode "" [leaf "inviscid_flux" "hllc"; leaf "gradient_method" "leastsquares"; leaf "limiter" "weno"; leaf "limiter_parameter" "20.0"]);
  ("pseudotime", PNode "" [leaf "pseudotime_stepping_type" "explicit";
     ("main", PNode "" [leaf "cfl_min" "0.2"; leaf "cfl_max" "0.2"; leaf "tolerance" "1e-5"; leaf "max_timesteps" "200000"]);
     ("initialization", PNode "" [leaf "cfl_min" "0.8"; leaf "cfl_max" "0.8"; leaf "tolerance" "1e-1"; leaf "max_timesteps" "10000"])])].
Fixpoint lookup {A} (l : list (string * A)) (s : string) : option A := match l with [] => None | (k, v) :: r => if String.eqb k s then Some v else lookup r s end.
Definition xrd : string -> option R := lookup [("1.4", 14/10); ("1.25", 5/4); ("0.8", 8/10); ("0.2", 2/10); ("1e-5", /100000); ("1e-1", /10)]%R.
Definition xri : string -> option Z := lookup [("2", 2); ("4", 4); ("200000", 200000); ("10000", 10000)]%Z.
Definition xrb : string -> option bool := lookup [("true", true); ("false", false)].
Definition xris (s : string) : list Z := match xri s with Some z => [z] | None => [] end.
Definition xrds (s : string) : list R := match xrd s with Some z => [z] | None => [] end.
Definition no_cmd : cmdline := mkcmd None None None.
Example C95_hyp : accepted xrd xri xrb xrds xris naca.
Proof.
  unfold accepted. split; [|split; [|split; [|split; [|split; [|split; [|split]]]]]].
  - unfold always. repeat constructor; (eexists; split; [reflexivity|]); cbn; try exact Logic.I; discriminate.
  - intros (s & E & F). cbn in E. injection E as <-. discriminate F.
  - intros (s & E & F). cbn in E. injection E as <-. discriminate F.
  - eexists. reflexivity.
  - intros _. eexists. reflexivity.
  - intros (s & E & F). cbn in E. injection E as <-. discriminate F.
  - intros _. unfold starter_e. repeat constructor; (eexists; split; [reflexivity|]); cbn; try exact Logic.I; discriminate.
  - intros (s & E & F). cbn in E. injection E as <-. discriminate F.
Qed.
Example C95_example : forall j, exists o, parse_flow_controlfile xrd xri xrb xrds xris 2 j naca no_cmd = COut o /\ o_bc o = [mkfbc 2 SLIP_WALL_BC [] []; mkfbc 4 FARFIELD_BC [] []] /\
  sc_flux (scheme_of o) = Some FHLLC /\ sc_jac (scheme_of o) = None /\ sc_grad (scheme_of o) = GLeastSquares /\ o_lwalls o = [2%Z] /\ o_fmaxit o = 10000%Z.
Proof. intros j. eexists. split; [reflexivity|]. repeat split. Qed.
(** the parameter written in this file has no effect *)
Example C95_naca_parameter : forall (j : fpopts) x, exists j' o, parse_flow_controlfile xrd xri xrb xrds xris 2 j' naca no_cmd = COut o /\ sc_rec (scheme_of o) = Some (RWENO x).
Proof.
  intros j x. destruct (C95_limiter_parameter_refuted xrd xri xrb xrds xris 2 j naca no_cmd (le_n 2) C95_hyp x) as (j' & o & E & W & _). exists j', o. split; auto. apply W. eexists. split; reflexivity.
Qed.

(** What "in any mixture of cases" means: the same text up to capital and small letters. *)
Definition letter_pairs : list (ascii * ascii) :=
  combine (list_ascii_of_string "ABCDEFGHIJKLMNOPQRSTUVWXYZ") (list_ascii_of_string "abcdefghijklmnopqrstuvwxyz").
Definition same_letter (a b : ascii) : Prop := a = b \/ In (a, b) letter_pairs \/ In (b, a) letter_pairs.
Definition same_text (s t : string) : Prop := Forall2 same_letter (list_ascii_of_string s) (list_ascii_of_string t).
Definition no_small (s : string) : Prop := forall a c, In a (list_ascii_of_string s) -> ~ In (c, a) letter_pairs.

Lemma upper_char a : upper_ascii a = a /\ (forall c, ~ In (c, a) letter_pairs) \/ In (upper_ascii a, a) letter_pairs.
Proof.
  destruct a as [[|] [|] [|] [|] [|] [|] [|] [|]];
    try (right; vm_compute; tauto); left; (split; [reflexivity|]);
    intros c H; vm_compute in H; repeat destruct H as [H|H]; try discriminate; destruct H.
Qed.
Lemma pair_upper a b : In (a, b) letter_pairs -> upper_ascii b = a /\ upper_ascii a = a.
Proof. vm_compute. intros H. repeat destruct H as [H|H]; try (injection H as <- <-; split; reflexivity). destruct H. Qed.
Lemma upper_same a b : upper_ascii a = upper_ascii b <-> same_letter a b.
Proof.
  split.
  - intros E. unfold same_letter. destruct (upper_char a) as [(A & _)|A], (upper_char b) as [(B & _)|B]; rewrite <- ?E in B.
    + left. congruence.
    + rewrite A in *. auto.
    + rewrite B in *. auto.
    + assert (U : forall c, In (c, a) letter_pairs -> In (c, b) letter_pairs -> a = b).
      { clear. intros c. vm_compute. intros H K.
        repeat destruct H as [H|H]; try (injection H as <- <-; repeat destruct K as [K|K]; try discriminate; try (injection K as <-; reflexivity); destruct K). destruct H. }
      left. eapply U; eauto.
  - intros [->|[H|H]]; [reflexivity| |]; destruct (pair_upper _ _ H); congruence.
Qed.
Theorem C95_names : forall s t : string,
  (to_upper s = to_upper t <-> same_text s t) /\ (no_small t -> (to_upper s = t <-> same_text s t)).
Proof.
  assert (E : forall s t, to_upper s = to_upper t <-> same_text s t).
  { unfold same_text. induction s as [|a s IH]; intros [|b t]; cbn [to_upper list_ascii_of_string].
    - split; [constructor|reflexivity].
    - split; [discriminate|intros H; inversion H].
    - split; [discriminate|intros H; inversion H].
    - split.
      + intros H. injection H as H1 H2. constructor; [apply upper_same; exact H1|apply IH; exact H2].
      + intros H. inversion H; subst. f_equal; [apply upper_same; auto|apply IH; auto]. }
  intros s t. split; [apply E|]. intros N. rewrite <- E.
  assert (U : to_upper t = t).
  { clear E s. induction t as [|a t IH]; [reflexivity|]. cbn [to_upper]. f_equal.
    - destruct (upper_char a) as [(A & _)|A]; [exact A|]. exfalso. eapply N; [left; reflexivity|exact A].
    - apply IH. intros b c Hb. apply N. right. exact Hb. }
  rewrite U. reflexivity.
Qed.
Print Assumptions C95_names.
Example C95_names_ex : same_text "NavierStokes" "NAVIERSTOKES" /\ no_small "NAVIERSTOKES" /\ ~ same_text "Euler" "EULERS".
Proof.
  split; [|split].
  - repeat (constructor; [vm_compute; tauto|]). constructor.
  - intros a c H K.
    assert (Q : forallb (fun x => forallb (fun p => negb (Ascii.eqb (snd p) x)) letter_pairs) (list_ascii_of_string "NAVIERSTOKES") = true) by reflexivity.
    rewrite forallb_forall in Q. specialize (Q a H). rewrite forallb_forall in Q. specialize (Q _ K). cbn [snd] in Q. rewrite Ascii.eqb_refl in Q. discriminate Q.
  - intros H. apply (proj2 (proj1 (C95_names "Euler" "EULERS"))) in H. discriminate H.
Qed.
