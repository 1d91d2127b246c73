(** C111: choosing the reader of a mesh file, and converting mesh files. *)
From Coq Require Import List Arith ZArith Bool String Ascii Lia.
From Verif Require Import Base M_Gmsh M_SU2 M_Vtu M_Conv Pf_Gmsh Pf_GmshW P_Gmsh P_SU2 P_Vtu.
Import ListNotations.
Open Scope nat_scope.

(** ** Specification *)
(** the name ends in ".su2", or is "su2" *)
Definition su2_name (s : string) : Prop := s = "su2"%string \/ exists b, s = (b ++ ".su2")%string.
Section Spec.
Context {C : Type}.
(** two meshes with the same points, cells and boundary faces, up to tags added *)
Definition same_mesh (g g' : gmesh C) : Prop :=
  g_npoin g' = g_npoin g /\ (forall i, i < g_npoin g -> at2 (g_coords g') i 0 = at2 (g_coords g) i 0 /\ at2 (g_coords g') i 1 = at2 (g_coords g) i 1) /\
  g_nelem g' = g_nelem g /\ (forall i, i < g_nelem g -> aat (g_nnode g') i = aat (g_nnode g) i /\ forall j, j < aat (g_nnode g) i -> at2 (g_inpoel g') i j = at2 (g_inpoel g) i j) /\
  g_nbface g' = g_nbface g /\ g_nnofa g' = g_nnofa g /\
  (forall i j, i < g_nbface g -> j < g_nnofa g + g_nbtag g -> at2 (g_bface g') i j = at2 (g_bface g) i j) /\
  (forall i j, i < g_nelem g -> j < g_ndtag g -> at2 (g_regions g') i j = at2 (g_regions g) i j).
(** the file system after writing *)
Definition with_file (fs : string -> option (fcont C)) (name : string) (t : fcont C) : string -> option (fcont C) := fun s => if String.eqb s name then Some t else fs s.
End Spec.

(** ** Proofs *)
Definition last_part (s : string) : option string := nth_error (split_dots s) (List.length (split_dots s) - 1).
Lemma split_ne s : split_dots s <> [].
Proof. destruct s as [|c r]; cbn; [discriminate|]. destruct (Ascii.eqb c "."); [discriminate|]. destruct (split_dots r); discriminate. Qed.
Lemma last_cons {A} (a : A) l : l <> [] -> nth_error (a :: l) (List.length (a :: l) - 1) = nth_error l (List.length l - 1).
Proof. destruct l; [contradiction|]. intros _. cbn. rewrite Nat.sub_0_r. reflexivity. Qed.
Lemma last_dot r : last_part (String "." r) = last_part r.
Proof. unfold last_part. cbn [split_dots]. cbn [Ascii.eqb Bool.eqb]. apply last_cons, split_ne. Qed.
Lemma last_other c r : Ascii.eqb c "." = false -> last_part (String c r) = match split_dots r with [p] => Some (String c p) | _ => last_part r end.
Proof.
  intros H. unfold last_part. cbn [split_dots]. rewrite H. pose proof (split_ne r) as N. destruct (split_dots r) as [|p [|q l]]; [contradiction|reflexivity|].
  rewrite last_cons by discriminate. rewrite (last_cons p) by discriminate. reflexivity.
Qed.
(** without a dot there is one part, the name *)
Lemma one_part s p : split_dots s = [p] -> s = p.
Proof.
  revert p. induction s as [|c r IH]; intros p H; cbn in H; [congruence|]. destruct (Ascii.eqb c ".").
  - pose proof (split_ne r). destruct (split_dots r); [contradiction|discriminate].
  - pose proof (split_ne r) as N. destruct (split_dots r) as [|q l]; [contradiction|]. injection H as <- E. subst l. f_equal. apply IH. reflexivity.
Qed.
Lemma two_parts b e : exists p q l, split_dots (b ++ String "." e) = p :: q :: l.
Proof.
  induction b as [|d b (p & q & l & IH)]; cbn [append split_dots].
  - pose proof (split_ne e) as N. destruct (split_dots e) as [|p l]; [contradiction|]. exists EmptyString, p, l. reflexivity.
  - rewrite IH. destruct (Ascii.eqb d "."); repeat eexists.
Qed.
Lemma dots_part b e : last_part (b ++ String "." e) = last_part e.
Proof.
  induction b as [|c b IH]; [apply last_dot|]. cbn [append]. destruct (Ascii.eqb c ".") eqn:E.
  - apply Ascii.eqb_eq in E. subst c. rewrite last_dot. exact IH.
  - rewrite last_other by exact E. destruct (two_parts b e) as (p & q & l & S). rewrite S. exact IH.
Qed.
Lemma last_split s e : last_part s = Some e -> (s = e /\ split_dots s = [s]) \/ exists b, s = (b ++ String "." e)%string.
Proof.
  revert e. induction s as [|c r IH]; intros e H; [injection H as <-; left; auto|]. destruct (Ascii.eqb c ".") eqn:E.
  - apply Ascii.eqb_eq in E. subst c. rewrite last_dot in H. right. destruct (IH _ H) as [(-> & _)|(b & ->)]; [exists EmptyString; reflexivity|exists (String "." b); reflexivity].
  - rewrite last_other in H by exact E. destruct (split_dots r) as [|p [|q l]] eqn:S.
    + exfalso. exact (split_ne r S).
    + injection H as <-. left. pose proof (one_part _ _ S) as ->. split; [reflexivity|]. cbn [split_dots]. rewrite E, S. reflexivity.
    + right. destruct (IH _ H) as [(-> & Q)|(b & ->)]; [discriminate|exists (String c b); reflexivity].
Qed.
Lemma last_su2 s : last_part s = Some "su2"%string <-> su2_name s.
Proof.
  split.
  - intros H. destruct (last_split _ _ H) as [(-> & _)|(b & ->)]; [left; reflexivity|right; exists b; reflexivity].
  - intros [->|(b & ->)]; [reflexivity|]. exact (dots_part b "su2").
Qed.
Lemma last_some s : exists e, last_part s = Some e.
Proof. unfold last_part. destruct (nth_error (split_dots s) (List.length (split_dots s) - 1)) eqn:E; [eauto|]. apply nth_error_None in E. pose proof (split_ne s) as N. destruct (split_dots s); [contradiction|cbn in E; lia]. Qed.

Section Conv.
Context {C : Type} (c0 : C) (inj : Z -> C).
Notation readMesh := (readMesh inj). Notation convert := (convert c0 inj).
Lemma read_su2 j fs name t : su2_name name -> fs name = Some t -> readMesh j fs name = (g <- readSU2 inj (j_sI j) (j_sB j) (j_sC j) (j_sn j) (fc_su2 t) ;; Some (Done g)).
Proof. intros N F. apply last_su2 in N. unfold M_Conv.readMesh. fold (last_part name). rewrite N, F. reflexivity. Qed.
Lemma read_msh j fs name t : ~ su2_name name -> fs name = Some t -> readMesh j fs name = (g <- readGmsh2 (j_E j) (j_I j) (j_B j) (j_R j) (j_C j) (j_n j) (j_b0 j) (fc_msh t) ;; Some (Done g)).
Proof.
  intros N F. unfold M_Conv.readMesh. fold (last_part name). destruct (last_some name) as (e & E). rewrite E, F. cbn [bind].
  destruct (String.eqb_spec e "su2"); [|reflexivity]. subst. apply last_su2 in E. contradiction.
Qed.
Lemma same_trip m j fs out l t : mesh_ok m -> writeGmsh2 c0 m = Some l -> ~ su2_name out -> fc_msh t = l ->
  exists g', readMesh j (with_file fs out t) out = Some (Done g') /\ same_mesh m g'.
Proof.
  intros Ok W N T. destruct (C21_round_trip c0 m (j_E j) (j_I j) (j_B j) (j_R j) (j_C j) (j_n j) (j_b0 j) Ok) as (file & g & W' & Rd & P1 & P2 & P3 & P4 & P5 & P6 & P7 & P8 & P9 & P10 & _).
  rewrite W in W'. injection W' as <-. exists g. split.
  - rewrite (read_msh j _ out t N) by (unfold with_file; rewrite String.eqb_refl; reflexivity). rewrite T, Rd. reflexivity.
  - repeat (split; [assumption|]). split; [|auto]. intros i Hi. split; auto.
Qed.

(** ** Theorems *)
(** *** The SU2 reader is used for the files named like SU2 files, and for no others: there the Gmsh reader *)
Theorem C111_reader : forall j fs name t, fs name = Some t ->
  (su2_name name -> readMesh j fs name = (g <- readSU2 inj (j_sI j) (j_sB j) (j_sC j) (j_sn j) (fc_su2 t) ;; Some (Done g))) /\
  (~ su2_name name -> readMesh j fs name = (g <- readGmsh2 (j_E j) (j_I j) (j_B j) (j_R j) (j_C j) (j_n j) (j_b0 j) (fc_msh t) ;; Some (Done g))).
Proof. intros j fs name t F. split; intros N; [apply read_su2|apply read_msh]; assumption. Qed.
Theorem C111_missing : forall j fs p inm out fmt rest, fs inm = None -> convert j fs (p :: inm :: out :: fmt :: rest) = Some Aborted.
Proof. intros j fs p inm out fmt rest F. cbn. unfold M_Conv.readMesh. fold (last_part inm). destruct (last_some inm) as (e & ->). rewrite F. reflexivity. Qed.

(** *** Conversion to Gmsh: exit code 0, and reading the file that was written gives the mesh that was read *)
Theorem C111_to_msh : forall j fs p inm out rest g, readMesh j fs inm = Some (Done g) -> mesh_ok g ->
  exists l, convert j fs (p :: inm :: out :: "msh"%string :: rest) = Some (Done (0%Z, Some (out, WMsh l))) /\
    forall j' t, ~ su2_name out -> fc_msh t = l -> exists g', readMesh j' (with_file fs out t) out = Some (Done g') /\ same_mesh g g'.
Proof.
  intros j fs p inm out rest g E Ok. destruct (C21_round_trip c0 g (j_E j) (j_I j) (j_B j) (j_R j) (j_C j) (j_n j) (j_b0 j) Ok) as (l & _ & W & _).
  exists l. split; [cbn [M_Conv.convert nth_error bind]; rewrite E; cbn [bind String.eqb]; rewrite W; reflexivity|].
  intros j' t N T. apply (same_trip g j' fs out l t Ok W N T).
Qed.
(** from an SU2 file with markers: the file written holds the points, cells and marked faces of the SU2 file *)
Theorem C111_su2_to_msh : forall j fs p inm out rest hd he hp hm dim cs ps ms tail t, su2_name inm -> fs inm = Some t -> fc_su2 t = su2_text hd he hp hm dim cs ps ms tail -> file_ok hd he hp hm cs ps ms -> ms <> [] ->
  exists l, convert j fs (p :: inm :: out :: "msh"%string :: rest) = Some (Done (0%Z, Some (out, WMsh l))) /\
    forall j' t' p_d, ~ su2_name out -> fc_msh t' = l -> exists g', readMesh j' (with_file fs out t') out = Some (Done g') /\
      g_npoin g' = List.length ps /\ (forall i, i < List.length ps -> at2 (g_coords g') i 0 = sp_x (nth i ps p_d) /\ at2 (g_coords g') i 1 = sp_y (nth i ps p_d)) /\
      g_nelem g' = List.length cs /\
      (forall i, i < List.length cs -> aat (g_nnode g') i = List.length (sc_nodes (nth i cs c_d)) /\
         forall k, k < List.length (sc_nodes (nth i cs c_d)) -> at2 (g_inpoel g') i k = nth k (sc_nodes (nth i cs c_d)) 0%Z) /\
      g_nbface g' = List.length (all_faces ms) /\ g_nnofa g' = 2 /\
      (forall i, i < List.length (all_faces ms) -> at2 (g_bface g') i 0 = sf_a (snd (nth i (all_faces ms) bf_d)) /\
         at2 (g_bface g') i 1 = sf_b (snd (nth i (all_faces ms) bf_d)) /\ at2 (g_bface g') i 2 = fst (nth i (all_faces ms) bf_d)).
Proof.
  intros j fs p inm out rest hd he hp hm dim cs ps ms tail t N F T Ok Nm.
  destruct (C91_conversion inj (j_sI j) (j_sB j) (j_sC j) (j_sn j) (mksp c0 c0 0%Z) hd he hp hm dim cs ps ms tail c0 (j_E j) (j_I j) (j_B j) (j_R j) (j_C j) (j_n j) (j_b0 j) Ok Nm) as (g & l & _ & E & W & _).
  exists l. split.
  - cbn [M_Conv.convert nth_error bind]. rewrite (read_su2 j fs inm t N F), T, E. cbn [bind String.eqb Ascii.eqb Bool.eqb]. rewrite W. reflexivity.
  - intros j' t' p_d N' T'. destruct (C91_conversion inj (j_sI j) (j_sB j) (j_sC j) (j_sn j) p_d hd he hp hm dim cs ps ms tail c0 (j_E j') (j_I j') (j_B j') (j_R j') (j_C j') (j_n j') (j_b0 j') Ok Nm) as (g2 & l2 & g' & E2 & W2 & Rd & P).
    rewrite E in E2. injection E2 as <-. rewrite W in W2. injection W2 as <-. exists g'. split; [|exact P].
    rewrite (read_msh j' _ out t' N') by (unfold with_file; rewrite String.eqb_refl; reflexivity). rewrite T', Rd. reflexivity.
Qed.

(** *** Conversion to VTU: exit code 0; the file describes the mesh if and only if all cells have the same number of nodes, and not nine *)
Theorem C111_to_vtu : forall j fs p inm out rest g, readMesh j fs inm = Some (Done g) -> vmesh_ok g ->
  exists v, convert j fs (p :: inm :: out :: "vtu"%string :: rest) = Some (Done (0%Z, Some (out, WVtu v))) /\
    (describes c0 v g <-> forall i, i < g_nelem g -> aat (g_nnode g) i = aat (g_nnode g) 0 /\ aat (g_nnode g) i <> 9).
Proof.
  intros j fs p inm out rest g E Ok. destruct (C92_mesh_only c0 g Ok) as (v & W & D). exists v. split; [|exact D].
  cbn [M_Conv.convert nth_error bind]. rewrite E. cbn [bind String.eqb Ascii.eqb Bool.eqb]. rewrite W. reflexivity.
Qed.
(** *** Another format: nothing is written and the exit code is -1 *)
Theorem C111_other_format : forall j fs p inm out fmt rest g, readMesh j fs inm = Some (Done g) -> fmt <> "msh"%string -> fmt <> "vtu"%string ->
  convert j fs (p :: inm :: out :: fmt :: rest) = Some (Done ((-1)%Z, None)).
Proof.
  intros j fs p inm out fmt rest g E N1 N2. cbn [M_Conv.convert nth_error bind]. rewrite E. cbn [bind]. apply String.eqb_neq in N1, N2. rewrite N1, N2. reflexivity.
Qed.
(** *** Too few arguments: a message, but not the end of the program; a string is made from a null pointer *)
Theorem C111_few_arguments_refuted : forall j fs argv, List.length argv < 4 -> convert j fs argv = None.
Proof. intros j fs argv H. destruct argv as [|a [|b [|c [|d l]]]]; cbn in H; try reflexivity. lia. Qed.
End Conv.

(** ** A case: the square of C91 is converted from square.su2 to square.msh *)
Definition sq_text : list (stok Z) := su2_text (H0 "NDIME") (H0 "NELEM") (H0 "NPOIN") (H0 "NMARK") 2 sq_cells sq_points sq_marks [].
Definition sq_fs : string -> option (fcont Z) := fun s => if String.eqb s "run.1/square.su2" then Some (mkfc sq_text []) else None.
Definition sq_junk : cjunk Z := mkcj (j2 (-7)%Z) (j2 (-8)%Z) (j2 (-9)%Z) 77 (j2 (-1)%Z) (j2 (-2)%Z) (j2 (-3)%Z) (j2 (-4)%Z) (j2 (-5)%Z) 66 (mk2 0 0 (j2 0%Z)).
Example C111_names : su2_name "run.1/square.su2" /\ ~ su2_name "square.msh" /\ ~ su2_name "square.su2.msh" /\ ~ su2_name "square.SU2".
Proof. rewrite <- !last_su2. repeat split; vm_compute; congruence. Qed.
Example C111_example : exists l, convert 0%Z (fun z => z) sq_junk sq_fs ["convertformat"; "run.1/square.su2"; "square.msh"; "msh"]%string = Some (Done (0%Z, Some ("square.msh"%string, WMsh l))) /\ List.length l = 19.
Proof. eexists. split; vm_compute; reflexivity. Qed.
(** hypotheses of C111_su2_to_msh and of C111_to_vtu *)
Example C111_case : su2_name "run.1/square.su2" /\ sq_fs "run.1/square.su2"%string = Some (mkfc sq_text []) /\ file_ok (H0 "NDIME") (H0 "NELEM") (H0 "NPOIN") (H0 "NMARK") sq_cells sq_points sq_marks /\ sq_marks <> [] /\ ~ su2_name "square.msh" /\
  exists g, readMesh (fun z => z) sq_junk sq_fs "run.1/square.su2" = Some (Done g) /\ vmesh_ok g.
Proof.
  split; [apply C111_names|]. split; [reflexivity|]. split; [exact C91_file_ok|]. split; [discriminate|]. split; [apply C111_names|].
  eexists. split; [vm_compute; reflexivity|]. repeat split; try reflexivity; cbn in *; destruct i as [|[|i]]; cbn; try lia; auto.
Qed.

Print Assumptions C111_reader.
Print Assumptions C111_missing.
Print Assumptions C111_to_msh.
Print Assumptions C111_su2_to_msh.
Print Assumptions C111_to_vtu.
Print Assumptions C111_other_format.
Print Assumptions C111_few_arguments_refuted.
