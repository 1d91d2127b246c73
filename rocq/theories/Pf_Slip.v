(** Nothing passes through a slip wall. *)
From Coq Require Import Reals Lra Psatz.
From Verif Require Import BaseR M_Gas M_Flux M_BC S_Gas Pf_Flux Pf_FluxCons Pf_HLLC Pf_FluxRot Pf_FluxUp.
Open Scope R_scope.

(** Reflection across the line perpendicular to n *)
Definition refl (n : v2) : ortho :=
  mkortho (1 - 2 * vx n * vx n) (- 2 * vx n * vy n) (- 2 * vx n * vy n) (1 - 2 * vy n * vy n).

Lemma refl_ortho n : unit_vec n -> orthogonal (refl n).
Proof.
  unfold unit_vec, orthogonal, refl; cbn [qxx qxy qyx qyy]. intros H.
  repeat split.
  - transitivity (1 - 4 * vx n ^2 + 4 * vx n ^2 * (vx n ^2 + vy n ^2)); [ring|rewrite H; ring].
  - transitivity (1 - 4 * vy n ^2 + 4 * vy n ^2 * (vx n ^2 + vy n ^2)); [ring|rewrite H; ring].
  - transitivity (4 * vx n * vy n * ((vx n ^2 + vy n ^2) - 1)); [ring|rewrite H; ring].
Qed.

Lemma refl_normal n : unit_vec n -> qv (refl n) n = vneg n.
Proof.
  unfold unit_vec, refl, qv, vneg. intros H. apply v2_eq; cbn [vx vy qxx qxy qyx qyy].
  - transitivity (vx n * (1 - 2 * (vx n ^ 2 + vy n ^2))); [ring|rewrite H; ring].
  - transitivity (vy n * (1 - 2 * (vx n ^ 2 + vy n ^2))); [ring|rewrite H; ring].
Qed.

Lemma slip_refl u n : 0 < s0 u -> slip_gs u n = qs (refl n) u.
Proof.
  intros. unfold slip_gs, qs, refl, dot2, mom; cbn [vx vy qxx qxy qyx qyy].
  apply st_eq; cbn [s0 s1 s2 s3]; field; lra.
Qed.

Lemma refl_invol u n : unit_vec n -> qs (refl n) (qs (refl n) u) = u.
Proof.
  unfold unit_vec. intros H. set (k := vx n ^2 + vy n ^2) in H.
  unfold qs, refl; cbn [qxx qxy qyx qyy]. apply st_eq; cbn [s0 s1 s2 s3]; try reflexivity.
  - transitivity (s1 u + 4 * vx n * (vx n * s1 u + vy n * s2 u) * (k - 1)); [unfold k; ring|rewrite H; ring].
  - transitivity (s2 u + 4 * vy n * (vx n * s1 u + vy n * s2 u) * (k - 1)); [unfold k; ring|rewrite H; ring].
Qed.

Lemma slip_physical ga u n : unit_vec n -> physical ga u -> physical ga (slip_gs u n).
Proof.
  intros Hn [H1 H2]. rewrite slip_refl by auto. split; [exact H1|].
  unfold pressure in *. pose proof (dot_rot (refl n) (mom u) (mom u) (refl_ortho n Hn)) as E.
  rewrite <- mom_rot in E. unfold dot2, mom in E; cbn [vx vy] in E.
  rewrite s0_rot, s3_rot.
  replace ((s1 (qs (refl n) u))^2 + (s2 (qs (refl n) u))^2) with ((s1 u)^2 + (s2 u)^2) by lra. auto.
Qed.

Lemma slip_no_flux f G u n : 1 < gam G -> (f = HLLC -> 5/4 <= gam G) ->
  physical (gam G) u -> unit_vec n ->
  let F := get_flux f G u (slip_gs u n) n in
  s0 F = 0 /\ s3 F = 0 /\ s1 F * vy n - s2 F * vx n = 0.
Proof.
  intros Hg H5 Hu Hn. cbv zeta.
  pose proof (slip_physical _ _ n Hn Hu) as Hs.
  pose proof (flux_antisym f G u (slip_gs u n) n Hg H5 Hu Hs Hn) as E1.
  pose proof (flux_rot f G (refl n) u (slip_gs u n) n (refl_ortho n Hn)) as E2.
  rewrite (slip_refl u n) in * by (apply Hu). rewrite refl_invol, refl_normal in E2 by auto.
  rewrite E2 in E1. clear E2.
  set (F := get_flux f G u (qs (refl n) u) n) in *.
  assert (A0 := f_equal s0 E1). assert (A1 := f_equal s1 E1). assert (A2 := f_equal s2 E1). assert (A3 := f_equal s3 E1).
  unfold qs, refl, sneg in A0, A1, A2, A3; cbn [s0 s1 s2 s3 qxx qxy qyx qyy] in A0, A1, A2, A3. unfold unit_vec in Hn.
  repeat split; try lra.
  (* tangential: t.(F - 2 n (n.F)) = - t.F with t = (ny,-nx) *)
  assert (B : (s1 F - 2 * vx n * (vx n * s1 F + vy n * s2 F)) * vy n - (s2 F - 2 * vy n * (vx n * s1 F + vy n * s2 F)) * vx n
      = - (s1 F * vy n - s2 F * vx n)).
  { replace (s1 F - 2 * vx n * (vx n * s1 F + vy n * s2 F)) with (- s1 F) by (rewrite <- A1; ring).
    replace (s2 F - 2 * vy n * (vx n * s1 F + vy n * s2 F)) with (- s2 F) by (rewrite <- A2; ring). ring. }
  lra.
Qed.
