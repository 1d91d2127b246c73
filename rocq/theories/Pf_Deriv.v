(** Rules of differentiation along curves and an automatic differentiation tactic. *)
From Coq Require Import Reals Lra Psatz.
From Verif Require Import BaseR M_Gas S_Deriv.
Open Scope R_scope.

Notation DL := derivable_pt_lim.

Lemma dl_eq f t l l' : DL f t l' -> l' = l -> DL f t l.
Proof. intros H <-; exact H. Qed.
Lemma dl_ext f g t l : (forall s, g s = f s) -> DL f t l -> DL g t l.
Proof. intros E H eps He. destruct (H eps He) as [d Hd]. exists d. intros h. rewrite !E. apply Hd. Qed.
Lemma dl_const (a : R) t : DL (fun _ => a) t 0.
Proof. apply derivable_pt_lim_const. Qed.
Lemma dl_id t : DL (fun s => s) t 1.
Proof. apply derivable_pt_lim_id. Qed.
Lemma dl_plus f g t a b : DL f t a -> DL g t b -> DL (fun s => f s + g s) t (a + b).
Proof. intros. apply (derivable_pt_lim_plus f g); auto. Qed.
Lemma dl_minus f g t a b : DL f t a -> DL g t b -> DL (fun s => f s - g s) t (a - b).
Proof. intros. apply (derivable_pt_lim_minus f g); auto. Qed.
Lemma dl_opp f t a : DL f t a -> DL (fun s => - f s) t (- a).
Proof. intros. apply (derivable_pt_lim_opp f); auto. Qed.
Lemma dl_mult f g t a b : DL f t a -> DL g t b -> DL (fun s => f s * g s) t (a * g t + f t * b).
Proof. intros. apply (derivable_pt_lim_mult f g); auto. Qed.
Lemma dl_scal a g t b : DL g t b -> DL (fun s => a * g s) t (a * b).
Proof. intros. eapply dl_eq. apply (dl_mult (fun _ => a) g t 0 b); auto. apply dl_const. ring. Qed.
Lemma dl_div f g t a b : DL f t a -> DL g t b -> g t <> 0 ->
  DL (fun s => f s / g s) t ((a * g t - f t * b) / (g t * g t)).
Proof.
  intros. eapply dl_eq. apply (derivable_pt_lim_div f g); eauto. unfold Rsqr. f_equal. ring.
Qed.
Lemma dl_inv g t b : DL g t b -> g t <> 0 -> DL (fun s => / g s) t (- b / (g t * g t)).
Proof.
  intros H H0. eapply dl_ext. 2: eapply dl_eq; [apply (dl_div (fun _ => 1) g t 0 b); auto; apply dl_const|].
  intros; unfold Rdiv; ring. field; auto.
Qed.
Lemma dl_pow f n t a : DL f t a -> DL (fun s => f s ^ n) t (INR n * f t ^ pred n * a).
Proof.
  intros H. apply (derivable_pt_lim_comp f (fun x => x ^ n)); auto. apply derivable_pt_lim_pow.
Qed.
Lemma dl_pow2 f t a : DL f t a -> DL (fun s => f s ^ 2) t (2 * f t * a).
Proof. intros. eapply dl_eq. apply dl_pow; eauto. simpl. ring. Qed.
Lemma dl_sqrt f t a : DL f t a -> 0 < f t -> DL (fun s => sqrt (f s)) t (a / (2 * sqrt (f t))).
Proof.
  intros. eapply dl_eq. apply (derivable_pt_lim_comp f sqrt); eauto. apply derivable_pt_lim_sqrt; auto.
  pose proof (sqrt_lt_R0 _ H0). field. lra.
Qed.
Lemma dl_rpower f p t a : DL f t a -> 0 < f t -> DL (fun s => Rpower (f s) p) t (p * Rpower (f t) (p - 1) * a).
Proof.
  intros. eapply dl_eq. apply (derivable_pt_lim_comp f (fun x => Rpower x p)); eauto.
  apply derivable_pt_lim_power; auto. reflexivity.
Qed.

(** Locality *)
Definition near (t : R) (P : R -> Prop) : Prop := exists d, 0 < d /\ forall s, Rabs (s - t) < d -> P s.

Lemma near_at t P : near t P -> P t.
Proof. intros (d & Hd & H). apply H. rewrite Rminus_eq_0, Rabs_R0. auto. Qed.
Lemma near_and t P Q : near t P -> near t Q -> near t (fun s => P s /\ Q s).
Proof.
  intros (d & Hd & H) (e & He & K). exists (Rmin d e). split. apply Rmin_glb_lt; auto.
  intros s Hs. split; [apply H|apply K]; eapply Rlt_le_trans; eauto; [apply Rmin_l|apply Rmin_r].
Qed.
Lemma near_imp t (P Q : R -> Prop) : (forall s, P s -> Q s) -> near t P -> near t Q.
Proof. intros I (d & Hd & H). exists d; auto. Qed.
Lemma near_all t (P : R -> Prop) : (forall s, P s) -> near t P.
Proof. intros H; exists 1; split; [lra|auto]. Qed.

Lemma dl_local f g t l : near t (fun s => g s = f s) -> DL f t l -> DL g t l.
Proof.
  intros N H eps He. pose proof (near_at _ _ N) as Et. destruct N as (d & Hd & E). destruct (H eps He) as [e Hl].
  assert (Hm : 0 < Rmin d e) by (apply Rmin_glb_lt; auto; apply cond_pos).
  exists (mkposreal _ Hm). intros h Hh0 Hh. simpl in Hh. rewrite Et, E.
  - apply Hl; auto. eapply Rlt_le_trans; eauto; apply Rmin_r.
  - replace (t + h - t) with h by ring. eapply Rlt_le_trans; eauto; apply Rmin_l.
Qed.

Lemma dl_cont f t l : DL f t l -> continuity_pt f t.
Proof. intros H. apply derivable_continuous_pt. exists l. exact H. Qed.

Lemma near_lt_const f t l a : DL f t l -> f t < a -> near t (fun s => f s < a).
Proof.
  intros H Hlt. pose proof (dl_cont _ _ _ H) as C. destruct (C (a - f t)) as (d & Hd & K); [lra|].
  exists d. split; [lra|]. intros s Hs. destruct (Req_dec s t) as [->|Hne]; auto.
  assert (X : R_dist (f s) (f t) < a - f t).
  { apply K. split. split; [exact I|auto]. exact Hs. }
  unfold R_dist in X. apply Rabs_def2 in X. lra.
Qed.
Lemma near_lt f g t a b : DL f t a -> DL g t b -> f t < g t -> near t (fun s => f s < g s).
Proof.
  intros Hf Hg H. pose proof (near_lt_const (fun s => f s - g s) t (a-b) 0 (dl_minus _ _ _ _ _ Hf Hg)) as N.
  eapply near_imp; [|apply N; lra]. simpl. intros; lra.
Qed.

Lemma dl_if_lt_true A f g (F H : R -> A -> R) t a b (x y : R -> A) l :
  DL f t a -> DL g t b -> f t < g t -> DL (fun s => F s (x s)) t l ->
  DL (fun s => F s (if Rltb (f s) (g s) then x s else y s)) t l.
Proof.
  intros Hf Hg Hlt Hd. eapply dl_local; [|exact Hd].
  eapply near_imp; [|apply (near_lt f g t a b Hf Hg Hlt)]. simpl. intros s Hs. rewrite Rltb_true; auto.
Qed.

Lemma dl_abs f t a : DL f t a -> f t <> 0 -> DL (fun s => Rabs (f s)) t ((if Rleb 0 (f t) then 1 else -1) * a).
Proof.
  intros H Hn. destruct (Rleb_spec 0 (f t)).
  - eapply dl_local; [|eapply dl_eq; [exact H|ring]].
    eapply near_imp; [|apply (near_lt (fun _ => 0) f t 0 a (dl_const _ _) H); lra].
    simpl. intros s Hs. rewrite Rabs_pos_eq; lra.
  - eapply dl_local; [|eapply dl_eq; [exact (dl_opp _ _ _ H)|ring]].
    eapply near_imp; [|apply (near_lt_const f t a 0 H); lra].
    simpl. intros s Hs. rewrite Rabs_left; lra.
Qed.

(** ** Curves of states *)
Lemma cv_at c t u du : curve_at c t u du -> c t = u. Proof. intros [H _]; auto. Qed.
Lemma cv0 c t u du : curve_at c t u du -> DL (fun s => s0 (c s)) t (s0 du).
Proof. intros [_ H]. exact (H I0). Qed.
Lemma cv1 c t u du : curve_at c t u du -> DL (fun s => s1 (c s)) t (s1 du).
Proof. intros [_ H]. exact (H I1). Qed.
Lemma cv2 c t u du : curve_at c t u du -> DL (fun s => s2 (c s)) t (s2 du).
Proof. intros [_ H]. exact (H I2). Qed.
Lemma cv3 c t u du : curve_at c t u du -> DL (fun s => s3 (c s)) t (s3 du).
Proof. intros [_ H]. exact (H I3). Qed.

(** One step of structural differentiation. *)
Ltac ad1 :=
  match goal with
  | |- derivable_pt_lim (fun s => ?a) ?t _ => apply (dl_const a t)
  | H : derivable_pt_lim ?f ?t _ |- derivable_pt_lim ?f ?t _ => exact H
  | H : derivable_pt_lim ?f ?t _ |- derivable_pt_lim (fun s => _) ?t _ => exact H
  | |- derivable_pt_lim (fun s => s) ?t _ => apply (dl_id t)
  | |- derivable_pt_lim (fun s => @?f s + @?g s) _ _ => eapply (dl_plus f g)
  | |- derivable_pt_lim (fun s => @?f s - @?g s) _ _ => eapply (dl_minus f g)
  | |- derivable_pt_lim (fun s => - @?f s) _ _ => eapply (dl_opp f)
  | |- derivable_pt_lim (fun s => ?a * @?g s) _ _ => eapply (dl_scal a g)
  | |- derivable_pt_lim (fun s => @?f s * @?g s) _ _ => eapply (dl_mult f g)
  | |- derivable_pt_lim (fun s => @?f s / @?g s) _ _ => eapply (dl_div f g)
  | |- derivable_pt_lim (fun s => / @?g s) _ _ => eapply (dl_inv g)
  | |- derivable_pt_lim (fun s => (@?f s) ^ 2) _ _ => eapply (dl_pow2 f)
  | |- derivable_pt_lim (fun s => (@?f s) ^ ?n) _ _ => eapply (dl_pow f n)
  | |- derivable_pt_lim (fun s => sqrt (@?f s)) _ _ => eapply (dl_sqrt f)
  | |- derivable_pt_lim (fun s => Rabs (@?f s)) _ _ => eapply (dl_abs f)
  | |- derivable_pt_lim (fun s => Rpower (@?f s) ?p) _ _ => eapply (dl_rpower f p)
  | H : curve_at ?c ?t _ _ |- derivable_pt_lim (fun s => s0 (?c s)) ?t _ => exact (cv0 _ _ _ _ H)
  | H : curve_at ?c ?t _ _ |- derivable_pt_lim (fun s => s1 (?c s)) ?t _ => exact (cv1 _ _ _ _ H)
  | H : curve_at ?c ?t _ _ |- derivable_pt_lim (fun s => s2 (?c s)) ?t _ => exact (cv2 _ _ _ _ H)
  | H : curve_at ?c ?t _ _ |- derivable_pt_lim (fun s => s3 (?c s)) ?t _ => exact (cv3 _ _ _ _ H)
  end.
Ltac ad := eapply dl_eq; [repeat ad1|]; cbv beta.

(** ** Gradients are unique and are made of the partial derivatives *)
Lemma dl_unique f t a b : DL f t a -> DL f t b -> a = b.
Proof. apply uniqueness_limite. Qed.

Definition axis (u : st) (k : ix) (s : R) : st := with_comp u k s.
Definition unit_st (k : ix) : st :=
  mkst (fun j => if ix_eqb k j then 1 else 0).

Lemma axis_curve u k : curve_at (axis u k) (cget u k) u (unit_st k).
Proof.
  split. { destruct u, k; reflexivity. }
  intros j. destruct k, j; cbn; first [apply dl_id | apply dl_const].
Qed.

Lemma grad_partial f u g k : grad_is f u g -> partial_is f u k (cget g k).
Proof.
  intros H. unfold partial_is. eapply dl_eq. apply (H _ _ _ (axis_curve u k)).
  destruct k; unfold sdot; cbn; ring.
Qed.

Lemma grad_unique f u g g' : grad_is f u g -> grad_is f u g' -> g = g'.
Proof.
  intros H H'. apply st_ext. intros k. eapply dl_unique; [apply (grad_partial _ _ _ k H)|apply (grad_partial _ _ _ k H')].
Qed.

(** Chain rule *)
Lemma grad_curve f u g c t du : grad_is f u g -> curve_at c t u du -> DL (fun s => f (c s)) t (sdot g du).
Proof. intros H; apply H. Qed.
