(** * Theorems: C118, Gaussian controls under constant amplitude and detuning errors *)

From Verif Require Import L_Drift L_DriveControl Spec_Remainder Spec_Drive.
From Verif Require Import L_GaussianErrors.
From Coq Require Import Lia.
Import ListNotations.
Set Bullet Behavior "Strict Subproofs".
Open Scope list_scope.
Open Scope R_scope.

(** C118: whatever the constant errors of the Rabi rate and of the detuning, a modulated Gaussian control turns the qubit about an axis with no component along x, and the control of zero frequency about an axis with no component along y *)
Theorem C118_axis :
  forall omega m T f c l e d,
  new_modulated_gaussian_control omega m T f = Ok c -> describes l c ->
  (f <> 0 -> exists angle y z, y ^ 2 + z ^ 2 = 1 /\ noisy_evolution e d l = bloch_rotation angle 0 y z) /\
  (f = 0 -> exists angle x z, x ^ 2 + z ^ 2 = 1 /\ noisy_evolution e d l = bloch_rotation angle x 0 z).
Proof. exact gaussian_error_axis. Qed.
Print Assumptions C118_axis.

(** C118: an error of the Rabi rate is cancelled to every order at a non-zero frequency, and not to first order at zero frequency, where it multiplies the angle of the k turns *)
Theorem C118_amplitude :
  forall omega m T f c l,
  new_modulated_gaussian_control omega m T f = Ok c -> describes l c ->
  (f <> 0 -> forall k, amplitude_robust k l) /\
  (f = 0 -> exists k : nat, (1 <= k)%nat /\
     total (map (fun g => g_rabi g * g_dur g) l) = 2 * PI * INR k /\
     (forall e, -1 < e -> noisy_evolution e 0 l = rotation ((1 + e) * (2 * PI * INR k)) 0) /\
     ~ amplitude_robust 1 l).
Proof. exact gaussian_amplitude. Qed.
Print Assumptions C118_amplitude.

(** C118: a detuning is cancelled to first order if and only if the integrals of the cosine and the sine of the angle turned so far vanish; at zero frequency the integral of the sine always does *)
Theorem C118_detuning :
  forall omega m T f c l,
  new_modulated_gaussian_control omega m T f = Ok c -> describes l c ->
  exists n vs, is_ceiling (T / m) n /\ l = map (signed_seg (T / INR n)) vs /\
  (f <> 0 -> (dephasing_robust 1 l <->
     path_integral cos (T / INR n) 0 vs = 0 /\ path_integral sin (T / INR n) 0 vs = 0)) /\
  (f = 0 -> (dephasing_robust 1 l <-> path_integral cos (T / INR n) 0 vs = 0)).
Proof. exact gaussian_detuning. Qed.
Print Assumptions C118_detuning.

(** C118: with two segments, the control of zero frequency always cancels a detuning to first order, and a modulated one if and only if each segment makes whole turns *)
Theorem C118_two_segments :
  forall omega m T f c l,
  new_modulated_gaussian_control omega m T f = Ok c -> describes l c -> T <= 2 * m ->
  (f = 0 -> dephasing_robust 1 l) /\
  (f <> 0 -> (dephasing_robust 1 l <-> exists k : Z, omega * T = 4 * PI * IZR k)).
Proof. exact gaussian_two. Qed.
Print Assumptions C118_two_segments.

(** C118: a modulated Gaussian control returns the qubit to its state under an error of the Rabi rate that varies about any constant, up to the variation *)
Theorem C118_drift :
  forall omega m T f c l eps beta e E M V,
  new_modulated_gaussian_control omega m T f = Ok c -> describes l c -> f <> 0 -> -1 < e ->
  bounded_by (fun t => eps t - e) E 0 T -> bounded_by beta M 0 T -> noisy_control eps beta 0 l V ->
  close_to ((E * turned l + M * T) / 2) V mone.
Proof.
  intros omega m T f c l eps beta e E M V B D F L BE BM N.
  destruct (gaussian_segmentation _ _ _ _ _ B) as [CC [n [_ [_ [_ [DU _]]]]]].
  destruct (gaussian_gate _ _ _ _ _ _ B D) as [G _]; destruct (G F) as [_ GE]; rewrite <- (GE e L).
  assert (DC : duration c = T) by (rewrite <- DU; unfold duration; apply np_sum_total).
  rewrite <- DC in *; apply (control_drift c l eps beta e 0 E M V); auto.
  intros t H; rewrite Rminus_0_r; apply BM; auto.
Qed.
Print Assumptions C118_drift.

Lemma ten_turns omega : 100 <= omega -> 10 * sqrt (2 * PI) <= omega * 1.
Proof.
  intros H; assert (sqrt (2 * PI) <= 10); [|lra].
  rewrite <- (sqrt_square 10) by lra; apply sqrt_le_1_alt; generalize PI_4; lra.
Qed.
Lemma described omega m T f c : new_modulated_gaussian_control omega m T f = Ok c -> exists l, describes l c.
Proof. intros E; destruct (gaussian_shape _ _ _ _ _ E) as [_ [n [vs [_ [_ [_ [D _]]]]]]]; eauto. Qed.
Lemma halves omega : 100 <= omega -> exists c l, new_modulated_gaussian_control omega (1 / 2) 1 (1 / 2) = Ok c /\ describes l c.
Proof.
  intros H; assert (T := ten_turns omega H).
  assert (G : exists c, new_modulated_gaussian_control omega (1 / 2) 1 (1 / 2) = Ok c).
  { apply gaussian_accepts; split; [unfold gaussian_inputs; repeat split; lra|].
    right; exists 2%nat, O; split; [unfold is_ceiling; simpl; lra|split; [lia|]].
    unfold signal, midpoint; replace (2 * PI * (1 / 2) * ((INR 0 + 1 / 2) * (1 / INR 2) - 1 / 2)) with (- (PI / 4)) by (simpl; field).
    rewrite sin_neg, sin_PI4; intros Z.
    assert (A := envelope_pos 1 ((INR 0 + 1 / 2) * (1 / INR 2))).
    assert (0 < 1 / sqrt 2) by (apply Rdiv_lt_0_compat; [lra|apply sqrt_lt_R0; lra]). nra. }
  destruct G as [c E]; destruct (described _ _ _ _ _ E) as [l D]; eauto.
Qed.

(** two equal segments that make whole turns together cancel a detuning, but not an error of the Rabi rate *)
Example C118_case : exists c l, new_modulated_gaussian_control 100 (1 / 2) 1 0 = Ok c /\ describes l c /\
  dephasing_robust 1 l /\ ~ amplitude_robust 1 l.
Proof.
  assert (T := ten_turns 100 ltac:(lra)).
  assert (G : exists c, new_modulated_gaussian_control 100 (1 / 2) 1 0 = Ok c)
    by (apply gaussian_accepts; split; [unfold gaussian_inputs; repeat split; lra|left; auto]).
  destruct G as [c E]; destruct (described _ _ _ _ _ E) as [l D].
  exists c, l; split; [exact E|split; [exact D|split]].
  - destruct (C118_two_segments _ _ _ _ _ _ E D) as [X _]; [lra|auto].
  - destruct (C118_amplitude _ _ _ _ _ _ E D) as [_ H]; destruct (H eq_refl) as [k [_ [_ [_ A]]]]; exact A.
Qed.
(** ten turns forth and ten turns back cancel both, *)
Example C118_case_both : exists c l, new_modulated_gaussian_control (40 * PI) (1 / 2) 1 (1 / 2) = Ok c /\ describes l c /\
  dephasing_robust 1 l /\ amplitude_robust 5 l.
Proof.
  assert (P : 3 < PI) by (generalize PI2_3_2; unfold PI2; lra).
  destruct (halves (40 * PI)) as [c [l [E D]]]; [lra|].
  exists c, l; split; [exact E|split; [exact D|split]].
  - destruct (C118_two_segments _ _ _ _ _ _ E D) as [_ X]; [lra|apply X; [lra|exists 10%Z; lra]].
  - destruct (C118_amplitude _ _ _ _ _ _ E D) as [X _]; apply X; lra.
Qed.
(** and ten and a half turns only the error of the Rabi rate *)
Example C118_case_half : exists c l, new_modulated_gaussian_control (42 * PI) (1 / 2) 1 (1 / 2) = Ok c /\ describes l c /\
  ~ dephasing_robust 1 l /\ amplitude_robust 5 l.
Proof.
  assert (P : 3 < PI) by (generalize PI2_3_2; unfold PI2; lra).
  destruct (halves (42 * PI)) as [c [l [E D]]]; [lra|].
  exists c, l; split; [exact E|split; [exact D|split]].
  - destruct (C118_two_segments _ _ _ _ _ _ E D) as [_ X]; [lra|]; intros H; apply X in H; [|lra]; destruct H as [k H].
    assert (H' : 42 = 4 * IZR k) by nra.
    assert (42 = 4 * k)%Z by (apply eq_IZR; rewrite mult_IZR; exact H'); lia.
  - destruct (C118_amplitude _ _ _ _ _ _ E D) as [X _]; apply X; lra.
Qed.
