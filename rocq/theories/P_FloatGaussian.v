(** * C96-C98: the modulated Gaussian control in floating point *)

From Coq Require Import Lia.
From Verif Require Import L_QuatNorm L_Gaussian L_FloatControls L_FloatGaussian.
Import ListNotations.
Set Bullet Behavior "Strict Subproofs".
Open Scope string_scope.
Open Scope list_scope.
Open Scope R_scope.

(** C96: at zero frequency the computed segments make a whole number of turns
    up to 2^-46, each rate is the one of the formula up to 2^-42, the number of
    turns is the largest available up to 2^-43, and the gate is the identity *)
Theorem C96_zero_frequency :
  forall fsin fexp_ omega m T c l,
  accurate_exp fexp_ -> gaussian_floats omega m T ->
  fl_new_modulated_gaussian_control binary64 fsin fexp_ float_pi omega m T 0 = Ok c -> describes l c ->
  exists n peak k, nearly_ceiling (T / m) n /\ (2 <= n)%nat /\ is_maximum peak (samples (envelope T) T n) /\ (1 <= k)%nat /\
    durations c = repeat (binary64 (T / INR n)) n /\ azimuthal_angles c = repeat 0 n /\ detunings c = repeat 0 n /\
    List.length (rabi_rates c) = n /\
    (forall i r, nth_error (rabi_rates c) i = Some r ->
       let v := omega * (envelope T (midpoint T n i) / peak) * (2 * PI * INR k / available_rotation omega T n peak) in
       0 < r /\ Rabs (r - v) <= v / 2 ^ 42) /\
    (k = 1%nat \/ 2 * PI * INR k <= available_rotation omega T n peak * (1 + / 2 ^ 43)) /\
    available_rotation omega T n peak < 2 * PI * INR (S k) * (1 + / 2 ^ 43) /\
    Rabs (total (map (fun g => g_rabi g * g_dur g) l) - 2 * PI * INR k) <= 2 * PI * INR k / 2 ^ 46 /\
    close_to (PI * INR k / 2 ^ 46) (evolution l) (mscale (RtoC ((-1) ^ k)) mone).
Proof. exact float_gaussian_zero. Qed.
Print Assumptions C96_zero_frequency.

(** C96: without rounding the program is the one of C27-C30 *)
Theorem C96_unrounded :
  forall omega m T f,
  fl_new_modulated_gaussian_control (fun x => x) sin exp PI omega m T f = new_modulated_gaussian_control omega m T f.
Proof. exact float_gaussian_exact. Qed.
Print Assumptions C96_unrounded.

(** C97: at a non-zero frequency, when the largest sample is not of the size of
    the rounding errors, the rates are those of the formula and the gate is the
    identity, whatever the error of the Rabi rate *)
Theorem C97_modulated :
  forall fsin fexp_ omega m T f c l,
  accurate_exp fexp_ -> accurate_sine fsin -> gaussian_floats omega m T ->
  / 2 ^ 200 <= Rabs f -> Rabs f * T <= 2 ^ 12 ->
  fl_new_modulated_gaussian_control binary64 fsin fexp_ float_pi omega m T f = Ok c -> describes l c ->
  exists n, nearly_ceiling (T / m) n /\ (2 <= n)%nat /\
    forall peak, is_maximum peak (samples (signal f T) T n) -> 4 * sample_error f T <= peak ->
    exists vs, l = map (float_signed_seg (binary64 (T / INR n))) vs /\ List.length vs = n /\
      (forall i v, nth_error vs i = Some v ->
         Rabs (v - omega * signal f T (midpoint T n i) / peak) <= 3 * omega * (sample_error f T / peak)) /\
      forall e, -1 < e ->
        close_to (2 * (1 + e) * omega * T * (sample_error f T / peak)) (noisy_evolution e 0 l) mone.
Proof. exact float_gaussian_modulated. Qed.
Print Assumptions C97_modulated.

(** C98, refuted: a call rejected in exact arithmetic, because every sample
    vanishes, is accepted in binary64, where the rounding errors of the samples
    are scaled up to the maximum Rabi rate *)
Theorem C98_acceptance_refuted :
  ~ (forall fsin fexp_ omega m T f c,
       accurate_exp fexp_ -> accurate_sine fsin -> gaussian_floats omega m T ->
       fl_new_modulated_gaussian_control binary64 fsin fexp_ float_pi omega m T f = Ok c ->
       exists c0, new_modulated_gaussian_control omega m T f = Ok c0).
Proof.
  intros H; destruct noise_accepted as [c [E _]].
  destruct (H _ _ _ _ _ _ c rounded_exp_accurate rounded_sine_accurate noise_floats E) as [c0 E0].
  destruct noise_rejected as [s [args [ex R]]]; congruence.
Qed.
Print Assumptions C98_acceptance_refuted.

(** C98: the control made of rounding errors drives the qubit at the maximum rate *)
Theorem C98_noise :
  let fsin := fun x => binary64 (sin x) in let fexp_ := fun x => binary64 (exp x) in
  (exists s args ex, new_modulated_gaussian_control 100 (1 / 2) 1 2 = Raise (ArgumentsValueError s args ex)) /\
  exists c, fl_new_modulated_gaussian_control binary64 fsin fexp_ float_pi 100 (1 / 2) 1 2 = Ok c /\
    exists r, In r (rabi_rates c) /\ 99 <= r.
Proof. cbv zeta; split; [exact noise_rejected|exact noise_accepted]. Qed.
Print Assumptions C98_noise.

(** C98, refuted: the number of segments is that of exact arithmetic *)
Theorem C98_count_refuted :
  ~ (forall fsin fexp_ omega m T f c c0,
       accurate_exp fexp_ -> accurate_sine fsin -> gaussian_floats omega m T ->
       fl_new_modulated_gaussian_control binary64 fsin fexp_ float_pi omega m T f = Ok c ->
       new_modulated_gaussian_control omega m T f = Ok c0 ->
       List.length (durations c) = List.length (durations c0)).
Proof.
  intros H; destruct (count_differs (fun x => binary64 (sin x)) _ rounded_exp_accurate) as [c [c0 [E [E0 [L L0]]]]].
  assert (Q := H _ _ _ _ _ _ c c0 rounded_exp_accurate rounded_sine_accurate count_floats E E0); rewrite L, L0 in Q; discriminate.
Qed.
Print Assumptions C98_count_refuted.

(** C98, partial.  Full statement: a call is accepted if and only if it is
    accepted in exact arithmetic, with the same number of segments.  Missing:
    Rabi rates within 2^-50 of the documented minimum, samples not larger than
    the rounding errors, and quotients T/m just above an integer *)
Theorem C98_acceptance_partial :
  forall fsin fexp_ omega m T f,
  accurate_exp fexp_ -> accurate_sine fsin -> gaussian_floats omega m T ->
  ((exists c, fl_new_modulated_gaussian_control binary64 fsin fexp_ float_pi omega m T f = Ok c) ->
     m < T /\ reaches (- / 2 ^ 50) omega T) /\
  (~ (m < T /\ reaches (- / 2 ^ 50) omega T) ->
     exists s args ex, fl_new_modulated_gaussian_control binary64 fsin fexp_ float_pi omega m T f = Raise (ArgumentsValueError s args ex)) /\
  (m < T -> reaches (/ 2 ^ 50) omega T ->
     exists n, nearly_ceiling (T / m) n /\
     (f = 0 \/ (/ 2 ^ 200 <= Rabs f /\ Rabs f * T <= 2 ^ 12 /\
                exists i, (i < n)%nat /\ 4 * sample_error f T <= Rabs (signal f T (midpoint T n i))) ->
      exists c, fl_new_modulated_gaussian_control binary64 fsin fexp_ float_pi omega m T f = Ok c)).
Proof. exact float_gaussian_accepts. Qed.
Print Assumptions C98_acceptance_partial.

(** four segments of a quarter *)
Lemma quarter_floats : gaussian_floats 100 (1 / 4) 1.
Proof.
  destruct noise_floats as [A [_ [B [C [D [E F]]]]]]; split; [auto|].
  assert (I := L_Float.inv_pow_le 2 200 ltac:(lia)); replace (/ 2 ^ 2) with (/ 4) in I by (f_equal; lra).
  split; [replace (1 / 4) with (IZR 1 * / 2 ^ 2) by (cbn [pow]; lra); apply dyadic; [reflexivity|lia]|].
  split; [auto|]; split; [auto|]; split; [lra|]; split; [auto|lra].
Qed.
Lemma quarter_count n : nearly_ceiling (1 / (1 / 4)) n -> n = 4%nat.
Proof. intros H; apply exactly_ceiling; [cbn; lra|]; replace (INR 4) with (1 / (1 / 4)) by (cbn; field); auto. Qed.

Example C96_case : let fexp_ := fun x => binary64 (exp x) in accurate_exp fexp_ /\
  exists c, fl_new_modulated_gaussian_control binary64 sin fexp_ float_pi 100 (1 / 4) 1 0 = Ok c /\ List.length (durations c) = 4%nat.
Proof.
  cbv zeta; split; [exact rounded_exp_accurate|].
  assert (AS : accurate_sine sin) by (intros x _ _; rewrite Rminus_diag_eq, Rabs_R0 by auto; left; apply L_Float.inv_pow_pos).
  destruct (float_gaussian_accepts sin _ 100 (1 / 4) 1 0 rounded_exp_accurate AS quarter_floats) as [_ [_ A]].
  destruct (A ltac:(lra) noise_reaches) as [n [C K]]; destruct (K (or_introl eq_refl)) as [c E]; exists c; split; [exact E|].
  assert (DC : exists l, describes l c).
  { assert (FR := float_gaussian_closed _ _ _ _ _ _ _ E).
    destruct (float_zero_built sin _ 100 (1 / 4) 1 rounded_exp_accurate quarter_floats FR) as [? [? [? [? [c' [_ [_ [_ [_ [_ [E' [D _]]]]]]]]]]]].
    rewrite E in E'; injection E' as <-; eauto. }
  destruct DC as [l D].
  destruct (float_gaussian_zero sin _ 100 (1 / 4) 1 c l rounded_exp_accurate quarter_floats E D) as [n' [? [? [C' [_ [_ [_ [-> _]]]]]]]].
  rewrite repeat_length; apply quarter_count; auto.
Qed.

Example C97_case : let fsin := fun x => binary64 (sin x) in let fexp_ := fun x => binary64 (exp x) in
  accurate_sine fsin /\ accurate_exp fexp_ /\
  4 * sample_error 1 1 <= / 10 /\ / 10 <= signal 1 1 (midpoint 1 4 2) /\
  exists c, fl_new_modulated_gaussian_control binary64 fsin fexp_ float_pi 100 (1 / 4) 1 1 = Ok c.
Proof.
  cbv zeta; split; [exact rounded_sine_accurate|]; split; [exact rounded_exp_accurate|].
  assert (S : 4 * sample_error 1 1 <= / 10) by (unfold sample_error; rewrite Rabs_R1; lra).
  assert (V : / 10 <= signal 1 1 (midpoint 1 4 2)).
  { unfold signal, envelope, midpoint; cbn [INR]; replace (1 + 1 + 1 + 1) with 4 by ring; replace (1 + 1) with 2 by ring.
    replace ((2 + 1 / 2) * (1 / 4)) with (5 / 8) by field.
    replace (2 * PI * 1 * (5 / 8 - 1 / 2)) with (PI / 4) by field; rewrite sin_PI4.
    replace (- 50 * (5 / 8 / 1 - 1 / 2) ^ 2) with (- (25 / 32)) by field.
    assert (E1 : exp (- (1)) <= exp (- (25 / 32))) by (left; apply exp_increasing; lra).
    rewrite (exp_Ropp 1) in E1; assert (X3 := exp_le_3); assert (P1 := exp_pos 1).
    assert (E3 : / 3 <= / exp 1) by (apply Rinv_le_contravar; lra).
    assert (Q : / 2 <= 1 / sqrt 2).
    { unfold Rdiv; rewrite Rmult_1_l; apply Rinv_le_contravar; [apply sqrt_lt_R0; lra|].
      replace 2 with (sqrt (2 * 2)) at 2 by (apply sqrt_square; lra); apply sqrt_le_1_alt; lra. }
    nra. }
  split; [auto|]; split; [auto|].
  destruct (float_gaussian_accepts _ _ 100 (1 / 4) 1 1 rounded_exp_accurate rounded_sine_accurate quarter_floats) as [_ [_ A]].
  destruct (A ltac:(lra) noise_reaches) as [n [C K]]; assert (N := quarter_count n C); rewrite N in K; apply K; right.
  rewrite Rabs_R1; split; [rewrite <- Rinv_1; apply (L_Float.inv_pow_le 0 200); lia|]; split; [lra|].
  exists 2%nat; split; [lia|]; apply Rle_trans with (2 := Rle_abs _); lra.
Qed.

Example C98_case : exists c, fl_new_modulated_gaussian_control binary64 (fun x => binary64 (sin x)) (fun x => binary64 (exp x)) float_pi 100 (1 / 4) 1 1 = Ok c.
Proof. apply C97_case. Qed.
