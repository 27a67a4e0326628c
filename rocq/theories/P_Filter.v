(** * Theorems: C122, exact infidelity under dephasing and the filter function *)

From Verif Require Import L_FastNoise L_Fidelity L_Filter Spec_Filter L_Toggle L_Noise L_Requests.
From Coq Require Import Lia.
Import ListNotations.
Set Bullet Behavior "Strict Subproofs".
Open Scope string_scope.
Open Scope list_scope.
Open Scope R_scope.

(** C122: the largest infidelity is sin^2 of half the integral of the detuning with a sign that flips at each X or Y pulse *)
Theorem C122_phase :
  forall r T, 0 < T -> valid_request r -> exists ps, pulses_of r T ps /\
  forall pre beta V, (forall t, continuous beta t) -> noisy_sequence beta 0 T (with_pre_post pre T ps) V ->
  worst_infidelity (pulse_product (with_pre_post pre T ps)) V (sin (switched_integral beta T (flip_times ps) / 2) ^ 2) /\
  sphere_average (infidelity (pulse_product (with_pre_post pre T ps)) V)
    (2 / 3 * sin (switched_integral beta T (flip_times ps) / 2) ^ 2).
Proof.
  intros r T HT V; destruct (pulses_exist r T HT V) as [ps P]; exists ps; split; [exact P|].
  intros pre beta U C N; exact (phase_infidelity T pre ps beta U C N).
Qed.
Print Assumptions C122_phase.

(** C122: this integral is at most M T^(n+1) / (n+1)! for a sequence that suppresses [n] orders *)
Theorem C122_smooth :
  forall r T ps n beta M, 0 < T -> pulses_of r T ps -> suppressed_order r n -> smooth_detuning beta n M T ->
  Rabs (switched_integral beta T (flip_times ps)) <= M * T ^ (n + 1) / INR (fact (n + 1)).
Proof. exact smooth_phase. Qed.
Print Assumptions C122_smooth.

(** C122: noise of one frequency: the filter function is the square of the largest integral over all phases [p] of the noise, and twice the mean square *)
Theorem C122_tone :
  forall a w T ts, let phase p := switched_integral (fun t => a * cos (w * t + p)) T ts in
  (forall p, phase p ^ 2 <= a ^ 2 * filter_function w T ts) /\
  (exists p, phase p = a * sqrt (filter_function w T ts)) /\
  is_RInt (fun p => phase p ^ 2) 0 (2 * PI) (2 * PI * (a ^ 2 * filter_function w T ts / 2)).
Proof. exact tone_filter. Qed.
Print Assumptions C122_tone.

(** C122: so noise of one frequency and amplitude [a] loses at most a quarter of a^2 times the filter function *)
Theorem C122_loss :
  forall r T ps pre a w p V, 0 < T -> pulses_of r T ps ->
  noisy_sequence (fun t => a * cos (w * t + p)) 0 T (with_pre_post pre T ps) V ->
  exists x, worst_infidelity (pulse_product (with_pre_post pre T ps)) V x /\ x <= a ^ 2 * filter_function w T (flip_times ps) / 4.
Proof.
  intros r T ps pre a w p V HT P N.
  assert (C : forall t, continuous (fun t => a * cos (w * t + p)) t) by (intros t; apply @ex_derive_continuous; auto_derive; auto).
  assert (H := proj1 (tone_filter a w T (flip_times ps)) p); cbv beta zeta in H.
  destruct (phase_infidelity T pre ps _ V C N) as [W _]; set (f := switched_integral _ T _) in *; exists (sin (f / 2) ^ 2); split; [exact W|].
  assert (S := sine_below (f / 2)); apply Rsqr_le_abs_1 in S; unfold Rsqr in S.
  replace (f / 2 * (f / 2)) with (f ^ 2 / 4) in S by field; lra.
Qed.
Print Assumptions C122_loss.

(** C122: noise of several frequencies with independent phases: the mean square of the integral is the sum over the
    frequencies of half the squared amplitude times the filter function, and the infidelity is at most a quarter of the square *)
Theorem C122_spectrum :
  forall r T ps tones, 0 < T -> pulses_of r T ps ->
  phase_mean (List.length tones) (fun phases => switched_integral (tones_at tones phases) T (flip_times ps) ^ 2)
    (total (map (fun p => fst p ^ 2 * filter_function (snd p) T (flip_times ps) / 2) tones)) /\
  forall phases pre V, noisy_sequence (tones_at tones phases) 0 T (with_pre_post pre T ps) V ->
  exists x, worst_infidelity (pulse_product (with_pre_post pre T ps)) V x /\
    x <= switched_integral (tones_at tones phases) T (flip_times ps) ^ 2 / 4.
Proof.
  intros r T ps tones HT P; split; [apply tones_mean|]; intros phases pre V N.
  destruct (phase_infidelity T pre ps _ V (tones_continuous tones phases) N) as [W _]; set (f := switched_integral _ T _) in *.
  exists (sin (f / 2) ^ 2); split; [exact W|].
  assert (S := sine_below (f / 2)); apply Rsqr_le_abs_1 in S; unfold Rsqr in S.
  replace (f / 2 * (f / 2)) with (f ^ 2 / 4) in S by field; lra.
Qed.
Print Assumptions C122_spectrum.

(** C122: and the mean over the phases of the largest infidelity is exactly half of 1 minus the product over the
    frequencies of J0 (amplitude times the square root of the filter function) *)
Theorem C122_mean :
  forall r T ps tones, 0 < T -> pulses_of r T ps -> exists loss,
  (forall phases pre V, noisy_sequence (tones_at tones phases) 0 T (with_pre_post pre T ps) V ->
     worst_infidelity (pulse_product (with_pre_post pre T ps)) V (loss phases)) /\
  phase_mean (List.length tones) loss
    ((1 - product (map (fun p => mean_cosine (fst p * sqrt (filter_function (snd p) T (flip_times ps)))) tones)) / 2).
Proof.
  intros r T ps tones HT P; exists (fun phases => sin (switched_integral (tones_at tones phases) T (flip_times ps) / 2) ^ 2).
  split; [|apply tones_infidelity_mean]; intros phases pre V N.
  exact (proj1 (phase_infidelity T pre ps _ V (tones_continuous tones phases) N)).
Qed.
Print Assumptions C122_mean.

(** C122: at low frequencies it falls like the power of the frequency given by the order *)
Theorem C122_rolloff :
  forall r T ps n w, 0 < T -> pulses_of r T ps -> suppressed_order r n ->
  sqrt (filter_function w T (flip_times ps)) <= Rabs w ^ n * T ^ (n + 1) / INR (fact (n + 1)).
Proof. exact rolloff. Qed.
Print Assumptions C122_rolloff.

(** C122: as sums over the pulses *)
Theorem C122_sums :
  forall w T ts, w <> 0 ->
  w * filter_cos w T ts = 2 * signed_sum (fun t => sin (w * t)) ts + (-1) ^ List.length ts * sin (w * T) /\
  w * filter_sin w T ts = 1 - 2 * signed_sum (fun t => cos (w * t)) ts - (-1) ^ List.length ts * cos (w * T).
Proof. exact filter_sums. Qed.
Print Assumptions C122_sums.

(** C122: closed forms *)
Theorem C122_forms :
  forall T w ps, 0 < T ->
  (pulses_of Ramsey T ps -> w ^ 2 * filter_function w T (flip_times ps) = 4 * sin (w * T / 2) ^ 2) /\
  (pulses_of SpinEcho T ps -> w ^ 2 * filter_function w T (flip_times ps) = 16 * sin (w * T / 4) ^ 4) /\
  (forall x n, truncates_to x n -> (1 <= n)%nat -> pulses_of (CarrPurcell x) T ps \/ pulses_of (CPMG x) T ps ->
     w ^ 2 * filter_function w T (flip_times ps) * cos (w * T / (2 * INR n)) ^ 2 =
     16 * sin (w * T / (4 * INR n)) ^ 4 * (if Nat.even n then sin (w * T / 2) else cos (w * T / 2)) ^ 2) /\
  (forall x n, truncates_to x n -> (1 <= n)%nat -> pulses_of (Periodic x) T ps ->
     w ^ 2 * filter_function w T (flip_times ps) * cos (w * T / (2 * (INR n + 1))) ^ 2 =
     4 * sin (w * T / (2 * (INR n + 1))) ^ 2 * (if Nat.even n then cos (w * T / 2) else sin (w * T / 2)) ^ 2).
Proof.
  intros T w ps HT; destruct (Req_dec w 0) as [->|W]; [|exact (filter_forms T w ps HT W)].
  assert (Z : forall y, 0 * T / y = 0) by (intros y; unfold Rdiv; rewrite !Rmult_0_l; reflexivity).
  repeat split; intros; rewrite !Z, sin_0; ring.
Qed.
Print Assumptions C122_forms.

(** C122: Walsh sequences of Paley order [k] and X concatenation of order [l] *)
Theorem C122_walsh :
  forall T w ps, 0 < T ->
  (forall x k, truncates_to x k -> pulses_of (Walsh x) T ps ->
     w ^ 2 * filter_function w T (flip_times ps) = walsh_filter (binary_digits k) (w * T)) /\
  (forall x l, truncates_to x l -> pulses_of (XConcatenated x) T ps ->
     w ^ 2 * filter_function w T (flip_times ps) = walsh_filter (repeat true l) (w * T)).
Proof.
  intros T w ps HT; destruct (Req_dec w 0) as [->|W]; [|exact (walsh_forms T w ps HT W)].
  assert (Z : forall bits, walsh_filter bits 0 = 0).
  { induction bits as [|b bits IH]; cbn [walsh_filter]; replace (0 / 2) with 0 by field; [rewrite sin_0|rewrite IH]; ring. }
  split; intros; rewrite Rmult_0_l, Z; ring.
Qed.
Print Assumptions C122_walsh.

(** spin echo of duration 1: one oscillation of the noise flips with the pulse, two are averaged away *)
Example C122_case : exists ps, pulses_of SpinEcho 1 ps /\
  filter_function (2 * PI) 1 (flip_times ps) = 4 / PI ^ 2 /\ filter_function (4 * PI) 1 (flip_times ps) = 0.
Proof.
  assert (P := PI_RGT_0); destruct (pulses_exist SpinEcho 1) as [ps H]; [lra|exact I|]; exists ps; split; [exact H|].
  destruct (C122_forms 1 (2 * PI) ps) as [_ [A _]]; [lra|]; destruct (C122_forms 1 (4 * PI) ps) as [_ [B _]]; [lra|].
  assert (A' := A H); assert (B' := B H); clear A B.
  replace (2 * PI * 1 / 4) with (PI / 2) in A' by field; rewrite sin_PI2 in A'.
  replace (4 * PI * 1 / 4) with PI in B' by field; rewrite sin_PI in B'.
  split; [apply Rmult_eq_reg_l with ((2 * PI) ^ 2)|apply Rmult_eq_reg_l with ((4 * PI) ^ 2)]; try (apply pow_nonzero; lra).
  - rewrite A'; field; lra.
  - rewrite B'; ring.
Qed.

(** and the echo under noise of frequency 2 pi that starts as sin loses sin^2 (a / pi) *)
Example C122_echo_case : exists ps, pulses_of SpinEcho 1 ps /\
  forall a V, noisy_sequence (fun t => a * cos (2 * PI * t + - (PI / 2))) 0 1 (with_pre_post false 1 ps) V ->
  worst_infidelity (pulse_product (with_pre_post false 1 ps)) V (sin (a / PI) ^ 2).
Proof.
  assert (P := PI_RGT_0); destruct (C122_phase SpinEcho 1) as [ps [H X]]; [lra|exact I|]; exists ps; split; [exact H|].
  intros a V N; assert (C : forall t, continuous (fun t => a * cos (2 * PI * t + - (PI / 2))) t)
    by (intros t; apply @ex_derive_continuous; auto_derive; auto).
  replace (a / PI) with (switched_integral (fun t => a * cos (2 * PI * t + - (PI / 2))) 1 (flip_times ps) / 2); [apply (X false); auto|].
  assert (E := H false None); cbn [build_sequence] in E; rewrite (proj1 (spin_echo_timing 1 false None) ltac:(lra)) in E.
  apply build_pulses in E; subst ps; cbn [flip_times]; rewrite tone_phase, cos_neg, sin_neg, cos_PI2, sin_PI2.
  destruct (C122_sums (2 * PI) 1 [1 / 2]) as [_ S]; [lra|]; cbn [signed_sum List.length pow] in S.
  replace (2 * PI * (1 / 2)) with PI in S by field; replace (2 * PI * 1) with (2 * PI) in S by ring; rewrite cos_PI, cos_2PI in S.
  assert (F : filter_sin (2 * PI) 1 [1 / 2] = 4 / (2 * PI)) by (apply Rmult_eq_reg_l with (2 * PI); [rewrite S; field; lra|lra]).
  rewrite F; field; lra.
Qed.

(** so noise of that second frequency, of any amplitude, costs nothing on average *)
Example C122_mean_case : forall a, exists ps, pulses_of SpinEcho 1 ps /\
  phase_mean 1 (fun phases => sin (switched_integral (tones_at [(a, 4 * PI)] phases) 1 (flip_times ps) / 2) ^ 2) 0.
Proof.
  intros a; destruct C122_case as [ps [H [_ F]]]; exists ps; split; [exact H|].
  assert (K := tones_infidelity_mean [(a, 4 * PI)] 1 (flip_times ps)); cbn [map product fst snd List.length] in K.
  rewrite F, sqrt_0, Rmult_0_r in K; assert (E : (1 - mean_cosine 0 * 1) / 2 = 0); [clear K|rewrite E in K; exact K].
  assert (P := PI_RGT_0); unfold mean_cosine; rewrite (RInt_ext _ (fun _ => 1)) by (intros p _; rewrite Rmult_0_l; apply cos_0).
  rewrite RInt_const; unfold scal; cbn; unfold mult; cbn; match goal with |- ?u = ?v => change (@eq R u v) end; field; lra.
Qed.
