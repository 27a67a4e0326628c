(** * Theorems: C119, detuning noise whose accumulated phase stays small *)

From Verif Require Import L_DriveExists.
From Verif Require Import L_Drift L_DriveControl L_RemainderControl L_Remainder L_Predefined L_Symmetry Spec_Remainder Spec_Drive.
From Verif Require Import L_FirstOrderFamilies L_FinitePulse L_PreConvert L_Requests L_FirstOrder L_FastNoise.
From Coq Require Import Lia.
Import ListNotations.
Set Bullet Behavior "Strict Subproofs".
Open Scope string_scope.
Open Scope list_scope.
Open Scope R_scope.

(** C119: let [B] be an integral of the deviation of the detuning error from [d]. If it never moves by more than [b] from its first value, the evolution stays near that under the constant errors [e] and [d], however strong the noise and however long the control *)
Theorem C119_control :
  forall c l eps beta B e d E b V, constructible c -> describes l c -> -1 < e ->
  (forall t, is_derive B t (beta t - d)) ->
  bounded_by (fun t => eps t - e) E 0 (duration c) -> bounded_by (fun t => B t - B 0) b 0 (duration c) ->
  noisy_control eps beta 0 l V ->
  close_to ((E * turned l + b * (1 + (1 + e) * turned l)) / 2) V (noisy_evolution e d l).
Proof. exact fast_about. Qed.
Print Assumptions C119_control.

(** C119: the composite pulses cancel the constant part to their order *)
Theorem C119_schemes :
  forall s th w phi name c l eps beta B e d E b V, build s th w phi name = Ok c -> describes l c -> -1 < e -> 0 <= E -> 0 <= b ->
  (forall t, is_derive B t (beta t - d)) ->
  bounded_by (fun t => eps t - e) E 0 (duration c) -> bounded_by (fun t => B t - B 0) b 0 (duration c) ->
  noisy_control eps beta 0 l V ->
  (d = 0 ->
   close_to ((E * (w * duration c) + b * (1 + (1 + e) * (w * duration c))) / 2 +
             (Rabs e * (w * duration c) / 2) ^ S (amplitude_order s) / INR (fact (S (amplitude_order s)))) V (evolution l)) /\
  (detuning_cancels s th -> e = 0 \/ (1 <= amplitude_order s)%nat ->
   close_to ((E * (w * duration c) + b * (1 + (1 + e) * (w * duration c))) / 2 +
             ((Rabs e * w + Rabs d) * duration c) ^ 2 / 8) V (evolution l)).
Proof. exact scheme_fast. Qed.
Print Assumptions C119_schemes.

(** C119: a converted predefined sequence still performs the product of its pulses *)
Theorem C119_sequences :
  forall r T pre name s maxr maxd mn name' c segs eps beta B E b V,
  / 10 ^ 8 < T -> build_sequence r T pre name = Ok s ->
  convert_dds_to_driven_control s maxr maxd mn name' = Ok c -> describes segs c -> duration c = T ->
  (forall t, is_derive B t (beta t)) -> bounded_by eps E 0 T -> bounded_by (fun t => B t - B 0) b 0 T ->
  noisy_control eps beta 0 segs V ->
  exists l, s = sequence_of T name l /\ close_to ((E * turned segs + b * (1 + turned segs)) / 2) V (pulse_product l).
Proof. exact sequence_fast. Qed.
Print Assumptions C119_sequences.

(** C119: a detuning that oscillates with amplitude [a] and angular frequency [f] moves the evolution by at most a / f times one plus the total angle *)
Theorem C119_oscillating :
  forall c l a f p V, constructible c -> describes l c -> 0 < f ->
  noisy_control (fun _ => 0) (fun t => a * cos (f * t + p)) 0 l V ->
  close_to (Rabs a / f * (1 + turned l)) V (evolution l).
Proof.
  intros c l a f p V K D F N.
  assert (X := C119_control c l (fun _ => 0) (fun t => a * cos (f * t + p)) (fun t => a / f * sin (f * t + p)) 0 0 0 (2 * (Rabs a / f)) V K D ltac:(lra)).
  replace (Rabs a / f * (1 + turned l)) with ((0 * turned l + 2 * (Rabs a / f) * (1 + (1 + 0) * turned l)) / 2) by (field; lra).
  change (evolution l) with (noisy_evolution 0 0 l); apply X; auto.
  - intros t; auto_derive; auto; field; lra.
  - intros t T; rewrite Rminus_0_r, Rabs_R0; lra.
  - intros t T; cbv beta.
    replace (a / f * sin (f * t + p) - a / f * sin (f * 0 + p)) with (a / f * (sin (f * t + p) - sin (f * 0 + p))) by ring.
    unfold Rdiv; rewrite !Rabs_mult, (Rabs_right (/ f)) by (left; apply Rinv_0_lt_compat; auto).
    rewrite (Rmult_comm 2); apply Rmult_le_compat_l; [apply Rmult_le_pos; [apply Rabs_pos|left; apply Rinv_0_lt_compat; auto]|].
    assert (S1 := SIN_bound (f * t + p)); assert (S2 := SIN_bound (f * 0 + p)); apply Rabs_le; lra.
Qed.
Print Assumptions C119_oscillating.

(** a pi pulse with BB1 while a detuning as strong as the drive oscillates a million times faster *)
Example C119_case : exists c l V, build BB1 PI 1 0 None = Ok c /\ describes l c /\
  noisy_control (fun _ => 0) (fun t => 1 * cos (1000000 * t + 0)) 0 l V /\ close_to (3 / 100000) V (evolution l).
Proof.
  assert (P := PI_pos); assert (P4 := PI_4); destruct (demo_build BB1) as [c [l [B [D _]]]].
  destruct (control_exists (fun _ => 0) (fun t => 1 * cos (1000000 * t + 0)) l) with (t0 := 0) as [V N].
  { intros t; apply continuous_const. }
  { intros t; apply @ex_derive_continuous; auto_derive; auto. }
  exists c, l, V; split; [exact B|split; [exact D|split; [exact N|]]].
  assert (K := build_constructible _ _ _ _ _ _ B).
  destruct (rates_and_duration _ _ _ _ _ _ _ B D) as [MX [_ [_ DU]]]; cbn [scheme_duration] in DU.
  destruct (turned_bound c l 1 K D MX) as [T0 TB].
  assert (DB : 0 <= duration c <= 20) by (rewrite DU; split; lra).
  assert (H := C119_oscillating c l 1 1000000 0 V K D ltac:(lra) N).
  eapply close_to_weaken; [|exact H]; rewrite Rabs_R1; lra.
Qed.
