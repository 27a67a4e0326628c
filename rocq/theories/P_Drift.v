(** * Theorems: C109, errors that vary about a constant *)

From Verif Require Import L_DriveExists.
From Verif Require Import L_Drift L_DriveControl L_RemainderControl L_Remainder L_Predefined L_Symmetry Spec_Remainder Spec_Drive.
From Verif Require Import L_FirstOrderFamilies L_FinitePulse L_PreConvert L_Requests L_FirstOrder.
From Coq Require Import Lia.
Import ListNotations.
Set Bullet Behavior "Strict Subproofs".
Open Scope string_scope.
Open Scope list_scope.
Open Scope R_scope.

(** C109: only the deviation of the errors from the constants [e] and [d] moves the evolution away from that under [e] and [d] *)
Theorem C109_drift :
  forall c l eps beta e d E M V, constructible c -> describes l c -> -1 < e ->
  bounded_by (fun t => eps t - e) E 0 (duration c) -> bounded_by (fun t => beta t - d) M 0 (duration c) ->
  noisy_control eps beta 0 l V ->
  close_to ((E * turned l + M * duration c) / 2) V (noisy_evolution e d l).
Proof. exact control_drift. Qed.
Print Assumptions C109_drift.

(** C109: the composite pulses cancel the constant part to their order *)
Theorem C109_schemes :
  forall s th w phi name c l eps beta e d E M V, build s th w phi name = Ok c -> describes l c -> -1 < e -> 0 <= E ->
  bounded_by (fun t => eps t - e) E 0 (duration c) -> bounded_by (fun t => beta t - d) M 0 (duration c) ->
  noisy_control eps beta 0 l V ->
  (d = 0 ->
   close_to ((E * w + M) * duration c / 2 +
             (Rabs e * (w * duration c) / 2) ^ S (amplitude_order s) / INR (fact (S (amplitude_order s)))) V (evolution l)) /\
  (detuning_cancels s th -> e = 0 \/ (1 <= amplitude_order s)%nat ->
   close_to ((E * w + M) * duration c / 2 + ((Rabs e * w + Rabs d) * duration c) ^ 2 / 8) V (evolution l)).
Proof. exact scheme_drift. Qed.
Print Assumptions C109_schemes.

(** C109: so do the predefined sequences of pi pulses that cancel both errors *)
Theorem C109_sequences :
  forall r T n0 s maxr maxd mn name c segs eps beta e d E M V, / 10 ^ 8 < T ->
  build_sequence r T false n0 = Ok s ->
  convert_dds_to_driven_control s maxr maxd mn name = Ok c -> describes segs c -> duration c = T ->
  balanced_detuning r -> balanced_amplitude r -> -1 < e ->
  bounded_by (fun t => eps t - e) E 0 T -> bounded_by (fun t => beta t - d) M 0 T ->
  noisy_control eps beta 0 segs V ->
  close_to ((E * turned segs + M * T) / 2 + (Rabs e * turned segs + Rabs d * T) ^ 2 / 8) V (evolution segs).
Proof. exact sequence_drift. Qed.
Print Assumptions C109_sequences.

(** a pi pulse with BB1 whose amplitude error grows from one percent by 1/100000 per unit of time *)
Example C109_case : exists c l V, build BB1 PI 1 0 None = Ok c /\ describes l c /\
  noisy_control (fun t => 1 / 100 + t / 100000) (fun _ => 0) 0 l V /\ close_to (3 / 1000) V (evolution l).
Proof.
  assert (P := PI_pos); assert (P4 := PI_4); destruct (demo_build BB1) as [c [l [B [D _]]]].
  destruct (control_exists (fun t => 1 / 100 + t / 100000) (fun _ => 0) l) with (t0 := 0) as [V N].
  { intros t; apply @ex_derive_continuous; auto_derive; auto. }
  { intros t; apply continuous_const. }
  exists c, l, V; split; [exact B|split; [exact D|split; [exact N|]]].
  destruct (rates_and_duration _ _ _ _ _ _ _ B D) as [_ [_ [_ DU]]]; cbn [scheme_duration] in DU.
  assert (DB : 0 <= duration c <= 20) by (rewrite DU; split; lra).
  assert (BE : bounded_by (fun t => 1 / 100 + t / 100000 - 1 / 100) (1 / 5000) 0 (duration c)) by (intros t T; rewrite Rabs_right; lra).
  assert (BM : bounded_by (fun t => 0 - 0) 0 0 (duration c)) by (intros t T; rewrite Rminus_0_r, Rabs_R0; lra).
  assert (H := proj1 (C109_schemes BB1 PI 1 0 None c l _ _ (1 / 100) 0 (1 / 5000) 0 V B D ltac:(lra) ltac:(lra) BE BM N) eq_refl).
  eapply close_to_weaken; [|exact H]; rewrite (Rabs_right (1 / 100)) by lra; cbn [amplitude_order].
  replace (INR (fact 3)) with 6 by (cbn; ring); set (x := 1 / 100 * (1 * duration c) / 2).
  assert (X : 0 <= x <= 1 / 10) by (unfold x; lra).
  assert (x ^ 3 <= (1 / 10) ^ 3) by (apply pow_incr; lra); lra.
Qed.
