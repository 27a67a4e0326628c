(** * Theorems: C117, finite pulses between pi/2 rotations to first order in the noise *)

From Verif Require L_FloatPipeline.
From Verif Require Import L_Drift L_DriveControl L_RemainderControl L_Remainder Spec_Remainder Spec_Drive.
From Verif Require Import L_FirstOrderFamilies L_FinitePulse L_PreConvert L_Requests L_FirstOrder L_FirstOrderEnds.
From Coq Require Import Lia.
Import ListNotations.
Set Bullet Behavior "Strict Subproofs".
Open Scope string_scope.
Open Scope list_scope.
Open Scope R_scope.

(** C117: pi pulses between the pi/2 rotations of [pre_post_rotation], converted to a control, are independent of a small constant detuning to first order if and only if the pulses about y cancel with their signs, the pulses about x last, with their signs, as long as the two pi/2 rotations, and the idle times cancel up to a term from the two rotations *)
Theorem C117_detuning :
  forall T n0 ps maxr maxd mn name c segs,
  constructible_sequence (sequence_of T n0 (with_pre_post true T ps)) -> / 10 ^ 8 < T ->
  convert_dds_to_driven_control (sequence_of T n0 (with_pre_post true T ps)) maxr maxd mn name = Ok c ->
  describes segs c -> duration c = T ->
  dephasing_robust 1 segs <->
  signed_count AY (other_than AX) ps = 0 /\
  Rmax (PI / maxr) mn * signed_count AX (other_than AY) ps = 2 * Rmax (PI / 2 / maxr) mn /\
  switched (fun t => t) T (flip_times ps) = (1 + flip_sign ps) * (1 - 2 / PI) * Rmax (PI / 2 / maxr) mn.
Proof. exact between_detuning. Qed.
Print Assumptions C117_detuning.

(** C117: the same for a small relative error of the Rabi rate *)
Theorem C117_amplitude :
  forall T n0 ps maxr maxd mn name c segs,
  constructible_sequence (sequence_of T n0 (with_pre_post true T ps)) -> / 10 ^ 8 < T ->
  convert_dds_to_driven_control (sequence_of T n0 (with_pre_post true T ps)) maxr maxd mn name = Ok c ->
  describes segs c -> duration c = T ->
  amplitude_robust 1 segs <->
  signed_count AY (other_than AY) ps = 0 /\ 2 * signed_count AX (other_than AX) ps = flip_sign ps - 1.
Proof. exact between_amplitude. Qed.
Print Assumptions C117_amplitude.

(** C117: which predefined sequences cancel a detuning, and which an error of the Rabi rate *)
Theorem C117_predefined :
  forall r T n0 s maxr maxd mn name c segs, / 10 ^ 8 < T ->
  build_sequence r T true n0 = Ok s ->
  convert_dds_to_driven_control s maxr maxd mn name = Ok c -> describes segs c -> duration c = T ->
  (dephasing_robust 1 segs <-> mn <= PI / 2 / maxr /\ balanced_detuning_ends r) /\
  (amplitude_robust 1 segs <-> balanced_amplitude_ends r).
Proof. intros; eapply request_between; eauto. Qed.
Print Assumptions C117_predefined.

(** C117: none cancels both *)
Theorem C117_not_both :
  forall r T n0 s maxr maxd mn name c segs, / 10 ^ 8 < T ->
  build_sequence r T true n0 = Ok s ->
  convert_dds_to_driven_control s maxr maxd mn name = Ok c -> describes segs c -> duration c = T ->
  ~ (dephasing_robust 1 segs /\ amplitude_robust 1 segs).
Proof.
  intros r T n0 s maxr maxd mn name c segs LT B E D DU; destruct (C117_predefined _ _ _ _ _ _ _ _ _ _ LT B E D DU) as [-> ->].
  intros [[_ X] Y]; destruct r; cbn [balanced_detuning_ends balanced_amplitude_ends] in *; try tauto.
  destruct X as [n [m [X1 [_ [X2 _]]]]], Y as [k [Y1 Y2]]; rewrite (trunc_same _ _ _ X1 Y1) in X2; congruence.
Qed.
Print Assumptions C117_not_both.

(** C117: the error that is left when a detuning, or an error of the Rabi rate, cancels to first order *)
Theorem C117_remainder :
  forall r T n0 s maxr maxd mn name c segs, / 10 ^ 8 < T ->
  build_sequence r T true n0 = Ok s ->
  convert_dds_to_driven_control s maxr maxd mn name = Ok c -> describes segs c -> duration c = T ->
  (mn <= PI / 2 / maxr -> balanced_detuning_ends r -> forall d, close_to ((d * T) ^ 2 / 8) (noisy_evolution 0 d segs) (evolution segs)) /\
  (balanced_amplitude_ends r -> forall e, close_to ((e * turned segs) ^ 2 / 8) (noisy_evolution e 0 segs) (evolution segs)).
Proof.
  intros r T n0 s maxr maxd mn name c segs LT B E D DU; destruct (C117_predefined _ _ _ _ _ _ _ _ _ _ LT B E D DU) as [P Q].
  assert (CC : constructible c) by (eapply convert_constructible; eauto).
  destruct (control_distance_single c segs CC D) as [X Y]; rewrite DU in Y; split; intros; [apply Y; tauto|apply X; tauto].
Qed.
Print Assumptions C117_remainder.

(** C117: the same when the errors vary with time about a constant detuning, or about a constant error of the Rabi rate *)
Theorem C117_drift :
  forall r T n0 s maxr maxd mn name c segs eps beta E M V, / 10 ^ 8 < T ->
  build_sequence r T true n0 = Ok s ->
  convert_dds_to_driven_control s maxr maxd mn name = Ok c -> describes segs c -> duration c = T ->
  noisy_control eps beta 0 segs V ->
  (mn <= PI / 2 / maxr -> balanced_detuning_ends r -> forall d,
   bounded_by eps E 0 T -> bounded_by (fun t => beta t - d) M 0 T ->
   close_to ((E * turned segs + M * T) / 2 + (d * T) ^ 2 / 8) V (evolution segs)) /\
  (balanced_amplitude_ends r -> forall e, -1 < e ->
   bounded_by (fun t => eps t - e) E 0 T -> bounded_by beta M 0 T ->
   close_to ((E * turned segs + M * T) / 2 + (e * turned segs) ^ 2 / 8) V (evolution segs)).
Proof.
  intros r T n0 s maxr maxd mn name c segs eps beta E M V LT B C D DU N.
  destruct (C117_remainder _ _ _ _ _ _ _ _ _ _ LT B C D DU) as [P Q].
  assert (CC : constructible c) by (eapply convert_constructible; eauto).
  split.
  - intros MN BD d BE BM; eapply L_FloatPipeline.close_trans; [|apply P; auto]; rewrite <- DU in *.
    apply (control_drift c segs eps beta 0 d E M V); auto; [lra|].
    intros t H; rewrite Rminus_0_r; apply BE; auto.
  - intros BA e L BE BM; eapply L_FloatPipeline.close_trans; [|apply Q; auto]; rewrite <- DU in *.
    apply (control_drift c segs eps beta e 0 E M V); auto.
    intros t H; rewrite Rminus_0_r; apply BM; auto.
Qed.
Print Assumptions C117_drift.

Lemma case r T m mn : / 10 ^ 8 < T -> valid_request r -> separated r true -> 0 < m -> 0 <= mn ->
  2 * Rmax (PI / m) mn + mn <= spacing r * T ->
  exists s c segs, build_sequence r T true None = Ok s /\ convert_dds_to_driven_control s m m mn None = Ok c /\ describes segs c /\
    (dephasing_robust 1 segs <-> mn <= PI / 2 / m /\ balanced_detuning_ends r) /\ (amplitude_robust 1 segs <-> balanced_amplitude_ends r).
Proof.
  intros LT V SP M N H; assert (S0 := small_pos).
  destruct (predefined_conversion r T true None m m mn None) as [s [c [A [B [G DU]]]]]; auto; [lra|rewrite (Rmax_left (PI / m) (PI / m)); lra|].
  destruct (request_pulses r V) as [rel [DR _]]; assert (A' := DR T true None ltac:(lra)); rewrite A in A'; injection A' as Es.
  destruct (request_validity r T true None) as [[s' [A' [CS _]]] _]; [split; auto; lra|].
  rewrite A in A'; injection A' as <-; rewrite Es in B, CS.
  destruct (conversion_result _ _ _ _ _ _ _ _ CS B) as [_ [_ [_ [D _]]]].
  rewrite <- Es in B; exists s, c; eexists; split; [exact A|split; [exact B|split; [exact D|]]].
  eapply C117_predefined; eauto.
Qed.
Lemma short : 2 * Rmax (PI / 8) 0 + 0 <= 1.
Proof. assert (P := PI_4); rewrite Rmax_left; assert (P0 := PI_RGT_0); lra. Qed.

(** between pi/2 rotations the spin echo cancels a detuning to first order (alone it does not, C99), *)
Example C117_case : exists s c segs, build_sequence SpinEcho 8 true None = Ok s /\
  convert_dds_to_driven_control s 8 8 0 None = Ok c /\ describes segs c /\ dephasing_robust 1 segs /\ ~ amplitude_robust 1 segs.
Proof.
  assert (S := short); assert (P0 := PI_RGT_0); destruct (case SpinEcho 8 8 0) as [s [c [segs [A [B [D [H1 H2]]]]]]];
    try lra; try (cbn [spacing valid_request separated]; auto; lra).
  exists s, c, segs; repeat (split; [assumption|]); rewrite H1, H2; cbn; split; [split; [lra|auto]|tauto].
Qed.
(** unless the minimum segment duration stretches the pi/2 rotations; *)
Example C117_case_stretched : exists s c segs, build_sequence SpinEcho 8 true None = Ok s /\
  convert_dds_to_driven_control s 8 8 1 None = Ok c /\ describes segs c /\ ~ dephasing_robust 1 segs.
Proof.
  assert (P := PI_4); assert (P0 := PI_RGT_0); destruct (case SpinEcho 8 8 1) as [s [c [segs [A [B [D [H1 H2]]]]]]];
    try lra; try (cbn [spacing valid_request separated]; auto; lra).
  { rewrite Rmax_right by lra; cbn [spacing]; lra. }
  exists s, c, segs; repeat (split; [assumption|]); rewrite H1; intros [X _]; lra.
Qed.
(** CPMG with two pulses no longer does (alone it does, C99); *)
Example C117_case_cpmg : exists s c segs, build_sequence (CPMG 2) 8 true None = Ok s /\
  convert_dds_to_driven_control s 8 8 0 None = Ok c /\ describes segs c /\ ~ dephasing_robust 1 segs /\ ~ amplitude_robust 1 segs.
Proof.
  assert (S := short); destruct (case (CPMG 2) 8 8 0) as [s [c [segs [A [B [D [H1 H2]]]]]]];
    try lra; try (cbn [spacing valid_request separated]; auto; lra).
  exists s, c, segs; repeat (split; [assumption|]); rewrite H1, H2; cbn; tauto.
Qed.
(** and the XY concatenated sequence of order two cancels an error of the Rabi rate, but no longer a detuning *)
Example C117_case_xy : exists s c segs, build_sequence (XYConcatenated 2) 16 true None = Ok s /\
  convert_dds_to_driven_control s 8 8 0 None = Ok c /\ describes segs c /\ amplitude_robust 1 segs /\ ~ dephasing_robust 1 segs.
Proof.
  assert (S := short); destruct (case (XYConcatenated 2) 16 8 0) as [s [c [segs [A [B [D [H1 H2]]]]]]];
    try lra; try (cbn [spacing valid_request separated]; auto; lra).
  exists s, c, segs; repeat (split; [assumption|]); rewrite H1, H2; cbn; tauto.
Qed.
