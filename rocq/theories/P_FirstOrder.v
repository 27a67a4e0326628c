(** * Properties of finite pulses to first order in the noise *)

From Coq Require Import Lia.
From Verif Require Import L_FirstOrderFamilies L_FinitePulse L_PreConvert L_Requests L_FirstOrder.
Import ListNotations.
Set Bullet Behavior "Strict Subproofs".
Open Scope string_scope.
Open Scope list_scope.
Open Scope R_scope.

(** C99: the evolution of a converted sequence of pi pulses does not depend on a small constant detuning to first order if and only if the centres of the pulses cancel it and the pulses about x, and those about y, cancel with the signs the other pulses give them *)
Theorem C99_detuning :
  forall T n0 ps maxr maxd mn name c segs,
  constructible_sequence (sequence_of T n0 (map pi_pulse ps)) -> / 10 ^ 8 < T ->
  convert_dds_to_driven_control (sequence_of T n0 (map pi_pulse ps)) maxr maxd mn name = Ok c ->
  describes segs c -> duration c = T ->
  dephasing_robust 1 segs <->
  switched (fun t => t) T (flip_times (centred maxr maxd mn T ps)) = 0 /\
  signed_count AX (other_than AY) ps = 0 /\ signed_count AY (other_than AX) ps = 0.
Proof. exact first_order_detuning. Qed.
Print Assumptions C99_detuning.

(** C99: the predefined sequences that keep their first-order insensitivity with finite pulses *)
Theorem C99_predefined :
  forall r T n0 s maxr maxd mn name c segs, / 10 ^ 8 < T ->
  build_sequence r T false n0 = Ok s ->
  convert_dds_to_driven_control s maxr maxd mn name = Ok c -> describes segs c -> duration c = T ->
  dephasing_robust 1 segs <-> balanced_detuning r.
Proof. intros; eapply request_first_order; eauto. Qed.
Print Assumptions C99_predefined.

(** C100: the same for a small relative error of the Rabi rate *)
Theorem C100_amplitude :
  forall T n0 ps maxr maxd mn name c segs,
  constructible_sequence (sequence_of T n0 (map pi_pulse ps)) -> / 10 ^ 8 < T ->
  convert_dds_to_driven_control (sequence_of T n0 (map pi_pulse ps)) maxr maxd mn name = Ok c ->
  describes segs c -> duration c = T ->
  amplitude_robust 1 segs <->
  signed_count AX (other_than AX) ps = 0 /\ signed_count AY (other_than AY) ps = 0.
Proof. exact first_order_amplitude. Qed.
Print Assumptions C100_amplitude.

Theorem C100_predefined :
  forall r T n0 s maxr maxd mn name c segs, / 10 ^ 8 < T ->
  build_sequence r T false n0 = Ok s ->
  convert_dds_to_driven_control s maxr maxd mn name = Ok c -> describes segs c -> duration c = T ->
  amplitude_robust 1 segs <-> balanced_amplitude r.
Proof. intros; eapply request_first_order; eauto. Qed.
Print Assumptions C100_predefined.

Lemma case r T m : / 10 ^ 8 < T -> valid_request r -> separated r false -> 2 * PI / (spacing r * T) <= m ->
  exists s c segs, build_sequence r T false None = Ok s /\ convert_dds_to_driven_control s m m 0 None = Ok c /\
    describes segs c /\ duration c = T /\
    (dephasing_robust 1 segs <-> balanced_detuning r) /\ (amplitude_robust 1 segs <-> balanced_amplitude r).
Proof.
  intros LT V SP M; assert (S0 := small_pos).
  destruct (predefined_rates r T false None m m None) as [s [c [A [B [G DU]]]]]; auto; [lra|].
  destruct (request_pulses r V) as [rel [DR _]]; assert (A' := DR T false None ltac:(lra)); rewrite A in A'; injection A' as Es.
  destruct (request_validity r T false None) as [[s' [A' [CS _]]] _]; [split; auto; lra|].
  rewrite A in A'; injection A' as <-; rewrite Es in B, CS.
  destruct (conversion_result _ _ _ _ _ _ _ _ CS B) as [_ [_ [_ [D _]]]].
  rewrite <- Es in B; exists s, c; eexists; split; [exact A|split; [exact B|split; [exact D|split; [exact DU|]]]].
  split; [eapply C99_predefined|eapply C100_predefined]; eauto.
Qed.

(** four pulses cancel, three do not; ideal pulses cancel a detuning in both cases *)
Example C99_case : exists s c segs, build_sequence (CPMG 4) 8 false None = Ok s /\
  convert_dds_to_driven_control s 8 8 0 None = Ok c /\ describes segs c /\ dephasing_robust 1 segs /\ ~ amplitude_robust 1 segs.
Proof.
  assert (P := PI_4); destruct (case (CPMG 4) 8 8) as [s [c [segs [A [B [D [_ [H1 H2]]]]]]]];
    try lra; try (cbn [spacing valid_request separated]; auto; lra).
  exists s, c, segs; repeat (split; [assumption|]); rewrite H1, H2; split; [|cbn; tauto].
  exists 4%nat; split; [unfold truncates_to; simpl; lra|reflexivity].
Qed.
Example C99_case_odd : exists s c segs, build_sequence (CPMG 3) 8 false None = Ok s /\
  convert_dds_to_driven_control s 8 8 0 None = Ok c /\ describes segs c /\ refocuses s /\ ~ dephasing_robust 1 segs.
Proof.
  assert (P := PI_4); destruct (case (CPMG 3) 8 8) as [s [c [segs [A [B [D [_ [H1 H2]]]]]]]];
    try lra; try (cbn [spacing valid_request separated]; auto; lra).
  assert (TR : truncates_to 3 3) by (unfold truncates_to; simpl; lra).
  exists s, c, segs; split; [auto|]; split; [auto|]; split; [auto|]; split.
  - destruct (refocusing 8 3 3 false None) as [_ [_ [[s' [A' RF]] _]]]; [lra|auto|lia|].
    change (build_sequence (CPMG 3) 8 false None) with (new_cpmg_sequence 8 3 false None) in A.
    rewrite A in A'; injection A' as <-; auto.
  - rewrite H1; intros [n [TN E]]; rewrite (trunc_same 3 n 3) in E by auto; discriminate.
Qed.

(** the XY sequence of order one cancels an error of the Rabi rate, but not a detuning; order two cancels both *)
Example C100_case : exists s c segs, build_sequence (XYConcatenated 1) 16 false None = Ok s /\
  convert_dds_to_driven_control s 8 8 0 None = Ok c /\ describes segs c /\ amplitude_robust 1 segs /\ ~ dephasing_robust 1 segs.
Proof.
  assert (P := PI_4); destruct (case (XYConcatenated 1) 16 8) as [s [c [segs [A [B [D [_ [H1 H2]]]]]]]];
    try lra; try (cbn [spacing valid_request separated]; auto; lra).
  exists s, c, segs; repeat (split; [assumption|]); rewrite H1, H2; cbn; split; [auto|lra].
Qed.
Example C100_case_two : exists s c segs, build_sequence (XYConcatenated 2) 16 false None = Ok s /\
  convert_dds_to_driven_control s 8 8 0 None = Ok c /\ describes segs c /\ amplitude_robust 1 segs /\ dephasing_robust 1 segs.
Proof.
  assert (P := PI_4); destruct (case (XYConcatenated 2) 16 8) as [s [c [segs [A [B [D [_ [H1 H2]]]]]]]];
    try lra; try (cbn [spacing valid_request separated]; auto; lra).
  exists s, c, segs; repeat (split; [assumption|]); rewrite H1, H2; cbn; split; [auto|lra].
Qed.
