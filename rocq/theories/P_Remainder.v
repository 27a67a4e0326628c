(** * Theorems: C106-C107, how far errors can move the evolution of a control *)

From Verif Require Import L_RemainderControl L_Remainder L_Predefined L_Symmetry Spec_Remainder.
From Verif Require Import L_FirstOrderFamilies L_FinitePulse L_PreConvert L_Requests L_FirstOrder.
From Coq Require Import Lia.
Import ListNotations.
Set Bullet Behavior "Strict Subproofs".
Open Scope string_scope.
Open Scope list_scope.
Open Scope R_scope.

(** C106: an amplitude error [e] and a detuning [d] together move no entry of the evolution by more than half the angle they add; by half the square of that half if both cancel to first order *)
Theorem C106_distance :
  forall c l e d, constructible c -> describes l c ->
  close_to ((Rabs e * turned l + Rabs d * duration c) / 2) (noisy_evolution e d l) (evolution l) /\
  (amplitude_robust 1 l -> dephasing_robust 1 l ->
   close_to ((Rabs e * turned l + Rabs d * duration c) ^ 2 / 8) (noisy_evolution e d l) (evolution l)).
Proof. exact control_distance. Qed.
Print Assumptions C106_distance.

(** C106: one error alone *)
Theorem C106_distance_single :
  forall c l, constructible c -> describes l c ->
  (amplitude_robust 1 l -> forall e, close_to ((e * turned l) ^ 2 / 8) (noisy_evolution e 0 l) (evolution l)) /\
  (dephasing_robust 1 l -> forall d, close_to ((d * duration c) ^ 2 / 8) (noisy_evolution 0 d l) (evolution l)).
Proof. exact control_distance_single. Qed.
Print Assumptions C106_distance_single.

(** C106: the angle is at most the maximum Rabi rate times the duration *)
Theorem C106_turned :
  forall c l w, constructible c -> describes l c -> maximum_rabi_rate c = Ok w -> 0 <= turned l <= w * duration c.
Proof. exact turned_bound. Qed.
Print Assumptions C106_turned.

(** C106: the predefined sequences of pi pulses that cancel both errors *)
Theorem C106_sequences :
  forall r T n0 s maxr maxd mn name c segs e d, / 10 ^ 8 < T ->
  build_sequence r T false n0 = Ok s ->
  convert_dds_to_driven_control s maxr maxd mn name = Ok c -> describes segs c -> duration c = T ->
  balanced_detuning r -> balanced_amplitude r ->
  close_to ((Rabs e * turned segs + Rabs d * T) ^ 2 / 8) (noisy_evolution e d segs) (evolution segs).
Proof. exact sequence_distance. Qed.
Print Assumptions C106_sequences.

(** C107: an amplitude error of a control without detunings that cancels [k] orders *)
Theorem C107_resonant :
  forall c l k e, constructible c -> describes l c -> (forall g, In g l -> g_det g = 0) ->
  amplitude_robust k l -> -1 < e ->
  close_to ((Rabs e * turned l / 2) ^ S k / INR (fact (S k))) (noisy_evolution e 0 l) (evolution l).
Proof. exact resonant_control_distance. Qed.
Print Assumptions C107_resonant.

(** C107: the composite pulses *)
Theorem C107_schemes :
  forall s th w phi name c l, build s th w phi name = Ok c -> describes l c ->
  (forall e, -1 < e ->
   close_to ((Rabs e * (w * duration c) / 2) ^ S (amplitude_order s) / INR (fact (S (amplitude_order s))))
     (noisy_evolution e 0 l) (evolution l)) /\
  (detuning_cancels s th -> forall d, close_to ((d * duration c) ^ 2 / 8) (noisy_evolution 0 d l) (evolution l)) /\
  (detuning_cancels s th -> (1 <= amplitude_order s)%nat -> forall e d,
   close_to (((Rabs e * w + Rabs d) * duration c) ^ 2 / 8) (noisy_evolution e d l) (evolution l)).
Proof. exact scheme_distance. Qed.
Print Assumptions C107_schemes.

(** a pi pulse with BB1 and every Rabi rate one percent too high: no entry moves by more than a thousandth *)
Example C107_case : exists c l, build BB1 PI 1 0 None = Ok c /\ describes l c /\
  close_to (1 / 1000) (noisy_evolution (1 / 100) 0 l) (evolution l).
Proof.
  assert (P := PI_pos); assert (P4 := PI_4); destruct (demo_build BB1) as [c [l [B [D _]]]]; exists c, l; split; [exact B|split; [exact D|]].
  destruct (rates_and_duration _ _ _ _ _ _ _ B D) as [_ [_ [_ DU]]]; cbn [scheme_duration] in DU.
  assert (H := proj1 (C107_schemes BB1 PI 1 0 None c l B D) (1 / 100) ltac:(lra)).
  eapply close_to_weaken; [|exact H]; rewrite DU, Rabs_right by lra; cbn [amplitude_order].
  replace (INR (fact 3)) with 6 by (cbn; ring); set (x := 1 / 100 * (1 * ((PI + 4 * PI) / 1)) / 2).
  assert (X : 0 <= x <= 1 / 10) by (unfold x; lra).
  assert (x ^ 3 <= (1 / 10) ^ 3) by (apply pow_incr; lra); lra.
Qed.

Example C106_case : exists c l, build CORPSE_in_BB1 PI 1 0 None = Ok c /\ describes l c /\
  forall e d, close_to (((Rabs e * 1 + Rabs d) * duration c) ^ 2 / 8) (noisy_evolution e d l) (evolution l).
Proof.
  destruct (demo_build CORPSE_in_BB1) as [c [l [B [D _]]]]; exists c, l; split; [exact B|split; [exact D|]].
  apply (C107_schemes CORPSE_in_BB1 PI 1 0 None c l B D); cbn; auto.
Qed.
