(** * Properties of converted sequences under noise *)

From Verif Require Import L_FinitePulse.
Import ListNotations.
Open Scope string_scope.
Open Scope list_scope.
Open Scope R_scope.

(** C67: under a constant detuning and a relative amplitude error, the converted control performs the evolution of the ideal sequence up to terms proportional to the total pulse width and to the total rotation angle *)
Theorem C67_finite_pulses :
  forall T n0 l maxr maxd mn name c segs eps delta,
  constructible_sequence (sequence_of T n0 l) -> / 10 ^ 8 < T -> (forall e, In e l -> clean e) ->
  convert_dds_to_driven_control (sequence_of T n0 l) maxr maxd mn name = Ok c -> describes segs c ->
  close_to (Rabs delta * (total (map (pulse_width maxr maxd mn) l) + (duration c - T) / 2) +
            Rabs eps * total (map e_rabi l) / 2)
    (noisy_evolution eps delta segs) (dephased_evolution (fun t => delta * t) T l).
Proof. exact finite_pulses. Qed.
Print Assumptions C67_finite_pulses.

(** C67: if the sequence cancels a constant detuning, the converted control does so up to its pulse width, however long it is *)
Theorem C67_decoupling :
  forall T n0 l maxr maxd mn name c segs eps delta,
  constructible_sequence (sequence_of T n0 l) -> / 10 ^ 8 < T -> (forall e, In e l -> clean e) ->
  refocuses (sequence_of T n0 l) ->
  convert_dds_to_driven_control (sequence_of T n0 l) maxr maxd mn name = Ok c -> describes segs c ->
  close_to (Rabs delta * (total (map (pulse_width maxr maxd mn) l) + (duration c - T) / 2) +
            Rabs eps * total (map e_rabi l) / 2)
    (noisy_evolution eps delta segs) (pulse_product l).
Proof. exact finite_decoupling. Qed.
Print Assumptions C67_decoupling.

(** four pulses of width pi/8: the error does not depend on the duration 8 *)
Example C67_case : exists l c segs, build_sequence (CPMG 4) 8 false None = Ok (sequence_of 8 None l) /\
  convert_dds_to_driven_control (sequence_of 8 None l) 8 8 0 None = Ok c /\ describes segs c /\
  forall eps delta, close_to (Rabs delta * (PI / 2) + Rabs eps * (2 * PI)) (noisy_evolution eps delta segs) (pulse_product l).
Proof.
  assert (P := PI_4); assert (P' := PI2_3_2); assert (S0 := small_pos).
  destruct (predefined_rates (CPMG 4) 8 false None 8 8 None) as [s [c [A [B [_ DU]]]]]; cbn [spacing valid_request separated]; try lra; auto.
  destruct (request_validity (CPMG 4) 8 false None) as [[s' [A' [CS _]]] _]; [cbn; lra|].
  rewrite A in A'; injection A' as <-.
  assert (TR : truncates_to 4 4) by (unfold truncates_to; simpl; lra).
  assert (L4 : (1 <= 4)%nat) by lia.
  assert (T8 : 0 < 8) by lra.
  destruct (refocusing 8 4 4 false None T8 TR L4) as [_ [_ [[s' [A' RF]] _]]].
  change (build_sequence (CPMG 4) 8 false None) with (new_cpmg_sequence 8 4 false None) in *.
  rewrite A in A'; injection A' as <-.
  assert (TI := cpmg_timing 8 4 4 false None T8 TR L4); set (l := with_pre_post _ _ _) in TI.
  assert (Es : s = sequence_of 8 None l) by congruence; subst s.
  destruct (conversion_result _ _ _ _ _ _ _ _ CS B) as [_ [_ [_ [D _]]]].
  assert (LT : / 10 ^ 8 < 8) by lra.
  assert (K : forall e, In e l -> clean e) by (intros e; apply predefined_clean).
  exists l, c; eexists; split; [exact A|split; [exact B|split; [exact D|]]].
  intros eps delta; assert (Q := finite_decoupling _ _ _ _ _ _ _ _ _ eps delta CS LT K RF B D).
  assert (W : forall t, pulse_width 8 8 0 (Event t PI (PI / 2) 0) = PI / 8).
  { intros t; unfold pulse_width; cbn [e_rabi]; destruct (Rle_dec (Rabs PI) (/ 10 ^ 8)) as [X|X].
    - rewrite Rabs_pos_eq in X; lra.
    - rewrite Rmax_left; lra. }
  unfold l in Q at 1 2; unfold with_pre_post in Q; cbn [seq map pi_pulse e_rabi total] in Q; rewrite !W, DU in Q.
  replace (Rabs delta * (PI / 2) + Rabs eps * (2 * PI)) with
    (Rabs delta * (PI / 8 + (PI / 8 + (PI / 8 + (PI / 8 + 0))) + (8 - 8) / 2) + Rabs eps * (PI + (PI + (PI + (PI + 0)))) / 2) by field.
  exact Q.
Qed.

