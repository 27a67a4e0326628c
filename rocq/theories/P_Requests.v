(** * Properties of all the predefined sequences *)

From Verif Require Import L_PreConvert.
Import ListNotations.
Open Scope string_scope.
Open Scope list_scope.
Open Scope R_scope.

(** C44: valid requests give valid sequences with ordered pulses inside the sequence, others ArgumentsValueError *)
Theorem C44_validity :
  forall r T pre name,
  (0 < T /\ valid_request r -> exists s, build_sequence r T pre name = Ok s /\ constructible_sequence s /\
     seq_duration s = T /\ seq_name s = name /\ nondecreasing (offsets s) /\
     (pre = false -> forall t, In t (offsets s) -> 0 < t <= T) /\
     (is_xy r = false -> strictly_increasing (offsets s) /\
        (pre = false -> forall t, In t (offsets s) -> 0 < t < T))) /\
  (~ (0 < T /\ valid_request r) -> argument_error (build_sequence r T pre name)).
Proof. exact request_validity. Qed.
Print Assumptions C44_validity.

Example C44_case : exists s, build_sequence (Quadratic 2 (7 / 2)) 5 false None = Ok s /\
  strictly_increasing (offsets s) /\ forall t, In t (offsets s) -> 0 < t < 5.
Proof.
  destruct (request_validity (Quadratic 2 (7 / 2)) 5 false None) as [[s [A [_ [_ [_ [_ [_ B]]]]]]] _]; [cbn; lra|].
  exists s; split; auto; destruct (B eq_refl) as [C D]; auto.
Qed.
Example C44_case_invalid : argument_error (build_sequence (Walsh 2001) 5 true None).
Proof. apply request_validity; cbn; lra. Qed.

(** C45: the duration only scales the offsets; also for rejected requests *)
Theorem C45_scaling :
  forall r k T pre name,
  0 < k ->
  build_sequence r (k * T) pre name = map_result (stretch k) (build_sequence r T pre name).
Proof. exact request_scaling. Qed.
Print Assumptions C45_scaling.

Example C45_case : exists s, build_sequence (Uhrig 3) 2 true None = Ok s /\
  build_sequence (Uhrig 3) (5 * 2) true None = Ok (stretch 5 s).
Proof.
  destruct (request_validity (Uhrig 3) 2 true None) as [[s [A _]] _]; [cbn; lra|].
  exists s; split; auto; rewrite request_scaling, A by lra; reflexivity.
Qed.

(** C59: pulses short compared to the spacing can always be converted *)
Theorem C59_conversion :
  forall r T pre name maxr maxd mn name',
  0 < T -> valid_request r -> separated r pre -> 0 < maxr -> 0 < maxd -> 0 <= mn ->
  2 * Rmax (Rmax (PI / maxr) (PI / maxd)) mn + mn <= spacing r * T ->
  exists s c, build_sequence r T pre name = Ok s /\
    convert_dds_to_driven_control s maxr maxd mn name' = Ok c /\ constructible c /\ duration c = T.
Proof. exact predefined_conversion. Qed.
Print Assumptions C59_conversion.

(** C59: explicit rates without a minimum segment duration *)
Theorem C59_rates :
  forall r T pre name maxr maxd name',
  0 < T -> valid_request r -> separated r pre ->
  2 * PI / (spacing r * T) <= maxr -> 2 * PI / (spacing r * T) <= maxd ->
  exists s c, build_sequence r T pre name = Ok s /\
    convert_dds_to_driven_control s maxr maxd 0 name' = Ok c /\ constructible c /\ duration c = T.
Proof. exact predefined_rates. Qed.
Print Assumptions C59_rates.

(** C59: exactly the requests without simultaneous pulses can be converted *)
Theorem C59_convertibility :
  forall r T pre name,
  0 < T -> valid_request r ->
  exists s, build_sequence r T pre name = Ok s /\
    (separated r pre <-> exists maxr maxd mn name' c, convert_dds_to_driven_control s maxr maxd mn name' = Ok c).
Proof. exact predefined_convertibility. Qed.
Print Assumptions C59_convertibility.

Example C59_case : exists s c, build_sequence (CPMG 4) 8 true None = Ok s /\
  convert_dds_to_driven_control s 8 8 0 None = Ok c /\ duration c = 8.
Proof.
  assert (P := PI_4).
  destruct (predefined_rates (CPMG 4) 8 true None 8 8 None) as [s [c [A [B [_ D]]]]]; cbn [spacing valid_request separated]; try lra; auto.
  exists s, c; auto.
Qed.

(** C62: the control converted from a predefined sequence performs the ideal operation *)
Theorem C62_net :
  forall r T pre name s maxr maxd mn name' c segs,
  / 10 ^ 8 < T -> build_sequence r T pre name = Ok s ->
  convert_dds_to_driven_control s maxr maxd mn name' = Ok c -> describes segs c ->
  exists ps, s = sequence_of T name (with_pre_post pre T ps) /\
    evolution segs = pulse_product (with_pre_post pre T ps) /\
    (pre = true -> phase_equiv (evolution segs) (if Nat.even (count_not AX ps) then mone else pauli_z)).
Proof. exact predefined_net. Qed.
Print Assumptions C62_net.

Example C62_case : exists s c segs, build_sequence (CPMG 4) 8 true None = Ok s /\
  convert_dds_to_driven_control s 8 8 0 None = Ok c /\ describes segs c /\
  (phase_equiv (evolution segs) mone \/ phase_equiv (evolution segs) pauli_z).
Proof.
  assert (S0 := small_pos); destruct C59_case as [s [c [A [B _]]]].
  destruct (request_validity (CPMG 4) 8 true None) as [[s' [A' [CS _]]] _]; [cbn; lra|].
  rewrite A in A'; injection A' as <-.
  destruct (sequence_events s CS) as [l Q]; rewrite Q in CS, B.
  destruct (conversion_result _ _ _ _ _ _ _ _ CS B) as [_ [_ [_ [D _]]]]; rewrite <- Q in B.
  exists s, c; eexists; split; auto; split; auto; split; [exact D|].
  assert (LT : / 10 ^ 8 < 8) by lra.
  destruct (predefined_net _ _ _ _ _ _ _ _ _ _ _ LT A B D) as [ps [_ [_ N]]]; specialize (N eq_refl).
  destruct (Nat.even (count_not AX ps)); auto.
Qed.

(** C63: XY concatenated sequences of order three or more, or of order one with pre and post rotations, have simultaneous pulses and can never be converted *)
Theorem C63_xy_never_converts :
  forall T x pre name,
  0 < T -> 1 <= x -> ~ separated (XYConcatenated x) pre ->
  exists s, new_xy_concatenated_sequence T x pre name = Ok s /\ ~ strictly_increasing (offsets s) /\
    forall maxr maxd mn name', argument_error (convert_dds_to_driven_control s maxr maxd mn name').
Proof. exact xy_not_convertible. Qed.
Print Assumptions C63_xy_never_converts.

Example C63_case : exists s, new_xy_concatenated_sequence 1 3 false None = Ok s /\ ~ strictly_increasing (offsets s).
Proof.
  destruct (xy_not_convertible 1 3 false None) as [s [A [B _]]]; cbn [separated]; try lra; exists s; auto.
Qed.

