(** * Converted sequences under noise along every direction: C113 *)

From Verif Require Import L_NoiseExact L_VectorControl.
From Coq Require Import Lia.
Import ListNotations.
Set Bullet Behavior "Strict Subproofs".
Open Scope string_scope.
Open Scope list_scope.
Open Scope R_scope.

(** C113: a converted sequence evolves like the sequence of instantaneous pulses under the same noise, up to the total pulse width and the total rotation angle *)
Theorem C113_finite_pulses :
  forall T n0 l maxr maxd mn name c segs eps x y z E M V X,
  constructible_sequence (sequence_of T n0 l) -> nondecreasing (map e_time l) -> / 10 ^ 8 < T -> (forall e, In e l -> clean e) ->
  convert_dds_to_driven_control (sequence_of T n0 l) maxr maxd mn name = Ok c -> describes segs c -> duration c = T ->
  (forall t, continuous x t) -> (forall t, continuous y t) -> (forall t, continuous z t) ->
  bounded_by eps E 0 T -> 0 <= M -> strength_below x y z M T ->
  vector_control eps x y z 0 segs V -> vector_sequence x y z 0 T l X ->
  close_to (M * total (map (pulse_width maxr maxd mn) l) + E * total (map e_rabi l) / 2) V X.
Proof. exact vector_pulses. Qed.
Print Assumptions C113_finite_pulses.

(** C113: a converted predefined sequence suppresses the noise along every axis to its order *)
Theorem C113_predefined :
  forall r T pre name s maxr maxd mn name' c segs nx ny nz,
  / 10 ^ 8 < T -> build_sequence r T pre name = Ok s -> vector_orders r nx ny nz ->
  convert_dds_to_driven_control s maxr maxd mn name' = Ok c -> describes segs c -> duration c = T ->
  exists l, s = sequence_of T name l /\
  forall eps x y z E M Kx Ky Kz V,
  smooth_detuning x nx Kx T -> smooth_detuning y ny Ky T -> smooth_detuning z nz Kz T ->
  bounded_by eps E 0 T -> 0 <= M -> strength_below x y z M T ->
  vector_control eps x y z 0 segs V ->
  close_to (M * total (map (pulse_width maxr maxd mn) l) + E * total (map e_rabi l) / 2 +
            ((M * T) ^ 2 / 8 + (residue nx Kx T + residue ny Ky T + residue nz Kz T))) V (pulse_product l).
Proof. exact vector_predefined. Qed.
Print Assumptions C113_predefined.

(** C113: the evolution exists and is unique *)
Theorem C113_solution :
  forall eps x y z t0 l,
  (forall t, continuous eps t) -> (forall t, continuous x t) -> (forall t, continuous y t) -> (forall t, continuous z t) ->
  (forall g, In g l -> 0 <= g_dur g) ->
  exists! V, vector_control eps x y z t0 l V.
Proof.
  intros eps x y z t0 l CE CX CY CZ P; destruct (vector_control_exists eps x y z l CE CX CY CZ t0) as [V E]; exists V; split; auto.
  intros W F; exact (vector_control_unique eps x y z l P t0 V W E F).
Qed.
Print Assumptions C113_solution.

(** C113: a noise along Z alone is the detuning error of C89 *)
Theorem C113_detuning :
  forall eps beta t0 l V,
  vector_control eps (fun _ => 0) (fun _ => 0) beta t0 l V <-> noisy_control eps beta t0 l V.
Proof. intros eps beta t0 l V; apply vector_control_detuning. Qed.
Print Assumptions C113_detuning.

(** spin echo of duration 2 and one pulse of width pi/8, under a static noise 1/10 along Y and 1/10 along Z *)
Example C113_case : exists l c segs V,
  build_sequence SpinEcho 2 false None = Ok (sequence_of 2 None l) /\
  convert_dds_to_driven_control (sequence_of 2 None l) 8 8 0 None = Ok c /\ describes segs c /\
  vector_control (fun _ => 0) (fun _ => 0) (fun _ => / 10) (fun _ => / 10) 0 segs V /\
  close_to (PI / 40 + / 50) V (pulse_product l).
Proof.
  assert (P := PI_4); assert (P' := PI2_3_2); assert (S0 := small_pos).
  destruct (predefined_rates SpinEcho 2 false None 8 8 None) as [s [c [A [B [_ DU]]]]]; cbn [spacing valid_request separated]; try lra; auto.
  destruct (request_validity SpinEcho 2 false None) as [[s' [A' [CS _]]] _]; [cbn; lra|].
  rewrite A in A'; injection A' as <-.
  destruct (request_pulses SpinEcho Logic.I) as [rel [DR _]].
  assert (Q := DR 2 false None ltac:(lra)); rewrite A in Q; injection Q as ->.
  destruct (conversion_result _ _ _ _ _ _ _ _ CS B) as [_ [_ [_ [D _]]]].
  set (segs := converted 8 8 0 2 (with_pre_post false 2 (map (scale 2) rel))) in *.
  destruct (vector_control_exists (fun _ => 0) (fun _ => 0) (fun _ => / 10) (fun _ => / 10) segs) with (t0 := 0) as [V N];
    try (intros; apply continuous_const).
  destruct (C113_predefined SpinEcho 2 false None _ 8 8 0 None c segs 0 1 1
    ltac:(lra) A ltac:(cbn; auto) B D DU) as [l [El H]].
  exists l, c, segs, V; rewrite <- El; split; [exact A|split; [exact B|split; [exact D|split; [exact N|]]]].
  assert (L1 : l = Event 1 PI 0 0 :: nil).
  { assert (SE : build_sequence SpinEcho 2 false None = Ok (sequence_of 2 None (Event 1 PI 0 0 :: nil))).
    { assert (H2 : 0 < 2) by lra; assert (ST := proj1 (spin_echo_timing 2 false None) H2).
      cbn [build_sequence]; rewrite ST; unfold with_pre_post, pi_pulse; cbn [map]; repeat f_equal; field. }
    apply (sequence_of_inj 2 None _ 2 None); congruence. }
  assert (Cl := H (fun _ => 0) (fun _ => 0) (fun _ => / 10) (fun _ => / 10) 0 (/ 5) 0 0 0 V).
  assert (Z0 : smooth_detuning (fun _ => 0) 0 0 2).
  { split; [intros; apply continuous_const|]; intros t _; split; [intros k _; apply ex_derive_n_const|cbn; rewrite Rabs_R0; lra]. }
  specialize (Cl Z0 (constant_smooth (/ 10) 1 2 ltac:(lia)) (constant_smooth (/ 10) 1 2 ltac:(lia))).
  specialize (Cl ltac:(intros t _; rewrite Rabs_R0; lra) ltac:(lra) ltac:(intros t _; lra) N).
  rewrite L1 in Cl |- *; cbn [map total] in Cl.
  replace (pulse_width 8 8 0 (Event 1 PI 0 0)) with (PI / 8) in Cl.
  2:{ unfold pulse_width; cbn [e_rabi]; destruct (Rle_dec (Rabs PI) (/ 10 ^ 8)) as [X|X].
      - rewrite Rabs_pos_eq in X; lra.
      - rewrite Rmax_left; lra. }
  replace (PI / 40 + / 50) with (/ 5 * (PI / 8 + 0) + 0 * (e_rabi (Event 1 PI 0 0) + 0) / 2 +
    ((/ 5 * 2) ^ 2 / 8 + (residue 0 0 2 + residue 1 0 2 + residue 1 0 2))) by (unfold residue; cbn; field).
  exact Cl.
Qed.
