(** * Properties of controls under noise that varies in time *)

From Coq Require Import Lia.
From Verif Require Import L_DriveExists.
Import ListNotations.
Open Scope string_scope.
Open Scope list_scope.
Open Scope R_scope.

(** C89: for a continuous relative error of the amplitude and a continuous detuning, the Schroedinger equation of a control has exactly one solution *)
Theorem C89_solution :
  forall eps beta l t0,
  (forall t, continuous eps t) -> (forall t, continuous beta t) ->
  (forall g, In g l -> 0 <= g_dur g) ->
  exists V, noisy_control eps beta t0 l V /\ forall V', noisy_control eps beta t0 l V' -> V' = V.
Proof.
  intros eps beta l t0 CE CB P; destruct (control_exists eps beta l CE CB t0) as [V N].
  exists V; split; auto; intros V' N'; symmetry; exact (control_unique eps beta l P t0 V V' N N').
Qed.
Print Assumptions C89_solution.

(** C89: for constant errors it is the evolution used in C67 and C68, and without errors the evolution of the control *)
Theorem C89_constant :
  forall eps delta l t0,
  noisy_control (fun _ => eps) (fun _ => delta) t0 l (noisy_evolution eps delta l) /\
  noisy_control (fun _ => 0) (fun _ => 0) t0 l (evolution l).
Proof. intros; split; apply control_constant. Qed.
Print Assumptions C89_constant.

(** C89: errors bounded by E and M change the evolution of any control by at most half of M times its duration plus half of E times its total rotation angle *)
Theorem C89_control :
  forall eps beta E M l t0 V,
  (forall g, In g l -> 0 <= g_rabi g /\ 0 <= g_dur g) ->
  bounded_by eps E t0 (t0 + total (map g_dur l)) -> bounded_by beta M t0 (t0 + total (map g_dur l)) ->
  noisy_control eps beta t0 l V ->
  close_to ((M * total (map g_dur l) + E * total (map (fun g => g_rabi g * g_dur g) l)) / 2) V (evolution l).
Proof. intros eps beta E M l t0 V P BE BM N; eapply control_near; eauto. Qed.
Print Assumptions C89_control.

(** C89: a converted sequence evolves like the sequence of instantaneous pulses under the same detuning, up to the total pulse width and the total rotation angle *)
Theorem C89_finite_pulses :
  forall T n0 l maxr maxd mn name c segs eps beta E M V X,
  constructible_sequence (sequence_of T n0 l) -> / 10 ^ 8 < T -> (forall e, In e l -> clean e) ->
  convert_dds_to_driven_control (sequence_of T n0 l) maxr maxd mn name = Ok c -> describes segs c -> duration c = T ->
  (forall t, continuous beta t) -> bounded_by eps E 0 T -> bounded_by beta M 0 T ->
  noisy_control eps beta 0 segs V -> noisy_sequence beta 0 T l X ->
  close_to (M * total (map (pulse_width maxr maxd mn) l) + E * total (map e_rabi l) / 2) V X.
Proof. exact varying_pulses. Qed.
Print Assumptions C89_finite_pulses.

(** C89: a converted predefined sequence suppresses a smooth detuning to its order, up to the total pulse width and the total rotation angle *)
Theorem C89_predefined :
  forall r T pre name s maxr maxd mn name' c segs n eps beta E M K V,
  / 10 ^ 8 < T -> build_sequence r T pre name = Ok s -> suppressed_order r n ->
  convert_dds_to_driven_control s maxr maxd mn name' = Ok c -> describes segs c -> duration c = T ->
  smooth_detuning beta n K T -> bounded_by eps E 0 T -> bounded_by beta M 0 T ->
  noisy_control eps beta 0 segs V ->
  exists l, s = sequence_of T name l /\
    close_to (M * total (map (pulse_width maxr maxd mn) l) + E * total (map e_rabi l) / 2 +
              K * T ^ (n + 1) / (2 * INR (fact (n + 1)))) V (pulse_product l).
Proof. exact varying_predefined. Qed.
Print Assumptions C89_predefined.

(** spin echo of duration 2 and one pulse of width pi/8, under the detuning t and the amplitude error t/100 *)
Example C89_case : exists l c segs V,
  build_sequence SpinEcho 2 false None = Ok (sequence_of 2 None l) /\
  convert_dds_to_driven_control (sequence_of 2 None l) 8 8 0 None = Ok c /\ describes segs c /\
  noisy_control (fun t => t / 100) (fun t => t) 0 segs V /\
  close_to (2 * (PI / 8) + / 50 * PI / 2 + 1) V (pulse_product l).
Proof.
  assert (P := PI_4); assert (P' := PI2_3_2); assert (S0 := small_pos).
  destruct (predefined_rates SpinEcho 2 false None 8 8 None) as [s [c [A [B [_ DU]]]]]; cbn [spacing valid_request separated]; try lra; auto.
  destruct (request_validity SpinEcho 2 false None) as [[s' [A' [CS _]]] _]; [cbn; lra|].
  rewrite A in A'; injection A' as <-.
  destruct (request_pulses SpinEcho Logic.I) as [rel [DR _]].
  assert (Q := DR 2 false None ltac:(lra)); rewrite A in Q; injection Q as ->.
  destruct (conversion_result _ _ _ _ _ _ _ _ CS B) as [_ [_ [_ [D _]]]].
  set (segs := converted 8 8 0 2 (with_pre_post false 2 (map (scale 2) rel))) in *.
  destruct (control_exists (fun t => t / 100) (fun t => t) segs) with (t0 := 0) as [V N].
  { intros t; apply @ex_derive_continuous; auto_derive; auto. }
  { intros t; apply continuous_id. }
  destruct (C89_predefined SpinEcho 2 false None _ 8 8 0 None c segs 1%nat (fun t => t / 100) (fun t => t) (/ 50) 2 1 V
    ltac:(lra) A eq_refl B D DU) as [l [El Cl]]; auto.
  - split; [intros; apply continuous_id|]; intros t _; split.
    + intros [|[|k]] H; [exact Logic.I| |lia]; cbn; auto_derive; auto.
    + cbn; rewrite Derive_id, Rabs_R1; lra.
  - intros t T; rewrite Rabs_pos_eq; lra.
  - intros t T; rewrite Rabs_pos_eq; lra.
  - exists l, c, segs, V; rewrite <- El; split; [exact A|split; [exact B|split; [exact D|split; [exact N|]]]].
    assert (L1 : l = [Event 1 PI 0 0]).
    { assert (SE : build_sequence SpinEcho 2 false None = Ok (sequence_of 2 None [Event 1 PI 0 0])).
      { assert (H2 : 0 < 2) by lra; assert (ST := proj1 (spin_echo_timing 2 false None) H2).
        cbn [build_sequence]; rewrite ST; unfold with_pre_post, pi_pulse; cbn [map]; repeat f_equal; field. }
      apply (sequence_of_inj 2 None _ 2 None); congruence. }
    rewrite L1 in Cl |- *; cbn [map total] in Cl.
    replace (pulse_width 8 8 0 (Event 1 PI 0 0)) with (PI / 8) in Cl.
    2:{ unfold pulse_width; cbn [e_rabi]; destruct (Rle_dec (Rabs PI) (/ 10 ^ 8)) as [X|X].
        - rewrite Rabs_pos_eq in X; lra.
        - rewrite Rmax_left; lra. }
    replace (2 * (PI / 8) + / 50 * PI / 2 + 1) with
      (2 * (PI / 8 + 0) + / 50 * (e_rabi (Event 1 PI 0 0) + 0) / 2 + 1 * 2 ^ (1 + 1) / (2 * INR (fact (1 + 1)))) by (cbn; field).
    exact Cl.
Qed.
