(** * Theorems: C121, fidelity of the final state under noise *)

From Verif Require Import L_DriveExists L_FastNoise.
From Verif Require Import L_DriftFiles L_NoisyFiles L_Drift L_DriveControl L_RemainderControl L_Remainder L_Predefined L_Symmetry Spec_Remainder Spec_Drive.
From Verif Require Import L_FirstOrderFamilies L_FinitePulse L_PreConvert L_Requests L_FirstOrder L_FloatPipeline L_FloatFiles.
From Verif Require Import L_ResponseThms Spec_Response Spec_Fidelity L_Fidelity Spec_Noise L_VectorNoise L_VectorControl Spec_VectorControl.
From Coq Require Import Lia.
Import ListNotations.
Set Bullet Behavior "Strict Subproofs".
Open Scope string_scope.
Open Scope list_scope.
Open Scope R_scope.

Lemma segments_of c l : constructible c -> describes l c -> (forall g, In g l -> 0 <= g_rabi g /\ 0 <= g_dur g) /\ total (map g_dur l) = duration c.
Proof.
  intros K D; destruct (control_segments c l K D) as [_ [P [_ DU]]]; split; [intros g I; destruct (P g I); lra|].
  rewrite <- DU; clear; induction l as [|g l IH]; [reflexivity|]; cbn [time_total fold_right map total]; fold (time_total l); rewrite IH; reflexivity.
Qed.

(** C121: some state is affected most; the mean over the six states along the axes is two thirds of that; a distance [e] of the evolutions limits it to (2 e)^2 *)
Theorem C121_worst :
  forall eps beta l t0 V, noisy_control eps beta t0 l V ->
  exists x, worst_infidelity (evolution l) V x /\ average_infidelity (evolution l) V = 2 / 3 * x /\
    forall e, close_to e V (evolution l) -> x <= (2 * e) ^ 2.
Proof. exact infidelities. Qed.
Print Assumptions C121_worst.

(** C121: the mean over all states is two thirds of the largest as well *)
Theorem C121_average :
  forall eps beta l t0 V, noisy_control eps beta t0 l V ->
  (forall x, worst_infidelity (evolution l) V x -> sphere_average (infidelity (evolution l) V) (2 / 3 * x)) /\
  (forall th phi x, worst_infidelity (rotation th phi) V x -> sphere_average (infidelity (rotation th phi) V) (2 / 3 * x)).
Proof. exact sphere_infidelity. Qed.
Print Assumptions C121_average.

(** C121: these are all states: a state is one of them up to a phase, which does not change its infidelity *)
Theorem C121_states :
  forall k, normalised k -> exists chi theta phi, 0 <= theta <= PI /\ k = with_phase chi (sphere_state theta phi) /\
  forall U V, infidelity U V k = infidelity U V (sphere_state theta phi).
Proof.
  intros k N; destruct (every_state k N) as [chi [th [ph [B ->]]]]; exists chi, th, ph; split; [exact B|split; [reflexivity|]].
  intros U V; apply infidelity_phase.
Qed.
Print Assumptions C121_states.

(** C121: errors bounded by E and M lose no more than the square of half of E times the total angle plus M times the duration *)
Theorem C121_control :
  forall c l eps beta E M V x, constructible c -> describes l c ->
  bounded_by eps E 0 (duration c) -> bounded_by beta M 0 (duration c) ->
  noisy_control eps beta 0 l V -> worst_infidelity (evolution l) V x ->
  0 <= x <= ((M * duration c + E * turned l) / 2) ^ 2.
Proof.
  intros c l eps beta E M V x K D BE BM N X; destruct (segments_of c l K D) as [P TD]; rewrite <- TD in *; split.
  - exact (worst_positive eps beta l 0 V x N X).
  - apply (control_infidelity eps beta E M l V x); auto.
Qed.
Print Assumptions C121_control.

(** C121: to first order the loss is a quarter of the square of the rotation the control responds with *)
Theorem C121_response :
  forall c l eps beta E M V W x, constructible c -> describes l c ->
  bounded_by eps E 0 (duration c) -> bounded_by beta M 0 (duration c) ->
  noisy_control eps beta 0 l V -> response eps beta 0 l W -> worst_infidelity (evolution l) V x ->
  exists a b d, W = mscale (0, -1) (hamiltonian a b d) /\
    Rabs (sqrt x - sqrt (a ^ 2 + b ^ 2 + d ^ 2) / 2) <= (M * duration c + E * turned l) ^ 2 / 8.
Proof.
  intros c l eps beta E M V W x K D BE BM N RS X; destruct (segments_of c l K D) as [P TD]; rewrite <- TD in *.
  apply (response_infidelity eps beta E M l V W x); auto.
Qed.
Print Assumptions C121_response.

(** C121: the composite pulses under errors that stay near constants *)
Theorem C121_schemes :
  forall s th w phi name c l eps beta e d E M V x, build s th w phi name = Ok c -> describes l c -> -1 < e -> 0 <= E ->
  bounded_by (fun t => eps t - e) E 0 (duration c) -> bounded_by (fun t => beta t - d) M 0 (duration c) ->
  noisy_control eps beta 0 l V -> worst_infidelity (evolution l) V x ->
  (d = 0 ->
   x <= ((E * w + M) * duration c +
         2 * ((Rabs e * (w * duration c) / 2) ^ S (amplitude_order s) / INR (fact (S (amplitude_order s))))) ^ 2) /\
  (detuning_cancels s th -> e = 0 \/ (1 <= amplitude_order s)%nat ->
   x <= ((E * w + M) * duration c + ((Rabs e * w + Rabs d) * duration c) ^ 2 / 4) ^ 2).
Proof.
  intros s th w phi name c l eps beta e d E M V x B D L E0 BE BM N X.
  destruct (scheme_drift s th w phi name c l eps beta e d E M V B D L E0 BE BM N) as [A1 A2].
  destruct (infidelities eps beta l 0 V N) as [y [Y [_ Z]]]; rewrite (worst_unique _ _ _ _ X Y); split.
  - intros Hd; eapply Rle_trans; [exact (Z _ (A1 Hd))|]; apply Req_le; f_equal; field; apply INR_fact_neq_0.
  - intros H1 H2; eapply Rle_trans; [exact (Z _ (A2 H1 H2))|]; apply Req_le; f_equal; field.
Qed.
Print Assumptions C121_schemes.

(** C121: the predefined sequences of pi pulses that cancel both errors *)
Theorem C121_sequences :
  forall r T n0 s maxr maxd mn name c segs eps beta e d E M V x, / 10 ^ 8 < T ->
  build_sequence r T false n0 = Ok s ->
  convert_dds_to_driven_control s maxr maxd mn name = Ok c -> describes segs c -> duration c = T ->
  balanced_detuning r -> balanced_amplitude r -> -1 < e ->
  bounded_by (fun t => eps t - e) E 0 T -> bounded_by (fun t => beta t - d) M 0 T ->
  noisy_control eps beta 0 segs V -> worst_infidelity (evolution segs) V x ->
  x <= (E * turned segs + M * T + (Rabs e * turned segs + Rabs d * T) ^ 2 / 4) ^ 2.
Proof.
  intros r T n0 s maxr maxd mn name c segs eps beta e d E M V x HT B C D DU BD BA L BE BM N X.
  assert (A := sequence_drift r T n0 s maxr maxd mn name c segs eps beta e d E M V HT B C D DU BD BA L BE BM N).
  destruct (infidelities eps beta segs 0 V N) as [y [Y [_ Z]]]; rewrite (worst_unique _ _ _ _ X Y).
  eapply Rle_trans; [exact (Z _ A)|]; apply Req_le; f_equal; field.
Qed.
Print Assumptions C121_sequences.

(** C121: a predefined sequence of ideal pulses that suppresses [n] orders, under a detuning whose n-th derivative is bounded by [M] *)
Theorem C121_decoupling :
  forall r T pre name n, 0 < T -> valid_request r -> suppressed_order r n ->
  exists s, build_sequence r T pre name = Ok s /\
  forall beta M l V, smooth_detuning beta n M T -> s = sequence_of T name l -> noisy_sequence beta 0 T l V ->
  exists x, worst_infidelity (pulse_product l) V x /\ average_infidelity (pulse_product l) V = 2 / 3 * x /\
    x <= (M * T ^ (n + 1) / INR (fact (n + 1))) ^ 2.
Proof. exact decoupling_infidelity. Qed.
Print Assumptions C121_decoupling.

(** C121: noise along every direction whose strength never exceeds [M]: any control *)
Theorem C121_vector :
  forall c l eps x y z E M V, constructible c -> describes l c -> 0 <= E -> 0 <= M ->
  bounded_by eps E 0 (duration c) -> strength_below x y z M (duration c) -> vector_control eps x y z 0 l V ->
  exists m, worst_infidelity (evolution l) V m /\ sphere_average (infidelity (evolution l) V) (2 / 3 * m) /\
    m <= ((M * duration c + E * turned l) / 2) ^ 2.
Proof.
  intros c l eps x y z E M V K D E0 M0 BE BM N; destruct (segments_of c l K D) as [P TD]; rewrite <- TD in *.
  apply (vector_infidelity eps x y z E M l V); auto.
Qed.
Print Assumptions C121_vector.

(** C121: and a converted predefined sequence, against the product of its pulses *)
Theorem C121_converted :
  forall r T pre name s maxr maxd mn name' c segs nx ny nz,
  / 10 ^ 8 < T -> build_sequence r T pre name = Ok s -> vector_orders r nx ny nz ->
  convert_dds_to_driven_control s maxr maxd mn name' = Ok c -> describes segs c -> duration c = T ->
  exists l, s = sequence_of T name l /\
  forall eps x y z E M Kx Ky Kz V,
  smooth_detuning x nx Kx T -> smooth_detuning y ny Ky T -> smooth_detuning z nz Kz T ->
  bounded_by eps E 0 T -> 0 <= M -> strength_below x y z M T ->
  vector_control eps x y z 0 segs V ->
  exists m, worst_infidelity (pulse_product l) V m /\ sphere_average (infidelity (pulse_product l) V) (2 / 3 * m) /\
    m <= (2 * (M * total (map (pulse_width maxr maxd mn) l) + E * total (map e_rabi l) / 2 +
               ((M * T) ^ 2 / 8 + (residue nx Kx T + residue ny Ky T + residue nz Kz T)))) ^ 2.
Proof.
  intros r T pre name s maxr maxd mn name' c segs nx ny nz HT B O C D DU.
  destruct (vector_predefined r T pre name s maxr maxd mn name' c segs nx ny nz HT B O C D DU) as [l [ES H]].
  exists l; split; [exact ES|]; intros eps x y z E M Kx Ky Kz V SX SY SZ BE M0 BM N.
  apply (product_infidelity eps x y z segs V l); [exact N|eapply H; eauto].
Qed.
Print Assumptions C121_converted.

(** C121: from the request to the file and the experiment, against the requested rotation *)
Theorem C121_files :
  forall fsin fcos facos fasin hsin hcos s th w phi name dir f,
  accurate_trigonometry fsin fcos facos fasin -> ordinary_inputs s th w phi -> exact_scheme s ->
  exists c l' T, fl_build binary64 fsin fcos facos fasin float_pi s th w phi name = Ok c /\
    file_holds f (fl_export_to_file binary64 hsin hcos dir c f "Q-CTRL expanded" "JSON" "cylindrical") l' name /\
    scheme_duration s th w T /\
    forall eps beta e d E M V, -1 < e <= 1 ->
      bounded_by (fun t => eps t - e) E 0 (total (map g_dur l')) -> bounded_by (fun t => beta t - d) M 0 (total (map g_dur l')) ->
      noisy_control eps beta 0 l' V ->
      exists x, worst_infidelity (rotation th phi) V x /\ average_infidelity (rotation th phi) V = 2 / 3 * x /\
      (d = 0 -> x <= ((E * w + M) * (T + / 2 ^ 42 / w) +
          2 * (3 * rotation_accuracy th + (Rabs e * (w * T) / 2) ^ S (amplitude_order s) / INR (fact (S (amplitude_order s))))) ^ 2) /\
      (detuning_cancels s th -> e = 0 \/ (1 <= amplitude_order s)%nat ->
       x <= ((E * w + M) * (T + / 2 ^ 42 / w) +
          2 * ((3 + Rabs d / w) * rotation_accuracy th + ((Rabs e * w + Rabs d) * T) ^ 2 / 8)) ^ 2).
Proof.
  intros fsin fcos facos fasin hsin hcos s th w phi name dir f A O X.
  destruct (drifting_file fsin fcos facos fasin hsin hcos s th w phi name dir f A O X) as [c [l' [T [B [F [SD [_ Q]]]]]]].
  exists c, l', T; split; [exact B|split; [exact F|split; [exact SD|]]].
  intros eps beta e d E M V L BE BM N; destruct (Q eps beta e d E M V L BE BM N) as [_ [Q1 Q2]].
  destruct (rotation_infidelities eps beta l' 0 V th phi N) as [x [W [AV Z]]]; exists x; split; [exact W|split; [exact AV|split]].
  - intros Hd; eapply Rle_trans; [exact (Z _ (Q1 Hd))|]; apply Req_le; f_equal.
    set (a := (E * w + M) * (T + / 2 ^ 42 / w)); set (b := 3 * rotation_accuracy th + _); lra.
  - intros H1 H2; eapply Rle_trans; [exact (Z _ (Q2 H1 H2))|]; apply Req_le; f_equal.
    set (a := (E * w + M) * (T + / 2 ^ 42 / w)); set (b := (3 + Rabs d / w) * rotation_accuracy th + _); lra.
Qed.
Print Assumptions C121_files.

(** a pi pulse with BB1 and every Rabi rate one percent too high loses at most two parts in ten million *)
Example C121_case : exists c l x, build BB1 PI 1 0 None = Ok c /\ describes l c /\
  worst_infidelity (evolution l) (noisy_evolution (1 / 100) 0 l) x /\ 0 <= x <= 2 / 10000000.
Proof.
  assert (P := PI_pos); assert (P4 := PI_4); destruct (demo_build BB1) as [c [l [B [D _]]]].
  assert (N := control_constant (1 / 100) 0 l 0).
  destruct (infidelities _ _ _ _ _ N) as [x [X _]]; exists c, l, x; split; [exact B|split; [exact D|split; [exact X|]]].
  split; [exact (worst_positive _ _ _ _ _ x N X)|].
  destruct (rates_and_duration _ _ _ _ _ _ _ B D) as [_ [_ [_ DU]]]; cbn [scheme_duration] in DU.
  assert (BE : bounded_by (fun t => 1 / 100 - 1 / 100) 0 0 (duration c)) by (intros t T; rewrite Rminus_eq_0, Rabs_R0; lra).
  assert (BM : bounded_by (fun t => 0 - 0) 0 0 (duration c)) by (intros t T; rewrite Rminus_0_r, Rabs_R0; lra).
  assert (H := proj1 (C121_schemes BB1 PI 1 0 None c l _ _ (1 / 100) 0 0 0 _ x B D ltac:(lra) ltac:(lra) BE BM N X) eq_refl).
  eapply Rle_trans; [exact H|]; rewrite DU, Rabs_right by lra; cbn [amplitude_order].
  replace (INR (fact 3)) with 6 by (cbn; ring); set (y := 1 / 100 * (1 * ((PI + 4 * PI) / 1)) / 2).
  assert (Y : 0 <= y <= 1 / 10) by (unfold y; lra).
  assert (Y3 : 0 <= y ^ 3 <= (1 / 10) ^ 3) by (split; [apply pow_le; lra|apply pow_incr; lra]).
  apply Rle_trans with ((1 / 3000) ^ 2); [apply pow_incr; lra|lra].
Qed.

(** spin echo of duration 1 under the detuning t / 10 *)
Example C121_echo_case : exists s, new_spin_echo_sequence 1 false None = Ok s /\
  forall l V, s = sequence_of 1 None l -> noisy_sequence (fun t => t / 10) 0 1 l V ->
  exists x, worst_infidelity (pulse_product l) V x /\ x <= 1 / 400.
Proof.
  destruct (C121_decoupling SpinEcho 1 false None 1) as [s [E S]]; [lra|exact I|reflexivity|].
  cbn [build_sequence] in E; exists s; split; auto; intros l V H N.
  destruct (S (fun t => t / 10) (1 / 10) l V) as [x [W [_ X]]]; auto.
  - split; [intros t; apply @ex_derive_continuous; auto_derive; auto|].
    intros t _; split.
    + intros [|[|k]] K; [exact Logic.I| |lia]; cbn; auto_derive; auto.
    + cbn; replace (Derive (fun x => x / 10) t) with (1 / 10); [rewrite Rabs_right; lra|].
      symmetry; apply is_derive_unique; auto_derive; auto; field.
  - exists x; split; [exact W|]; eapply Rle_trans; [exact X|]; simpl; lra.
Qed.
