(** * Properties of sequences under dephasing noise that varies in time *)

From Coq Require Import Lia.
From Verif Require Import L_NoiseExact.
Import ListNotations.
Open Scope string_scope.
Open Scope list_scope.
Open Scope R_scope.

(** C77: the evolution used in C42, C43, C60, C61 and C66 is the solution of the Schroedinger equation between the pulses, for every continuous detuning *)
Theorem C77_schroedinger :
  forall beta T l V,
  (forall t, continuous beta t) ->
  (noisy_sequence beta 0 T l V <-> V = dephased_evolution (fun t => RInt beta 0 t) T l).
Proof. exact schroedinger_dephasing. Qed.
Print Assumptions C77_schroedinger.

(** a detuning growing linearly in time, free evolution *)
Example C77_case : exists V, noisy_sequence (fun t => 2 * t) 0 3 [] V /\ V = z_rotation 9.
Proof.
  assert (C : forall t : R, continuous (fun t => 2 * t) t).
  { intros t; apply @ex_derive_continuous; auto_derive; auto. }
  eexists; split; [apply schroedinger_dephasing; [exact C|reflexivity]|].
  assert (I : forall u, RInt (fun t => 2 * t) 0 u = u ^ 2).
  { intros u; apply is_RInt_unique.
    replace (u ^ 2) with (minus (u ^ 2) (0 ^ 2)) by (unfold minus, plus, opp; cbn; ring).
    apply (is_RInt_derive (fun t => t ^ 2)); [intros; auto_derive; auto; ring|intros; apply C]. }
  unfold dephased_evolution; cbn [evolution_from]; rewrite !I; f_equal; ring.
Qed.

(** C78: a sequence in time order that cancels the polynomial detunings of degree < n suppresses every detuning with bounded n-th derivative *)
Theorem C78_suppression :
  forall n s,
  constructible_sequence s -> nondecreasing (offsets s) ->
  (forall c, (List.length c <= n)%nat -> cancels c s) -> suppresses n s.
Proof. exact suppression. Qed.
Print Assumptions C78_suppression.

(** C78: the orders of the predefined sequences *)
Theorem C78_predefined :
  forall r T pre name n,
  0 < T -> valid_request r -> suppressed_order r n ->
  exists s, build_sequence r T pre name = Ok s /\ suppresses n s.
Proof. exact request_suppression. Qed.
Print Assumptions C78_predefined.

(** spin echo of duration 2 under the detuning t *)
Example C78_case : exists s, new_spin_echo_sequence 2 false None = Ok s /\
  forall l V, s = sequence_of 2 None l -> noisy_sequence (fun t => t) 0 2 l V -> close_to 1 V (pulse_product l).
Proof.
  destruct (request_suppression SpinEcho 2 false None 1) as [s [E S]]; [lra|exact I|reflexivity|].
  cbn [build_sequence] in E; exists s; split; auto; intros l V -> N.
  assert (H := S (fun t => t) 1 l V); cbn [sequence_of seq_duration seq_name] in H.
  replace 1 with (1 * 2 ^ (1 + 1) / (2 * INR (fact (1 + 1)))) by (simpl; field).
  apply H; auto; split; [intros; apply continuous_id|].
  intros t _; split.
  - intros [|[|k]] K; [exact Logic.I| |lia]; cbn; auto_derive; auto.
  - cbn; rewrite Derive_id, Rabs_R1; lra.
Qed.

(** C79: the orders of C78 are exact: some polynomial detuning of degree n changes the evolution *)
Theorem C79_exact :
  forall r T pre name n,
  0 < T -> valid_request r -> suppressed_order r n ->
  exists s, build_sequence r T pre name = Ok s /\ sensitive n s.
Proof. exact request_sensitivity. Qed.
Print Assumptions C79_exact.

(** C79: no sequence with n pulses that flip the sign cancels all polynomial detunings of degree n, so the Uhrig sequence is optimal *)
Theorem C79_pulse_count :
  forall T name pre ps,
  0 < T -> strictly_increasing (0 :: flip_times ps) ->
  (forall t, In t (flip_times ps) -> t < T) ->
  sensitive (List.length (flip_times ps)) (sequence_of T name (with_pre_post pre T ps)).
Proof. exact pulse_count_bound. Qed.
Print Assumptions C79_pulse_count.

Example C79_case : exists s, new_uhrig_sequence 4 3 true None = Ok s /\ suppresses 3 s /\ sensitive 3 s.
Proof.
  assert (TR : truncates_to 3 3) by (unfold truncates_to; simpl; lra).
  destruct (request_suppression (Uhrig 3) 4 true None 3) as [s [E S]]; [lra|cbn; lra|exact TR|].
  destruct (request_sensitivity (Uhrig 3) 4 true None 3) as [s' [E' S']]; [lra|cbn; lra|exact TR|].
  rewrite E in E'; injection E' as <-; exists s; auto.
Qed.

