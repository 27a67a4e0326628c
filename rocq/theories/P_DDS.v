(** * Properties of the predefined dynamical decoupling sequences *)

From Verif Require Import L_Quadratic.
Import ListNotations.
Open Scope string_scope.
Open Scope list_scope.
Open Scope R_scope.

(** C31: acceptance domain of the constructor, attributes, errors *)
Theorem C31_construction :
  forall T ts r a d name,
  ((exists s, DynamicDecouplingSequence T ts r a d name = Ok s) <->
   (0 < T /\ (forall t, In t ts -> 0 <= t <= T) /\
    List.length r = List.length ts /\ List.length a = List.length ts /\
    List.length d = List.length ts)) /\
  (forall s, DynamicDecouplingSequence T ts r a d name = Ok s ->
     seq_duration s = T /\ offsets s = ts /\ rabi_rotations s = r /\
     seq_azimuthal_angles s = a /\ detuning_rotations s = d /\ seq_name s = name) /\
  ((forall s, DynamicDecouplingSequence T ts r a d name <> Ok s) ->
   argument_error (DynamicDecouplingSequence T ts r a d name)).
Proof. exact sequence_construction. Qed.
Print Assumptions C31_construction.

Example C31_case : exists s, DynamicDecouplingSequence 2 [0; 1] [PI; 1] [0; 3] [0; 0] None = Ok s.
Proof. apply sequence_construction; cbn; repeat split; auto; try lra; destruct H as [<-|[<-|[]]]; lra. Qed.
Example C31_rejected : forall s, DynamicDecouplingSequence 2 [3] [PI] [0] [0] None <> Ok s.
Proof.
  intros s H.
  assert (X : exists s, DynamicDecouplingSequence 2 [3] [PI] [0] [0] None = Ok s) by eauto.
  apply sequence_construction in X; destruct X as [_ [X _]]; specialize (X 3 (or_introl eq_refl)); lra.
Qed.

(** C32: content of the plotting export, and what it determines *)
Theorem C32_export :
  forall T name l,
  dds_export (sequence_of T name l) =
  (map (fun e => (e_rabi e * cos (e_phi e), e_rabi e * sin (e_phi e), e_time e)) l,
   map (fun e => (e_det e, e_time e)) l) /\
  (forall T' name' l', (forall e, In e l -> 0 <= e_rabi e) -> (forall e, In e l' -> 0 <= e_rabi e) ->
     dds_export (sequence_of T name l) = dds_export (sequence_of T' name' l') ->
     Forall2 (fun e e' => e_time e = e_time e' /\ e_rabi e = e_rabi e' /\ e_det e = e_det e' /\
       (0 < e_rabi e -> cos (e_phi e) = cos (e_phi e') /\ sin (e_phi e) = sin (e_phi e'))) l l').
Proof. exact sequence_export. Qed.
Print Assumptions C32_export.

Example C32_case : dds_export (sequence_of 2 None [Event 1 PI 0 0; Event 2 0 0 3]) =
  ([(PI * cos 0, PI * sin 0, 1); (0 * cos 0, 0 * sin 0, 2)], [(0, 1); (3, 2)]).
Proof. reflexivity. Qed.

(** C33: Ramsey *)
Theorem C33_ramsey :
  forall T pre name,
  (0 < T -> new_ramsey_sequence T pre name = Ok (sequence_of T name (with_pre_post pre T []))) /\
  (~ 0 < T -> argument_error (new_ramsey_sequence T pre name)).
Proof. exact ramsey_timing. Qed.
Print Assumptions C33_ramsey.

(** C33: spin echo *)
Theorem C33_spin_echo :
  forall T pre name,
  (0 < T -> new_spin_echo_sequence T pre name =
            Ok (sequence_of T name (with_pre_post pre T [(AX, T / 2)]))) /\
  (~ 0 < T -> argument_error (new_spin_echo_sequence T pre name)).
Proof. exact spin_echo_timing. Qed.
Print Assumptions C33_spin_echo.

Example C33_case : new_spin_echo_sequence 4 true None =
  Ok (sequence_of 4 None [Event 0 (PI / 2) 0 0; Event (4 / 2) PI 0 0; Event 4 (PI / 2) 0 0]).
Proof. apply spin_echo_timing; lra. Qed.

(** C34: Carr-Purcell *)
Theorem C34_carr_purcell :
  forall T x n pre name,
  0 < T -> truncates_to x n -> (1 <= n)%nat ->
  new_carr_purcell_sequence T x pre name = Ok (sequence_of T name (with_pre_post pre T
    (map (fun i => (AX, T / INR n * (INR i - 1 / 2))) (seq 1 n)))).
Proof. exact carr_purcell_timing. Qed.
Print Assumptions C34_carr_purcell.

(** C34: Carr-Purcell-Meiboom-Gill *)
Theorem C34_cpmg :
  forall T x n pre name,
  0 < T -> truncates_to x n -> (1 <= n)%nat ->
  new_cpmg_sequence T x pre name = Ok (sequence_of T name (with_pre_post pre T
    (map (fun i => (AY, T / INR n * (INR i - 1 / 2))) (seq 1 n)))).
Proof. exact cpmg_timing. Qed.
Print Assumptions C34_cpmg.

(** C34, C35, C36: inputs that are rejected *)
Theorem C34_rejections :
  forall T x pre name,
  ~ (0 < T /\ 1 <= x) ->
  argument_error (new_carr_purcell_sequence T x pre name) /\
  argument_error (new_cpmg_sequence T x pre name) /\
  argument_error (new_uhrig_sequence T x pre name) /\
  argument_error (new_periodic_sequence T x pre name).
Proof. exact count_rejections. Qed.
Print Assumptions C34_rejections.

Example C34_case : exists s, new_cpmg_sequence 4 2.5 false None = Ok s /\ offsets s = [4 / 2 * (1 - 1 / 2); 4 / 2 * (2 - 1 / 2)].
Proof.
  eexists; split; [apply (cpmg_timing 4 2.5 2); [lra| |lia]; unfold truncates_to; simpl; lra|].
  cbn; simpl; repeat (f_equal; try lra).
Qed.

(** C35: Uhrig *)
Theorem C35_uhrig :
  forall T x n pre name,
  0 < T -> truncates_to x n -> (1 <= n)%nat ->
  new_uhrig_sequence T x pre name = Ok (sequence_of T name (with_pre_post pre T
    (map (fun i => (AY, T * sin (INR i * PI / (2 * (INR n + 1))) ^ 2)) (seq 1 n)))).
Proof. exact uhrig_timing. Qed.
Print Assumptions C35_uhrig.

Example C35_case : exists s, new_uhrig_sequence 4 1 false None = Ok s /\ offsets s = [2].
Proof.
  eexists; split; [apply (uhrig_timing 4 1 1); [lra| |lia]; unfold truncates_to; simpl; lra|].
  cbn [with_pre_post map seq sequence_of offsets e_time pi_pulse]; f_equal.
  replace (INR 1 * PI / (2 * (INR 1 + 1))) with (PI / 4) by (simpl; field).
  rewrite sin_PI4; assert (Q := sqrt_sqrt 2 ltac:(lra)); assert (0 < sqrt 2) by (apply sqrt_lt_R0; lra).
  replace ((1 / sqrt 2) ^ 2) with (/ (sqrt 2 * sqrt 2)) by (field; lra); rewrite Q; lra.
Qed.

(** C36: periodic *)
Theorem C36_periodic :
  forall T x n pre name,
  0 < T -> truncates_to x n -> (1 <= n)%nat ->
  new_periodic_sequence T x pre name = Ok (sequence_of T name (with_pre_post pre T
    (map (fun i => (AX, INR i * T / (INR n + 1))) (seq 1 n)))).
Proof. exact periodic_timing. Qed.
Print Assumptions C36_periodic.

Example C36_case : exists s, new_periodic_sequence 4 3 false None = Ok s /\
  offsets s = [1 * 4 / (3 + 1); 2 * 4 / (3 + 1); 3 * 4 / (3 + 1)].
Proof.
  eexists; split; [apply (periodic_timing 4 3 3); [lra| |lia]; unfold truncates_to; simpl; lra|].
  cbn; simpl; repeat (f_equal; try lra).
Qed.

(** C37: the pulses of a Walsh sequence are the sign changes of the Walsh function *)
Theorem C37_walsh :
  forall T x k pre name,
  (0 < T -> 1 <= x <= 2000 -> truncates_to x k ->
   exists ts, new_walsh_sequence T x pre name =
                Ok (sequence_of T name (with_pre_post pre T (map (fun t => (AX, t)) ts))) /\
     strictly_increasing ts /\
     forall t, In t ts <-> 0 < t < T /\ changes_sign (fun u => paley k (u / T)) t) /\
  (~ (0 < T /\ 1 <= x <= 2000) -> argument_error (new_walsh_sequence T x pre name)).
Proof. exact walsh_timing. Qed.
Print Assumptions C37_walsh.

Example C37_case : exists ts, new_walsh_sequence 4 6.5 false None =
  Ok (sequence_of 4 None (map pi_pulse (map (fun t => (AX, t)) ts))) /\
  forall t, In t ts <-> 0 < t < 4 /\ changes_sign (fun u => paley 6 (u / 4)) t.
Proof.
  destruct (proj1 (walsh_timing 4 6.5 6 false None)) as [ts [A [_ B]]]; try lra; [unfold truncates_to; simpl; lra|].
  exists ts; auto.
Qed.

(** C38: nested Uhrig sequences *)
Theorem C38_quadratic :
  forall T x1 x2 n1 n2 pre name,
  (0 < T -> truncates_to x1 n1 -> truncates_to x2 n2 -> (1 <= n1)%nat -> (1 <= n2)%nat ->
   new_quadratic_sequence T x1 x2 pre name =
     Ok (sequence_of T name (with_pre_post pre T (quadratic_pulses T n1 n2))) /\
   strictly_increasing (map snd (quadratic_pulses T n1 n2)) /\
   List.length (quadratic_pulses T n1 n2) = (n1 + n2 * (n1 + 1))%nat) /\
  (~ (0 < T /\ 1 <= x1 /\ 1 <= x2) -> argument_error (new_quadratic_sequence T x1 x2 pre name)).
Proof. exact quadratic_timing. Qed.
Print Assumptions C38_quadratic.

(** C38: the outer pulses cancel polynomial detunings of degree < n2 *)
Theorem C38_cancels :
  forall T x1 x2 n1 n2 pre name,
  0 < T -> truncates_to x1 n1 -> truncates_to x2 n2 -> (1 <= n1)%nat -> (1 <= n2)%nat ->
  exists s, new_quadratic_sequence T x1 x2 pre name = Ok s /\ refocuses s /\
    forall c, (List.length c <= n2)%nat -> cancels c s.
Proof. exact quadratic_cancels. Qed.
Print Assumptions C38_cancels.

Example C38_case : map fst (quadratic_pulses 1 2 2) = [AZ; AZ; AX; AZ; AZ; AX; AZ; AZ].
Proof. reflexivity. Qed.

(** C41: exactly the lists of (nearly) pi pulses are accepted; X pi/2 rotations are added at both ends *)
Theorem C41_acceptance :
  forall T l,
  let a := MkArrays (map e_time l) (map e_rabi l) (map e_phi l) (map e_det l) in
  (Forall near_pi_pulse l ->
     exists phi, (phi = 0 \/ phi = PI) /\
       let e := Event 0 (PI / 2) 0 0 :: l ++ [Event T (PI / 2) phi 0] in
       add_pre_post_rotations T a = Ok (MkArrays (map e_time e) (map e_rabi e) (map e_phi e) (map e_det e))) /\
  (~ Forall near_pi_pulse l -> argument_error (add_pre_post_rotations T a)).
Proof. exact pre_post_acceptance. Qed.
Print Assumptions C41_acceptance.

(** C41: lists of exact pi pulses, with the closing angle *)
Theorem C41_exact :
  forall T l,
  let e := map pi_pulse l in
  add_pre_post_rotations T (MkArrays (map e_time e) (map e_rabi e) (map e_phi e) (map e_det e)) =
  (let e := with_pre_post true T l in
   Ok (MkArrays (map e_time e) (map e_rabi e) (map e_phi e) (map e_det e))).
Proof. exact pre_post_exact. Qed.
Print Assumptions C41_exact.

(** C41: the net operation is the identity or Z, up to a phase *)
Theorem C41_product :
  forall T l,
  (Nat.even (count_not AX l) = true ->
     phase_equiv (pulse_product (with_pre_post true T l)) mone) /\
  (Nat.even (count_not AX l) = false ->
     phase_equiv (pulse_product (with_pre_post true T l)) pauli_z).
Proof. exact pre_post_product. Qed.
Print Assumptions C41_product.

Example C41_case : phase_equiv (pulse_product (with_pre_post true 4 [(AY, 1); (AX, 2); (AZ, 3)])) mone.
Proof. apply pre_post_product; reflexivity. Qed.

(** C42: static dephasing *)
Theorem C42_refocusing :
  forall T x n pre name,
  0 < T -> truncates_to x n -> (1 <= n)%nat ->
  (exists s, new_spin_echo_sequence T pre name = Ok s /\ refocuses s) /\
  (exists s, new_carr_purcell_sequence T x pre name = Ok s /\ refocuses s) /\
  (exists s, new_cpmg_sequence T x pre name = Ok s /\ refocuses s) /\
  (exists s, new_uhrig_sequence T x pre name = Ok s /\ refocuses s) /\
  (exists s, new_periodic_sequence T x pre name = Ok s /\
     (Nat.Odd n -> refocuses s) /\ (Nat.Even n -> dephases s)) /\
  (exists s, new_ramsey_sequence T pre name = Ok s /\ dephases s).
Proof. exact refocusing. Qed.
Print Assumptions C42_refocusing.

Example C42_case : exists s, new_periodic_sequence 4 3 true None = Ok s /\ refocuses s.
Proof.
  destruct (refocusing 4 3 3 true None) as [_ [_ [_ [_ [[s [A [B _]]] _]]]]];
    [lra|unfold truncates_to; simpl; lra|lia|].
  exists s; split; auto; apply B; exists 1%nat; reflexivity.
Qed.

(** C43: polynomial detunings of degree < n *)
Theorem C43_uhrig :
  forall T x n pre name c,
  0 < T -> truncates_to x n -> (1 <= n)%nat -> (List.length c <= n)%nat ->
  switched_integral (polynomial c) T (map (fun i => T * sin (INR i * PI / (2 * (INR n + 1))) ^ 2) (seq 1 n)) = 0 /\
  exists s, new_uhrig_sequence T x pre name = Ok s /\ cancels c s.
Proof. exact uhrig_cancels. Qed.
Print Assumptions C43_uhrig.

Example C43_case : exists s, new_uhrig_sequence 4 2 true None = Ok s /\ cancels [3; 5] s.
Proof. apply (uhrig_cancels 4 2 2); [lra|unfold truncates_to; simpl; lra|lia|cbn; lia]. Qed.

(** C60: polynomial detunings of degree < number of ones in the order; C42 for Walsh sequences *)
Theorem C60_walsh :
  forall T x k pre name,
  0 < T -> 1 <= x <= 2000 -> truncates_to x k ->
  exists ts, let s := sequence_of T name (with_pre_post pre T (map (fun t => (AX, t)) ts)) in
    new_walsh_sequence T x pre name = Ok s /\ refocuses s /\
    forall c, (List.length c <= ones k)%nat ->
      cancels c s /\ switched_integral (polynomial c) T ts = 0.
Proof. exact walsh_cancels. Qed.
Print Assumptions C60_walsh.

Example C60_case : ones 5 = 2%nat /\ exists s, new_walsh_sequence 4 5 true None = Ok s /\ cancels [3; 5] s.
Proof.
  split; [reflexivity|].
  destruct (walsh_cancels 4 5 5 true None) as [ts [A [_ B]]]; [lra|lra|unfold truncates_to; simpl; lra|].
  eexists; split; [exact A|]; apply B; cbn; lia.
Qed.

