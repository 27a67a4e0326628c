(** * Properties of the concatenated dynamical decoupling sequences *)

From Verif Require Import L_XYRec.
Import ListNotations.
Open Scope string_scope.
Open Scope list_scope.
Open Scope R_scope.

(** C39: the pulses of the recursion, coinciding pulses cancelled, no pulse at the end *)
Theorem C39_x_concatenation :
  forall T x l pre name,
  (0 < T -> truncates_to x l -> (1 <= l)%nat ->
   exists ts, new_x_concatenated_sequence T x pre name =
       Ok (sequence_of T name (with_pre_post pre T (map (fun t => (AX, t)) ts))) /\
     strictly_increasing ts /\
     forall t, In t ts <-> Nat.Odd (multiplicity t (x_recursion l 0 T)) /\ t <> T) /\
  (~ (0 < T /\ 1 <= x) -> argument_error (new_x_concatenated_sequence T x pre name)).
Proof. exact x_concatenation. Qed.
Print Assumptions C39_x_concatenation.

Example C39_case : exists ts, new_x_concatenated_sequence 8 2 false None =
  Ok (sequence_of 8 None (map pi_pulse (map (fun t => (AX, t)) ts))) /\
  forall t, In t ts <-> Nat.Odd (multiplicity t [0 + 8 / 2 / 2; 0 + 8 / 2; 0 + 8 / 2; 0 + 8 / 2 + 8 / 2 / 2; 0 + 8 / 2 + 8 / 2; 0 + 8]) /\ t <> 8.
Proof.
  destruct (proj1 (x_concatenation 8 2 2 false None)) as [ts [A [_ B]]]; try lra; [unfold truncates_to; simpl; lra|lia|].
  exists ts; auto.
Qed.

(** C40, partial.  Full statement: the same for every order l >= 1.  Missing: orders >= 3, for which it is false, see the next theorem *)
Theorem C40_xy_concatenation_partial :
  forall T x l pre name,
  0 < T -> truncates_to x l -> (l = 1 \/ l = 2)%nat ->
  exists ps, new_xy_concatenated_sequence T x pre name =
      Ok (sequence_of T name (with_pre_post pre T ps)) /\
    strictly_increasing (map snd ps) /\
    forall a t, In (a, t) ps <-> merges_to (xy_recursion l 0 T) t a.
Proof. exact xy_concatenation. Qed.
Print Assumptions C40_xy_concatenation_partial.

(** C40 is false for every order >= 3: the last X pulse of the recursion is missing from the sequence *)
Theorem C40_xy_concatenation_refuted :
  forall T x l pre name,
  0 < T -> truncates_to x l -> (3 <= l)%nat ->
  exists s, new_xy_concatenated_sequence T x pre name = Ok s /\
  exists t, 0 < t < T /\ merges_to (xy_recursion l 0 T) t AX /\ ~ In t (offsets s).
Proof. exact xy_concatenation_refuted. Qed.
Print Assumptions C40_xy_concatenation_refuted.

(** C40: what holds for every order: a sequence of X, Y and Z pi pulses in time order *)
Theorem C40_xy_sequence :
  forall T x l pre name,
  (0 < T -> truncates_to x l -> (1 <= l)%nat ->
   exists ps, new_xy_concatenated_sequence T x pre name =
       Ok (sequence_of T name (with_pre_post pre T ps)) /\
     nondecreasing_times (map snd ps) /\ (forall p, In p ps -> 0 < snd p <= T)) /\
  (~ (0 < T /\ 1 <= x) -> argument_error (new_xy_concatenated_sequence T x pre name)).
Proof. exact xy_sequence. Qed.
Print Assumptions C40_xy_sequence.

(** C40, C42: effect of the defect: order three no longer refocuses static dephasing *)
Theorem C40_xy_refocusing :
  forall T x l pre name,
  0 < T -> truncates_to x l -> (1 <= l <= 3)%nat ->
  exists s, new_xy_concatenated_sequence T x pre name = Ok s /\
    ((l <= 2)%nat -> refocuses s) /\ (l = 3%nat -> dephases s).
Proof. exact xy_refocusing. Qed.
Print Assumptions C40_xy_refocusing.

Example C40_case : exists s, new_xy_concatenated_sequence 4 1 false None = Ok s /\ refocuses s.
Proof.
  destruct (xy_refocusing 4 1 1 false None) as [s [A [B _]]]; [lra|unfold truncates_to; simpl; lra|lia|].
  exists s; split; auto.
Qed.
Example C40_case_three : exists s, new_xy_concatenated_sequence 4 3 false None = Ok s /\ dephases s.
Proof.
  destruct (xy_refocusing 4 3 3 false None) as [s [A [_ B]]]; [lra|unfold truncates_to; simpl; lra|lia|].
  exists s; split; auto.
Qed.

(** C61: polynomial detunings of degree < l, and equality with the Walsh sequence; C42 for X concatenated sequences *)
Theorem C61_x_cancels :
  forall T x l pre name,
  0 < T -> truncates_to x l -> (1 <= l)%nat ->
  exists ts, let s := sequence_of T name (with_pre_post pre T (map (fun t => (AX, t)) ts)) in
    new_x_concatenated_sequence T x pre name = Ok s /\ refocuses s /\
    (forall c, (List.length c <= l)%nat -> cancels c s /\ switched_integral (polynomial c) T ts = 0) /\
    ((l <= 10)%nat -> new_walsh_sequence T (2 ^ l - 1) pre name = Ok s).
Proof. exact x_cancels. Qed.
Print Assumptions C61_x_cancels.

Example C61_case : exists s, new_x_concatenated_sequence 8 3 true None = Ok s /\
  new_walsh_sequence 8 (2 ^ 3 - 1) true None = Ok s /\ cancels [1; 2; 3] s.
Proof.
  destruct (x_cancels 8 3 3 true None) as [ts [A [_ [B C]]]]; [lra|unfold truncates_to; simpl; lra|lia|].
  eexists; split; [exact A|]; split; [apply C; lia|apply B; cbn; lia].
Qed.

