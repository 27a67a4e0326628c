(** * Properties of sharing and copying of arrays *)

From Coq Require Import Reals Lia Lra.
From Verif Require Import Spec_Qubit L_DrivenControl L_Heap L_HeapConvert P_Conversion.
Import ListNotations.
Open Scope string_scope.
Open Scope list_scope.
Open Scope R_scope.

(** C86: the constructor of controls writes nothing that exists, holds the given values, and stores a float array itself and a copy of anything else *)
Theorem C86_control :
  forall ts r a d name h,
  arg_lives h ts -> opt_lives h r -> opt_lives h a -> opt_lives h d ->
  exists res h', hDrivenControl ts r a d name h = (res, h') /\ preserves h h' /\
 map_result (control_at h') res = DrivenControl (value h ts) (option_map (value h) r) (option_map (value h) a) (option_map (value h) d) name /\
 (forall c, res = Ok c ->
     (forall v, In v (control_attributes c) -> lives h' v) /\
    stored h (Some ts) (hc_durations c) /\ stored h r (hc_rabi_rates c) /\
    stored h a (hc_azimuthal_angles c) /\ stored h d (hc_detunings c) /\ separate h (control_attributes c)).
Proof. exact control_heap. Qed.
Print Assumptions C86_control.

(** C86: the same for sequences, where any array is stored itself as the offsets *)
Theorem C86_sequence :
  forall t ts r a d name h,
  arg_lives h ts -> arg_lives h r -> arg_lives h a -> arg_lives h d ->
  exists res h', hDynamicDecouplingSequence t ts r a d name h = (res, h') /\ preserves h h' /\
 map_result (sequence_at h') res = DynamicDecouplingSequence t (value h ts) (value h r) (value h a) (value h d) name /\
 (forall s, res = Ok s -> sequence_lives h' s /\
    (is_array ts -> is_argument ts (hs_offsets s)) /\ (~ is_array ts -> fresh h (hs_offsets s)) /\
    stored h (Some r) (hs_rabi_rotations s) /\
    stored h (Some a) (hs_azimuthal_angles s) /\ stored h (Some d) (hs_detuning_rotations s) /\ separate h (sequence_arrays s)).
Proof. exact sequence_heap. Qed.
Print Assumptions C86_sequence.

(** C86: a control keeps its values under later assignments of the caller, if no argument was an array of floats.  Missing: float arrays, for which it is false (below) *)
Theorem C86_control_partial :
  forall ts r a d name h c h' h'',
  arg_lives h ts -> opt_lives h r -> opt_lives h a -> opt_lives h d ->
  not_float_array h (Some ts) -> not_float_array h r -> not_float_array h a -> not_float_array h d ->
  hDrivenControl ts r a d name h = (Ok c, h') -> only_below (List.length h) h' h'' -> control_at h'' c = control_at h' c.
Proof. exact control_keeps. Qed.
Print Assumptions C86_control_partial.

(** C86: without that restriction it does not *)
Theorem C86_control_refuted :
  ~ (forall ts r a d name h c h' h'',
  arg_lives h ts -> opt_lives h r -> opt_lives h a -> opt_lives h d ->
  hDrivenControl ts r a d name h = (Ok c, h') -> only_below (List.length h) h' h'' -> control_at h'' c = control_at h' c).
Proof. exact control_shares_refuted. Qed.
Print Assumptions C86_control_refuted.

(** C86: from any control made of a float array of durations, an assignment to that array makes an object the constructor would have rejected *)
Theorem C86_corrupt :
  forall u r a d name h c h',
  lives h u -> opt_lives h r -> opt_lives h a -> opt_lives h d ->
  float_array h (AArray u) -> hDrivenControl (AArray u) r a d name h = (Ok c, h') -> nd_at u <> [] ->
  exists h'', only_below (List.length h) h' h'' /\ ~ constructible (control_at h'' c).
Proof. exact control_corrupt. Qed.
Print Assumptions C86_corrupt.

(** C86: a sequence keeps its values, if the offsets were no array and the rest no array of floats.  Missing: the other arguments, for which it is false (below) *)
Theorem C86_sequence_partial :
  forall t ts r a d name h s h' h'',
  arg_lives h ts -> arg_lives h r -> arg_lives h a -> arg_lives h d ->
  ~ is_array ts -> ~ float_array h r -> ~ float_array h a -> ~ float_array h d ->
  hDynamicDecouplingSequence t ts r a d name h = (Ok s, h') -> only_below (List.length h) h' h'' -> sequence_at h'' s = sequence_at h' s.
Proof. exact sequence_keeps. Qed.
Print Assumptions C86_sequence_partial.

(** C86: an array of integers given as offsets is shared too *)
Theorem C86_sequence_refuted :
  ~ (forall t ts r a d name h s h' h'', arg_lives h ts -> arg_lives h r -> arg_lives h a -> arg_lives h d ->
  ~ float_array h ts -> ~ float_array h r -> ~ float_array h a -> ~ float_array h d ->
  hDynamicDecouplingSequence t ts r a d name h = (Ok s, h') -> only_below (List.length h) h' h'' -> sequence_at h'' s = sequence_at h' s).
Proof. exact sequence_shares_refuted. Qed.
Print Assumptions C86_sequence_refuted.

(** an array of floats (block 0), an array of integers (block 1) *)
Definition some_heap : heap := [Cell true [1; 2]; Cell false [3; 4]].
Example C86_case : exists c h',
  hDrivenControl (AArray (Array 0 [0; 1]%nat)) (Some (AArray (Array 1 [0; 1]%nat))) None None None some_heap = (Ok c, h') /\
  control_at h' c = MkDrivenControl [3; 4] [0; 0] [0; 0] [1; 2] None /\
  hc_durations c = Array 0 [0; 1]%nat /\ fresh some_heap (hc_rabi_rates c) /\
  control_at (write1 (write1 h' 0 1 5) 1 1 6) c = MkDrivenControl [3; 4] [0; 0] [0; 0] [1; 5] None.
Proof.
  assert (RUN : hDrivenControl (AArray (Array 0 [0; 1]%nat)) (Some (AArray (Array 1 [0; 1]%nat))) None None None some_heap =
    (Ok (MkHControl (Array 4 [0; 1]%nat) (Array 2 [0; 1]%nat) (Array 3 [0; 1]%nat) (Array 0 [0; 1]%nat) None),
     some_heap ++ [Cell true [0; 0]; Cell true [0; 0]; Cell true [3; 4]])).
  { unfold hDrivenControl, some_heap, pbind, asarray_float, dtype, get, lift, check_arguments, contents; cbn -[ltb leb].
    unfold ltb; destruct (Rlt_dec 0 1); [|lra]; destruct (Rlt_dec 0 2); [|lra]; cbn -[ltb leb].
    unfold leb; destruct (Rle_dec 0 3); [|lra]; destruct (Rle_dec 0 4); [|lra]; reflexivity. }
  eexists _, _; split; [exact RUN|]; split; [reflexivity|]; split; [reflexivity|]; split; [|reflexivity].
  unfold fresh, some_heap; cbn; lia.
Qed.

(** C87: conversion computed with in-place assignments is conversion of the values; it writes nothing that exists, and the control consists of four new arrays *)
Theorem C87_convert :
  forall s maxr maxd mn name h,
  sequence_lives h s ->
  exists res h', hconvert s maxr maxd mn name h = (res, h') /\ preserves h h' /\
  map_result (control_at h') res = convert_dds_to_driven_control (sequence_at h s) maxr maxd mn name /\
  (forall c, res = Ok c -> (forall v, In v (control_attributes c) -> lives h' v /\ fresh h v) /\ NoDup (map nd_base (control_attributes c))).
Proof. exact convert_heap. Qed.
Print Assumptions C87_convert.

(** C87: it leaves the sequence as it was; later assignments to the sequence do not change the control, nor the other way round *)
Theorem C87_independent :
  forall s maxr maxd mn name h c h',
  sequence_lives h s -> hconvert s maxr maxd mn name h = (Ok c, h') ->
  sequence_at h' s = sequence_at h s /\
  (forall h'', only_below (List.length h) h' h'' -> control_at h'' c = control_at h' c) /\
  (forall h'', only_above (List.length h) h' h'' -> sequence_at h'' s = sequence_at h' s).
Proof. exact convert_independent. Qed.
Print Assumptions C87_independent.

(** one rotation by 2 in the middle of a unit interval; offsets, angles and detunings
    are views of the same block *)
Definition shared_heap : heap := [Cell true [0; 1 / 2; 2]].
Definition shared_sequence : hdds :=
  MkHDDS 1 (Array 0 [1%nat]) (Array 0 [2%nat]) (Array 0 [0%nat]) (Array 0 [0%nat]) None.
Example C87_case : exists c h', hconvert shared_sequence 4 1 (1 / 8) None shared_heap = (Ok c, h') /\
  duration (control_at h' c) = 1 /\ sequence_at h' shared_sequence = sequence_of 1 None [Event (1 / 2) 2 0 0] /\
  control_at (write1 h' 0 1 7) c = control_at h' c.
Proof.
  assert (SL : sequence_lives shared_heap shared_sequence).
  { split; intros v I; unfold sequence_arrays in I; cbn in I; destruct I as [<-|[<-|[<-|[<-|[]]]]]; auto;
      (split; [cbn; lia|intros p [<-|[]]; cbn; lia]). }
  assert (SQ : sequence_at shared_heap shared_sequence = sequence_of 1 None [Event (1 / 2) 2 0 0]) by reflexivity.
  destruct (C87_convert shared_sequence 4 1 (1 / 8) None shared_heap SL) as [res [h' [E [P [V _]]]]]; rewrite SQ in V.
  destruct C46_case as [c0 [C0 D0]]; unfold one_pulse in C0.
  rewrite C0 in V; destruct res as [c|]; [|discriminate]; injection V as V.
  destruct (C87_independent _ _ _ _ _ _ _ _ SL E) as [I1 [I2 _]].
  exists c, h'; split; auto; split; [congruence|split; [congruence|apply I2, write1_below; cbn; lia]].
Qed.

