(** * [convert_dds_to_driven_control] in floating point

    The same function as in M_DDS.v with every arithmetic operation rounded by
    [rnd], in the order of the source.  Comparisons, [abs], [max] and negation
    are exact, as in IEEE 754.  Overflow is not represented. *)

From Verif Require Export M_Float M_DDS.
Import ListNotations.
Open Scope string_scope.
Open Scope list_scope.
Open Scope R_scope.

Section RoundedConversion.
  Variable rnd : R -> R.

  (** numpy.isclose: [abs(a - b) <= atol + rtol * abs(b)] *)
  Definition fl_isclose (a b : R) : bool :=
    leb (Rabs (rnd (a - b))) (rnd (rnd (/ 100000000) + rnd (rnd (/ 100000) * Rabs b))).

  (** numpy.diff *)
  Fixpoint fl_diff (l : list R) : list R :=
    match l with
    | x :: ((y :: _) as l') => rnd (y - x) :: fl_diff l'
    | _ => []
    end.

  (** /repo/qctrlopencontrols/dynamic_decoupling_sequences/dynamic_decoupling_sequence.py:415-426 *)
  Definition fl_half_pulse_duration (maximum_rabi_rate_ maximum_detuning_rate
      minimum_segment_duration : R) (o : operation) : R :=
    if negb (fl_isclose (op_rabi o) 0) then
      rnd (5 / 10 * py_max (rnd (op_rabi o / maximum_rabi_rate_)) minimum_segment_duration)
    else if negb (fl_isclose (op_detuning o) 0) then
      rnd (5 / 10 * py_max (rnd (Rabs (op_detuning o) / maximum_detuning_rate)) minimum_segment_duration)
    else 0.

  (** dynamic_decoupling_sequence.py:428-429 *)
  Definition fl_start_end (half : operation -> R) (o : operation) : R * R :=
    (rnd (op_offset o - half o), rnd (op_offset o + half o)).

  (** dynamic_decoupling_sequence.py:433-435 *)
  Definition fl_shift_first (l : list (R * R)) : list (R * R) :=
    match l with
    | (s, e) :: l' =>
        if ltb s 0 then
          let translation := rnd (0 - s) in (rnd (s + translation), rnd (e + translation)) :: l'
        else l
    | [] => []
    end.

  (** dynamic_decoupling_sequence.py:437-439 *)
  Fixpoint fl_shift_last (sequence_duration : R) (l : list (R * R)) : list (R * R) :=
    match l with
    | [] => []
    | [(s, e)] =>
        if ltb sequence_duration e then
          let translation := rnd (e - sequence_duration) in
          [(rnd (s - translation), rnd (e - translation))]
        else [(s, e)]
    | x :: l' => x :: fl_shift_last sequence_duration l'
    end.

  (** dynamic_decoupling_sequence.py:443 *)
  Fixpoint fl_gap_durations (l : list (R * R)) : list R :=
    match l with
    | (_, e) :: (((s', _) :: _) as l') => rnd (s' - e) :: fl_gap_durations l'
    | _ => []
    end.

  (** dynamic_decoupling_sequence.py:484-496 *)
  Definition fl_pulse_segment (o : operation) (se : R * R) : segment :=
    let pulse_width := rnd (snd se - fst se) in
    if ltb 0 pulse_width then
      if negb (fl_isclose (op_rabi o) 0) then
        MkSeg (rnd (op_rabi o / pulse_width)) (op_azimuthal o) 0 pulse_width
      else if negb (fl_isclose (op_detuning o) 0) then
        MkSeg 0 0 (rnd (op_detuning o / pulse_width)) pulse_width
      else MkSeg 0 0 0 pulse_width
    else MkSeg 0 0 0 pulse_width.

  (** dynamic_decoupling_sequence.py:482-506 *)
  Fixpoint fl_interleave (ops : list operation) (ses : list (R * R)) : list segment :=
    match ops, ses with
    | o :: ops', se :: ses' =>
        fl_pulse_segment o se ::
        MkSeg 0 0 0 (match ses' with se' :: _ => rnd (fst se' - snd se) | [] => 0 end) ::
        fl_interleave ops' ses'
    | _, _ => []
    end.

  (** 411-439 *)
  Definition fl_pulse_start_ends (half : operation -> R) (sequence_duration : R)
      (ops : list operation) : list (R * R) :=
    fl_shift_last sequence_duration (fl_shift_first (map (fl_start_end half) ops)).

  (** 444-449 *)
  Definition fl_gaps_ok (minimum_segment_duration : R) (gaps : list R) : bool :=
    forallb (fun g => ltb minimum_segment_duration g || fl_isclose g minimum_segment_duration)
      gaps.

  (** 467 [np.allclose(pulse_start_ends, 0.0)] *)
  Definition fl_allclose0 (ses : list (R * R)) : bool :=
    forallb (fun se => fl_isclose (fst se) 0 && fl_isclose (snd se) 0) ses.

  (** dynamic_decoupling_sequence.py:267-520 *)
  Definition fl_convert (s : dds)
      (maximum_rabi_rate_ maximum_detuning_rate minimum_segment_duration : R)
      (name : option string) : result driven_control :=
    do* check_arguments (ltb 0 maximum_detuning_rate)
          "Maximum detuning rate must be positive." ["maximum_detuning_rate"] [] in
    do* check_arguments (ltb 0 maximum_rabi_rate_)
          "Maximum rabi rate must be positive." ["maximum_rabi_rate"] [] in
    do* check_arguments (leb 0 minimum_segment_duration)
          "Minimum segment duration must be greater than or equal to 0."
          ["minimum_segment_duration"] [] in
    do* check_arguments (forallb (fun r => leb 0 r) (rabi_rotations s))
          "Sequence contains negative values for Rabi rotations."
          ["dynamic_decoupling_sequence"] [] in
    do* check_arguments (check_valid_operation (rabi_rotations s) (detuning_rotations s))
          "Sequence operation includes rabi rotation and detuning rotation at the same instance."
          ["dynamic_decoupling_sequence"] ["maximum_rabi_rate"; "maximum_detuning_rate"] in
    let sequence_duration := seq_duration s in
    let operations := pad_operations sequence_duration (dds_operations s) in
    do* check_arguments
          (negb (existsb (fun d => leb d 0) (fl_diff (map op_offset operations))))
          "Pulse timing could not be properly deduced from the sequence offsets. Make sure all offsets are in increasing order."
          ["dynamic_decoupling_sequence"] ["offsets"] in
    let half := fl_half_pulse_duration maximum_rabi_rate_ maximum_detuning_rate
                  minimum_segment_duration in
    let ses := fl_pulse_start_ends half sequence_duration operations in
    do* check_arguments (fl_gaps_ok minimum_segment_duration (fl_gap_durations ses))
          "Distance between pulses does not respect minimum_segment_duration. Try decreasing the minimum_segment_duration or increasing the maximum_rabi_rate or the maximum_detuning_rate."
          ["dynamic_decoupling_sequence"; "maximum_rabi_rate"; "maximum_detuning_rate";
           "minimum_segment_duration"]
          ["deduced_pulse_start_timing"; "deduced_pulse_end_timing"; "gap_durations"] in
    if fl_allclose0 ses then
      DrivenControl [sequence_duration] (Some [0]) (Some [0]) (Some [0]) name
    else
      control_of_segments
        (filter (fun g => ltb 0 (seg_duration g)) (fl_interleave operations ses)) name.
End RoundedConversion.

(** The arrays of a predefined sequence hold [np.pi], its half or 0 where the
    exact sequence has [PI], its half or 0. *)
Definition stored_angle (x : R) : R := x * (float_pi / PI).
Definition stored_angles (s : dds) : dds :=
  MkDDS (seq_duration s) (offsets s) (map stored_angle (rabi_rotations s))
    (map stored_angle (seq_azimuthal_angles s)) (map stored_angle (detuning_rotations s)) (seq_name s).
