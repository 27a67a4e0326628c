(** * Model of dynamic_decoupling_sequences/dynamic_decoupling_sequence.py *)

From Verif Require Export M_DrivenControl.
Open Scope string_scope.
Open Scope R_scope.

(** The attributes of a [DynamicDecouplingSequence]
    (dynamic_decoupling_sequence.py:118-123). *)
Record dds : Type := MkDDS {
  seq_duration : R;
  offsets : list R;
  rabi_rotations : list R;
  seq_azimuthal_angles : list R;
  detuning_rotations : list R;
  seq_name : option string
}.

(** /repo/qctrlopencontrols/dynamic_decoupling_sequences/dynamic_decoupling_sequence.py:74-123
    [DynamicDecouplingSequence.__init__] *)
Definition DynamicDecouplingSequence (duration_ : R)
    (offsets_ rabi_rotations_ azimuthal_angles_ detuning_rotations_ : list R)
    (name : option string) : result dds :=
  do* check_arguments (ltb 0 duration_)
        "Sequence duration must be above zero." ["duration"] [] in
  do* check_arguments (forallb (fun t => leb 0 t && leb t duration_) offsets_)
        "Offsets for dynamic decoupling sequence must be between 0 and the sequence duration (inclusive). "
        ["offsets"; "duration"] [] in
  let offset_count := List.length offsets_ in
  do* check_arguments (Nat.eqb (List.length rabi_rotations_) offset_count)
        "rabi rotations must have the same length as offsets. "
        ["offsets"; "rabi_rotations"] [] in
  do* check_arguments (Nat.eqb (List.length azimuthal_angles_) offset_count)
        "azimuthal angles must have the same length as offsets. "
        ["offsets"; "azimuthal_angles"] [] in
  do* check_arguments (Nat.eqb (List.length detuning_rotations_) offset_count)
        "detuning rotations must have the same length as offsets. "
        ["offsets"; "detuning_rotations"] [] in
  Ok {| seq_duration := duration_; offsets := offsets_;
        rabi_rotations := rabi_rotations_;
        seq_azimuthal_angles := azimuthal_angles_;
        detuning_rotations := detuning_rotations_; seq_name := name |}.

(** dynamic_decoupling_sequence.py:125-148 [export]: the "Rabi" entry (complex
    rotation as a pair, offset) and the "Detuning" entry (rotation, offset). *)
Definition dds_export (s : dds) : list (R * R * R) * list (R * R) :=
  (map (fun x => match x with (rabi, theta, offset) =>
          (rabi * cos theta, rabi * sin theta, offset) end)
     (combine (combine (rabi_rotations s) (seq_azimuthal_angles s)) (offsets s)),
   combine (detuning_rotations s) (offsets s)).

(** dynamic_decoupling_sequence.py:150-172 [__repr__] *)
Definition dds_repr (repr_float : R -> string) (repr_array : list R -> string)
    (repr_name : option string -> string) (s : dds) : result string :=
  create_repr_from_attributes
    (Some ("DynamicDecouplingSequence",
           fun a =>
             if String.eqb a "duration" then Some (repr_float (seq_duration s))
             else if String.eqb a "offsets" then Some (repr_array (offsets s))
             else if String.eqb a "rabi_rotations" then Some (repr_array (rabi_rotations s))
             else if String.eqb a "azimuthal_angles" then Some (repr_array (seq_azimuthal_angles s))
             else if String.eqb a "detuning_rotations" then Some (repr_array (detuning_rotations s))
             else if String.eqb a "name" then Some (repr_name (seq_name s))
             else None))
    (Some (map AttrStr ["duration"; "offsets"; "rabi_rotations"; "azimuthal_angles";
                        "detuning_rotations"; "name"])).

(** dynamic_decoupling_sequence.py:174-209 [__str__]; [fmt] = str of a float *)
Definition array_to_str (fmt : R -> string) (l : list R) : string :=
  str_join ", " (map fmt l).
Definition dds_str (fmt : R -> string) (s : dds) : string :=
  let over (d : R) (l : list R) := array_to_str fmt (map (fun x => (x / d)%R) l) in
  str_join newline
    (match seq_name s with Some n => [(n ++ ":")%string] | None => [] end ++
     ["Duration = " ++ fmt (seq_duration s);
      "Offsets = [" ++ over (seq_duration s) (offsets s) ++ "] x " ++ fmt (seq_duration s);
      "Rabi Rotations = [" ++ over PI (rabi_rotations s) ++ "] x pi";
      "Azimuthal Angles = [" ++ over PI (seq_azimuthal_angles s) ++ "] x pi";
      "Detuning Rotations = [" ++ over PI (detuning_rotations s) ++ "] x pi"]%string)%list.

(** ** Conversion to a driven control *)

(** One column of the [operations] matrix (407-409). *)
Record operation : Type := MkOp {
  op_offset : R; op_rabi : R; op_azimuthal : R; op_detuning : R
}.

(** columns of the four arrays; they have equal lengths (constructor) *)
Definition operations_of (offsets_ rabi azim detu : list R) : list operation :=
  map (fun x => match x with (((t, r), a), d) => MkOp t r a d end)
    (combine (combine (combine offsets_ rabi) azim) detu).

Definition dds_operations (s : dds) : list operation :=
  operations_of (offsets s) (rabi_rotations s) (seq_azimuthal_angles s)
    (detuning_rotations s).

(** dynamic_decoupling_sequence.py:523-534 [_check_valid_operation] *)
Definition check_valid_operation (rabi detu : list R) : bool :=
  negb (existsb (fun rd => ltb 0 (fst rd) && ltb 0 (snd rd)) (combine rabi detu)).

Definition null_operation (t : R) : operation := MkOp t 0 0 0.

(** dynamic_decoupling_sequence.py:375-390: pad with null operations so that
    the first offset is 0 and the last is the duration. *)
Definition pad_empty (sequence_duration : R) (ops : list operation) : list operation :=
  match ops with
  | [] => [null_operation 0; null_operation sequence_duration]
  | _ => ops
  end.
Definition pad_front (ops : list operation) : list operation :=
  match ops with
  | [] => []
  | o :: _ => if neqb (op_offset o) 0 then null_operation 0 :: ops else ops
  end.
Definition pad_back (sequence_duration : R) (ops : list operation) : list operation :=
  if neqb (op_offset (last ops (null_operation 0))) sequence_duration
  then (ops ++ [null_operation sequence_duration])%list else ops.
Definition pad_operations (sequence_duration : R) (ops : list operation) : list operation :=
  pad_back sequence_duration (pad_front (pad_empty sequence_duration ops)).

(** dynamic_decoupling_sequence.py:415-426 *)
Definition half_pulse_duration (maximum_rabi_rate_ maximum_detuning_rate
    minimum_segment_duration : R) (o : operation) : R :=
  if negb (np_isclose (op_rabi o) 0) then
    5 / 10 * py_max (op_rabi o / maximum_rabi_rate_) minimum_segment_duration
  else if negb (np_isclose (op_detuning o) 0) then
    5 / 10 * py_max (Rabs (op_detuning o) / maximum_detuning_rate) minimum_segment_duration
  else 0.

(** dynamic_decoupling_sequence.py:428-429 *)
Definition start_end (half : operation -> R) (o : operation) : R * R :=
  (op_offset o - half o, op_offset o + half o).

(** dynamic_decoupling_sequence.py:433-435 *)
Definition shift_first (l : list (R * R)) : list (R * R) :=
  match l with
  | (s, e) :: l' => if ltb s 0 then (s + (0 - s), e + (0 - s)) :: l' else l
  | [] => []
  end.

(** dynamic_decoupling_sequence.py:437-439 *)
Fixpoint shift_last (sequence_duration : R) (l : list (R * R)) : list (R * R) :=
  match l with
  | [] => []
  | [(s, e)] =>
      if ltb sequence_duration e
      then [(s - (e - sequence_duration), e - (e - sequence_duration))] else [(s, e)]
  | x :: l' => x :: shift_last sequence_duration l'
  end.

(** dynamic_decoupling_sequence.py:443 *)
Fixpoint gap_durations (l : list (R * R)) : list R :=
  match l with
  | (_, e) :: (((s', _) :: _) as l') => (s' - e) :: gap_durations l'
  | _ => []
  end.

(** A control segment under construction (477-480). *)
Record segment : Type := MkSeg {
  seg_rabi : R; seg_azimuthal : R; seg_detuning : R; seg_duration : R
}.

(** dynamic_decoupling_sequence.py:484-496 *)
Definition pulse_segment (o : operation) (se : R * R) : segment :=
  let pulse_width := snd se - fst se in
  if ltb 0 pulse_width then
    if negb (np_isclose (op_rabi o) 0) then
      MkSeg (op_rabi o / pulse_width) (op_azimuthal o) 0 pulse_width
    else if negb (np_isclose (op_detuning o) 0) then
      MkSeg 0 0 (op_detuning o / pulse_width) pulse_width
    else MkSeg 0 0 0 pulse_width
  else MkSeg 0 0 0 pulse_width.

(** dynamic_decoupling_sequence.py:482-506: pulse, gap, pulse, gap, ...; the
    slot after the last pulse keeps its initial zeros. *)
Fixpoint interleave (ops : list operation) (ses : list (R * R)) : list segment :=
  match ops, ses with
  | o :: ops', se :: ses' =>
      pulse_segment o se ::
      MkSeg 0 0 0 (match ses' with se' :: _ => fst se' - snd se | [] => 0 end) ::
      interleave ops' ses'
  | _, _ => []
  end.

(** dynamic_decoupling_sequence.py:509-520 *)
Definition control_of_segments (segs : list segment) (name : option string)
  : result driven_control :=
  DrivenControl (map seg_duration segs) (Some (map seg_rabi segs))
    (Some (map seg_azimuthal segs)) (Some (map seg_detuning segs)) name.

(** 411-439: the pulse windows, after the shifts at both ends *)
Definition pulse_start_ends (half : operation -> R) (sequence_duration : R)
    (ops : list operation) : list (R * R) :=
  shift_last sequence_duration (shift_first (map (start_end half) ops)).

(** 444-449 *)
Definition gaps_ok (minimum_segment_duration : R) (gaps : list R) : bool :=
  forallb (fun g => ltb minimum_segment_duration g || np_isclose g minimum_segment_duration)
    gaps.

(** 467 [np.allclose(pulse_start_ends, 0.0)] *)
Definition allclose0 (ses : list (R * R)) : bool :=
  forallb (fun se => np_isclose (fst se) 0 && np_isclose (snd se) 0) ses.

(** dynamic_decoupling_sequence.py:267-520 [convert_dds_to_driven_control] *)
Definition convert_dds_to_driven_control (s : dds)
    (maximum_rabi_rate_ maximum_detuning_rate minimum_segment_duration : R)
    (name : option string) : result driven_control :=
  do* check_arguments (ltb 0 maximum_detuning_rate)
        "Maximum detuning rate must be positive." ["maximum_detuning_rate"] [] in
  do* check_arguments (ltb 0 maximum_rabi_rate_)
        "Maximum rabi rate must be positive." ["maximum_rabi_rate"] [] in
  do* check_arguments (leb 0 minimum_segment_duration)
        "Minimum segment duration must be greater than or equal to 0."
        ["minimum_segment_duration"] [] in
  do* check_arguments (forallb (fun r => leb 0 r) (rabi_rotations s))
        "Sequence contains negative values for Rabi rotations."
        ["dynamic_decoupling_sequence"] [] in
  do* check_arguments (check_valid_operation (rabi_rotations s) (detuning_rotations s))
        "Sequence operation includes rabi rotation and detuning rotation at the same instance."
        ["dynamic_decoupling_sequence"] ["maximum_rabi_rate"; "maximum_detuning_rate"] in
  let sequence_duration := seq_duration s in
  let operations := pad_operations sequence_duration (dds_operations s) in
  do* check_arguments
        (negb (existsb (fun d => leb d 0) (np_diff (map op_offset operations))))
        "Pulse timing could not be properly deduced from the sequence offsets. Make sure all offsets are in increasing order."
        ["dynamic_decoupling_sequence"] ["offsets"] in
  let half := half_pulse_duration maximum_rabi_rate_ maximum_detuning_rate
                minimum_segment_duration in
  let ses := pulse_start_ends half sequence_duration operations in
  do* check_arguments (gaps_ok minimum_segment_duration (gap_durations ses))
        "Distance between pulses does not respect minimum_segment_duration. Try decreasing the minimum_segment_duration or increasing the maximum_rabi_rate or the maximum_detuning_rate."
        ["dynamic_decoupling_sequence"; "maximum_rabi_rate"; "maximum_detuning_rate";
         "minimum_segment_duration"]
        ["deduced_pulse_start_timing"; "deduced_pulse_end_timing"; "gap_durations"] in
  if allclose0 ses then
    DrivenControl [sequence_duration] (Some [0]) (Some [0]) (Some [0]) name
  else
    control_of_segments
      (filter (fun g => ltb 0 (seg_duration g)) (interleave operations ses)) name.

(** dynamic_decoupling_sequence.py:211-264 [export_to_file] of a sequence;
    the call uses the default [minimum_segment_duration = 0]. *)
Definition dds_export_to_file (d : fs) (s : dds)
    (filename file_format file_type coordinates : string)
    (maximum_rabi_rate_ maximum_detuning_rate : R) : fs * option exn :=
  match convert_dds_to_driven_control s maximum_rabi_rate_ maximum_detuning_rate 0
          (seq_name s) with
  | Raise e => (d, Some e)
  | Ok c => export_to_file d c filename file_format file_type coordinates
  end.
