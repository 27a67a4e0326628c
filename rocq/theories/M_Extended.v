(** * Constructors and conversion on all floats, including NaN and infinities

    The same functions as in M_DrivenControl.v and M_DDS.v with every number an
    [xfloat]: IEEE comparisons (false on NaN), IEEE arithmetic on infinities.
    Finite numbers are exact reals as elsewhere; the sign of zero is not
    modelled (no modelled operation divides by zero). *)

From Verif Require Export M_DDS.
Open Scope string_scope.
Open Scope R_scope.

(** ** IEEE arithmetic and comparisons *)

Definition xopp (x : xfloat) : xfloat :=
  match x with Fin r => Fin (- r) | Inf n => Inf (negb n) | NaN => NaN end.
Definition xadd (x y : xfloat) : xfloat :=
  match x, y with
  | Fin a, Fin b => Fin (a + b)
  | Inf n, Inf m => if Bool.eqb n m then Inf n else NaN
  | Inf n, Fin _ | Fin _, Inf n => Inf n
  | _, _ => NaN
  end.
Definition xsub (x y : xfloat) : xfloat := xadd x (xopp y).
Definition xdivide (x y : xfloat) : xfloat :=
  match x, y with
  | Fin a, Fin b => xdiv a b
  | Fin _, Inf _ => Fin 0
  | Inf n, Fin b => Inf (xorb n (ltb b 0))
  | _, _ => NaN
  end.
Definition xlt (x y : xfloat) : bool :=
  match x, y with
  | Fin a, Fin b => ltb a b
  | Fin _, Inf n => negb n
  | Inf n, Fin _ => n
  | Inf n, Inf m => n && negb m
  | _, _ => false
  end.
Definition xle (x y : xfloat) : bool :=
  match x, y with
  | Fin a, Fin b => leb a b
  | Fin _, Inf n => negb n
  | Inf n, Fin _ => n
  | Inf n, Inf m => n || negb m
  | _, _ => false
  end.
Definition xeq (x y : xfloat) : bool :=
  match x, y with
  | Fin a, Fin b => eqb a b
  | Inf n, Inf m => Bool.eqb n m
  | _, _ => false
  end.
(** Python's [max(a, b)]: [b] if [b > a], otherwise [a] *)
Definition xmax (a b : xfloat) : xfloat := if xlt a b then b else a.
(** numpy.isclose: the tolerance for finite numbers, equality otherwise *)
Definition xisclose (a b : xfloat) : bool :=
  match a, b with
  | Fin x, Fin y => np_isclose x y
  | _, _ => xeq a b
  end.
Fixpoint xdiff (l : list xfloat) : list xfloat :=
  match l with
  | x :: ((y :: _) as l') => xsub y x :: xdiff l'
  | _ => []
  end.

(** ** DrivenControl *)

Record xcontrol : Type := MkXControl {
  x_rabi_rates : list xfloat;
  x_azimuthal_angles : list xfloat;
  x_detunings : list xfloat;
  x_durations : list xfloat;
  x_dc_name : option string
}.

Definition xinput_lengths (lists : list (option (list xfloat))) : list nat :=
  nodup Nat.eq_dec (map (@List.length xfloat) (flat_map opt_list lists)).
Definition xzeros (n : nat) : list xfloat := repeat (Fin 0) n.

(** /repo/qctrlopencontrols/driven_controls/driven_control.py:94-156 *)
Definition xDrivenControl (durations_ : list xfloat)
    (rabi_rates_ azimuthal_angles_ detunings_ : option (list xfloat))
    (name : option string) : result xcontrol :=
  do* check_arguments (forallb (fun d => xlt (Fin 0) d) durations_)
        "Duration of driven control segments must all be greater than zero."
        ["durations"] [] in
  do* check_arguments
        (Nat.eqb (List.length (xinput_lengths
           [rabi_rates_; azimuthal_angles_; detunings_; Some durations_])) 1)
        "If set, rabi rates, azimuthal angles, detunings and durations must be of same length"
        ["rabi_rates"; "azimuthal_angles"; "detunings"; "durations"] [] in
  let duration_count := List.length durations_ in
  let rabi := opt_default (xzeros duration_count) rabi_rates_ in
  let azim := opt_default (xzeros duration_count) azimuthal_angles_ in
  let detu := opt_default (xzeros duration_count) detunings_ in
  do* check_arguments (forallb (fun r => xle (Fin 0) r) rabi)
        "All rabi rates must be greater than zero." ["rabi_rates"] [] in
  Ok {| x_rabi_rates := rabi; x_azimuthal_angles := azim; x_detunings := detu;
        x_durations := durations_; x_dc_name := name |}.

(** ** DynamicDecouplingSequence *)

Record xdds : Type := MkXDDS {
  x_seq_duration : xfloat;
  x_offsets : list xfloat;
  x_rabi_rotations : list xfloat;
  x_seq_azimuthal_angles : list xfloat;
  x_detuning_rotations : list xfloat;
  x_seq_name : option string
}.

(** /repo/qctrlopencontrols/dynamic_decoupling_sequences/dynamic_decoupling_sequence.py:74-123 *)
Definition xDynamicDecouplingSequence (duration_ : xfloat)
    (offsets_ rabi_rotations_ azimuthal_angles_ detuning_rotations_ : list xfloat)
    (name : option string) : result xdds :=
  do* check_arguments (xlt (Fin 0) duration_)
        "Sequence duration must be above zero." ["duration"] [] in
  do* check_arguments (forallb (fun t => xle (Fin 0) t && xle t duration_) offsets_)
        "Offsets for dynamic decoupling sequence must be between 0 and the sequence duration (inclusive). "
        ["offsets"; "duration"] [] in
  let offset_count := List.length offsets_ in
  do* check_arguments (Nat.eqb (List.length rabi_rotations_) offset_count)
        "rabi rotations must have the same length as offsets. "
        ["offsets"; "rabi_rotations"] [] in
  do* check_arguments (Nat.eqb (List.length azimuthal_angles_) offset_count)
        "azimuthal angles must have the same length as offsets. "
        ["offsets"; "azimuthal_angles"] [] in
  do* check_arguments (Nat.eqb (List.length detuning_rotations_) offset_count)
        "detuning rotations must have the same length as offsets. "
        ["offsets"; "detuning_rotations"] [] in
  Ok {| x_seq_duration := duration_; x_offsets := offsets_;
        x_rabi_rotations := rabi_rotations_;
        x_seq_azimuthal_angles := azimuthal_angles_;
        x_detuning_rotations := detuning_rotations_; x_seq_name := name |}.

(** ** Conversion *)

Record xoperation : Type := MkXOp {
  xop_offset : xfloat; xop_rabi : xfloat; xop_azimuthal : xfloat; xop_detuning : xfloat
}.

Definition xdds_operations (s : xdds) : list xoperation :=
  map (fun x => match x with (((t, r), a), d) => MkXOp t r a d end)
    (combine (combine (combine (x_offsets s) (x_rabi_rotations s)) (x_seq_azimuthal_angles s))
       (x_detuning_rotations s)).

(** dynamic_decoupling_sequence.py:523-534 *)
Definition xcheck_valid_operation (rabi detu : list xfloat) : bool :=
  negb (existsb (fun rd => xlt (Fin 0) (fst rd) && xlt (Fin 0) (snd rd)) (combine rabi detu)).

Definition xnull_operation (t : xfloat) : xoperation := MkXOp t (Fin 0) (Fin 0) (Fin 0).

(** dynamic_decoupling_sequence.py:375-390 *)
Definition xpad_empty (sequence_duration : xfloat) (ops : list xoperation) : list xoperation :=
  match ops with
  | [] => [xnull_operation (Fin 0); xnull_operation sequence_duration]
  | _ => ops
  end.
Definition xpad_front (ops : list xoperation) : list xoperation :=
  match ops with
  | [] => []
  | o :: _ => if negb (xeq (xop_offset o) (Fin 0)) then xnull_operation (Fin 0) :: ops else ops
  end.
Definition xpad_back (sequence_duration : xfloat) (ops : list xoperation) : list xoperation :=
  if negb (xeq (xop_offset (last ops (xnull_operation (Fin 0)))) sequence_duration)
  then (ops ++ [xnull_operation sequence_duration])%list else ops.
Definition xpad_operations (sequence_duration : xfloat) (ops : list xoperation) : list xoperation :=
  xpad_back sequence_duration (xpad_front (xpad_empty sequence_duration ops)).

(** dynamic_decoupling_sequence.py:415-426 *)
Definition xhalf_pulse_duration (maximum_rabi_rate_ maximum_detuning_rate
    minimum_segment_duration : xfloat) (o : xoperation) : xfloat :=
  if negb (xisclose (xop_rabi o) (Fin 0)) then
    xscale (xmax (xdivide (xop_rabi o) maximum_rabi_rate_) minimum_segment_duration) (5 / 10)
  else if negb (xisclose (xop_detuning o) (Fin 0)) then
    xscale (xmax (xdivide (xabs (xop_detuning o)) maximum_detuning_rate) minimum_segment_duration) (5 / 10)
  else Fin 0.

(** dynamic_decoupling_sequence.py:428-429 *)
Definition xstart_end (half : xoperation -> xfloat) (o : xoperation) : xfloat * xfloat :=
  (xsub (xop_offset o) (half o), xadd (xop_offset o) (half o)).

(** dynamic_decoupling_sequence.py:433-435 *)
Definition xshift_first (l : list (xfloat * xfloat)) : list (xfloat * xfloat) :=
  match l with
  | (s, e) :: l' =>
      if xlt s (Fin 0) then (xadd s (xsub (Fin 0) s), xadd e (xsub (Fin 0) s)) :: l' else l
  | [] => []
  end.

(** dynamic_decoupling_sequence.py:437-439 *)
Fixpoint xshift_last (sequence_duration : xfloat) (l : list (xfloat * xfloat))
  : list (xfloat * xfloat) :=
  match l with
  | [] => []
  | [(s, e)] =>
      if xlt sequence_duration e
      then [(xsub s (xsub e sequence_duration), xsub e (xsub e sequence_duration))] else [(s, e)]
  | x :: l' => x :: xshift_last sequence_duration l'
  end.

(** dynamic_decoupling_sequence.py:443 *)
Fixpoint xgap_durations (l : list (xfloat * xfloat)) : list xfloat :=
  match l with
  | (_, e) :: (((s', _) :: _) as l') => xsub s' e :: xgap_durations l'
  | _ => []
  end.

Record xsegment : Type := MkXSeg {
  xseg_rabi : xfloat; xseg_azimuthal : xfloat; xseg_detuning : xfloat; xseg_duration : xfloat
}.

(** dynamic_decoupling_sequence.py:484-496 *)
Definition xpulse_segment (o : xoperation) (se : xfloat * xfloat) : xsegment :=
  let pulse_width := xsub (snd se) (fst se) in
  if xlt (Fin 0) pulse_width then
    if negb (xisclose (xop_rabi o) (Fin 0)) then
      MkXSeg (xdivide (xop_rabi o) pulse_width) (xop_azimuthal o) (Fin 0) pulse_width
    else if negb (xisclose (xop_detuning o) (Fin 0)) then
      MkXSeg (Fin 0) (Fin 0) (xdivide (xop_detuning o) pulse_width) pulse_width
    else MkXSeg (Fin 0) (Fin 0) (Fin 0) pulse_width
  else MkXSeg (Fin 0) (Fin 0) (Fin 0) pulse_width.

(** dynamic_decoupling_sequence.py:482-506 *)
Fixpoint xinterleave (ops : list xoperation) (ses : list (xfloat * xfloat)) : list xsegment :=
  match ops, ses with
  | o :: ops', se :: ses' =>
      xpulse_segment o se ::
      MkXSeg (Fin 0) (Fin 0) (Fin 0)
        (match ses' with se' :: _ => xsub (fst se') (snd se) | [] => Fin 0 end) ::
      xinterleave ops' ses'
  | _, _ => []
  end.

Definition xpulse_start_ends (half : xoperation -> xfloat) (sequence_duration : xfloat)
    (ops : list xoperation) : list (xfloat * xfloat) :=
  xshift_last sequence_duration (xshift_first (map (xstart_end half) ops)).

(** 444-449 *)
Definition xgaps_ok (minimum_segment_duration : xfloat) (gaps : list xfloat) : bool :=
  forallb (fun g => xlt minimum_segment_duration g || xisclose g minimum_segment_duration) gaps.

(** 467 *)
Definition xallclose0 (ses : list (xfloat * xfloat)) : bool :=
  forallb (fun se => xisclose (fst se) (Fin 0) && xisclose (snd se) (Fin 0)) ses.

(** dynamic_decoupling_sequence.py:509-520 *)
Definition xcontrol_of_segments (segs : list xsegment) (name : option string)
  : result xcontrol :=
  xDrivenControl (map xseg_duration segs) (Some (map xseg_rabi segs))
    (Some (map xseg_azimuthal segs)) (Some (map xseg_detuning segs)) name.

(** dynamic_decoupling_sequence.py:267-520 *)
Definition xconvert (s : xdds)
    (maximum_rabi_rate_ maximum_detuning_rate minimum_segment_duration : xfloat)
    (name : option string) : result xcontrol :=
  do* check_arguments (xlt (Fin 0) maximum_detuning_rate)
        "Maximum detuning rate must be positive." ["maximum_detuning_rate"] [] in
  do* check_arguments (xlt (Fin 0) maximum_rabi_rate_)
        "Maximum rabi rate must be positive." ["maximum_rabi_rate"] [] in
  do* check_arguments (xle (Fin 0) minimum_segment_duration)
        "Minimum segment duration must be greater than or equal to 0."
        ["minimum_segment_duration"] [] in
  do* check_arguments (forallb (fun r => xle (Fin 0) r) (x_rabi_rotations s))
        "Sequence contains negative values for Rabi rotations."
        ["dynamic_decoupling_sequence"] [] in
  do* check_arguments (xcheck_valid_operation (x_rabi_rotations s) (x_detuning_rotations s))
        "Sequence operation includes rabi rotation and detuning rotation at the same instance."
        ["dynamic_decoupling_sequence"] ["maximum_rabi_rate"; "maximum_detuning_rate"] in
  let sequence_duration := x_seq_duration s in
  let operations := xpad_operations sequence_duration (xdds_operations s) in
  do* check_arguments
        (negb (existsb (fun d => xle d (Fin 0)) (xdiff (map xop_offset operations))))
        "Pulse timing could not be properly deduced from the sequence offsets. Make sure all offsets are in increasing order."
        ["dynamic_decoupling_sequence"] ["offsets"] in
  let half := xhalf_pulse_duration maximum_rabi_rate_ maximum_detuning_rate
                minimum_segment_duration in
  let ses := xpulse_start_ends half sequence_duration operations in
  do* check_arguments (xgaps_ok minimum_segment_duration (xgap_durations ses))
        "Distance between pulses does not respect minimum_segment_duration. Try decreasing the minimum_segment_duration or increasing the maximum_rabi_rate or the maximum_detuning_rate."
        ["dynamic_decoupling_sequence"; "maximum_rabi_rate"; "maximum_detuning_rate";
         "minimum_segment_duration"]
        ["deduced_pulse_start_timing"; "deduced_pulse_end_timing"; "gap_durations"] in
  if xallclose0 ses then
    xDrivenControl [sequence_duration] (Some [Fin 0]) (Some [Fin 0]) (Some [Fin 0]) name
  else
    xcontrol_of_segments
      (filter (fun g => xlt (Fin 0) (xseg_duration g)) (xinterleave operations ses)) name.
