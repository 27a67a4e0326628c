(** * The builders of dynamic_decoupling_sequences/predefined.py in floating point

    The same functions as in M_DDSPredefined.v with every arithmetic operation
    on times rounded.  [rnd] is the rounding of a basic operation, [fsin] is
    [np.sin], [fsquare] is [** 2] of a float64 and [fpi] is [np.pi].  The
    rotations and angles stored in the sequences are not computed with and stay
    multiples of [PI].  Integers below 2^53 are exact. *)

From Flocq Require Import Core.
From Verif Require Export M_DDSPredefined.
Import ListNotations.
Open Scope string_scope.
Open Scope list_scope.
Open Scope R_scope.

(** IEEE 754 binary64 with rounding to nearest, ties to even.  Overflow is not
    represented; C65 shows that no computed time exceeds the duration. *)
Definition binary64_format : R -> Prop := generic_format radix2 (FLT_exp (-1074) 53).
Definition binary64 : R -> R := round radix2 (FLT_exp (-1074) 53) ZnearestE.

(** [np.pi] *)
Definition float_pi : R := 884279719003555 / 2 ^ 48.

Section Rounded.
  Variables (rnd fsin fsquare : R -> R) (fpi : R).

  (** /repo/qctrlopencontrols/dynamic_decoupling_sequences/predefined.py:143-198 *)
  Definition fl_ramsey_sequence (duration_ : R) (pre_post_rotation : bool)
      (name : option string) : result dds :=
    do* check_duration duration_ in
    if pre_post_rotation then
      DynamicDecouplingSequence duration_ (map (fun x => rnd (duration_ * x)) [0; 1])
        [PI / 2; PI / 2] [0; PI] (np_zeros 2) name
    else DynamicDecouplingSequence duration_ [] [] [] [] name.

  (** predefined.py:201-259 *)
  Definition fl_spin_echo_sequence (duration_ : R) (pre_post_rotation : bool)
      (name : option string) : result dds :=
    do* check_duration duration_ in
    finish duration_ (uniform_arrays [rnd (duration_ / 2)] PI 0 0) pre_post_rotation name.

  (** predefined.py:1130-1157 *)
  Definition fl_carr_purcell_offsets (duration_ : R) (offset_count : nat) : list R :=
    let spacing := rnd (1 / INR offset_count) in
    let start := rnd (spacing * (5 / 10)) in
    map (fun i => rnd (rnd (rnd (spacing * INR i) + start) * duration_)) (range 0 offset_count).

  (** predefined.py:1160-1184; [np.pi * k * constant] is evaluated from the left *)
  Definition fl_uhrig_offsets (duration_ : R) (offset_count : nat) : list R :=
    let constant := rnd (1 / (2 * INR offset_count + 2)) in
    map (fun k => rnd (duration_ * fsquare (fsin (rnd (rnd (fpi * INR k) * constant)))))
      (range 1 offset_count).

  (** predefined.py:560-562 *)
  Definition fl_periodic_offsets (duration_ : R) (offset_count : nat) : list R :=
    let spacing := rnd (1 / (INR offset_count + 1)) in
    map (fun k => rnd (duration_ * rnd (INR k * spacing))) (range 1 offset_count).

  (** [np.arange(start, stop, step)]: the second element is [start + step], the
      others are [start + i * (second - start)] *)
  Definition fl_arange (start stop step : R) : list R :=
    let delta := rnd (rnd (start + step) - start) in
    map (fun i => rnd (start + rnd (INR i * delta)))
      (range 0 (Z.to_nat (np_ceil (rnd (rnd (stop - start) / step))))).

  (** predefined.py:672-677; products of signs are exact *)
  Definition fl_walsh_value (hamming_weight : nat) (binary_order : list nat) (x : R) : R :=
    fold_left (fun acc i =>
        acc * (np_sign (fsin (rnd (rnd (2 ^ (i + 1) * fpi) * x))))
              ^ (nth (hamming_weight - 1 - i) binary_order 0%nat))
      (range 0 hamming_weight) 1.

  Definition fl_walsh_array (paley_order : nat) : list R :=
    let hamming_weight := walsh_hamming_weight paley_order in
    let samples := (2 ^ hamming_weight)%nat in
    let relative_offset := fl_arange (rnd (1 / (2 * INR samples))) 1 (rnd (1 / INR samples)) in
    map (fl_walsh_value hamming_weight (binary_repr paley_order hamming_weight)) relative_offset.

  (** predefined.py:679-685 *)
  Definition fl_walsh_offsets (duration_ : R) (paley_order : nat) : list R :=
    let samples := (2 ^ walsh_hamming_weight paley_order)%nat in
    let w := fl_walsh_array paley_order in
    map (fun i => rnd (duration_ * rnd ((INR i + 1) * rnd (1 / INR samples))))
      (filter (fun i => neqb (nth i w 0) (nth (i + 1) w 0)) (range 0 (samples - 1))).

  (** predefined.py:794-808 *)
  Definition fl_quadratic_rows (duration_ : R) (inner outer : nat) : list (list R) :=
    let outer_offsets := np_insert_ends (fl_uhrig_offsets duration_ outer) 0 duration_ in
    let inner_durations := map rnd (np_diff outer_offsets) in
    map (fun x => match x with ((inner_duration, t0), t1) =>
           map (fun t => rnd (t + t0)) (fl_uhrig_offsets inner_duration inner) ++ [t1]
         end)
      (combine (combine inner_durations outer_offsets) (tl outer_offsets)).

  Definition fl_quadratic_sequence (duration_ inner_offset_count outer_offset_count : R)
      (pre_post_rotation : bool) (name : option string) : result dds :=
    do* check_duration duration_ in
    do* check_arguments (leb 1 inner_offset_count)
          "Number of offsets of inner pulses must be greater than zero."
          ["inner_offset_count"] [] in
    do* check_arguments (leb 1 outer_offset_count)
          "Number of offsets of outer pulses must be greater than zero."
          ["outer_offset_count"] [] in
    let inner := int_count inner_offset_count in
    let outer := int_count outer_offset_count in
    let offsets_ := drop_last (List.concat (fl_quadratic_rows duration_ inner outer)) in
    let rabi := drop_last (List.concat (quadratic_rabi_rows inner outer)) in
    let detu := drop_last (List.concat (quadratic_detuning_rows inner outer)) in
    finish duration_
      {| a_offsets := offsets_; a_rabi := rabi;
         a_azimuthal := np_zeros (List.length offsets_); a_detuning := detu |}
      pre_post_rotation name.

  Definition fl_count_sequence (offsets_of_count : R -> nat -> list R) (azimuthal : R)
      (duration_ offset_count : R) (pre_post_rotation : bool) (name : option string) : result dds :=
    do* check_duration duration_ in
    do* check_offset_count offset_count in
    finish duration_ (uniform_arrays (offsets_of_count duration_ (int_count offset_count)) PI azimuthal 0)
      pre_post_rotation name.

  Definition fl_walsh_sequence (duration_ paley_order : R) (pre_post_rotation : bool)
      (name : option string) : result dds :=
    do* check_duration duration_ in
    do* check_arguments (leb 1 paley_order && leb paley_order 2000)
          "Paley order must be between 1 and 2000." ["paley_order"] [] in
    finish duration_ (uniform_arrays (fl_walsh_offsets duration_ (int_count paley_order)) PI 0 0)
      pre_post_rotation name.

  (** predefined.py:911-923; [np.cumsum] adds from the left *)
  Definition fl_x_concatenated_sequence (duration_ concatenation_order : R)
      (pre_post_rotation : bool) (name : option string) : result dds :=
    do* check_duration duration_ in
    do* check_concatenation_order concatenation_order in
    let order := int_count concatenation_order in
    let unit_spacing := rnd (duration_ / 2 ^ order) in
    finish duration_
      (uniform_arrays (x_offsets 0 unit_spacing (fun a b => rnd (a + b)) leb eqb order) PI 0 0)
      pre_post_rotation name.

  (** predefined.py:1014-1127 *)
  Definition fl_xy_concatenated_sequence (duration_ concatenation_order : R)
      (pre_post_rotation : bool) (name : option string) : result dds :=
    do* check_duration duration_ in
    do* check_concatenation_order concatenation_order in
    let order := int_count concatenation_order in
    let unit_spacing := rnd (duration_ / 2 ^ (order * 2)) in
    let slots := xy_slots 0 unit_spacing (fun a b => rnd (a + b)) leb eqb ltb order in
    finish duration_
      {| a_offsets := map sl_offset slots;
         a_rabi := map (fun s => if sl_rabi s then PI else 0) slots;
         a_azimuthal := map (fun s => if sl_azimuthal s then PI / 2 else 0) slots;
         a_detuning := map (fun s => if sl_detuning s then PI else 0) slots |}
      pre_post_rotation name.
End Rounded.
