(** * Model of dynamic_decoupling_sequences/predefined.py *)

From Verif Require Export M_DDS.
Open Scope string_scope.
Open Scope R_scope.

(** The four arrays (offsets, rabi_rotations, azimuthal_angles,
    detuning_rotations) that every builder assembles. *)
Record arrays : Type := MkArrays {
  a_offsets : list R; a_rabi : list R; a_azimuthal : list R; a_detuning : list R
}.

(** /repo/qctrlopencontrols/dynamic_decoupling_sequences/predefined.py:65-91:
    number of indices whose three entries are close to the given values *)
Definition count_pulses (rabi azim detu : R) (a : arrays) : nat :=
  List.length (filter (fun x => match x with ((r, p), d) =>
      np_isclose r rabi && np_isclose p azim && np_isclose d detu end)
    (combine (combine (a_rabi a) (a_azimuthal a)) (a_detuning a))).

(** predefined.py:27-140 [_add_pre_post_rotations] *)
Definition add_pre_post_rotations (duration_ : R) (a : arrays) : result arrays :=
  let x_pi_pulses := count_pulses PI 0 0 a in
  let y_pi_pulses := count_pulses PI (PI / 2) 0 a in
  let z_pi_pulses := count_pulses 0 0 PI a in
  do* check_arguments
        (Nat.eqb (List.length (a_offsets a)) (x_pi_pulses + y_pi_pulses + z_pi_pulses))
        "Sequence contains pulses that are not X, Y, or Z pi-pulses."
        ["rabi_rotations"; "azimuthal_angles"; "detuning_rotations"] [] in
  let preserves_10 := Nat.eqb ((x_pi_pulses + y_pi_pulses) mod 2) 0 in
  let preserves_11 := Nat.eqb ((y_pi_pulses + z_pi_pulses) mod 2) 0 in
  let final_azimuthal :=
    if (preserves_10 && preserves_11) || (negb preserves_10 && negb preserves_11)
    then PI else 0 in
  Ok {| a_offsets := np_insert_ends (a_offsets a) 0 duration_;
        a_rabi := np_insert_ends (a_rabi a) (PI / 2) (PI / 2);
        a_azimuthal := np_insert_ends (a_azimuthal a) 0 final_azimuthal;
        a_detuning := np_insert_ends (a_detuning a) 0 0 |}.

(** The common tail: optionally add the rotations, then construct. *)
Definition finish (duration_ : R) (a : arrays) (pre_post_rotation : bool)
    (name : option string) : result dds :=
  let* a' := (if pre_post_rotation then add_pre_post_rotations duration_ a else Ok a) in
  DynamicDecouplingSequence duration_ (a_offsets a') (a_rabi a') (a_azimuthal a')
    (a_detuning a') name.

Definition check_duration (duration_ : R) : result unit :=
  check_arguments (ltb 0 duration_) "Sequence duration must be greater than zero."
    ["duration"] [].

Definition check_offset_count (offset_count : R) : result unit :=
  check_arguments (leb 1 offset_count) "Number of offsets must be greater than zero."
    ["offset_count"] [].

(** [int(x)] of a number that has been checked to be at least 1 *)
Definition int_count (x : R) : nat := Z.to_nat (py_int x).

(** all pulses of the same kind: [np.full(offsets.shape, v)] for each array *)
Definition uniform_arrays (offsets_ : list R) (rabi azim detu : R) : arrays :=
  let n := List.length offsets_ in
  {| a_offsets := offsets_; a_rabi := np_full n rabi;
     a_azimuthal := np_full n azim; a_detuning := np_full n detu |}.

(** predefined.py:143-198 [new_ramsey_sequence] *)
Definition new_ramsey_sequence (duration_ : R) (pre_post_rotation : bool)
    (name : option string) : result dds :=
  do* check_duration duration_ in
  if pre_post_rotation then
    DynamicDecouplingSequence duration_ (map (Rmult duration_) [0; 1]) [PI / 2; PI / 2]
      [0; PI] (np_zeros 2) name
  else DynamicDecouplingSequence duration_ [] [] [] [] name.

(** predefined.py:201-259 [new_spin_echo_sequence] *)
Definition new_spin_echo_sequence (duration_ : R) (pre_post_rotation : bool)
    (name : option string) : result dds :=
  do* check_duration duration_ in
  finish duration_ (uniform_arrays [duration_ / 2] PI 0 0) pre_post_rotation name.

(** predefined.py:1130-1157 [_carr_purcell_meiboom_gill_offsets] *)
Definition carr_purcell_meiboom_gill_offsets (duration_ : R) (offset_count : nat) : list R :=
  let spacing := 1 / INR offset_count in
  let start := spacing * (5 / 10) in
  map (fun i => (spacing * INR i + start) * duration_) (range 0 offset_count).

(** predefined.py:262-344 [new_carr_purcell_sequence] *)
Definition new_carr_purcell_sequence (duration_ offset_count : R) (pre_post_rotation : bool)
    (name : option string) : result dds :=
  do* check_duration duration_ in
  do* check_offset_count offset_count in
  finish duration_
    (uniform_arrays (carr_purcell_meiboom_gill_offsets duration_ (int_count offset_count))
       PI 0 0)
    pre_post_rotation name.

(** predefined.py:347-428 [new_cpmg_sequence] *)
Definition new_cpmg_sequence (duration_ offset_count : R) (pre_post_rotation : bool)
    (name : option string) : result dds :=
  do* check_duration duration_ in
  do* check_offset_count offset_count in
  finish duration_
    (uniform_arrays (carr_purcell_meiboom_gill_offsets duration_ (int_count offset_count))
       PI (PI / 2) 0)
    pre_post_rotation name.

(** predefined.py:1160-1184 [_uhrig_single_axis_offsets] *)
Definition uhrig_single_axis_offsets (duration_ : R) (offset_count : nat) : list R :=
  let constant := 1 / (2 * INR offset_count + 2) in
  map (fun k => duration_ * (sin (PI * INR k * constant)) ^ 2) (range 1 offset_count).

(** predefined.py:431-507 [new_uhrig_sequence] *)
Definition new_uhrig_sequence (duration_ offset_count : R) (pre_post_rotation : bool)
    (name : option string) : result dds :=
  do* check_duration duration_ in
  do* check_offset_count offset_count in
  finish duration_
    (uniform_arrays (uhrig_single_axis_offsets duration_ (int_count offset_count))
       PI (PI / 2) 0)
    pre_post_rotation name.

(** predefined.py:561-563 *)
Definition periodic_offsets (duration_ : R) (offset_count : nat) : list R :=
  let spacing := 1 / (INR offset_count + 1) in
  map (fun k => duration_ * (INR k * spacing)) (range 1 offset_count).

(** predefined.py:510-586 [new_periodic_sequence] *)
Definition new_periodic_sequence (duration_ offset_count : R) (pre_post_rotation : bool)
    (name : option string) : result dds :=
  do* check_duration duration_ in
  do* check_offset_count offset_count in
  finish duration_
    (uniform_arrays (periodic_offsets duration_ (int_count offset_count)) PI 0 0)
    pre_post_rotation name.

(** ** Walsh *)

(** [np.arange(start, stop, step)] *)
Definition np_arange (start stop step : R) : list R :=
  map (fun i => start + INR i * step)
    (range 0 (Z.to_nat (np_ceil ((stop - start) / step)))).

(** [np.sign] *)
Definition np_sign (x : R) : R :=
  if ltb 0 x then 1 else if ltb x 0 then -1 else 0.

(** [int(np.floor(np.log2(paley_order))) + 1] (664); [Z.log2] is the floor of
    the base-2 logarithm. *)
Definition walsh_hamming_weight (paley_order : nat) : nat := S (Nat.log2 paley_order).

(** [np.binary_repr] as digits, most significant first (670-671) *)
Definition binary_repr (paley_order digits : nat) : list nat :=
  map (fun i => Nat.b2n (Nat.testbit paley_order (digits - 1 - i))) (range 0 digits).

(** predefined.py:672-677: the entry of [walsh_array] at sample [x] *)
Definition walsh_value (hamming_weight : nat) (binary_order : list nat) (x : R) : R :=
  fold_left (fun acc i =>
      acc * (np_sign (sin (2 ^ (i + 1) * PI * x)))
            ^ (nth (hamming_weight - 1 - i) binary_order 0%nat))
    (range 0 hamming_weight) 1.

Definition walsh_array (paley_order : nat) : list R :=
  let hamming_weight := walsh_hamming_weight paley_order in
  let samples := (2 ^ hamming_weight)%nat in
  let relative_offset := np_arange (1 / (2 * INR samples)) 1 (1 / INR samples) in
  map (walsh_value hamming_weight (binary_repr paley_order hamming_weight)) relative_offset.

(** predefined.py:679-683 *)
Definition walsh_relative_offsets (paley_order : nat) : list R :=
  let samples := (2 ^ walsh_hamming_weight paley_order)%nat in
  let w := walsh_array paley_order in
  map (fun i => (INR i + 1) * (1 / INR samples))
    (filter (fun i => neqb (nth i w 0) (nth (i + 1) w 0)) (range 0 (samples - 1))).

(** predefined.py:589-707 [new_walsh_sequence] *)
Definition new_walsh_sequence (duration_ paley_order : R) (pre_post_rotation : bool)
    (name : option string) : result dds :=
  do* check_duration duration_ in
  do* check_arguments (leb 1 paley_order && leb paley_order 2000)
        "Paley order must be between 1 and 2000." ["paley_order"] [] in
  finish duration_
    (uniform_arrays (map (Rmult duration_) (walsh_relative_offsets (int_count paley_order)))
       PI 0 0)
    pre_post_rotation name.

(** ** Quadratic *)

(** predefined.py:794-808: rows of the offset matrix *)
Definition quadratic_offset_rows (duration_ : R) (inner outer : nat) : list (list R) :=
  let outer_offsets := np_insert_ends (uhrig_single_axis_offsets duration_ outer) 0 duration_ in
  let inner_durations := np_diff outer_offsets in
  map (fun x => match x with ((inner_duration, t0), t1) =>
         (map (fun t => t + t0) (uhrig_single_axis_offsets inner_duration inner) ++ [t1])%list
       end)
    (combine (combine inner_durations outer_offsets) (tl outer_offsets)).

(** predefined.py:810-814: [rabi_rotations[0:outer, -1] = pi] on a zero matrix
    with outer+1 rows and inner+1 columns *)
Definition quadratic_rabi_rows (inner outer : nat) : list (list R) :=
  (repeat (np_zeros inner ++ [PI]) outer ++ [np_zeros inner ++ [0]])%list.

(** [detuning_rotations[0:outer+1, 0:inner] = pi] *)
Definition quadratic_detuning_rows (inner outer : nat) : list (list R) :=
  repeat (np_full inner PI ++ [0])%list (outer + 1).

(** predefined.py:710-844 [new_quadratic_sequence] *)
Definition new_quadratic_sequence (duration_ inner_offset_count outer_offset_count : R)
    (pre_post_rotation : bool) (name : option string) : result dds :=
  do* check_duration duration_ in
  do* check_arguments (leb 1 inner_offset_count)
        "Number of offsets of inner pulses must be greater than zero."
        ["inner_offset_count"] [] in
  do* check_arguments (leb 1 outer_offset_count)
        "Number of offsets of outer pulses must be greater than zero."
        ["outer_offset_count"] [] in
  let inner := int_count inner_offset_count in
  let outer := int_count outer_offset_count in
  let offsets_ := drop_last (List.concat (quadratic_offset_rows duration_ inner outer)) in
  let rabi := drop_last (List.concat (quadratic_rabi_rows inner outer)) in
  let detu := drop_last (List.concat (quadratic_detuning_rows inner outer)) in
  finish duration_
    {| a_offsets := offsets_; a_rabi := rabi;
       a_azimuthal := np_zeros (List.length offsets_); a_detuning := detu |}
    pre_post_rotation name.

(** ** Concatenated sequences *)

(** predefined.py:1187-1214 [_concatenation_x]; order 0 is never reached. *)
Fixpoint concatenation_x (order : nat) : list Z :=
  match order with
  | O => []
  | S O => [1; 0; 1; 0]%Z
  | S l => concatenation_x l ++ [0%Z] ++ concatenation_x l ++ [0%Z]
  end%list.

(** [cumulations[-1] = v] *)
Definition set_last (v : Z) (l : list Z) : list Z :=
  match l with [] => [] | _ => (removelast l ++ [v])%list end.

(** predefined.py:1233-1257 [_concatenation_xy]; order 0 is never reached. *)
Fixpoint concatenation_xy (order : nat) : list Z :=
  match order with
  | O => []
  | S O => [1; -1; 1; -2; 1; -1; 1; -2]%Z
  | S l =>
      let prev := concatenation_xy l in
      let c1 := set_last (-3) (removelast (prev ++ [(-1)%Z])) in
      let c2 := removelast (removelast (c1 ++ prev ++ [(-2)%Z])) in
      let c3 := set_last (-3) (removelast (c2 ++ prev ++ [(-1)%Z])) in
      let c4 := (c3 ++ prev ++ [(-2)%Z])%list in
      if (Z.eqb (last c4 0%Z) (-2) && Z.eqb (last (removelast c4) 0%Z) (-2))%bool
      then removelast (removelast c4) else c4
  end%list.

(** The rest of the two algorithms only adds, compares and tests equality of
    times; it is written once for any such type of times so that it can also
    be run on integers (multiples of the unit spacing). *)
Section Concatenation.
  Context {T : Type} (zero unit_ : T) (add : T -> T -> T)
    (le_b eq_b lt_b : T -> T -> bool).

  Fixpoint running (acc : T) (l : list T) : list T :=
    match l with
    | [] => []
    | x :: l' => add acc x :: running (add acc x) l'
    end.

  (** [values, counts = np.unique(...)] then keep even counts
      (916-920, 1026-1027, 1036-1039, 1048-1049) *)
  Definition even_count_values (positions : list T) : list T :=
    map fst (filter (fun vc => Nat.even (snd vc)) (unique_counts le_b eq_b positions)).

  (** 913-914, 0/1 cumulations times the unit spacing, then cumsum *)
  Definition x_positions (cumulations : list Z) : list T :=
    running zero (map (fun c => if Z.eqb c 0 then zero else unit_) cumulations).

  (** predefined.py:911-923 *)
  Definition x_offsets (order : nat) : list T :=
    let o := even_count_values (x_positions (concatenation_x order)) in
    if Nat.eqb (order mod 2) 1 then removelast o else o.

  (** predefined.py:1019-1024 (and 1029-1034, 1041-1046): drop the two other
      markers, turn the remaining entries into 0 (marker) or 1 unit, cumsum *)
  Definition xy_positions (marker other1 other2 : Z) (cumulations : list Z) : list T :=
    let ops := filter (fun c => negb (Z.eqb c other2))
                 (filter (fun c => negb (Z.eqb c other1)) cumulations) in
    running zero (map (fun c => if Z.eqb c marker then zero else unit_) ops).

  Definition rabi_offsets (cum : list Z) : list T :=
    even_count_values (xy_positions (-1) (-2) (-3) cum).
  Definition azimuthal_offsets (cum : list Z) : list T :=
    even_count_values (xy_positions (-2) (-1) (-3) cum).
  Definition detuning_offsets (cum : list Z) : list T :=
    even_count_values (xy_positions (-3) (-2) (-1) cum).

  (** A row of the four arrays; the booleans say whether
      [rabi_rotations = pi], [azimuthal_angles = pi/2],
      [detuning_rotations = pi] (else 0). *)
  Record slot : Type := MkSlot {
    sl_offset : T; sl_rabi : bool; sl_azimuthal : bool; sl_detuning : bool
  }.
  Definition blank : slot := MkSlot zero false false false.

  (** predefined.py:1062-1092: merge of X offsets and Y offsets *)
  Fixpoint merge_xy (fuel : nat) (xs ys : list T) : list slot :=
    match fuel with
    | O => []
    | S fuel' =>
        match xs, ys with
        | x :: xs', y :: ys' =>
            if lt_b x y then MkSlot x true false false :: merge_xy fuel' xs' ys
            else MkSlot y true true false :: merge_xy fuel' xs ys'
        | x :: xs', [] => MkSlot x true false false :: merge_xy fuel' xs' []
        | [], y :: ys' => MkSlot y true true false :: merge_xy fuel' [] ys'
        | [], [] => []
        end
    end.

  (** 1099-1105: shift offsets, rabi and azimuthal entries from index [i] one
      place to the right (dropping the last), write the Z pulse at [i]; the
      detuning array is not shifted. *)
  Definition insert_z (i : nat) (z : T) (l : list slot) : list slot :=
    map (fun j =>
           let here := nth j l blank in
           if Nat.ltb j i then here
           else if Nat.eqb j i then MkSlot z false false true
           else let prev := nth (j - 1) l blank in
                MkSlot (sl_offset prev) (sl_rabi prev) (sl_azimuthal prev)
                       (sl_detuning here))
      (range 0 (List.length l)).

  (** 1095-1108; [indices] is what is left of [enumerate(offsets)], [zs] the
      Z offsets from [z_idx] on.  The loop reads [offsets] live. *)
  Fixpoint z_loop (indices : list nat) (zs : list T) (l : list slot) : list slot :=
    match indices, zs with
    | i :: is, z :: zs' =>
        if lt_b z (sl_offset (nth i l blank))
        then z_loop is zs' (insert_z i z l)
        else z_loop is zs l
    | _, _ => l
    end.

  (** predefined.py:1017-1108 *)
  Definition xy_slots (order : nat) : list slot :=
    let cum := concatenation_xy order in
    let xs := rabi_offsets cum in
    let ys := azimuthal_offsets cum in
    let zs := detuning_offsets cum in
    let merged := merge_xy (List.length xs + List.length ys) xs ys in
    let initial := (merged ++ repeat blank (List.length zs))%list in
    z_loop (range 0 (List.length initial)) zs initial.
End Concatenation.

Definition check_concatenation_order (concatenation_order : R) : result unit :=
  check_arguments (leb 1 concatenation_order)
    "Concatenation oder must be greater than zero." ["concatenation_order"] [].

(** predefined.py:847-947 [new_x_concatenated_sequence] *)
Definition new_x_concatenated_sequence (duration_ concatenation_order : R)
    (pre_post_rotation : bool) (name : option string) : result dds :=
  do* check_duration duration_ in
  do* check_concatenation_order concatenation_order in
  let order := int_count concatenation_order in
  let unit_spacing := duration_ / 2 ^ order in
  finish duration_
    (uniform_arrays (x_offsets 0 unit_spacing Rplus leb eqb order) PI 0 0)
    pre_post_rotation name.

(** predefined.py:950-1127 [new_xy_concatenated_sequence] *)
Definition new_xy_concatenated_sequence (duration_ concatenation_order : R)
    (pre_post_rotation : bool) (name : option string) : result dds :=
  do* check_duration duration_ in
  do* check_concatenation_order concatenation_order in
  let order := int_count concatenation_order in
  let unit_spacing := duration_ / 2 ^ (order * 2) in
  let slots := xy_slots 0 unit_spacing Rplus leb eqb ltb order in
  finish duration_
    {| a_offsets := map sl_offset slots;
       a_rabi := map (fun s => if sl_rabi s then PI else 0) slots;
       a_azimuthal := map (fun s => if sl_azimuthal s then PI / 2 else 0) slots;
       a_detuning := map (fun s => if sl_detuning s then PI else 0) slots |}
    pre_post_rotation name.
