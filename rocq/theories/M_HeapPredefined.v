(** * The predefined sequences as programs on the heap

    /repo/qctrlopencontrols/dynamic_decoupling_sequences/predefined.py with its
    arrays as mutable objects: preallocation, assignment to slices, rows, columns
    and masks, loops over indices.  Pure array expressions ([a * b], [np.cumsum],
    [np.unique], comprehensions) are evaluated on lists. *)

From Verif Require Export M_Heap.
Import ListNotations.
Open Scope string_scope.
Open Scope list_scope.
Open Scope R_scope.

(** [while cond: body]; running out of fuel raises, so that a result which is not
    that error shows that the loop ends *)
Fixpoint while {A : Type} (fuel : nat) (cond : A -> bool) (body : A -> prog A) (a : A) : prog A :=
  if cond a then
    match fuel with
    | O => lift (Raise (ValueError "loop does not end"))
    | S fuel' => let! a' := body a in while fuel' cond body a'
    end
  else ret a.

(** [l[i]] of a Python list *)
Definition list_item (l : list R) (i : nat) : prog R :=
  lift (match nth_error l i with Some x => Ok x | None => Raise IndexError end).

(** [v[a:] = x], a scalar *)
Definition fill (v : ndarray) (a b : nat) (x : R) : prog unit :=
  assign (slice v a b) (np_full (size (slice v a b)) x).
(** [v[mask] = x] *)
Definition mask_fill (v : ndarray) (mask : list bool) (x : R) : prog unit :=
  let w := Array (nd_base v) (select mask (nd_at v)) in
  assign w (np_full (size w) x).
(** [m[a:b, c:d]] *)
Definition block (m : matrix) (a b c d : nat) : ndarray :=
  Array (nd_base (m_data m))
    (flat_map (fun i => map (fun j => nth (i * m_columns m + j) (nd_at (m_data m)) 0%nat)
                          (seq c (d - c))) (seq a (b - a))).
(** [np.insert(v, [0, len(v)], [x, y])] *)
Definition insert_ends (v : ndarray) (x y : R) : prog ndarray :=
  let! xs := get v in new true (np_insert_ends xs x y).

(** predefined.py:27-140 [_add_pre_post_rotations] *)
Definition hadd_pre_post_rotations (duration_ : R) (q : columns) : prog columns :=
  let! o := get (v_offsets q) in
  let! r := get (v_rabi q) in
  let! p := get (v_azimuthal q) in
  let! d := get (v_detuning q) in
  let a := MkArrays o r p d in
  let x_pi_pulses := count_pulses PI 0 0 a in
  let y_pi_pulses := count_pulses PI (PI / 2) 0 a in
  let z_pi_pulses := count_pulses 0 0 PI a in
  do! lift (check_arguments
        (Nat.eqb (size (v_offsets q)) (x_pi_pulses + y_pi_pulses + z_pi_pulses))
        "Sequence contains pulses that are not X, Y, or Z pi-pulses."
        ["rabi_rotations"; "azimuthal_angles"; "detuning_rotations"] []) in
  let preserves_10 := Nat.eqb ((x_pi_pulses + y_pi_pulses) mod 2) 0 in
  let preserves_11 := Nat.eqb ((y_pi_pulses + z_pi_pulses) mod 2) 0 in
  let final_azimuthal :=
    if (preserves_10 && preserves_11) || (negb preserves_10 && negb preserves_11)
    then PI else 0 in
  let! o := insert_ends (v_offsets q) 0 duration_ in
  let! r := insert_ends (v_rabi q) (PI / 2) (PI / 2) in
  let! p := insert_ends (v_azimuthal q) 0 final_azimuthal in
  let! d := insert_ends (v_detuning q) 0 0 in
  ret (Columns o r p d).

(** the common tail *)
Definition hfinish (duration_ : R) (q : columns) (pre_post_rotation : bool)
    (name : option string) : prog hdds :=
  let! q := (if pre_post_rotation then hadd_pre_post_rotations duration_ q else ret q) in
  hDynamicDecouplingSequence duration_ (AArray (v_offsets q)) (AArray (v_rabi q))
    (AArray (v_azimuthal q)) (AArray (v_detuning q)) name.

(** 143-198 *)
Definition hnew_ramsey_sequence (duration_ : R) (pre_post_rotation : bool)
    (name : option string) : prog hdds :=
  do! lift (check_duration duration_) in
  if pre_post_rotation then
    let! o := new true (map (Rmult duration_) [0; 1]) in
    let! r := new true [PI / 2; PI / 2] in
    let! p := new true [0; PI] in
    let! d := zeros 2 in
    hDynamicDecouplingSequence duration_ (AArray o) (AArray r) (AArray p) (AArray d) name
  else
    hDynamicDecouplingSequence duration_ (AList true []) (AList true []) (AList true [])
      (AList true []) name.

(** 201-259 *)
Definition hnew_spin_echo_sequence (duration_ : R) (pre_post_rotation : bool)
    (name : option string) : prog hdds :=
  do! lift (check_duration duration_) in
  let! o := new true [duration_ / 2] in
  let! r := new true [PI] in
  let! p := zeros 1 in
  let! d := zeros 1 in
  hfinish duration_ (Columns o r p d) pre_post_rotation name.

(** [rabi_rotations[0:] = np.pi] and zeros (323-328, 565-569, 925-929) *)
Definition hx_pulses (o : ndarray) : prog columns :=
  let! r := zeros (size o) in
  do! fill r 0 (size r) PI in
  let! p := zeros (size o) in
  let! d := zeros (size o) in
  ret (Columns o r p d).
(** the same with [azimuthal_angles[0:] = np.pi / 2] (407-413, 486-492) *)
Definition hy_pulses (o : ndarray) : prog columns :=
  let! r := zeros (size o) in
  let! p := zeros (size o) in
  do! fill r 0 (size r) PI in
  do! fill p 0 (size p) (PI / 2) in
  let! d := zeros (size o) in
  ret (Columns o r p d).

(** 262-344 *)
Definition hnew_carr_purcell_sequence (duration_ offset_count : R) (pre_post_rotation : bool)
    (name : option string) : prog hdds :=
  do! lift (check_duration duration_) in
  do! lift (check_offset_count offset_count) in
  let! o := new true (carr_purcell_meiboom_gill_offsets duration_ (int_count offset_count)) in
  let! q := hx_pulses o in
  hfinish duration_ q pre_post_rotation name.
(** 347-428 *)
Definition hnew_cpmg_sequence (duration_ offset_count : R) (pre_post_rotation : bool)
    (name : option string) : prog hdds :=
  do! lift (check_duration duration_) in
  do! lift (check_offset_count offset_count) in
  let! o := new true (carr_purcell_meiboom_gill_offsets duration_ (int_count offset_count)) in
  let! q := hy_pulses o in
  hfinish duration_ q pre_post_rotation name.
(** 431-507 *)
Definition hnew_uhrig_sequence (duration_ offset_count : R) (pre_post_rotation : bool)
    (name : option string) : prog hdds :=
  do! lift (check_duration duration_) in
  do! lift (check_offset_count offset_count) in
  let! o := new true (uhrig_single_axis_offsets duration_ (int_count offset_count)) in
  let! q := hy_pulses o in
  hfinish duration_ q pre_post_rotation name.
(** 510-586 *)
Definition hnew_periodic_sequence (duration_ offset_count : R) (pre_post_rotation : bool)
    (name : option string) : prog hdds :=
  do! lift (check_duration duration_) in
  do! lift (check_offset_count offset_count) in
  let! o := new true (periodic_offsets duration_ (int_count offset_count)) in
  let! q := hx_pulses o in
  hfinish duration_ q pre_post_rotation name.

(** 673-677: [walsh_array *= ...], one iteration *)
Definition hwalsh_factor (hamming_weight : nat) (binary_order : list nat)
    (relative_offset : list R) (walsh_array : ndarray) (i : nat) (_ : unit) : prog unit :=
  let! w := get walsh_array in
  assign walsh_array
    (zip_with Rmult w
       (map (fun x => np_sign (sin (2 ^ (i + 1) * PI * x))
                      ^ nth (hamming_weight - 1 - i) binary_order 0%nat) relative_offset)).
(** 679-682: one iteration *)
Definition hwalsh_switch (samples : nat) (walsh_array : ndarray) (i : nat) (acc : list R) : prog (list R) :=
  let! a := item walsh_array i in
  let! b := item walsh_array (i + 1) in
  if neqb a b then ret (acc ++ [(INR i + 1) * (1 / INR samples)]) else ret acc.
(** 589-707 *)
Definition hnew_walsh_sequence (duration_ paley_order : R) (pre_post_rotation : bool)
    (name : option string) : prog hdds :=
  do! lift (check_duration duration_) in
  do! lift (check_arguments (leb 1 paley_order && leb paley_order 2000)
        "Paley order must be between 1 and 2000." ["paley_order"] []) in
  let paley_order := int_count paley_order in
  let hamming_weight := walsh_hamming_weight paley_order in
  let samples := (2 ^ hamming_weight)%nat in
  let relative_offset := np_arange (1 / (2 * INR samples)) 1 (1 / INR samples) in
  let binary_order := binary_repr paley_order hamming_weight in
  let! walsh_array := new true (np_full samples 1) in
  do! for_each (range 0 hamming_weight)
        (hwalsh_factor hamming_weight binary_order relative_offset walsh_array) tt in
  let! walsh_relative_offsets :=
    for_each (range 0 (samples - 1)) (hwalsh_switch samples walsh_array) [] in
  let! o := new true (map (Rmult duration_) walsh_relative_offsets) in
  let! r := new true (np_full (size o) PI) in
  let! p := zeros (size o) in
  let! d := zeros (size o) in
  hfinish duration_ (Columns o r p d) pre_post_rotation name.

(** 802-807: one iteration over [enumerate(inner_durations)] *)
Definition hinner_row (inner : nat) (outer_offsets : list R) (offsets_ : matrix)
    (x : nat * R) (_ : unit) : prog unit :=
  let (inner_duration_idx, inner_duration) := x in
  let! t0 := list_item outer_offsets inner_duration_idx in
  let inner_offset := map (fun t => t + t0) (uhrig_single_axis_offsets inner_duration inner) in
  assign (slice (row offsets_ inner_duration_idx) 0 inner) inner_offset.
(** [v.flatten()] and [v[:-1]] *)
Definition flatten (m : matrix) : prog ndarray := let! xs := get (m_data m) in new true xs.
Definition all_but_last (v : ndarray) : ndarray := slice v 0 (size v - 1).
(** 710-844 *)
Definition hnew_quadratic_sequence (duration_ inner_offset_count outer_offset_count : R)
    (pre_post_rotation : bool) (name : option string) : prog hdds :=
  do! lift (check_duration duration_) in
  do! lift (check_arguments (leb 1 inner_offset_count)
        "Number of offsets of inner pulses must be greater than zero."
        ["inner_offset_count"] []) in
  do! lift (check_arguments (leb 1 outer_offset_count)
        "Number of offsets of outer pulses must be greater than zero."
        ["outer_offset_count"] []) in
  let inner := int_count inner_offset_count in
  let outer := int_count outer_offset_count in
  let outer_offsets := np_insert_ends (uhrig_single_axis_offsets duration_ outer) 0 duration_ in
  let inner_durations := np_diff outer_offsets in
  let rows := List.length inner_durations in
  let! data := zeros (rows * (inner + 1)) in
  let o := Matrix data (inner + 1) in
  do! for_each (combine (range 0 rows) inner_durations) (hinner_row inner outer_offsets o) tt in
  do! assign (column o inner 0 rows) (tl outer_offsets) in
  let! data := zeros (rows * (inner + 1)) in
  let r := Matrix data (inner + 1) in
  let! data := zeros (rows * (inner + 1)) in
  let d := Matrix data (inner + 1) in
  do! assign (column r inner 0 outer) (np_full outer PI) in
  do! assign (block d 0 (outer + 1) 0 inner) (np_full (size (block d 0 (outer + 1) 0 inner)) PI) in
  let! o := flatten o in
  let! r := flatten r in
  let! d := flatten d in
  let o := all_but_last o in
  let r := all_but_last r in
  let d := all_but_last d in
  let! p := zeros (size o) in
  hfinish duration_ (Columns o r p d) pre_post_rotation name.

(** [np.concatenate((v, w, ..., xs))] of integer arrays *)
Fixpoint get_all (vs : list ndarray) : prog (list R) :=
  match vs with
  | [] => ret []
  | v :: vs' => let! xs := get v in let! ys := get_all vs' in ret (xs ++ ys)
  end.
Definition concatenate (vs : list ndarray) (xs : list R) : prog ndarray :=
  let! ys := get_all vs in new false (ys ++ xs).

(** 1187-1214 [_concatenation_x]; order 0 is never reached *)
Fixpoint hconcatenation_x (order : nat) : prog ndarray :=
  match order with
  | O => new false []
  | S O => new false [1; 0; 1; 0]
  | S l =>
      let! a := hconcatenation_x l in
      let! zero := new false [0] in
      let! b := hconcatenation_x l in
      concatenate [a; zero; b] [0]
  end.
(** 916-920, 1026-1027: values that occur an even number of times *)
Definition even_values (positions : list R) : list R := even_count_values leb eqb positions.
(** 847-947 *)
Definition hnew_x_concatenated_sequence (duration_ concatenation_order : R)
    (pre_post_rotation : bool) (name : option string) : prog hdds :=
  do! lift (check_duration duration_) in
  do! lift (check_concatenation_order concatenation_order) in
  let order := int_count concatenation_order in
  let unit_spacing := duration_ / 2 ^ order in
  let! cumulations := hconcatenation_x order in
  let! cs := get cumulations in
  let pos_cum_sum := np_cumsum (map (fun c => c * unit_spacing) cs) in
  let! o := new true (even_values pos_cum_sum) in
  let o := if Nat.eqb (order mod 2) 1 then all_but_last o else o in
  let! q := hx_pulses o in
  hfinish duration_ q pre_post_rotation name.

(** 1217-1257 [_concatenation_xy]; order 0 is never reached *)
Fixpoint hconcatenation_xy (order : nat) : prog ndarray :=
  match order with
  | O => new false []
  | S O => new false [1; -1; 1; -2; 1; -1; 1; -2]
  | S l =>
      let! prev := hconcatenation_xy l in
      let! c := concatenate [prev] [-1] in
      let c := slice c 0 (size c - 1) in
      do! setitem c (size c - 1) (-3) in
      let! prev := hconcatenation_xy l in
      let! c := concatenate [c; prev] [-2] in
      let c := slice c 0 (size c - 2) in
      let! prev := hconcatenation_xy l in
      let! c := concatenate [c; prev] [-1] in
      let c := slice c 0 (size c - 1) in
      do! setitem c (size c - 1) (-3) in
      let! prev := hconcatenation_xy l in
      let! c := concatenate [c; prev] [-2] in
      let! x := item c (size c - 1) in
      if eqb x (-2) then
        let! y := item c (size c - 2) in
        if eqb y (-2) then ret (slice c 0 (size c - 2)) else ret c
      else ret c
  end.

(** 1019-1027 (and 1029-1039, 1041-1049): the offsets of one kind of pulse *)
Definition hxy_offsets (marker other1 other2 unit_spacing : R) (cumulations : ndarray) : prog (list R) :=
  let! cs := get cumulations in
  let! operations := new false (select (map (fun c => neqb c other1) cs) cs) in
  let! cs := get operations in
  let! operations := new false (select (map (fun c => neqb c other2) cs) cs) in
  let! positions := zeros (size operations) in
  let! cs := get operations in
  do! mask_fill positions (map (fun c => neqb c marker) cs) 1 in
  let! ps := get positions in
  ret (even_values (np_cumsum (map (fun p => p * unit_spacing) ps))).

(** 1062-1074: [rabi_idx], [azimuthal_idx], [carr_idx] *)
Definition hmerge (rabi_offsets azimuthal_offsets : list R) (q : columns)
    (s : nat * nat * nat) : prog (nat * nat * nat) :=
  match s with (rabi_idx, azimuthal_idx, carr_idx) =>
    let! x := list_item rabi_offsets rabi_idx in
    let! y := list_item azimuthal_offsets azimuthal_idx in
    if ltb x y then
      do! setitem (v_rabi q) carr_idx PI in
      let! x := list_item rabi_offsets rabi_idx in
      do! setitem (v_offsets q) carr_idx x in
      ret (rabi_idx + 1, azimuthal_idx, carr_idx + 1)%nat
    else
      do! setitem (v_azimuthal q) carr_idx (PI / 2) in
      do! setitem (v_rabi q) carr_idx PI in
      let! y := list_item azimuthal_offsets azimuthal_idx in
      do! setitem (v_offsets q) carr_idx y in
      ret (rabi_idx, azimuthal_idx + 1, carr_idx + 1)%nat
  end.
(** 1078-1082 *)
Definition hrest_x (rabi_offsets : list R) (q : columns) (s : nat * nat) : prog (nat * nat) :=
  let (rabi_idx, carr_idx) := s in
  do! setitem (v_rabi q) carr_idx PI in
  let! x := list_item rabi_offsets rabi_idx in
  do! setitem (v_offsets q) carr_idx x in
  ret (rabi_idx + 1, carr_idx + 1)%nat.
(** 1084-1089 *)
Definition hrest_y (azimuthal_offsets : list R) (q : columns) (s : nat * nat) : prog (nat * nat) :=
  let (azimuthal_idx, carr_idx) := s in
  do! setitem (v_azimuthal q) carr_idx (PI / 2) in
  do! setitem (v_rabi q) carr_idx PI in
  let! y := list_item azimuthal_offsets azimuthal_idx in
  do! setitem (v_offsets q) carr_idx y in
  ret (azimuthal_idx + 1, carr_idx + 1)%nat.
(** [v[i + 1:] = v[i:-1]] *)
Definition shift_right (v : ndarray) (i : nat) : prog unit :=
  let! xs := get (slice v i (size v - 1)) in
  assign (slice v (i + 1) (size v)) xs.
(** 1094-1108; the iteration over [enumerate(offsets)] reads the array as it is then *)
Fixpoint hz_loop (detuning_offsets : list R) (q : columns) (indices : list nat) (z_idx : nat) : prog unit :=
  match indices with
  | [] => ret tt
  | carr_idx :: indices' =>
      let! offset := item (v_offsets q) carr_idx in
      let! z := list_item detuning_offsets z_idx in
      let! z_idx :=
        (if ltb z offset then
           do! shift_right (v_offsets q) carr_idx in
           do! shift_right (v_rabi q) carr_idx in
           do! shift_right (v_azimuthal q) carr_idx in
           do! setitem (v_detuning q) carr_idx PI in
           do! setitem (v_rabi q) carr_idx 0 in
           do! setitem (v_azimuthal q) carr_idx 0 in
           let! z := list_item detuning_offsets z_idx in
           do! setitem (v_offsets q) carr_idx z in
           ret (z_idx + 1)%nat
         else ret z_idx) in
      if Nat.leb (List.length detuning_offsets) z_idx then ret tt
      else hz_loop detuning_offsets q indices' z_idx
  end.

(** 950-1127 *)
Definition hnew_xy_concatenated_sequence (duration_ concatenation_order : R)
    (pre_post_rotation : bool) (name : option string) : prog hdds :=
  do! lift (check_duration duration_) in
  do! lift (check_concatenation_order concatenation_order) in
  let order := int_count concatenation_order in
  let unit_spacing := duration_ / 2 ^ (order * 2) in
  let! cumulations := hconcatenation_xy order in
  let! rabi_offsets := hxy_offsets (-1) (-2) (-3) unit_spacing cumulations in
  let! azimuthal_offsets := hxy_offsets (-2) (-1) (-3) unit_spacing cumulations in
  let! detuning_offsets := hxy_offsets (-3) (-2) (-1) unit_spacing cumulations in
  let nx := List.length rabi_offsets in
  let ny := List.length azimuthal_offsets in
  let nz := List.length detuning_offsets in
  let! o := zeros (nx + ny + nz) in
  let! r := zeros (size o) in
  let! p := zeros (size o) in
  let! d := zeros (size o) in
  let q := Columns o r p d in
  let! s := while (nx + ny)
    (fun s => match s with (i, j, _) => Nat.ltb i nx && Nat.ltb j ny end)
    (hmerge rabi_offsets azimuthal_offsets q) (0, 0, 0)%nat in
  let '(rabi_idx, azimuthal_idx, carr_idx) := s in
  let! s := (if Nat.ltb rabi_idx nx then
               while nx (fun s => Nat.ltb (fst s) nx) (hrest_x rabi_offsets q) (rabi_idx, carr_idx)
             else ret (rabi_idx, carr_idx)) in
  let carr_idx := snd s in
  let! s := (if Nat.ltb azimuthal_idx ny then
               while ny (fun s => Nat.ltb (fst s) ny) (hrest_y azimuthal_offsets q) (azimuthal_idx, carr_idx)
             else ret (azimuthal_idx, carr_idx)) in
  do! (if Nat.eqb nz 0 then ret tt
       else hz_loop detuning_offsets q (range 0 (size o)) 0) in
  hfinish duration_ q pre_post_rotation name.
