(** * Arrays as mutable objects

    The constructors, the conversion and the array algorithms of the predefined
    sequences again, as programs on a heap of numpy arrays: what is shared, what is
    copied and what is written in place.  Assignments, loops and index arithmetic are
    kept as in the source; pure array expressions are evaluated on lists.
    Indexing out of range raises [IndexError]. *)

From Verif Require Export M_DDSPredefined.
Import ListNotations.
Open Scope string_scope.
Open Scope list_scope.
Open Scope R_scope.

(** ** The heap *)

(** a block of memory with its element type: float64 or not (integers); the entries
    of a block of integers are modelled by their values *)
Record cell : Type := Cell { c_float : bool; c_values : list R }.
Definition heap : Type := list cell.

(** an array object: a block and the positions of it that it shows, in order.
    Slices, rows and columns are views: they show the same block. *)
Record ndarray : Type := Array { nd_base : nat; nd_at : list nat }.

Definition cell_at (h : heap) (b : nat) : cell := nth b h (Cell true []).
Definition contents (h : heap) (v : ndarray) : list R :=
  map (fun p => nth p (c_values (cell_at h (nd_base v))) 0) (nd_at v).
Definition size (v : ndarray) : nat := List.length (nd_at v).

Fixpoint set_nth {A : Type} (i : nat) (x : A) (l : list A) : list A :=
  match i, l with
  | O, _ :: l' => x :: l'
  | S i', y :: l' => y :: set_nth i' x l'
  | _, [] => []
  end.
Definition write1 (h : heap) (b p : nat) (x : R) : heap :=
  set_nth b (Cell (c_float (cell_at h b)) (set_nth p x (c_values (cell_at h b)))) h.
Fixpoint write (h : heap) (b : nat) (ps : list nat) (xs : list R) : heap :=
  match ps, xs with
  | p :: ps', x :: xs' => write (write1 h b p x) b ps' xs'
  | _, _ => h
  end.

(** ** Programs; the heap survives exceptions *)

Definition prog (A : Type) : Type := heap -> result A * heap.
Definition ret {A : Type} (a : A) : prog A := fun h => (Ok a, h).
Definition lift {A : Type} (r : result A) : prog A := fun h => (r, h).
Definition pbind {A B : Type} (m : prog A) (f : A -> prog B) : prog B :=
  fun h => match m h with (Ok a, h') => f a h' | (Raise e, h') => (Raise e, h') end.
Notation "'let!' x ':=' e1 'in' e2" := (pbind e1 (fun x => e2))
  (at level 200, x name, e1 at level 100, e2 at level 200, right associativity).
Notation "'do!' e1 'in' e2" := (pbind e1 (fun _ => e2))
  (at level 200, e1 at level 100, e2 at level 200, right associativity).

(** [for x in l: body], with the variables the body reassigns *)
Fixpoint for_each {A B : Type} (l : list A) (body : A -> B -> prog B) (b : B) : prog B :=
  match l with
  | [] => ret b
  | x :: l' => let! b' := body x b in for_each l' body b'
  end.

(** a new array *)
Definition new (float : bool) (xs : list R) : prog ndarray :=
  fun h => (Ok (Array (List.length h) (seq 0 (List.length xs))), h ++ [Cell float xs]).
Definition zeros (n : nat) : prog ndarray := new true (np_zeros n).
Definition get (v : ndarray) : prog (list R) := fun h => (Ok (contents h v), h).
Definition dtype (v : ndarray) : prog bool := fun h => (Ok (c_float (cell_at h (nd_base v))), h).
(** [v[i]], [v[i] = x] *)
Definition item (v : ndarray) (i : nat) : prog R :=
  fun h => match nth_error (contents h v) i with Some x => (Ok x, h) | None => (Raise IndexError, h) end.
Definition setitem (v : ndarray) (i : nat) (x : R) : prog unit :=
  fun h => match nth_error (nd_at v) i with
           | Some p => (Ok tt, write1 h (nd_base v) p x)
           | None => (Raise IndexError, h)
           end.
(** [v[:] = xs]; numpy reads overlapping sources first *)
Definition assign (v : ndarray) (xs : list R) : prog unit :=
  fun h => if Nat.eqb (size v) (List.length xs)
           then (Ok tt, write h (nd_base v) (nd_at v) xs)
           else (Raise (ValueError "could not broadcast input array"), h).
(** [v[a:b]] *)
Definition slice (v : ndarray) (a b : nat) : ndarray :=
  Array (nd_base v) (firstn (b - a) (skipn a (nd_at v))).
(** [v[mask]]: a copy *)
Definition select {A : Type} (mask : list bool) (xs : list A) : list A :=
  map snd (filter fst (combine mask xs)).

(** two-dimensional arrays, row by row *)
Record matrix : Type := Matrix { m_data : ndarray; m_columns : nat }.
Definition mitem (m : matrix) (i j : nat) : prog R := item (m_data m) (i * m_columns m + j).
Definition msetitem (m : matrix) (i j : nat) (x : R) : prog unit :=
  setitem (m_data m) (i * m_columns m + j) x.
Definition row (m : matrix) (i : nat) : ndarray :=
  slice (m_data m) (i * m_columns m) ((i + 1) * m_columns m).
(** [m[a:b, j]] *)
Definition column (m : matrix) (j a b : nat) : ndarray :=
  Array (nd_base (m_data m))
    (map (fun i => nth (i * m_columns m + j) (nd_at (m_data m)) 0%nat) (seq a (b - a))).

(** ** Objects *)

Record hcontrol : Type := MkHControl {
  hc_rabi_rates : ndarray; hc_azimuthal_angles : ndarray; hc_detunings : ndarray;
  hc_durations : ndarray; hc_name : option string
}.
Record hdds : Type := MkHDDS {
  hs_duration : R; hs_offsets : ndarray; hs_rabi_rotations : ndarray;
  hs_azimuthal_angles : ndarray; hs_detuning_rotations : ndarray; hs_name : option string
}.

(** an argument: a list (or tuple) of numbers, which are floats or not, or an array *)
Inductive array_like : Type :=
| AList (float : bool) (xs : list R)
| AArray (v : ndarray).
Definition len (a : array_like) : nat :=
  match a with AList _ xs => List.length xs | AArray v => size v end.

(** [np.asarray(a)]: an array is returned itself *)
Definition asarray (a : array_like) : prog ndarray :=
  match a with AList float xs => new float xs | AArray v => ret v end.
(** [np.asarray(a, dtype=float)]: an array of floats is returned itself, other
    arrays are converted, which copies them *)
Definition asarray_float (a : array_like) : prog ndarray :=
  match a with
  | AList _ xs => new true xs
  | AArray v =>
      let! float := dtype v in
      if float then ret v else let! xs := get v in new true xs
  end.

(** [if a is None: a = np.zeros(n)] *)
Definition default_zeros (n : nat) (a : option array_like) : prog array_like :=
  match a with
  | Some a' => ret a'
  | None => let! v := zeros n in ret (AArray v)
  end.

(** /repo/qctrlopencontrols/driven_controls/driven_control.py:94-156 *)
Definition hDrivenControl (durations_ : array_like)
    (rabi_rates_ azimuthal_angles_ detunings_ : option array_like)
    (name : option string) : prog hcontrol :=
  let! durations_ := asarray_float durations_ in
  let! ts := get durations_ in
  do! lift (check_arguments (forallb (fun d => ltb 0 d) ts)
        "Duration of driven control segments must all be greater than zero."
        ["durations"] []) in
  let input_lengths := nodup Nat.eq_dec
    (map len (flat_map opt_list [rabi_rates_; azimuthal_angles_; detunings_; Some (AArray durations_)])) in
  do! lift (check_arguments (Nat.eqb (List.length input_lengths) 1)
        "If set, rabi rates, azimuthal angles, detunings and durations must be of same length"
        ["rabi_rates"; "azimuthal_angles"; "detunings"; "durations"] []) in
  let duration_count := size durations_ in
  let! rabi := default_zeros duration_count rabi_rates_ in
  let! azim := default_zeros duration_count azimuthal_angles_ in
  let! detu := default_zeros duration_count detunings_ in
  let! rabi := asarray_float rabi in
  let! azim := asarray_float azim in
  let! detu := asarray_float detu in
  let! rs := get rabi in
  do! lift (check_arguments (forallb (fun r => leb 0 r) rs)
        "All rabi rates must be greater than zero." ["rabi_rates"] []) in
  ret (MkHControl rabi azim detu durations_ name).

(** /repo/qctrlopencontrols/dynamic_decoupling_sequences/dynamic_decoupling_sequence.py:74-123 *)
Definition hDynamicDecouplingSequence (duration_ : R)
    (offsets_ rabi_rotations_ azimuthal_angles_ detuning_rotations_ : array_like)
    (name : option string) : prog hdds :=
  do! lift (check_arguments (ltb 0 duration_)
        "Sequence duration must be above zero." ["duration"] []) in
  let! offsets_ := asarray offsets_ in
  let! ts := get offsets_ in
  do! lift (check_arguments (forallb (fun t => leb 0 t && leb t duration_) ts)
        "Offsets for dynamic decoupling sequence must be between 0 and the sequence duration (inclusive). "
        ["offsets"; "duration"] []) in
  let offset_count := size offsets_ in
  do! lift (check_arguments (Nat.eqb (len rabi_rotations_) offset_count)
        "rabi rotations must have the same length as offsets. "
        ["offsets"; "rabi_rotations"] []) in
  do! lift (check_arguments (Nat.eqb (len azimuthal_angles_) offset_count)
        "azimuthal angles must have the same length as offsets. "
        ["offsets"; "azimuthal_angles"] []) in
  do! lift (check_arguments (Nat.eqb (len detuning_rotations_) offset_count)
        "detuning rotations must have the same length as offsets. "
        ["offsets"; "detuning_rotations"] []) in
  let! rabi := asarray_float rabi_rotations_ in
  let! azim := asarray_float azimuthal_angles_ in
  let! detu := asarray_float detuning_rotations_ in
  ret (MkHDDS duration_ offsets_ rabi azim detu name).

(** ** Conversion (dynamic_decoupling_sequence.py:267-520) *)

(** the local variables offsets, rabi_rotations, azimuthal_angles, detuning_rotations *)
Record columns : Type := Columns {
  v_offsets : ndarray; v_rabi : ndarray; v_azimuthal : ndarray; v_detuning : ndarray
}.

(** [np.append([x], v)], [np.append(v, [x])] *)
Definition prepend (x : R) (v : ndarray) : prog ndarray :=
  let! xs := get v in let! float := dtype v in new float (x :: xs).
Definition append (v : ndarray) (x : R) : prog ndarray :=
  let! xs := get v in let! float := dtype v in new float (xs ++ [x]).

(** 375-379 *)
Definition hpad_empty (sequence_duration : R) (q : columns) : prog columns :=
  if Nat.eqb (size (v_offsets q)) 0 then
    let! o := new true [0; sequence_duration] in
    let! r := new false [0; 0] in
    let! a := new false [0; 0] in
    let! d := new false [0; 0] in
    ret (Columns o r a d)
  else ret q.
(** 381-385 *)
Definition hpad_front (q : columns) : prog columns :=
  let! first := item (v_offsets q) 0 in
  if neqb first 0 then
    let! o := prepend 0 (v_offsets q) in
    let! r := prepend 0 (v_rabi q) in
    let! a := prepend 0 (v_azimuthal q) in
    let! d := prepend 0 (v_detuning q) in
    ret (Columns o r a d)
  else ret q.
(** 386-390 *)
Definition hpad_back (sequence_duration : R) (q : columns) : prog columns :=
  let! last := item (v_offsets q) (size (v_offsets q) - 1) in
  if neqb last sequence_duration then
    let! o := append (v_offsets q) sequence_duration in
    let! r := append (v_rabi q) 0 in
    let! a := append (v_azimuthal q) 0 in
    let! d := append (v_detuning q) 0 in
    ret (Columns o r a d)
  else ret q.

(** 402-409: the 4 x n matrix *)
Definition hoperations (q : columns) : prog matrix :=
  let! o := get (v_offsets q) in
  let! r := get (v_rabi q) in
  let! a := get (v_azimuthal q) in
  let! d := get (v_detuning q) in
  let! data := new true (o ++ r ++ a ++ d) in
  ret (Matrix data (List.length o)).

(** 414-429: one iteration *)
Definition hwindow (maximum_rabi_rate_ maximum_detuning_rate minimum_segment_duration : R)
    (operations : matrix) (pulse_mid_points : ndarray) (pulse_start_ends : matrix)
    (op_idx : nat) (_ : unit) : prog unit :=
  let! r := mitem operations 1 op_idx in
  let! half_pulse_duration :=
    (if negb (np_isclose r 0) then
       let! r := mitem operations 1 op_idx in
       ret (5 / 10 * py_max (r / maximum_rabi_rate_) minimum_segment_duration)
     else
       let! d := mitem operations 3 op_idx in
       if negb (np_isclose d 0) then
         let! d := mitem operations 3 op_idx in
         ret (5 / 10 * py_max (Rabs d / maximum_detuning_rate) minimum_segment_duration)
       else ret 0) in
  let! m := item pulse_mid_points op_idx in
  do! msetitem pulse_start_ends op_idx 0 (m - half_pulse_duration) in
  let! m := item pulse_mid_points op_idx in
  msetitem pulse_start_ends op_idx 1 (m + half_pulse_duration).

(** 433-435 *)
Definition hshift_first (pulse_start_ends : matrix) : prog unit :=
  let! s := mitem pulse_start_ends 0 0 in
  if ltb s 0 then
    let! s := mitem pulse_start_ends 0 0 in
    let translation := 0 - s in
    let! w := get (row pulse_start_ends 0) in
    assign (row pulse_start_ends 0) (map (fun x => x + translation) w)
  else ret tt.
(** 437-439; [n] rows, so -1 is row [n - 1] *)
Definition hshift_last (n : nat) (sequence_duration : R) (pulse_start_ends : matrix) : prog unit :=
  let! e := mitem pulse_start_ends (n - 1) 1 in
  if ltb sequence_duration e then
    let! e := mitem pulse_start_ends (n - 1) 1 in
    let translation := e - sequence_duration in
    let! w := get (row pulse_start_ends (n - 1)) in
    assign (row pulse_start_ends (n - 1)) (map (fun x => x - translation) w)
  else ret tt.

(** 477-480 *)
Record control_arrays : Type := ControlArrays {
  k_rabi : ndarray; k_azimuthal : ndarray; k_detuning : ndarray; k_duration : ndarray
}.

(** 483-506: one iteration; the last variable is [pulse_segment_idx] *)
Definition hsegment (n : nat) (operations pulse_start_ends : matrix) (k : control_arrays)
    (op_idx pulse_segment_idx : nat) : prog nat :=
  let! e := mitem pulse_start_ends op_idx 1 in
  let! s := mitem pulse_start_ends op_idx 0 in
  let pulse_width := e - s in
  do! setitem (k_duration k) pulse_segment_idx pulse_width in
  do! (if ltb 0 pulse_width then
         let! r := mitem operations 1 op_idx in
         if negb (np_isclose r 0) then
           let! r := mitem operations 1 op_idx in
           do! setitem (k_rabi k) pulse_segment_idx (r / pulse_width) in
           let! a := mitem operations 2 op_idx in
           setitem (k_azimuthal k) pulse_segment_idx a
         else
           let! d := mitem operations 3 op_idx in
           if negb (np_isclose d 0) then
             let! d := mitem operations 3 op_idx in
             setitem (k_detuning k) pulse_segment_idx (d / pulse_width)
           else ret tt
       else ret tt) in
  do! (if negb (Nat.eqb op_idx (n - 1)) then
         do! setitem (k_rabi k) (pulse_segment_idx + 1) 0 in
         do! setitem (k_azimuthal k) (pulse_segment_idx + 1) 0 in
         do! setitem (k_detuning k) (pulse_segment_idx + 1) 0 in
         let! s' := mitem pulse_start_ends (op_idx + 1) 0 in
         let! e := mitem pulse_start_ends op_idx 1 in
         setitem (k_duration k) (pulse_segment_idx + 1) (s' - e)
       else ret tt) in
  ret (pulse_segment_idx + 2)%nat.

(** [v = v[control_durations > 0.0]] *)
Definition hmask (control_durations v : ndarray) : prog ndarray :=
  let! ts := get control_durations in
  let! xs := get v in
  new true (select (map (fun t => ltb 0 t) ts) xs).

Definition hconvert (s : hdds)
    (maximum_rabi_rate_ maximum_detuning_rate minimum_segment_duration : R)
    (name : option string) : prog hcontrol :=
  do! lift (check_arguments (ltb 0 maximum_detuning_rate)
        "Maximum detuning rate must be positive." ["maximum_detuning_rate"] []) in
  do! lift (check_arguments (ltb 0 maximum_rabi_rate_)
        "Maximum rabi rate must be positive." ["maximum_rabi_rate"] []) in
  do! lift (check_arguments (leb 0 minimum_segment_duration)
        "Minimum segment duration must be greater than or equal to 0."
        ["minimum_segment_duration"] []) in
  let sequence_duration := hs_duration s in
  let q := Columns (hs_offsets s) (hs_rabi_rotations s) (hs_azimuthal_angles s)
             (hs_detuning_rotations s) in
  let! rs := get (v_rabi q) in
  do! lift (check_arguments (forallb (fun r => leb 0 r) rs)
        "Sequence contains negative values for Rabi rotations."
        ["dynamic_decoupling_sequence"] []) in
  let! ds := get (v_detuning q) in
  do! lift (check_arguments (check_valid_operation rs ds)
        "Sequence operation includes rabi rotation and detuning rotation at the same instance."
        ["dynamic_decoupling_sequence"] ["maximum_rabi_rate"; "maximum_detuning_rate"]) in
  let! q := hpad_empty sequence_duration q in
  let! q := hpad_front q in
  let! q := hpad_back sequence_duration q in
  let! ts := get (v_offsets q) in
  do! lift (check_arguments (negb (existsb (fun d => leb d 0) (np_diff ts)))
        "Pulse timing could not be properly deduced from the sequence offsets. Make sure all offsets are in increasing order."
        ["dynamic_decoupling_sequence"] ["offsets"]) in
  let! operations := hoperations q in
  let n := m_columns operations in
  let pulse_mid_points := row operations 0 in
  let! data := zeros (n * 2) in
  let pulse_start_ends := Matrix data 2 in
  do! for_each (range 0 n)
        (hwindow maximum_rabi_rate_ maximum_detuning_rate minimum_segment_duration
           operations pulse_mid_points pulse_start_ends) tt in
  do! hshift_first pulse_start_ends in
  do! hshift_last n sequence_duration pulse_start_ends in
  let! starts := get (column pulse_start_ends 0 1 n) in
  let! ends := get (column pulse_start_ends 1 0 (n - 1)) in
  let gap_durations := zip_with Rminus starts ends in
  do! lift (check_arguments (gaps_ok minimum_segment_duration gap_durations)
        "Distance between pulses does not respect minimum_segment_duration. Try decreasing the minimum_segment_duration or increasing the maximum_rabi_rate or the maximum_detuning_rate."
        ["dynamic_decoupling_sequence"; "maximum_rabi_rate"; "maximum_detuning_rate";
         "minimum_segment_duration"]
        ["deduced_pulse_start_timing"; "deduced_pulse_end_timing"; "gap_durations"]) in
  let! all := get (m_data pulse_start_ends) in
  if forallb (fun x => np_isclose x 0) all then
    hDrivenControl (AList true [sequence_duration]) (Some (AList true [0]))
      (Some (AList true [0])) (Some (AList true [0])) name
  else
    let! control_rabi_rates := zeros (n * 2) in
    let! control_azimuthal_angles := zeros (n * 2) in
    let! control_detunings := zeros (n * 2) in
    let! control_durations := zeros (n * 2) in
    do! for_each (range 0 n)
          (hsegment n operations pulse_start_ends
             (ControlArrays control_rabi_rates control_azimuthal_angles control_detunings
                control_durations)) 0%nat in
    let! control_rabi_rates := hmask control_durations control_rabi_rates in
    let! control_azimuthal_angles := hmask control_durations control_azimuthal_angles in
    let! control_detunings := hmask control_durations control_detunings in
    let! control_durations := hmask control_durations control_durations in
    hDrivenControl (AArray control_durations) (Some (AArray control_rabi_rates))
      (Some (AArray control_azimuthal_angles)) (Some (AArray control_detunings)) name.
