(** * Reading and exporting objects, as programs on the heap

    The properties and export methods of /repo/qctrlopencontrols/driven_controls/driven_control.py
    and /repo/qctrlopencontrols/dynamic_decoupling_sequences/dynamic_decoupling_sequence.py
    again: every attribute is read from memory where the source reads it, every array
    expression makes a new array, local names of an attribute are that array itself.
    Simplification: arrays divided by a Rabi rate that may be zero are lists of extended
    numbers (the heap holds reals); they are never returned or written. *)

From Verif Require Export M_Heap.
Import ListNotations.
Open Scope string_scope.
Open Scope list_scope.
Open Scope R_scope.

(** [f(u)] and [u op v] element by element: a new array *)
Definition mapped (f : R -> R) (u : ndarray) : prog ndarray :=
  let! xs := get u in new true (map f xs).
Definition zipped (f : R -> R -> R) (u v : ndarray) : prog ndarray :=
  let! xs := get u in let! ys := get v in new true (zip_with f xs ys).

(** [[f(x) for x in l]] *)
Fixpoint comprehension {A B : Type} (f : A -> prog B) (l : list A) : prog (list B) :=
  match l with
  | [] => ret []
  | x :: l' => let! y := f x in let! ys := comprehension f l' in ret (y :: ys)
  end.

(** ** Properties of a control *)

(** driven_control.py:158-169 *)
Definition hnumber_of_segments (c : hcontrol) : prog nat := ret (size (hc_rabi_rates c)).
(** 171-182 *)
Definition hmaximum_rabi_rate (c : hcontrol) : prog R :=
  let! xs := get (hc_rabi_rates c) in lift (np_amax xs).
(** 184-194 *)
Definition hmaximum_detuning (c : hcontrol) : prog R :=
  let! xs := get (hc_detunings c) in lift (np_amax xs).
(** 196-207 *)
Definition hamplitude_x (c : hcontrol) : prog ndarray :=
  let! cosines := mapped cos (hc_azimuthal_angles c) in
  zipped Rmult (hc_rabi_rates c) cosines.
(** 209-220 *)
Definition hamplitude_y (c : hcontrol) : prog ndarray :=
  let! sines := mapped sin (hc_azimuthal_angles c) in
  zipped Rmult (hc_rabi_rates c) sines.
(** 234-236 and 253-255 *)
Definition hamplitudes (c : hcontrol) : prog ndarray :=
  let! x := hamplitude_x c in
  let! x2 := mapped (fun a => a ^ 2) x in
  let! y := hamplitude_y c in
  let! y2 := mapped (fun a => a ^ 2) y in
  let! xy := zipped Rplus x2 y2 in
  let! z2 := mapped (fun a => a ^ 2) (hc_detunings c) in
  let! xyz := zipped Rplus xy z2 in
  mapped sqrt xyz.
(** 222-239 *)
Definition hangles (c : hcontrol) : prog ndarray :=
  let! amplitudes_ := hamplitudes c in
  zipped Rmult amplitudes_ (hc_durations c).
(** 241-278; [np.hstack] makes a new matrix *)
Definition hdirections (c : hcontrol) : prog matrix :=
  let! amplitudes_ := hamplitudes c in
  let! xs := get amplitudes_ in
  let! max_amplitude := lift (np_amax xs) in
  let tolerance := direction_tolerance max_amplitude in
  let! safe_amplitudes := mapped (safe_amplitude tolerance) amplitudes_ in
  let! x := hamplitude_x c in
  let! normalized_amplitude_x := zipped Rdiv x safe_amplitudes in
  let! y := hamplitude_y c in
  let! normalized_amplitude_y := zipped Rdiv y safe_amplitudes in
  let! normalized_detunings := zipped Rdiv (hc_detunings c) safe_amplitudes in
  let! xs := get normalized_amplitude_x in
  let! ys := get normalized_amplitude_y in
  let! zs := get normalized_detunings in
  let! data := new true (flat_map (fun p => match p with (x, y, z) => [x; y; z] end)
                           (combine (combine xs ys) zs)) in
  ret (Matrix data 3).
(** 280-292 *)
Definition htimes (c : hcontrol) : prog ndarray :=
  let! xs := get (hc_durations c) in
  let! sums := new true (np_cumsum xs) in
  let! ys := get sums in
  new true (0 :: ys).
(** 294-331 *)
Definition hmaximum_duration (c : hcontrol) : prog R :=
  let! xs := get (hc_durations c) in lift (np_amax xs).
Definition hminimum_duration (c : hcontrol) : prog R :=
  let! xs := get (hc_durations c) in lift (np_amin xs).
Definition hduration (c : hcontrol) : prog R :=
  let! xs := get (hc_durations c) in ret (np_sum xs).

(** ** Export to file *)

(** [v / m], which may divide by zero *)
Definition hquotient (v : ndarray) (m : R) : prog (list xfloat) :=
  let! xs := get v in ret (map (fun x => xdiv x m) xs).

(** 333-369: the values of the dictionary are lists, copies *)
Definition hcontent (c : hcontrol) (coordinates : string) : prog info :=
  let! m := hmaximum_rabi_rate c in
  let! detunings_ := get (hc_detunings c) in
  let! durations_ := get (hc_durations c) in
  let control_info := [("maximum_rabi_rate", VNum m);
                       ("detuning", VList (map Fin detunings_));
                       ("duration", VList (map Fin durations_))] in
  let control_info := match hc_name c with
                      | Some n => control_info ++ [("name", VStr n)]
                      | None => control_info
                      end in
  if String.eqb coordinates CARTESIAN then
    let! x := hamplitude_x c in
    let! m := hmaximum_rabi_rate c in
    let! xs := hquotient x m in
    let! y := hamplitude_y c in
    let! m := hmaximum_rabi_rate c in
    let! ys := hquotient y m in
    ret (control_info ++ [("amplitude_x", VList xs); ("amplitude_y", VList ys)])
  else
    let! m := hmaximum_rabi_rate c in
    let! rs := hquotient (hc_rabi_rates c) m in
    let! phis := get (hc_azimuthal_angles c) in
    ret (control_info ++ [("rabi_rates", VList rs); ("azimuthal_angles", VList (map Fin phis))]).

(** 371-410.  The file system is a second piece of state. *)
Definition hexport_expanded (d : fs) (c : hcontrol) (filename file_type coordinates : string) (h : heap)
    : (fs * option exn) * heap :=
  match hcontent c coordinates h with
  | (Raise e, h) => ((d, Some e), h)
  | (Ok control_info, h) =>
      if String.eqb file_type FILE_TYPE_CSV then
        match (let! popped := lift (dict_pop "name" control_info) in
               let! m := hmaximum_rabi_rate c in
               let! n := hnumber_of_segments c in
               ret (dict_set "maximum_rabi_rate" (VList (repeat (Fin m) n)) popped)) h with
        | (Raise e, h) => ((d, Some e), h)
        | (Ok table, h) =>
            let field_names := sorted_strings (map fst table) in
            match hnumber_of_segments c h with
            | (Raise e, h) => ((fs_write d filename (CsvFile field_names []), Some e), h)
            | (Ok n, h) =>
                let (rows, e) := csv_rows table field_names (range 0 n) in
                ((fs_write d filename (CsvFile field_names rows), e), h)
            end
        end
      else ((fs_write d filename (JsonFile (sort_keys control_info)), None), h)
  end.
(** 412-507 *)
Definition hexport_to_file (d : fs) (c : hcontrol)
    (filename file_format file_type coordinates : string) (h : heap) : (fs * option exn) * heap :=
  match
    (do* check_arguments (str_in file_format file_formats)
           "Requested file format is not supported. Please use one of ['Q-CTRL expanded']"
           ["file_format"] [] in
     do* check_arguments (str_in file_type file_types)
           "Requested file type is not supported. Please use one of ['JSON', 'CSV']"
           ["file_type"] [] in
     check_arguments (str_in coordinates coordinate_systems)
           "Requested coordinate type is not supported. Please use one of ['cartesian', 'cylindrical']"
           ["coordinates"] [])
  with
  | Raise e => ((d, Some e), h)
  | Ok _ =>
      if String.eqb file_format FILE_FORMAT_QCTRL then
        hexport_expanded d c filename file_type coordinates h
      else ((d, None), h)
  end.

(** ** Export for plotting *)

(** 509-572: [plot_theta], [plot_durations] and [plot_detunings] are the attributes themselves *)
Definition hexport (c : hcontrol) (coordinates : string) (dimensionless_rabi_rate : bool)
    : prog (list (string * list plot_point)) :=
  do! lift (check_arguments (str_in coordinates coordinate_systems)
        "Unsupported coordinates provided: " ["coordinates"] []) in
  let! normalizer := (if dimensionless_rabi_rate then hmaximum_rabi_rate c else ret 1) in
  let! x := hamplitude_x c in
  let! plot_x := hquotient x normalizer in
  let! y := hamplitude_y c in
  let! plot_y := hquotient y normalizer in
  let! plot_r := hquotient (hc_rabi_rates c) normalizer in
  let plot_theta := hc_azimuthal_angles c in
  let plot_durations := hc_durations c in
  let plot_detunings := hc_detunings c in
  let! cartesian :=
    (if String.eqb coordinates CARTESIAN then
       let! ts := get plot_durations in
       let x_points := plot_points (map PReal plot_x) ts in
       let! ts := get plot_durations in
       let y_points := plot_points (map PReal plot_y) ts in
       ret [("X amplitude", x_points); ("Y amplitude", y_points)]
     else ret []) in
  let! cylindrical :=
    (if String.eqb coordinates CYLINDRICAL then
       let! thetas := get plot_theta in
       let! ts := get plot_durations in
       ret [("Rabi rate", plot_points
          (zip_with (fun r theta => PComplex (xscale r (cos theta)) (xscale r (sin theta))) plot_r thetas) ts)]
     else ret []) in
  let! ds := get plot_detunings in
  let! ts := get plot_durations in
  ret (cartesian ++ cylindrical ++ [("Detuning", plot_points (map (fun v => PReal (Fin v)) ds) ts)]).

(** ** Printed form *)

(** 582-606: the maximum is computed again for every element, twice if it is not zero *)
Definition hscaled_strings (fmt : R -> string) (maximum : prog R) (v : ndarray) : prog (list string) :=
  let! xs := get v in
  comprehension (fun x =>
    let! m := maximum in
    if neqb m 0 then let! m := maximum in ret (fmt (x / m)) else ret "0") xs.
(** 574-623 *)
Definition hdriven_control_str (fmt : R -> string) (c : hcontrol) : prog string :=
  let! pretty_rabi_rates := hscaled_strings fmt (hmaximum_rabi_rate c) (hc_rabi_rates c) in
  let! phis := get (hc_azimuthal_angles c) in
  let pretty_azimuthal_angles := map (fun a => fmt (a / PI)) phis in
  let! pretty_detuning := hscaled_strings fmt (hmaximum_detuning c) (hc_detunings c) in
  let! ts := get (hc_durations c) in
  let! pretty_durations := comprehension (fun t => let! T := hduration c in ret (fmt (t / T))) ts in
  let! mr := hmaximum_rabi_rate c in
  let! md := hmaximum_detuning c in
  let! T := hduration c in
  ret (str_join newline
    (match hc_name c with Some n => [(n ++ ":")%string] | None => [] end ++
     [("Rabi Rates = [" ++ str_join "," pretty_rabi_rates ++ "] x " ++ fmt mr)%string;
      ("Azimuthal Angles = [" ++ str_join "," pretty_azimuthal_angles ++ "] x pi")%string;
      ("Detunings = [" ++ str_join "," pretty_detuning ++ "] x " ++ fmt md)%string;
      ("Durations = [" ++ str_join "," pretty_durations ++ "] x " ++ fmt T)%string])).

(** 625-646: [getattr] reads the attributes; the texts of arrays and names are oracles *)
Definition hdriven_control_repr (repr_array : list R -> string) (repr_name : option string -> string) (c : hcontrol) : prog string :=
  let! rabis := get (hc_rabi_rates c) in
  let! phis := get (hc_azimuthal_angles c) in
  let! ds := get (hc_detunings c) in
  let! ts := get (hc_durations c) in
  lift (create_repr_from_attributes
    (Some ("DrivenControl",
           fun a =>
             if String.eqb a "rabi_rates" then Some (repr_array rabis)
             else if String.eqb a "azimuthal_angles" then Some (repr_array phis)
             else if String.eqb a "detunings" then Some (repr_array ds)
             else if String.eqb a "durations" then Some (repr_array ts)
             else if String.eqb a "name" then Some (repr_name (hc_name c))
             else None))
    (Some (map AttrStr ["rabi_rates"; "azimuthal_angles"; "detunings"; "durations"; "name"]))).

(** ** Sequences *)

(** dynamic_decoupling_sequence.py:125-148 *)
Definition hdds_export (s : hdds) : prog (list (R * R * R) * list (R * R)) :=
  let! rabis := get (hs_rabi_rotations s) in
  let! thetas := get (hs_azimuthal_angles s) in
  let! ts := get (hs_offsets s) in
  let rabi := map (fun x => match x with (rabi, theta, offset) =>
                (rabi * cos theta, rabi * sin theta, offset) end) (combine (combine rabis thetas) ts) in
  let! rotations := get (hs_detuning_rotations s) in
  let! ts := get (hs_offsets s) in
  ret (rabi, combine rotations ts).
(** 174-209: the quotients are new arrays *)
Definition hscaled_array (fmt : R -> string) (scale : R) (v : ndarray) : prog string :=
  let! w := mapped (fun x => x / scale) v in
  let! xs := get w in
  ret (array_to_str fmt xs).
Definition hdds_str (fmt : R -> string) (s : hdds) : prog string :=
  let! ts := hscaled_array fmt (hs_duration s) (hs_offsets s) in
  let! rabis := hscaled_array fmt PI (hs_rabi_rotations s) in
  let! thetas := hscaled_array fmt PI (hs_azimuthal_angles s) in
  let! rotations := hscaled_array fmt PI (hs_detuning_rotations s) in
  ret (str_join newline
    (match hs_name s with Some n => [(n ++ ":")%string] | None => [] end ++
     ["Duration = " ++ fmt (hs_duration s);
      "Offsets = [" ++ ts ++ "] x " ++ fmt (hs_duration s);
      "Rabi Rotations = [" ++ rabis ++ "] x pi";
      "Azimuthal Angles = [" ++ thetas ++ "] x pi";
      "Detuning Rotations = [" ++ rotations ++ "] x pi"]%string)).
(** 150-172 *)
Definition hdds_repr (repr_float : R -> string) (repr_array : list R -> string)
    (repr_name : option string -> string) (s : hdds) : prog string :=
  let! ts := get (hs_offsets s) in
  let! rabis := get (hs_rabi_rotations s) in
  let! thetas := get (hs_azimuthal_angles s) in
  let! rotations := get (hs_detuning_rotations s) in
  lift (create_repr_from_attributes
    (Some ("DynamicDecouplingSequence",
           fun a =>
             if String.eqb a "duration" then Some (repr_float (hs_duration s))
             else if String.eqb a "offsets" then Some (repr_array ts)
             else if String.eqb a "rabi_rotations" then Some (repr_array rabis)
             else if String.eqb a "azimuthal_angles" then Some (repr_array thetas)
             else if String.eqb a "detuning_rotations" then Some (repr_array rotations)
             else if String.eqb a "name" then Some (repr_name (hs_name s))
             else None))
    (Some (map AttrStr ["duration"; "offsets"; "rabi_rotations"; "azimuthal_angles";
                        "detuning_rotations"; "name"]))).
(** 211-264 *)
Definition hdds_export_to_file (d : fs) (s : hdds)
    (filename file_format file_type coordinates : string)
    (maximum_rabi_rate_ maximum_detuning_rate : R) (h : heap) : (fs * option exn) * heap :=
  match hconvert s maximum_rabi_rate_ maximum_detuning_rate 0 (hs_name s) h with
  | (Raise e, h) => ((d, Some e), h)
  | (Ok c, h) => hexport_to_file d c filename file_format file_type coordinates h
  end.
