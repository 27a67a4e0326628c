(** * Model of driven_controls/driven_control.py *)

From Verif Require Export M_Utils.
Open Scope string_scope.
Open Scope R_scope.

(** The attributes of a [DrivenControl] instance (driven_control.py:103,
    153-156).  Simplification: arrays are 1-D lists of finite floats. *)
Record driven_control : Type := MkDrivenControl {
  rabi_rates : list R;
  azimuthal_angles : list R;
  detunings : list R;
  durations : list R;
  dc_name : option string
}.

Definition opt_list {A : Type} (o : option A) : list A :=
  match o with Some a => [a] | None => [] end.

Definition opt_default {A : Type} (d : A) (o : option A) : A :=
  match o with Some a => a | None => d end.

(** driven_control.py:115-119: the *set* of sizes of the non-None inputs. *)
Definition input_lengths (lists : list (option (list R))) : list nat :=
  nodup Nat.eq_dec (map (@List.length R) (flat_map opt_list lists)).

(** /repo/qctrlopencontrols/driven_controls/driven_control.py:94-156
    [DrivenControl.__init__].  [None] = argument omitted. *)
Definition DrivenControl (durations_ : list R)
    (rabi_rates_ azimuthal_angles_ detunings_ : option (list R))
    (name : option string) : result driven_control :=
  do* check_arguments (forallb (fun d => ltb 0 d) durations_)
        "Duration of driven control segments must all be greater than zero."
        ["durations"] [] in
  do* check_arguments
        (Nat.eqb (List.length (input_lengths
           [rabi_rates_; azimuthal_angles_; detunings_; Some durations_])) 1)
        "If set, rabi rates, azimuthal angles, detunings and durations must be of same length"
        ["rabi_rates"; "azimuthal_angles"; "detunings"; "durations"] [] in
  let duration_count := List.length durations_ in
  let rabi := opt_default (np_zeros duration_count) rabi_rates_ in
  let azim := opt_default (np_zeros duration_count) azimuthal_angles_ in
  let detu := opt_default (np_zeros duration_count) detunings_ in
  do* check_arguments (forallb (fun r => leb 0 r) rabi)
        "All rabi rates must be greater than zero." ["rabi_rates"] [] in
  Ok {| rabi_rates := rabi; azimuthal_angles := azim; detunings := detu;
        durations := durations_; dc_name := name |}.

(** driven_control.py:158-169 [number_of_segments] *)
Definition number_of_segments (c : driven_control) : nat :=
  List.length (rabi_rates c).

(** driven_control.py:171-182 [maximum_rabi_rate] *)
Definition maximum_rabi_rate (c : driven_control) : result R :=
  np_amax (rabi_rates c).

(** driven_control.py:184-194 [maximum_detuning] *)
Definition maximum_detuning (c : driven_control) : result R :=
  np_amax (detunings c).

(** elementwise binary operation on two arrays of equal length *)
Definition zip_with {A B C : Type} (f : A -> B -> C) (a : list A) (b : list B) : list C :=
  map (fun p => f (fst p) (snd p)) (combine a b).

(** driven_control.py:196-207 [amplitude_x] *)
Definition amplitude_x (c : driven_control) : list R :=
  zip_with (fun r p => r * cos p) (rabi_rates c) (azimuthal_angles c).

(** driven_control.py:209-220 [amplitude_y] *)
Definition amplitude_y (c : driven_control) : list R :=
  zip_with (fun r p => r * sin p) (rabi_rates c) (azimuthal_angles c).

(** driven_control.py:234-236 and 253-255: the local [amplitudes]. *)
Definition amplitudes (c : driven_control) : list R :=
  zip_with (fun xy z => sqrt (fst xy ^ 2 + snd xy ^ 2 + z ^ 2))
    (combine (amplitude_x c) (amplitude_y c)) (detunings c).

(** driven_control.py:222-239 [angles] *)
Definition angles (c : driven_control) : list R :=
  zip_with Rmult (amplitudes c) (durations c).

(** driven_control.py:241-278 [directions].  The divisor is never zero (it is
    1 when the amplitude is within the tolerance of 0), so [R] division is
    faithful here. *)
Definition direction_tolerance (max_amplitude : R) : R :=
  py_min (1 / 10 ^ 20 * max_amplitude) (1 / 10 ^ 8).
Definition safe_amplitude (tolerance a : R) : R :=
  if np_isclose_tol tolerance a 0 then 1 else a.
Definition directions (c : driven_control) : result (list (R * R * R)) :=
  let* max_amplitude := np_amax (amplitudes c) in
  let tolerance := direction_tolerance max_amplitude in
  let safe_amplitudes := map (safe_amplitude tolerance) (amplitudes c) in
  let normalized_amplitude_x := zip_with Rdiv (amplitude_x c) safe_amplitudes in
  let normalized_amplitude_y := zip_with Rdiv (amplitude_y c) safe_amplitudes in
  let normalized_detunings := zip_with Rdiv (detunings c) safe_amplitudes in
  Ok (combine (combine normalized_amplitude_x normalized_amplitude_y)
        normalized_detunings).

(** driven_control.py:280-292 [times] *)
Definition times (c : driven_control) : list R := 0 :: np_cumsum (durations c).

(** driven_control.py:294-305 [maximum_duration] *)
Definition maximum_duration (c : driven_control) : result R := np_amax (durations c).

(** driven_control.py:307-318 [minimum_duration] *)
Definition minimum_duration (c : driven_control) : result R := np_amin (durations c).

(** driven_control.py:320-331 [duration] *)
Definition duration (c : driven_control) : R := np_sum (durations c).

(** ** Export to file *)

(** Values held in the [control_info] dictionary. *)
Inductive info_value : Type :=
| VNum (r : R)
| VStr (s : string)
| VList (l : list xfloat).

Definition info := list (string * info_value).

(** driven_control.py:333-369 [_qctrl_expanded_export_content] *)
Definition qctrl_expanded_export_content (c : driven_control) (coordinates : string)
  : result info :=
  let* m := maximum_rabi_rate c in
  let base := [("maximum_rabi_rate", VNum m);
               ("detuning", VList (map Fin (detunings c)));
               ("duration", VList (map Fin (durations c)))] in
  let named := match dc_name c with
               | Some n => (base ++ [("name", VStr n)])%list
               | None => base
               end in
  Ok (named ++
      if String.eqb coordinates CARTESIAN then
        [("amplitude_x", VList (map (fun x => xdiv x m) (amplitude_x c)));
         ("amplitude_y", VList (map (fun x => xdiv x m) (amplitude_y c)))]
      else
        [("rabi_rates", VList (map (fun x => xdiv x m) (rabi_rates c)));
         ("azimuthal_angles", VList (map Fin (azimuthal_angles c)))])%list.

(** Python [dict] helpers on association lists with distinct keys. *)
Fixpoint dict_get (k : string) (d : info) : option info_value :=
  match d with
  | [] => None
  | (k', v) :: d' => if String.eqb k k' then Some v else dict_get k d'
  end.
Definition dict_remove (k : string) (d : info) : info :=
  filter (fun kv => negb (String.eqb k (fst kv))) d.
(** [d.pop(k)] without a default: KeyError when the key is absent. *)
Definition dict_pop (k : string) (d : info) : result info :=
  match dict_get k d with
  | Some _ => Ok (dict_remove k d)
  | None => Raise (KeyError k)
  end.
(** [d[k] = v] for a key already present keeps its position. *)
Definition dict_set (k : string) (v : info_value) (d : info) : info :=
  map (fun kv => if String.eqb k (fst kv) then (k, v) else kv) d.

(** What a file contains after export.  Simplification: structured rows and
    objects rather than bytes; the csv / json text encoders are modelled in M_Text.v. *)
Inductive file : Type :=
| CsvFile (header : list string) (rows : list (list xfloat))
| JsonFile (object : info).

(** A file system: what each path holds. *)
Definition fs := string -> option file.
Definition fs_write (d : fs) (filename : string) (content : file) : fs :=
  fun p => if String.eqb p filename then Some content else d p.

(** One csv cell, [control_info[name][index]] (driven_control.py:406). *)
Definition csv_cell (d : info) (index : nat) (key : string) : result xfloat :=
  match dict_get key d with
  | Some (VList l) => match nth_error l index with
                      | Some v => Ok v
                      | None => Raise IndexError
                      end
  | _ => Raise (KeyError key)
  end.

Fixpoint csv_row (d : info) (index : nat) (field_names : list string)
  : result (list xfloat) :=
  match field_names with
  | [] => Ok []
  | k :: ks => let* v := csv_cell d index k in
               let* vs := csv_row d index ks in
               Ok (v :: vs)
  end.

(** the loop driven_control.py:404-407: rows written so far, and the
    exception that interrupted it, if any *)
Fixpoint csv_rows (d : info) (field_names : list string) (indices : list nat)
  : list (list xfloat) * option exn :=
  match indices with
  | [] => ([], None)
  | i :: is =>
      match csv_row d i field_names with
      | Raise e => ([], Some e)
      | Ok row => let (rows, e) := csv_rows d field_names is in (row :: rows, e)
      end
  end.

Definition sorted_strings (l : list string) : list string := sort String.leb l.

(** [json.dump(..., sort_keys=True)] *)
Definition sort_keys (d : info) : info :=
  sort (fun a b => String.leb (fst a) (fst b)) d.

(** driven_control.py:371-410 [_export_to_qctrl_expanded_format].  Returns the
    file system afterwards and the exception raised, if any. *)
Definition export_to_qctrl_expanded_format (d : fs) (c : driven_control)
    (filename file_type coordinates : string) : fs * option exn :=
  match qctrl_expanded_export_content c coordinates with
  | Raise e => (d, Some e)
  | Ok control_info =>
      if String.eqb file_type FILE_TYPE_CSV then
        match dict_pop "name" control_info with
        | Raise e => (d, Some e)
        | Ok popped =>
            match maximum_rabi_rate c with
            | Raise e => (d, Some e)
            | Ok m =>
                let table := dict_set "maximum_rabi_rate"
                  (VList (repeat (Fin m) (number_of_segments c))) popped in
                let field_names := sorted_strings (map fst table) in
                let (rows, e) := csv_rows table field_names
                                   (range 0 (number_of_segments c)) in
                (fs_write d filename (CsvFile field_names rows), e)
            end
        end
      else
        (fs_write d filename (JsonFile (sort_keys control_info)), None)
  end.

(** driven_control.py:412-507 [export_to_file] *)
Definition export_to_file (d : fs) (c : driven_control)
    (filename file_format file_type coordinates : string) : fs * option exn :=
  match
    (do* check_arguments (str_in file_format file_formats)
           "Requested file format is not supported. Please use one of ['Q-CTRL expanded']"
           ["file_format"] [] in
     do* check_arguments (str_in file_type file_types)
           "Requested file type is not supported. Please use one of ['JSON', 'CSV']"
           ["file_type"] [] in
     check_arguments (str_in coordinates coordinate_systems)
           "Requested coordinate type is not supported. Please use one of ['cartesian', 'cylindrical']"
           ["coordinates"] [])
  with
  | Raise e => (d, Some e)
  | Ok _ =>
      if String.eqb file_format FILE_FORMAT_QCTRL then
        export_to_qctrl_expanded_format d c filename file_type coordinates
      else (d, None)
  end.

(** ** Export for plotting *)

Inductive plot_value : Type :=
| PReal (x : xfloat)
| PComplex (re im : xfloat).

(** [{"value": v, "duration": t}] *)
Record plot_point : Type := MkPoint { value : plot_value; point_duration : R }.

Definition plot_points (vs : list plot_value) (ts : list R) : list plot_point :=
  zip_with MkPoint vs ts.

(** driven_control.py:509-572 [export] *)
Definition export (c : driven_control) (coordinates : string)
    (dimensionless_rabi_rate : bool) : result (list (string * list plot_point)) :=
  do* check_arguments (str_in coordinates coordinate_systems)
        "Unsupported coordinates provided: " ["coordinates"] [] in
  let* normalizer := (if dimensionless_rabi_rate then maximum_rabi_rate c else Ok 1) in
  let plot_x := map (fun x => xdiv x normalizer) (amplitude_x c) in
  let plot_y := map (fun y => xdiv y normalizer) (amplitude_y c) in
  let plot_r := map (fun r => xdiv r normalizer) (rabi_rates c) in
  let cartesian :=
    if String.eqb coordinates CARTESIAN then
      [("X amplitude", plot_points (map PReal plot_x) (durations c));
       ("Y amplitude", plot_points (map PReal plot_y) (durations c))]
    else [] in
  let cylindrical :=
    if String.eqb coordinates CYLINDRICAL then
      [("Rabi rate",
        plot_points
          (zip_with (fun r theta => PComplex (xscale r (cos theta)) (xscale r (sin theta)))
             plot_r (azimuthal_angles c))
          (durations c))]
    else [] in
  Ok (cartesian ++ cylindrical ++
      [("Detuning", plot_points (map (fun v => PReal (Fin v)) (detunings c))
                      (durations c))])%list.

(** ** Text representations *)

(** driven_control.py:574-623 [__str__].  [fmt] is Python's [str] on floats
    (an oracle; simplification). *)
Definition scaled_strings (fmt : R -> string) (scale : R) (l : list R) : list string :=
  map (fun x => if neqb scale 0 then fmt (x / scale) else "0"%string) l.

Definition driven_control_str (fmt : R -> string) (c : driven_control) : result string :=
  let* mr := maximum_rabi_rate c in
  let* md := maximum_detuning c in
  let lines :=
    [("Rabi Rates = [" ++ str_join "," (scaled_strings fmt mr (rabi_rates c))
        ++ "] x " ++ fmt mr)%string;
     ("Azimuthal Angles = ["
        ++ str_join "," (map (fun a => fmt (a / PI)%R) (azimuthal_angles c))
        ++ "] x pi")%string;
     ("Detunings = [" ++ str_join "," (scaled_strings fmt md (detunings c))
        ++ "] x " ++ fmt md)%string;
     ("Durations = ["
        ++ str_join "," (map (fun d => fmt (d / duration c)%R) (durations c))
        ++ "] x " ++ fmt (duration c))%string] in
  Ok (str_join newline
        (match dc_name c with Some n => [(n ++ ":")%string] | None => [] end ++ lines)%list).

(** driven_control.py:625-646 [__repr__]; [repr_array] / [repr_name] are
    Python's [repr] on arrays and on [Optional[str]] (oracles). *)
Definition driven_control_repr (repr_array : list R -> string)
    (repr_name : option string -> string) (c : driven_control) : result string :=
  create_repr_from_attributes
    (Some ("DrivenControl"%string,
           fun a =>
             if String.eqb a "rabi_rates" then Some (repr_array (rabi_rates c))
             else if String.eqb a "azimuthal_angles" then Some (repr_array (azimuthal_angles c))
             else if String.eqb a "detunings" then Some (repr_array (detunings c))
             else if String.eqb a "durations" then Some (repr_array (durations c))
             else if String.eqb a "name" then Some (repr_name (dc_name c))
             else None))
    (Some (map AttrStr ["rabi_rates"; "azimuthal_angles"; "detunings"; "durations"; "name"]%string)).
