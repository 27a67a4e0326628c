(** * Exporting a control in floating point

    The same functions as in M_DrivenControl.v with every arithmetic operation
    rounded by [rnd]; [fsin] and [fcos] are the functions of numpy.  Maxima are
    exact.  Overflow is not represented. *)

From Verif Require Export M_FloatText M_DrivenControl.
Import ListNotations.
Open Scope string_scope.
Open Scope list_scope.
Open Scope R_scope.

Section RoundedExport.
  Variables (rnd fsin fcos : R -> R).

  (** /repo/qctrlopencontrols/driven_controls/driven_control.py:196-220 *)
  Definition fl_amplitude_x (c : driven_control) : list R :=
    zip_with (fun r p => rnd (r * fcos p)) (rabi_rates c) (azimuthal_angles c).
  Definition fl_amplitude_y (c : driven_control) : list R :=
    zip_with (fun r p => rnd (r * fsin p)) (rabi_rates c) (azimuthal_angles c).

  (** [x / m]; division by zero gives nan or an infinity *)
  Definition fl_xdiv (x m : R) : xfloat :=
    match xdiv x m with Fin q => Fin (rnd q) | special => special end.

  (** driven_control.py:333-369 [_qctrl_expanded_export_content] *)
  Definition fl_qctrl_expanded_export_content (c : driven_control) (coordinates : string)
    : result info :=
    let* m := maximum_rabi_rate c in
    let base := [("maximum_rabi_rate", VNum m);
                 ("detuning", VList (map Fin (detunings c)));
                 ("duration", VList (map Fin (durations c)))] in
    let named := match dc_name c with
                 | Some n => (base ++ [("name", VStr n)])%list
                 | None => base
                 end in
    Ok (named ++
        if String.eqb coordinates CARTESIAN then
          [("amplitude_x", VList (map (fun x => fl_xdiv x m) (fl_amplitude_x c)));
           ("amplitude_y", VList (map (fun x => fl_xdiv x m) (fl_amplitude_y c)))]
        else
          [("rabi_rates", VList (map (fun x => fl_xdiv x m) (rabi_rates c)));
           ("azimuthal_angles", VList (map Fin (azimuthal_angles c)))])%list.

  (** driven_control.py:371-410 [_export_to_qctrl_expanded_format] *)
  Definition fl_export_to_qctrl_expanded_format (d : fs) (c : driven_control)
      (filename file_type coordinates : string) : fs * option exn :=
    match fl_qctrl_expanded_export_content c coordinates with
    | Raise e => (d, Some e)
    | Ok control_info =>
        if String.eqb file_type FILE_TYPE_CSV then
          match dict_pop "name" control_info with
          | Raise e => (d, Some e)
          | Ok popped =>
              match maximum_rabi_rate c with
              | Raise e => (d, Some e)
              | Ok m =>
                  let table := dict_set "maximum_rabi_rate"
                    (VList (repeat (Fin m) (number_of_segments c))) popped in
                  let field_names := sorted_strings (map fst table) in
                  let (rows, e) := csv_rows table field_names
                                     (range 0 (number_of_segments c)) in
                  (fs_write d filename (CsvFile field_names rows), e)
              end
          end
        else
          (fs_write d filename (JsonFile (sort_keys control_info)), None)
    end.

  (** driven_control.py:412-507 [export_to_file] *)
  Definition fl_export_to_file (d : fs) (c : driven_control)
      (filename file_format file_type coordinates : string) : fs * option exn :=
    match
      (do* check_arguments (str_in file_format file_formats)
             "Requested file format is not supported. Please use one of ['Q-CTRL expanded']"
             ["file_format"] [] in
       do* check_arguments (str_in file_type file_types)
             "Requested file type is not supported. Please use one of ['JSON', 'CSV']"
             ["file_type"] [] in
       check_arguments (str_in coordinates coordinate_systems)
             "Requested coordinate type is not supported. Please use one of ['cartesian', 'cylindrical']"
             ["coordinates"] [])
    with
    | Raise e => (d, Some e)
    | Ok _ =>
        if String.eqb file_format FILE_FORMAT_QCTRL then
          fl_export_to_qctrl_expanded_format d c filename file_type coordinates
        else (d, None)
    end.

  (** the characters of the file *)
  Definition exported_text (f : file) : string := file_text (json_floatstr rnd) (float_repr rnd) f.
End RoundedExport.
