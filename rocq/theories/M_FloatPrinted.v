(** * Printed forms in floating point

    [__str__] of controls and sequences as in M_DrivenControl.v and M_DDS.v, with every
    division rounded by [rnd], numbers printed as in M_FloatText.v and [pi] for [np.pi].
    [str] of a float64 and [astype(str)] lay numbers out like [repr] of a float.
    Overflow is not represented. *)

From Verif Require Export M_FloatProperties M_DDS.
Import ListNotations.
Open Scope string_scope.
Open Scope list_scope.
Open Scope R_scope.

Section RoundedPrinting.
  Variables (rnd : R -> R) (pi : R).

  (** /repo/qctrlopencontrols/driven_controls/driven_control.py:582-606 *)
  Definition fl_ratio_text (scale x : R) : string := finite_text rnd (rnd (x / scale)).
  Definition fl_scaled_strings (scale : R) (l : list R) : list string :=
    map (fun x => if neqb scale 0 then fl_ratio_text scale x else "0") l.

  (** driven_control.py:574-623 *)
  Definition fl_driven_control_str (c : driven_control) : result string :=
    let* mr := maximum_rabi_rate c in
    let* md := maximum_detuning c in
    let T := fl_duration rnd c in
    Ok (str_join newline
      (match dc_name c with Some n => [(n ++ ":")%string] | None => [] end ++
       [("Rabi Rates = [" ++ str_join "," (fl_scaled_strings mr (rabi_rates c)) ++ "] x " ++ finite_text rnd mr)%string;
        ("Azimuthal Angles = [" ++ str_join "," (map (fl_ratio_text pi) (azimuthal_angles c)) ++ "] x pi")%string;
        ("Detunings = [" ++ str_join "," (fl_scaled_strings md (detunings c)) ++ "] x " ++ finite_text rnd md)%string;
        ("Durations = [" ++ str_join "," (map (fl_ratio_text T) (durations c)) ++ "] x " ++ finite_text rnd T)%string])).

  (** /repo/qctrlopencontrols/dynamic_decoupling_sequences/dynamic_decoupling_sequence.py:174-209 *)
  Definition fl_dds_str (s : dds) : string :=
    let over (k : R) (l : list R) := str_join ", " (map (fl_ratio_text k) l) in
    let T := finite_text rnd (seq_duration s) in
    str_join newline
      (match seq_name s with Some n => [(n ++ ":")%string] | None => [] end ++
       ["Duration = " ++ T;
        "Offsets = [" ++ over (seq_duration s) (offsets s) ++ "] x " ++ T;
        "Rabi Rotations = [" ++ over pi (rabi_rotations s) ++ "] x pi";
        "Azimuthal Angles = [" ++ over pi (seq_azimuthal_angles s) ++ "] x pi";
        "Detuning Rotations = [" ++ over pi (detuning_rotations s) ++ "] x pi"]%string).
End RoundedPrinting.
