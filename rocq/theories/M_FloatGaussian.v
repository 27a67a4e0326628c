(** * The modulated Gaussian control in floating point

    new_modulated_gaussian_control as in M_DrivenPredefined.v with every
    arithmetic operation and square root rounded by [rnd]; [fsin] and [fexp] are
    the functions of numpy and [fpi] is numpy.pi.  Comparisons, maxima, the
    remainder of two positive numbers (C fmod) and [ceil] are exact.  Overflow is
    not represented. *)

From Verif Require Export M_DrivenPredefined M_FloatProperties.
Import ListNotations.
Open Scope string_scope.
Open Scope list_scope.
Open Scope R_scope.

Section RoundedGaussian.
  Variables (rnd fsin fexp : R -> R) (fpi : R).

  (** /repo/qctrlopencontrols/driven_controls/predefined.py:1026-1030 and 1051; the
      literal 0.1 is a rounded number *)
  Definition fl_gaussian_width (duration_ : R) : R := rnd (rnd (1 / 10) * duration_).
  (** predefined.py:1032 [min_required_upper_bound] *)
  Definition fl_gaussian_bound (duration_ : R) : R :=
    rnd (rnd (sqrt (rnd (2 * fpi))) / fl_gaussian_width duration_).

  (** predefined.py:1044: [segment_count] *)
  Definition fl_gaussian_count (duration_ minimum_segment_duration : R) : nat :=
    Z.to_nat (np_ceil (rnd (duration_ / minimum_segment_duration))).

  (** predefined.py:1046-1047 [segment_midpoints]; the indices are exact *)
  Definition fl_gaussian_midpoint (segment_duration : R) (i : nat) : R :=
    rnd (rnd (INR i * segment_duration) + rnd (segment_duration / 2)).
  Definition fl_gaussian_midpoints (segment_count : nat) (segment_duration : R) : list R :=
    map (fl_gaussian_midpoint segment_duration) (range 0 segment_count).

  (** predefined.py:1050-1054 [base_gaussian_segments] *)
  Definition fl_gaussian_base (duration_ t : R) : R :=
    fexp (rnd (- (5 / 10) *
      rnd (rnd (rnd (t - rnd (5 / 10 * duration_)) / fl_gaussian_width duration_) ^ 2))).

  (** predefined.py:1060-1065 *)
  Definition fl_gaussian_modulated (modulation_frequency duration_ t : R) : R :=
    rnd (fl_gaussian_base duration_ t *
         fsin (rnd (rnd (rnd (2 * fpi) * modulation_frequency) * rnd (t - rnd (duration_ / 2))))).

  (** predefined.py:1056-1090 [modulated_gaussian_segments] *)
  Definition fl_gaussian_segments (maximum_rabi_rate_ duration_ modulation_frequency segment_duration : R)
      (midpoints : list R) : result (list xfloat) :=
    if neqb modulation_frequency 0 then
      let modulated := map (fl_gaussian_modulated modulation_frequency duration_) midpoints in
      let* pulse_segments_maximum := np_amax modulated in
      Ok (map (fun v => fl_xdiv rnd (rnd (maximum_rabi_rate_ * v)) pulse_segments_maximum) modulated)
    else
      let base := map (fl_gaussian_base duration_) midpoints in
      let* m := np_amax base in
      let normalized := map (fun b => rnd (b / m)) base in
      let maximum_rotation_angle :=
        rnd (rnd (segment_duration * fl_sum rnd normalized) * maximum_rabi_rate_) in
      let maximum_full_rotation_angle :=
        py_max (rnd (maximum_rotation_angle - py_mod maximum_rotation_angle (rnd (2 * fpi))))
               (rnd (2 * fpi)) in
      Ok (map (fun v => Fin (rnd (rnd (v * maximum_rabi_rate_)
                                  * rnd (maximum_full_rotation_angle / maximum_rotation_angle))))
            normalized).

  (** predefined.py:976-1099 [new_modulated_gaussian_control].  When the maximum
      of the modulated samples is 0 the quotient at the maximum is NaN, which
      the [>= 0] test of [DrivenControl.__init__] rejects. *)
  Definition fl_new_modulated_gaussian_control
      (maximum_rabi_rate_ minimum_segment_duration duration_ modulation_frequency : R)
      : result driven_control :=
    do* check_arguments (ltb 0 maximum_rabi_rate_)
          "Maximum Rabi rate must be greater than zero." ["maximum_rabi_rate"] [] in
    do* check_arguments (ltb 0 minimum_segment_duration)
          "Minimum segment duration must be greater than zero."
          ["minimum_segment_duration"] [] in
    do* check_arguments (ltb minimum_segment_duration duration_)
          "Total duration must be greater than minimum segment duration."
          ["duration"; "minimum_segment_duration"] [] in
    do* check_arguments (leb (fl_gaussian_bound duration_) maximum_rabi_rate_)
          "Maximum Rabi rate must be large enough to permit a 2Pi rotation."
          ["maximum_rabi_rate"]
          ["minimum required value for upper_bound (sqrt(2pi)/(0.1*maximum_duration))"] in
    let segment_count := fl_gaussian_count duration_ minimum_segment_duration in
    let segment_duration := rnd (duration_ / INR segment_count) in
    let midpoints := fl_gaussian_midpoints segment_count segment_duration in
    let* segments := fl_gaussian_segments maximum_rabi_rate_ duration_ modulation_frequency
                       segment_duration midpoints in
    match all_finite segments with
    | None => Raise (ArgumentsValueError "All rabi rates must be greater than zero."
                       ["rabi_rates"] [])
    | Some segs =>
        DrivenControl (repeat segment_duration segment_count)
          (Some (map Rabs segs))
          (Some (map (fun v => if leb 0 v then 0 else fpi) segs))
          (Some (np_zeros segment_count)) None
    end.
End RoundedGaussian.
