(** * Derived quantities of a control in floating point

    The properties of DrivenControl as in M_DrivenControl.v with every
    arithmetic operation and square root rounded by [rnd]; [fsin] and [fcos] are
    the functions of numpy.  Maxima and comparisons are exact.  Overflow is not
    represented. *)

From Verif Require Export M_FloatExport.
Import ListNotations.
Open Scope string_scope.
Open Scope list_scope.
Open Scope R_scope.

Section RoundedProperties.
  Variables (rnd fsin fcos : R -> R).

  (** ** numpy.sum *)

  Fixpoint fl_add_all (s : R) (l : list R) : R :=
    match l with [] => s | x :: l' => fl_add_all (rnd (s + x)) l' end.

  (** eight partial sums, added in pairs, then what is left *)
  Fixpoint fl_lanes (r0 r1 r2 r3 r4 r5 r6 r7 : R) (l : list R) : R :=
    match l with
    | a0 :: a1 :: a2 :: a3 :: a4 :: a5 :: a6 :: a7 :: l' =>
        fl_lanes (rnd (r0 + a0)) (rnd (r1 + a1)) (rnd (r2 + a2)) (rnd (r3 + a3))
                 (rnd (r4 + a4)) (rnd (r5 + a5)) (rnd (r6 + a6)) (rnd (r7 + a7)) l'
    | _ =>
        fl_add_all (rnd (rnd (rnd (r0 + r1) + rnd (r2 + r3)) + rnd (rnd (r4 + r5) + rnd (r6 + r7)))) l
    end.
  Definition fl_block (l : list R) : R :=
    match l with
    | a0 :: a1 :: a2 :: a3 :: a4 :: a5 :: a6 :: a7 :: l' => fl_lanes a0 a1 a2 a3 a4 a5 a6 a7 l'
    | _ => fl_add_all 0 l
    end.

  (** arrays of more than 128 numbers are halved *)
  Fixpoint fl_pairwise (fuel : nat) (l : list R) : R :=
    match fuel with
    | O => fl_block l
    | S fuel' =>
        let n := List.length l in
        if Nat.leb n 128 then fl_block l
        else
          let n2 := (n / 2 - (n / 2) mod 8)%nat in
          rnd (fl_pairwise fuel' (firstn n2 l) + fl_pairwise fuel' (skipn n2 l))
    end.
  Definition fl_sum (l : list R) : R := rnd (0 + fl_pairwise (List.length l) l).

  (** numpy.cumsum *)
  Fixpoint fl_accumulate (s : R) (l : list R) : list R :=
    match l with [] => [] | x :: l' => rnd (s + x) :: fl_accumulate (rnd (s + x)) l' end.
  Definition fl_cumsum (l : list R) : list R :=
    match l with [] => [] | x :: l' => x :: fl_accumulate x l' end.

  (** ** Properties *)

  (** /repo/qctrlopencontrols/driven_controls/driven_control.py:280-292 [times] *)
  Definition fl_times (c : driven_control) : list R := 0 :: fl_cumsum (durations c).

  (** driven_control.py:320-331 [duration] *)
  Definition fl_duration (c : driven_control) : R := fl_sum (durations c).

  (** driven_control.py:234-236 and 253-255: the local [amplitudes].  The square
      [x ** 2] and the square root are correctly rounded. *)
  Definition fl_amplitudes (c : driven_control) : list R :=
    zip_with (fun xy z => rnd (sqrt (rnd (rnd (rnd (fst xy ^ 2) + rnd (snd xy ^ 2)) + rnd (z ^ 2)))))
      (combine (fl_amplitude_x rnd fcos c) (fl_amplitude_y rnd fsin c)) (detunings c).

  (** driven_control.py:222-239 [angles] *)
  Definition fl_angles (c : driven_control) : list R :=
    zip_with (fun a t => rnd (a * t)) (fl_amplitudes c) (durations c).

  (** driven_control.py:241-278 [directions] *)
  Definition fl_direction_tolerance (max_amplitude : R) : R :=
    py_min (rnd (rnd (1 / 10 ^ 20) * max_amplitude)) (rnd (1 / 10 ^ 8)).
  Definition fl_isclose_tol (atol a b : R) : bool :=
    leb (Rabs (rnd (a - b))) (rnd (atol + rnd (rnd (/ 100000) * Rabs b))).
  Definition fl_safe_amplitude (tolerance a : R) : R :=
    if fl_isclose_tol tolerance a 0 then 1 else a.
  Definition fl_quotient (x y : R) : R := rnd (x / y).
  Definition fl_directions (c : driven_control) : result (list (R * R * R)) :=
    let* max_amplitude := np_amax (fl_amplitudes c) in
    let tolerance := fl_direction_tolerance max_amplitude in
    let safe_amplitudes := map (fl_safe_amplitude tolerance) (fl_amplitudes c) in
    let normalized_amplitude_x := zip_with fl_quotient (fl_amplitude_x rnd fcos c) safe_amplitudes in
    let normalized_amplitude_y := zip_with fl_quotient (fl_amplitude_y rnd fsin c) safe_amplitudes in
    let normalized_detunings := zip_with fl_quotient (detunings c) safe_amplitudes in
    Ok (combine (combine normalized_amplitude_x normalized_amplitude_y)
          normalized_detunings).

  (** ** Export for plotting *)

  Definition fl_xscale (x : xfloat) (k : R) : xfloat :=
    match xscale x k with Fin q => Fin (rnd q) | special => special end.

  (** driven_control.py:509-572 [export]; the real and imaginary parts of
      [r * np.exp(1.0j * theta)] are the products with cosine and sine *)
  Definition fl_export (c : driven_control) (coordinates : string)
      (dimensionless_rabi_rate : bool) : result (list (string * list plot_point)) :=
    do* check_arguments (str_in coordinates coordinate_systems)
          "Unsupported coordinates provided: " ["coordinates"] [] in
    let* normalizer := (if dimensionless_rabi_rate then maximum_rabi_rate c else Ok 1) in
    let plot_x := map (fun x => fl_xdiv rnd x normalizer) (fl_amplitude_x rnd fcos c) in
    let plot_y := map (fun y => fl_xdiv rnd y normalizer) (fl_amplitude_y rnd fsin c) in
    let plot_r := map (fun r => fl_xdiv rnd r normalizer) (rabi_rates c) in
    let cartesian :=
      if String.eqb coordinates CARTESIAN then
        [("X amplitude", plot_points (map PReal plot_x) (durations c));
         ("Y amplitude", plot_points (map PReal plot_y) (durations c))]
      else [] in
    let cylindrical :=
      if String.eqb coordinates CYLINDRICAL then
        [("Rabi rate",
          plot_points
            (zip_with (fun r theta => PComplex (fl_xscale r (fcos theta)) (fl_xscale r (fsin theta)))
               plot_r (azimuthal_angles c))
            (durations c))]
      else [] in
    Ok (cartesian ++ cylindrical ++
        [("Detuning", plot_points (map (fun v => PReal (Fin v)) (detunings c)) (durations c))])%list.
End RoundedProperties.
