(** * Model of driven_controls/predefined.py *)

From Verif Require Export M_DrivenControl.
Open Scope string_scope.
Open Scope R_scope.

(** /repo/qctrlopencontrols/driven_controls/predefined.py:30-53
    [_validate_rabi_parameters] *)
Definition validate_rabi_parameters (rabi_rotation maximum_rabi_rate_ : R) : result unit :=
  do* check_arguments (ltb 0 maximum_rabi_rate_)
        "Maximum rabi angular frequency should be greater than zero."
        ["maximum_rabi_rate"] [] in
  check_arguments (neqb rabi_rotation 0)
        "The rabi rotation must be non-zero." ["rabi_rotation"] [].

(** predefined.py:56-79 [_get_transformed_rabi_rotation_wimperis] *)
Definition get_transformed_rabi_rotation_wimperis (rabi_rotation : R) : result R :=
  do* check_arguments
        (leb (- (4) * PI) rabi_rotation && leb rabi_rotation (4 * PI))
        "The polar angle must be between -4 pi and 4 pi (inclusive)."
        ["rabi_rotation"] [] in
  Ok (acos (- rabi_rotation / (4 * PI))).

(** predefined.py:82-110 [_derive_segments] (not called by the package):
    rows [[amplitude*cos phi, amplitude*sin phi, 0, theta/amplitude]]. *)
Definition derive_segments (angles_ : list (R * R)) (amplitude : R) : list (list R) :=
  map (fun tp => [amplitude * cos (snd tp); amplitude * sin (snd tp); 0;
                  fst tp / amplitude]) angles_.

(** The common tail of the schemes:
    [DrivenControl(rabi_rates=[maximum_rabi_rate]*n, azimuthal_angles=...,
    detunings=[0]*n, durations=[r/maximum_rabi_rate for r in rabi_rotations])]. *)
Definition constant_rate_control (rabi_rotations azimuthal_angles_ : list R)
    (maximum_rabi_rate_ : R) (name : option string) : result driven_control :=
  let n := List.length rabi_rotations in
  DrivenControl (map (fun r => r / maximum_rabi_rate_) rabi_rotations)
    (Some (repeat maximum_rabi_rate_ n)) (Some azimuthal_angles_)
    (Some (repeat 0 n)) name.

(** predefined.py:113-158 [new_primitive_control] *)
Definition new_primitive_control (rabi_rotation maximum_rabi_rate_ azimuthal_angle : R)
    (name : option string) : result driven_control :=
  do* validate_rabi_parameters rabi_rotation maximum_rabi_rate_ in
  constant_rate_control [rabi_rotation] [azimuthal_angle] maximum_rabi_rate_ name.

(** predefined.py:161-235 [new_bb1_control] *)
Definition new_bb1_control (rabi_rotation maximum_rabi_rate_ azimuthal_angle : R)
    (name : option string) : result driven_control :=
  do* validate_rabi_parameters rabi_rotation maximum_rabi_rate_ in
  let* phi_p := get_transformed_rabi_rotation_wimperis rabi_rotation in
  constant_rate_control
    [rabi_rotation; PI; 2 * PI; PI]
    [azimuthal_angle; azimuthal_angle + phi_p; azimuthal_angle + 3 * phi_p;
     azimuthal_angle + phi_p]
    maximum_rabi_rate_ name.

(** predefined.py:238-314 [new_sk1_control] *)
Definition new_sk1_control (rabi_rotation maximum_rabi_rate_ azimuthal_angle : R)
    (name : option string) : result driven_control :=
  do* validate_rabi_parameters rabi_rotation maximum_rabi_rate_ in
  let* phi_p := get_transformed_rabi_rotation_wimperis rabi_rotation in
  constant_rate_control
    [rabi_rotation; 2 * PI; 2 * PI]
    [azimuthal_angle; azimuthal_angle - phi_p; azimuthal_angle + phi_p]
    maximum_rabi_rate_ name.

(** predefined.py:383-384, 829-830 [degrees_to_radians] *)
Definition degrees_to_radians (angle_in_degrees : R) : R := angle_in_degrees / 180 * PI.

(** predefined.py:386-390, 821-825, 943-947 *)
Definition check_supported_rotation (rabi_rotation : R) : result unit :=
  check_arguments
    (np_any [np_isclose rabi_rotation PI; np_isclose rabi_rotation (PI / 2);
             np_isclose rabi_rotation (PI / 4)])
    "rabi_rotation angle must be either pi, pi/2 or pi/4" ["rabi_rotation"] [].

(** predefined.py:392-409, 832-849: [theta_1] *)
Definition scrofulous_theta_1 (rabi_rotation : R) : R :=
  if np_isclose rabi_rotation PI then degrees_to_radians 180
  else if np_isclose rabi_rotation (5 / 10 * PI) then degrees_to_radians (1152 / 10)
  else degrees_to_radians (967 / 10).

(** predefined.py:394-396 etc.: [phi_1] *)
Definition scrofulous_phi_1 (theta_1 rabi_rotation : R) : R :=
  acos (- PI * cos theta_1 / 2 / theta_1 / sin (rabi_rotation / 2)).

(** predefined.py:397 etc.: [phi_2] *)
Definition scrofulous_phi_2 (theta_1 phi_1 : R) : R :=
  phi_1 - acos (- PI / 2 / theta_1).

(** predefined.py:317-434 [new_scrofulous_control] *)
Definition new_scrofulous_control (rabi_rotation maximum_rabi_rate_ azimuthal_angle : R)
    (name : option string) : result driven_control :=
  do* validate_rabi_parameters rabi_rotation maximum_rabi_rate_ in
  do* check_supported_rotation rabi_rotation in
  let theta_1 := scrofulous_theta_1 rabi_rotation in
  let phi_1 := scrofulous_phi_1 theta_1 rabi_rotation in
  let phi_2 := scrofulous_phi_2 theta_1 phi_1 in
  let theta_3 := theta_1 in
  let phi_3 := phi_1 in
  let theta_2 := PI in
  constant_rate_control
    [theta_1; theta_2; theta_3]
    [azimuthal_angle + phi_1; azimuthal_angle + phi_2; azimuthal_angle + phi_3]
    maximum_rabi_rate_ name.

(** predefined.py:496, 590, 694, 857: the local [k] *)
Definition corpse_k (theta : R) : R := asin (sin (theta / 2) / 2).

(** predefined.py:437-516 [new_corpse_control] *)
Definition new_corpse_control (rabi_rotation maximum_rabi_rate_ azimuthal_angle : R)
    (name : option string) : result driven_control :=
  do* validate_rabi_parameters rabi_rotation maximum_rabi_rate_ in
  let k := corpse_k rabi_rotation in
  constant_rate_control
    [rabi_rotation / 2 + 2 * PI - k; 2 * PI - 2 * k; rabi_rotation / 2 - k]
    [azimuthal_angle; azimuthal_angle + PI; azimuthal_angle]
    maximum_rabi_rate_ name.

(** predefined.py:519-621 [new_corpse_in_bb1_control] *)
Definition new_corpse_in_bb1_control (rabi_rotation maximum_rabi_rate_ azimuthal_angle : R)
    (name : option string) : result driven_control :=
  do* validate_rabi_parameters rabi_rotation maximum_rabi_rate_ in
  let* phi_p := get_transformed_rabi_rotation_wimperis rabi_rotation in
  let k := corpse_k rabi_rotation in
  constant_rate_control
    [2 * PI + rabi_rotation / 2 - k; 2 * PI - 2 * k; rabi_rotation / 2 - k;
     PI; 2 * PI; PI]
    [azimuthal_angle; azimuthal_angle + PI; azimuthal_angle;
     azimuthal_angle + phi_p; azimuthal_angle + 3 * phi_p; azimuthal_angle + phi_p]
    maximum_rabi_rate_ name.

(** predefined.py:624-723 [new_corpse_in_sk1_control] *)
Definition new_corpse_in_sk1_control (rabi_rotation maximum_rabi_rate_ azimuthal_angle : R)
    (name : option string) : result driven_control :=
  do* validate_rabi_parameters rabi_rotation maximum_rabi_rate_ in
  let* phi_p := get_transformed_rabi_rotation_wimperis rabi_rotation in
  let k := corpse_k rabi_rotation in
  constant_rate_control
    [2 * PI + rabi_rotation / 2 - k; 2 * PI - 2 * k; rabi_rotation / 2 - k;
     2 * PI; 2 * PI]
    [azimuthal_angle; azimuthal_angle + PI; azimuthal_angle;
     azimuthal_angle - phi_p; azimuthal_angle + phi_p]
    maximum_rabi_rate_ name.

(** predefined.py:856-865: the loop body, rows (rabi_rotation, azimuthal). *)
Definition corpse_rows (azimuthal_angle : R) (theta_phi : R * R) : list (R * R) :=
  let (theta, phi) := theta_phi in
  let k := corpse_k theta in
  [(2 * PI + theta / 2 - k, phi + azimuthal_angle);
   (2 * PI - 2 * k, PI + phi + azimuthal_angle);
   (theta / 2 - k, phi + azimuthal_angle)].

(** predefined.py:726-881 [new_corpse_in_scrofulous_control] *)
Definition new_corpse_in_scrofulous_control
    (rabi_rotation maximum_rabi_rate_ azimuthal_angle : R)
    (name : option string) : result driven_control :=
  do* validate_rabi_parameters rabi_rotation maximum_rabi_rate_ in
  do* check_supported_rotation rabi_rotation in
  let theta_1 := scrofulous_theta_1 rabi_rotation in
  let theta_3 := theta_1 in
  let phi_1 := scrofulous_phi_1 theta_1 rabi_rotation in
  let phi_3 := phi_1 in
  let phi_2 := scrofulous_phi_2 theta_1 phi_1 in
  let theta_2 := PI in
  let total_angles :=
    flat_map (corpse_rows azimuthal_angle)
      (combine [theta_1; theta_2; theta_3] [phi_1; phi_2; phi_3]) in
  constant_rate_control (map fst total_angles) (map snd total_angles)
    maximum_rabi_rate_ name.

(** predefined.py:949-957: [theta_plus], [theta_minus] *)
Definition wamf1_thetas (rabi_rotation : R) : R * R :=
  if np_isclose rabi_rotation PI then (PI, PI / 2)
  else if np_isclose rabi_rotation (5 / 10 * PI) then
    (PI * (25 / 10 + 65667825 / 100000000) / 4, PI * (25 / 10 - 65667825 / 100000000) / 4)
  else
    (PI * (225 / 100 + 36256159 / 100000000) / 4, PI * (225 / 100 - 36256159 / 100000000) / 4).

(** predefined.py:884-973 [new_wamf1_control] *)
Definition new_wamf1_control (rabi_rotation maximum_rabi_rate_ azimuthal_angle : R)
    (name : option string) : result driven_control :=
  do* validate_rabi_parameters rabi_rotation maximum_rabi_rate_ in
  do* check_supported_rotation rabi_rotation in
  let (theta_plus, theta_minus) := wamf1_thetas rabi_rotation in
  let rabi_rotations := [theta_plus; theta_minus; theta_minus; theta_plus] in
  let segment_duration := theta_plus / maximum_rabi_rate_ in
  DrivenControl (repeat segment_duration 4)
    (Some (map (fun r => r / segment_duration) rabi_rotations))
    (Some (repeat azimuthal_angle 4)) (Some (repeat 0 4)) name.

(** ** Modulated Gaussian *)

(** [Some l] when every entry is finite *)
Fixpoint all_finite (l : list xfloat) : option (list R) :=
  match l with
  | [] => Some []
  | Fin r :: l' => option_map (cons r) (all_finite l')
  | _ :: _ => None
  end.

(** predefined.py:1044: [segment_count] *)
Definition gaussian_segment_count (duration_ minimum_segment_duration : R) : nat :=
  Z.to_nat (np_ceil (duration_ / minimum_segment_duration)).

(** predefined.py:1046-1047 [segment_midpoints] *)
Definition gaussian_midpoints (segment_count : nat) (segment_duration : R) : list R :=
  map (fun i => INR i * segment_duration + segment_duration / 2) (range 0 segment_count).

(** predefined.py:1050-1054 [base_gaussian_segments], width 0.1 and mean 0.5
    as fractions of the duration *)
Definition gaussian_base (duration_ t : R) : R :=
  exp (- (5 / 10) * ((t - 5 / 10 * duration_) / (1 / 10 * duration_)) ^ 2).

(** predefined.py:1060-1064 *)
Definition gaussian_modulated (modulation_frequency duration_ t : R) : R :=
  gaussian_base duration_ t * sin (2 * PI * modulation_frequency * (t - duration_ / 2)).

(** predefined.py:1056-1090: [modulated_gaussian_segments].  For a non-zero
    frequency the normalisation divides by a maximum that can be 0, hence
    [xfloat]; for zero frequency every divisor is positive. *)
Definition gaussian_segments (maximum_rabi_rate_ duration_ modulation_frequency segment_duration : R)
    (midpoints : list R) : result (list xfloat) :=
  if neqb modulation_frequency 0 then
    let modulated := map (gaussian_modulated modulation_frequency duration_) midpoints in
    let* pulse_segments_maximum := np_amax modulated in
    Ok (map (fun v => xdiv (maximum_rabi_rate_ * v) pulse_segments_maximum) modulated)
  else
    let base := map (gaussian_base duration_) midpoints in
    let* m := np_amax base in
    let normalized := map (fun b => b / m) base in
    let maximum_rotation_angle := segment_duration * np_sum normalized * maximum_rabi_rate_ in
    let maximum_full_rotation_angle :=
      py_max (maximum_rotation_angle - py_mod maximum_rotation_angle (2 * PI)) (2 * PI) in
    Ok (map (fun v => Fin (v * maximum_rabi_rate_
                           * (maximum_full_rotation_angle / maximum_rotation_angle)))
          normalized).

(** predefined.py:976-1099 [new_modulated_gaussian_control].  When a segment is
    NaN (all segments zero, 0/0) the [>= 0] test of [DrivenControl.__init__]
    fails on it; an infinite segment is impossible (proved in L_Gaussian.v:
    the maximum is 0 only if every segment is 0). *)
Definition new_modulated_gaussian_control
    (maximum_rabi_rate_ minimum_segment_duration duration_ modulation_frequency : R)
    : result driven_control :=
  do* check_arguments (ltb 0 maximum_rabi_rate_)
        "Maximum Rabi rate must be greater than zero." ["maximum_rabi_rate"] [] in
  do* check_arguments (ltb 0 minimum_segment_duration)
        "Minimum segment duration must be greater than zero."
        ["minimum_segment_duration"] [] in
  do* check_arguments (ltb minimum_segment_duration duration_)
        "Total duration must be greater than minimum segment duration."
        ["duration"; "minimum_segment_duration"] [] in
  let min_required_upper_bound := sqrt (2 * PI) / (1 / 10 * duration_) in
  do* check_arguments (leb min_required_upper_bound maximum_rabi_rate_)
        "Maximum Rabi rate must be large enough to permit a 2Pi rotation."
        ["maximum_rabi_rate"]
        ["minimum required value for upper_bound (sqrt(2pi)/(0.1*maximum_duration))"] in
  let segment_count := gaussian_segment_count duration_ minimum_segment_duration in
  let segment_duration := duration_ / INR segment_count in
  let midpoints := gaussian_midpoints segment_count segment_duration in
  let* segments := gaussian_segments maximum_rabi_rate_ duration_ modulation_frequency
                     segment_duration midpoints in
  match all_finite segments with
  | None => Raise (ArgumentsValueError "All rabi rates must be greater than zero."
                     ["rabi_rates"] [])
  | Some segs =>
      DrivenControl (repeat segment_duration segment_count)
        (Some (map Rabs segs))
        (Some (map (fun v => if leb 0 v then 0 else PI) segs))
        (Some (np_zeros segment_count)) None
  end.
