(** * The predefined controls as programs on the heap

    /repo/qctrlopencontrols/driven_controls/predefined.py with its arrays as objects:
    which arguments of the constructor are lists, new arrays or views. *)

From Verif Require Export M_DrivenPredefined M_Heap.
Import ListNotations.
Open Scope string_scope.
Open Scope list_scope.
Open Scope R_scope.

(** the common tail: [rabi_rates], [detunings] and [durations] are lists, the zeros of
    [detunings] integers *)
Definition hconstant_rate_control (rabi_rotations : list R) (azimuthal_angles_ : array_like)
    (maximum_rabi_rate_ : R) (name : option string) : prog hcontrol :=
  let n := List.length rabi_rotations in
  hDrivenControl (AList true (map (fun r => r / maximum_rabi_rate_) rabi_rotations))
    (Some (AList true (repeat maximum_rabi_rate_ n))) (Some azimuthal_angles_)
    (Some (AList false (repeat 0 n))) name.

(** 113-158 *)
Definition hnew_primitive_control (rabi_rotation maximum_rabi_rate_ azimuthal_angle : R)
    (name : option string) : prog hcontrol :=
  do! lift (validate_rabi_parameters rabi_rotation maximum_rabi_rate_) in
  hconstant_rate_control [rabi_rotation] (AList true [azimuthal_angle]) maximum_rabi_rate_ name.

(** 161-235 *)
Definition hnew_bb1_control (rabi_rotation maximum_rabi_rate_ azimuthal_angle : R)
    (name : option string) : prog hcontrol :=
  do! lift (validate_rabi_parameters rabi_rotation maximum_rabi_rate_) in
  let! phi_p := lift (get_transformed_rabi_rotation_wimperis rabi_rotation) in
  hconstant_rate_control [rabi_rotation; PI; 2 * PI; PI]
    (AList true [azimuthal_angle; azimuthal_angle + phi_p; azimuthal_angle + 3 * phi_p; azimuthal_angle + phi_p])
    maximum_rabi_rate_ name.

(** 238-314 *)
Definition hnew_sk1_control (rabi_rotation maximum_rabi_rate_ azimuthal_angle : R)
    (name : option string) : prog hcontrol :=
  do! lift (validate_rabi_parameters rabi_rotation maximum_rabi_rate_) in
  let! phi_p := lift (get_transformed_rabi_rotation_wimperis rabi_rotation) in
  hconstant_rate_control [rabi_rotation; 2 * PI; 2 * PI]
    (AList true [azimuthal_angle; azimuthal_angle - phi_p; azimuthal_angle + phi_p])
    maximum_rabi_rate_ name.

(** 317-434 *)
Definition hnew_scrofulous_control (rabi_rotation maximum_rabi_rate_ azimuthal_angle : R)
    (name : option string) : prog hcontrol :=
  do! lift (validate_rabi_parameters rabi_rotation maximum_rabi_rate_) in
  do! lift (check_supported_rotation rabi_rotation) in
  let theta_1 := scrofulous_theta_1 rabi_rotation in
  let phi_1 := scrofulous_phi_1 theta_1 rabi_rotation in
  let phi_2 := scrofulous_phi_2 theta_1 phi_1 in
  hconstant_rate_control [theta_1; PI; theta_1]
    (AList true [azimuthal_angle + phi_1; azimuthal_angle + phi_2; azimuthal_angle + phi_1])
    maximum_rabi_rate_ name.

(** 437-516 *)
Definition hnew_corpse_control (rabi_rotation maximum_rabi_rate_ azimuthal_angle : R)
    (name : option string) : prog hcontrol :=
  do! lift (validate_rabi_parameters rabi_rotation maximum_rabi_rate_) in
  let k := corpse_k rabi_rotation in
  hconstant_rate_control
    [rabi_rotation / 2 + 2 * PI - k; 2 * PI - 2 * k; rabi_rotation / 2 - k]
    (AList true [azimuthal_angle; azimuthal_angle + PI; azimuthal_angle])
    maximum_rabi_rate_ name.

(** 519-621 *)
Definition hnew_corpse_in_bb1_control (rabi_rotation maximum_rabi_rate_ azimuthal_angle : R)
    (name : option string) : prog hcontrol :=
  do! lift (validate_rabi_parameters rabi_rotation maximum_rabi_rate_) in
  let! phi_p := lift (get_transformed_rabi_rotation_wimperis rabi_rotation) in
  let k := corpse_k rabi_rotation in
  hconstant_rate_control
    [2 * PI + rabi_rotation / 2 - k; 2 * PI - 2 * k; rabi_rotation / 2 - k; PI; 2 * PI; PI]
    (AList true [azimuthal_angle; azimuthal_angle + PI; azimuthal_angle;
      azimuthal_angle + phi_p; azimuthal_angle + 3 * phi_p; azimuthal_angle + phi_p])
    maximum_rabi_rate_ name.

(** 624-723 *)
Definition hnew_corpse_in_sk1_control (rabi_rotation maximum_rabi_rate_ azimuthal_angle : R)
    (name : option string) : prog hcontrol :=
  do! lift (validate_rabi_parameters rabi_rotation maximum_rabi_rate_) in
  let! phi_p := lift (get_transformed_rabi_rotation_wimperis rabi_rotation) in
  let k := corpse_k rabi_rotation in
  hconstant_rate_control
    [2 * PI + rabi_rotation / 2 - k; 2 * PI - 2 * k; rabi_rotation / 2 - k; 2 * PI; 2 * PI]
    (AList true [azimuthal_angle; azimuthal_angle + PI; azimuthal_angle;
      azimuthal_angle - phi_p; azimuthal_angle + phi_p])
    maximum_rabi_rate_ name.

(** [np.vstack]: a new matrix with the rows of the given ones *)
Fixpoint read_all (ms : list ndarray) : prog (list R) :=
  match ms with
  | [] => ret []
  | m :: ms' => let! xs := get m in let! ys := read_all ms' in ret (xs ++ ys)
  end.
Definition vstack (columns : nat) (ms : list ndarray) : prog matrix :=
  let! xs := read_all ms in
  let! data := new true xs in
  ret (Matrix data columns).

(** 856-865: the loop body, [angles] is a 3 x 2 array *)
Definition hcorpse_rows (azimuthal_angle : R) (theta_phi : R * R) (total_angles : list ndarray)
    : prog (list ndarray) :=
  let (theta, phi) := theta_phi in
  let k := asin (sin (theta / 2) / 2) in
  let! angles := new true
    [2 * PI + theta / 2 - k; phi + azimuthal_angle;
     2 * PI - 2 * k; PI + phi + azimuthal_angle;
     theta / 2 - k; phi + azimuthal_angle] in
  ret (total_angles ++ [angles]).

(** 726-881: [total_angles[:, 0]] and [total_angles[:, 1]] are views *)
Definition hnew_corpse_in_scrofulous_control (rabi_rotation maximum_rabi_rate_ azimuthal_angle : R)
    (name : option string) : prog hcontrol :=
  do! lift (validate_rabi_parameters rabi_rotation maximum_rabi_rate_) in
  do! lift (check_supported_rotation rabi_rotation) in
  let theta_1 := scrofulous_theta_1 rabi_rotation in
  let phi_1 := scrofulous_phi_1 theta_1 rabi_rotation in
  let phi_2 := scrofulous_phi_2 theta_1 phi_1 in
  let! ms := for_each [(theta_1, phi_1); (PI, phi_2); (theta_1, phi_1)] (hcorpse_rows azimuthal_angle) [] in
  let! total_angles := vstack 2 ms in
  let rabi_rotations := column total_angles 0 0 9 in
  let azimuthal_angles_ := column total_angles 1 0 9 in
  let! rotations := get rabi_rotations in
  hDrivenControl (AList true (map (fun r => r / maximum_rabi_rate_) rotations))
    (Some (AList true (repeat maximum_rabi_rate_ 9))) (Some (AArray azimuthal_angles_))
    (Some (AList false (repeat 0 9%nat))) name.

(** 884-973 *)
Definition hnew_wamf1_control (rabi_rotation maximum_rabi_rate_ azimuthal_angle : R)
    (name : option string) : prog hcontrol :=
  do! lift (validate_rabi_parameters rabi_rotation maximum_rabi_rate_) in
  do! lift (check_supported_rotation rabi_rotation) in
  let (theta_plus, theta_minus) := wamf1_thetas rabi_rotation in
  let segment_duration := theta_plus / maximum_rabi_rate_ in
  hDrivenControl (AList true (repeat segment_duration 4))
    (Some (AList true (map (fun r => r / segment_duration) [theta_plus; theta_minus; theta_minus; theta_plus])))
    (Some (AList true (repeat azimuthal_angle 4))) (Some (AList false (repeat 0 4%nat))) name.

(** 976-1099; [np.abs], [np.zeros] and [np.array] give new arrays, [azimuthal_angles]
    is a list.  An array with a NaN (not representable here) is rejected. *)
Definition hnew_modulated_gaussian_control
    (maximum_rabi_rate_ minimum_segment_duration duration_ modulation_frequency : R)
    : prog hcontrol :=
  do! lift (check_arguments (ltb 0 maximum_rabi_rate_)
        "Maximum Rabi rate must be greater than zero." ["maximum_rabi_rate"] []) in
  do! lift (check_arguments (ltb 0 minimum_segment_duration)
        "Minimum segment duration must be greater than zero."
        ["minimum_segment_duration"] []) in
  do! lift (check_arguments (ltb minimum_segment_duration duration_)
        "Total duration must be greater than minimum segment duration."
        ["duration"; "minimum_segment_duration"] []) in
  let min_required_upper_bound := sqrt (2 * PI) / (1 / 10 * duration_) in
  do! lift (check_arguments (leb min_required_upper_bound maximum_rabi_rate_)
        "Maximum Rabi rate must be large enough to permit a 2Pi rotation."
        ["maximum_rabi_rate"]
        ["minimum required value for upper_bound (sqrt(2pi)/(0.1*maximum_duration))"]) in
  let segment_count := gaussian_segment_count duration_ minimum_segment_duration in
  let segment_duration := duration_ / INR segment_count in
  let! start_times := new true (map (fun i => INR i * segment_duration) (range 0 segment_count)) in
  let! ts := get start_times in
  let! midpoints := new true (map (fun t => t + segment_duration / 2) ts) in
  let! ms := get midpoints in
  let! segments := lift (gaussian_segments maximum_rabi_rate_ duration_ modulation_frequency
                           segment_duration ms) in
  match all_finite segments with
  | None => lift (Raise (ArgumentsValueError "All rabi rates must be greater than zero."
                           ["rabi_rates"] []))
  | Some segs =>
      let! modulated := new true segs in
      let! vs := get modulated in
      let! rabi := new true (map Rabs vs) in
      let! detu := zeros segment_count in
      let! durs := new true (repeat segment_duration segment_count) in
      hDrivenControl (AArray durs) (Some (AArray rabi))
        (Some (AList true (map (fun v => if leb 0 v then 0 else PI) vs)))
        (Some (AArray detu)) None
  end.
