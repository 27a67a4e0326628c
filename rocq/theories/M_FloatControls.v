(** * The composite pulses of driven_controls/predefined.py in floating point

    The same functions as in M_DrivenPredefined.v with every arithmetic operation
    rounded by [rnd], in the order of the source; [fsin], [fcos], [facos] and
    [fasin] are the functions of numpy and [fpi] is [np.pi].  Comparisons and
    negation are exact, as in IEEE 754.  Overflow is not represented. *)

From Verif Require Export M_FloatConvert M_DrivenPredefined.
Import ListNotations.
Open Scope string_scope.
Open Scope list_scope.
Open Scope R_scope.

Section RoundedControls.
  Variables (rnd fsin fcos facos fasin : R -> R) (fpi : R).

  (** /repo/qctrlopencontrols/driven_controls/predefined.py:56-79 *)
  Definition fl_wimperis (rabi_rotation : R) : result R :=
    do* check_arguments
          (leb (rnd (- (4) * fpi)) rabi_rotation && leb rabi_rotation (rnd (4 * fpi)))
          "The polar angle must be between -4 pi and 4 pi (inclusive)."
          ["rabi_rotation"] [] in
    Ok (facos (rnd (- rabi_rotation / rnd (4 * fpi)))).

  (** the common tail of the schemes *)
  Definition fl_constant_rate (rabi_rotations azimuthal_angles_ : list R)
      (maximum_rabi_rate_ : R) (name : option string) : result driven_control :=
    let n := List.length rabi_rotations in
    DrivenControl (map (fun r => rnd (r / maximum_rabi_rate_)) rabi_rotations)
      (Some (repeat maximum_rabi_rate_ n)) (Some azimuthal_angles_)
      (Some (repeat 0 n)) name.

  (** predefined.py:113-158 *)
  Definition fl_primitive (rabi_rotation maximum_rabi_rate_ azimuthal_angle : R)
      (name : option string) : result driven_control :=
    do* validate_rabi_parameters rabi_rotation maximum_rabi_rate_ in
    fl_constant_rate [rabi_rotation] [azimuthal_angle] maximum_rabi_rate_ name.

  (** predefined.py:161-235 *)
  Definition fl_bb1 (rabi_rotation maximum_rabi_rate_ azimuthal_angle : R)
      (name : option string) : result driven_control :=
    do* validate_rabi_parameters rabi_rotation maximum_rabi_rate_ in
    let* phi_p := fl_wimperis rabi_rotation in
    fl_constant_rate
      [rabi_rotation; fpi; rnd (2 * fpi); fpi]
      [azimuthal_angle; rnd (azimuthal_angle + phi_p); rnd (azimuthal_angle + rnd (3 * phi_p));
       rnd (azimuthal_angle + phi_p)]
      maximum_rabi_rate_ name.

  (** predefined.py:238-314 *)
  Definition fl_sk1 (rabi_rotation maximum_rabi_rate_ azimuthal_angle : R)
      (name : option string) : result driven_control :=
    do* validate_rabi_parameters rabi_rotation maximum_rabi_rate_ in
    let* phi_p := fl_wimperis rabi_rotation in
    fl_constant_rate
      [rabi_rotation; rnd (2 * fpi); rnd (2 * fpi)]
      [azimuthal_angle; rnd (azimuthal_angle - phi_p); rnd (azimuthal_angle + phi_p)]
      maximum_rabi_rate_ name.

  (** predefined.py:383-384, 829-830 *)
  Definition fl_degrees_to_radians (angle_in_degrees : R) : R :=
    rnd (rnd (angle_in_degrees / 180) * fpi).

  (** predefined.py:386-390, 821-825, 943-947 *)
  Definition fl_check_supported (rabi_rotation : R) : result unit :=
    check_arguments
      (np_any [fl_isclose rnd rabi_rotation fpi; fl_isclose rnd rabi_rotation (rnd (fpi / 2));
               fl_isclose rnd rabi_rotation (rnd (fpi / 4))])
      "rabi_rotation angle must be either pi, pi/2 or pi/4" ["rabi_rotation"] [].

  (** predefined.py:392-409, 832-849; the decimal constants are rounded when the
      source is read *)
  Definition fl_scrofulous_theta_1 (rabi_rotation : R) : R :=
    if fl_isclose rnd rabi_rotation fpi then fl_degrees_to_radians (rnd 180)
    else if fl_isclose rnd rabi_rotation (rnd (5 / 10 * fpi)) then fl_degrees_to_radians (rnd (1152 / 10))
    else fl_degrees_to_radians (rnd (967 / 10)).

  Definition fl_scrofulous_phi_1 (theta_1 rabi_rotation : R) : R :=
    facos (rnd (rnd (rnd (rnd (- fpi * fcos theta_1) / 2) / theta_1) / fsin (rnd (rabi_rotation / 2)))).

  Definition fl_scrofulous_phi_2 (theta_1 phi_1 : R) : R :=
    rnd (phi_1 - facos (rnd (rnd (- fpi / 2) / theta_1))).

  (** predefined.py:317-434 *)
  Definition fl_scrofulous (rabi_rotation maximum_rabi_rate_ azimuthal_angle : R)
      (name : option string) : result driven_control :=
    do* validate_rabi_parameters rabi_rotation maximum_rabi_rate_ in
    do* fl_check_supported rabi_rotation in
    let theta_1 := fl_scrofulous_theta_1 rabi_rotation in
    let phi_1 := fl_scrofulous_phi_1 theta_1 rabi_rotation in
    let phi_2 := fl_scrofulous_phi_2 theta_1 phi_1 in
    fl_constant_rate
      [theta_1; fpi; theta_1]
      [rnd (azimuthal_angle + phi_1); rnd (azimuthal_angle + phi_2); rnd (azimuthal_angle + phi_1)]
      maximum_rabi_rate_ name.

  (** predefined.py:496, 590, 694, 857 *)
  Definition fl_corpse_k (theta : R) : R := fasin (rnd (fsin (rnd (theta / 2)) / 2)).

  (** predefined.py:437-516 *)
  Definition fl_corpse (rabi_rotation maximum_rabi_rate_ azimuthal_angle : R)
      (name : option string) : result driven_control :=
    do* validate_rabi_parameters rabi_rotation maximum_rabi_rate_ in
    let k := fl_corpse_k rabi_rotation in
    fl_constant_rate
      [rnd (rnd (rnd (rabi_rotation / 2) + rnd (2 * fpi)) - k); rnd (rnd (2 * fpi) - rnd (2 * k));
       rnd (rnd (rabi_rotation / 2) - k)]
      [azimuthal_angle; rnd (azimuthal_angle + fpi); azimuthal_angle]
      maximum_rabi_rate_ name.

  (** predefined.py:592-596, 696-700: the rotations of CORPSE inside BB1 and SK1 *)
  Definition fl_corpse_rotations (rabi_rotation : R) : list R :=
    let k := fl_corpse_k rabi_rotation in
    [rnd (rnd (rnd (2 * fpi) + rnd (rabi_rotation / 2)) - k); rnd (rnd (2 * fpi) - rnd (2 * k));
     rnd (rnd (rabi_rotation / 2) - k)].

  (** predefined.py:519-621 *)
  Definition fl_corpse_in_bb1 (rabi_rotation maximum_rabi_rate_ azimuthal_angle : R)
      (name : option string) : result driven_control :=
    do* validate_rabi_parameters rabi_rotation maximum_rabi_rate_ in
    let* phi_p := fl_wimperis rabi_rotation in
    fl_constant_rate
      (fl_corpse_rotations rabi_rotation ++ [fpi; rnd (2 * fpi); fpi])
      [azimuthal_angle; rnd (azimuthal_angle + fpi); azimuthal_angle;
       rnd (azimuthal_angle + phi_p); rnd (azimuthal_angle + rnd (3 * phi_p));
       rnd (azimuthal_angle + phi_p)]
      maximum_rabi_rate_ name.

  (** predefined.py:624-723 *)
  Definition fl_corpse_in_sk1 (rabi_rotation maximum_rabi_rate_ azimuthal_angle : R)
      (name : option string) : result driven_control :=
    do* validate_rabi_parameters rabi_rotation maximum_rabi_rate_ in
    let* phi_p := fl_wimperis rabi_rotation in
    fl_constant_rate
      (fl_corpse_rotations rabi_rotation ++ [rnd (2 * fpi); rnd (2 * fpi)])
      [azimuthal_angle; rnd (azimuthal_angle + fpi); azimuthal_angle;
       rnd (azimuthal_angle - phi_p); rnd (azimuthal_angle + phi_p)]
      maximum_rabi_rate_ name.

  (** predefined.py:856-865 *)
  Definition fl_corpse_rows (azimuthal_angle : R) (theta_phi : R * R) : list (R * R) :=
    let (theta, phi) := theta_phi in
    combine (fl_corpse_rotations theta)
      [rnd (phi + azimuthal_angle); rnd (rnd (fpi + phi) + azimuthal_angle); rnd (phi + azimuthal_angle)].

  (** predefined.py:726-881 *)
  Definition fl_corpse_in_scrofulous (rabi_rotation maximum_rabi_rate_ azimuthal_angle : R)
      (name : option string) : result driven_control :=
    do* validate_rabi_parameters rabi_rotation maximum_rabi_rate_ in
    do* fl_check_supported rabi_rotation in
    let theta_1 := fl_scrofulous_theta_1 rabi_rotation in
    let phi_1 := fl_scrofulous_phi_1 theta_1 rabi_rotation in
    let phi_2 := fl_scrofulous_phi_2 theta_1 phi_1 in
    let total_angles :=
      flat_map (fl_corpse_rows azimuthal_angle) [(theta_1, phi_1); (fpi, phi_2); (theta_1, phi_1)] in
    fl_constant_rate (map fst total_angles) (map snd total_angles) maximum_rabi_rate_ name.

  (** predefined.py:949-957 *)
  Definition fl_wamf1_thetas (rabi_rotation : R) : R * R :=
    if fl_isclose rnd rabi_rotation fpi then (fpi, rnd (fpi / 2))
    else
      let (a, b) :=
        if fl_isclose rnd rabi_rotation (rnd (5 / 10 * fpi))
        then (rnd (25 / 10), rnd (65667825 / 100000000))
        else (rnd (225 / 100), rnd (36256159 / 100000000)) in
      (rnd (rnd (fpi * rnd (a + b)) / 4), rnd (rnd (fpi * rnd (a - b)) / 4)).

  (** predefined.py:884-973 *)
  Definition fl_wamf1 (rabi_rotation maximum_rabi_rate_ azimuthal_angle : R)
      (name : option string) : result driven_control :=
    do* validate_rabi_parameters rabi_rotation maximum_rabi_rate_ in
    do* fl_check_supported rabi_rotation in
    let (theta_plus, theta_minus) := fl_wamf1_thetas rabi_rotation in
    let rabi_rotations := [theta_plus; theta_minus; theta_minus; theta_plus] in
    let segment_duration := rnd (theta_plus / maximum_rabi_rate_) in
    DrivenControl (repeat segment_duration 4)
      (Some (map (fun r => rnd (r / segment_duration)) rabi_rotations))
      (Some (repeat azimuthal_angle 4)) (Some (repeat 0 4)) name.
End RoundedControls.
