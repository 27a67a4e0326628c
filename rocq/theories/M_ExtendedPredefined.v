(** * The predefined sequences and controls on all floats

    The same functions as in M_DDSPredefined.v and M_DrivenPredefined.v with every
    argument an [xfloat], so that a request may contain NaN and infinities.  Finite
    numbers are exact reals; the sign of zero is not modelled. *)

From Verif Require Export M_Extended M_DDSPredefined M_DrivenPredefined.
Import ListNotations.
Open Scope string_scope.
Open Scope list_scope.
Open Scope R_scope.

(** ** More IEEE arithmetic *)

Definition xmul (x y : xfloat) : xfloat :=
  match x, y with
  | Fin a, Fin b => Fin (a * b)
  | Inf n, Fin b | Fin b, Inf n => if eqb b 0 then NaN else Inf (xorb n (ltb b 0))
  | Inf n, Inf m => Inf (xorb n m)
  | _, _ => NaN
  end.
(** [!=]: true when one side is NaN *)
Definition xneq (x y : xfloat) : bool := negb (xeq x y).
Definition is_nan (x : xfloat) : bool := match x with NaN => true | _ => false end.
(** [np.sin]: NaN at infinities; [np.arccos], [np.arcsin]: NaN outside [-1, 1] *)
Definition xsin (x : xfloat) : xfloat := match x with Fin a => Fin (sin a) | _ => NaN end.
Definition xarc (f : R -> R) (x : xfloat) : xfloat :=
  match x with Fin a => if leb (-1) a && leb a 1 then Fin (f a) else NaN | _ => NaN end.
(** [int(x)] *)
Definition xint (x : xfloat) : result Z :=
  match x with
  | Fin r => Ok (py_int r)
  | Inf _ => Raise (OverflowError "cannot convert float infinity to integer")
  | NaN => Raise (ValueError "cannot convert float NaN to integer")
  end.
Definition xint_count (x : xfloat) : result nat := let* n := xint x in Ok (Z.to_nat n).

(** ** Sequences *)

(** angles are always finite *)
Record xarrays : Type := MkXArrays {
  xa_offsets : list xfloat; xa_rabi : list R; xa_azimuthal : list R; xa_detuning : list R
}.

Definition xcount_pulses (rabi azim detu : R) (a : xarrays) : nat :=
  List.length (filter (fun x => match x with ((r, p), d) =>
      np_isclose r rabi && np_isclose p azim && np_isclose d detu end)
    (combine (combine (xa_rabi a) (xa_azimuthal a)) (xa_detuning a))).

(** /repo/qctrlopencontrols/dynamic_decoupling_sequences/predefined.py:27-140 *)
Definition xadd_pre_post_rotations (duration_ : xfloat) (a : xarrays) : result xarrays :=
  let x_pi_pulses := xcount_pulses PI 0 0 a in
  let y_pi_pulses := xcount_pulses PI (PI / 2) 0 a in
  let z_pi_pulses := xcount_pulses 0 0 PI a in
  do* check_arguments
        (Nat.eqb (List.length (xa_offsets a)) (x_pi_pulses + y_pi_pulses + z_pi_pulses))
        "Sequence contains pulses that are not X, Y, or Z pi-pulses."
        ["rabi_rotations"; "azimuthal_angles"; "detuning_rotations"] [] in
  let preserves_10 := Nat.eqb ((x_pi_pulses + y_pi_pulses) mod 2) 0 in
  let preserves_11 := Nat.eqb ((y_pi_pulses + z_pi_pulses) mod 2) 0 in
  let final_azimuthal :=
    if (preserves_10 && preserves_11) || (negb preserves_10 && negb preserves_11)
    then PI else 0 in
  Ok {| xa_offsets := Fin 0 :: xa_offsets a ++ [duration_];
        xa_rabi := np_insert_ends (xa_rabi a) (PI / 2) (PI / 2);
        xa_azimuthal := np_insert_ends (xa_azimuthal a) 0 final_azimuthal;
        xa_detuning := np_insert_ends (xa_detuning a) 0 0 |}.

Definition xfinish (duration_ : xfloat) (a : xarrays) (pre_post_rotation : bool)
    (name : option string) : result xdds :=
  let* a' := (if pre_post_rotation then xadd_pre_post_rotations duration_ a else Ok a) in
  xDynamicDecouplingSequence duration_ (xa_offsets a') (map Fin (xa_rabi a'))
    (map Fin (xa_azimuthal a')) (map Fin (xa_detuning a')) name.

Definition xcheck_duration (duration_ : xfloat) : result unit :=
  check_arguments (xlt (Fin 0) duration_) "Sequence duration must be greater than zero."
    ["duration"] [].
Definition xcheck_offset_count (offset_count : xfloat) : result unit :=
  check_arguments (xle (Fin 1) offset_count) "Number of offsets must be greater than zero."
    ["offset_count"] [].
Definition xuniform_arrays (offsets_ : list xfloat) (rabi azim detu : R) : xarrays :=
  let n := List.length offsets_ in
  {| xa_offsets := offsets_; xa_rabi := np_full n rabi;
     xa_azimuthal := np_full n azim; xa_detuning := np_full n detu |}.

(** predefined.py:143-198 *)
Definition xnew_ramsey_sequence (duration_ : xfloat) (pre_post_rotation : bool)
    (name : option string) : result xdds :=
  do* xcheck_duration duration_ in
  if pre_post_rotation then
    xDynamicDecouplingSequence duration_ (map (xmul duration_) [Fin 0; Fin 1])
      (map Fin [PI / 2; PI / 2]) (map Fin [0; PI]) (map Fin (np_zeros 2)) name
  else xDynamicDecouplingSequence duration_ [] [] [] [] name.

(** predefined.py:201-259 *)
Definition xnew_spin_echo_sequence (duration_ : xfloat) (pre_post_rotation : bool)
    (name : option string) : result xdds :=
  do* xcheck_duration duration_ in
  xfinish duration_ (xuniform_arrays [xdivide duration_ (Fin 2)] PI 0 0) pre_post_rotation name.

(** predefined.py:1130-1157 *)
Definition xcarr_purcell_offsets (duration_ : xfloat) (offset_count : nat) : list xfloat :=
  let spacing := 1 / INR offset_count in
  let start := spacing * (5 / 10) in
  map (fun i => xmul (Fin (spacing * INR i + start)) duration_) (range 0 offset_count).

(** predefined.py:262-344 *)
Definition xnew_carr_purcell_sequence (duration_ offset_count : xfloat)
    (pre_post_rotation : bool) (name : option string) : result xdds :=
  do* xcheck_duration duration_ in
  do* xcheck_offset_count offset_count in
  let* n := xint_count offset_count in
  xfinish duration_ (xuniform_arrays (xcarr_purcell_offsets duration_ n) PI 0 0)
    pre_post_rotation name.

(** predefined.py:347-428 *)
Definition xnew_cpmg_sequence (duration_ offset_count : xfloat)
    (pre_post_rotation : bool) (name : option string) : result xdds :=
  do* xcheck_duration duration_ in
  do* xcheck_offset_count offset_count in
  let* n := xint_count offset_count in
  xfinish duration_ (xuniform_arrays (xcarr_purcell_offsets duration_ n) PI (PI / 2) 0)
    pre_post_rotation name.

(** predefined.py:1160-1184 *)
Definition xuhrig_offsets (duration_ : xfloat) (offset_count : nat) : list xfloat :=
  let constant := 1 / (2 * INR offset_count + 2) in
  map (fun k => xmul duration_ (Fin ((sin (PI * INR k * constant)) ^ 2))) (range 1 offset_count).

(** predefined.py:431-507 *)
Definition xnew_uhrig_sequence (duration_ offset_count : xfloat)
    (pre_post_rotation : bool) (name : option string) : result xdds :=
  do* xcheck_duration duration_ in
  do* xcheck_offset_count offset_count in
  let* n := xint_count offset_count in
  xfinish duration_ (xuniform_arrays (xuhrig_offsets duration_ n) PI (PI / 2) 0)
    pre_post_rotation name.

(** predefined.py:510-586 *)
Definition xperiodic_offsets (duration_ : xfloat) (offset_count : nat) : list xfloat :=
  let spacing := 1 / (INR offset_count + 1) in
  map (fun k => xmul duration_ (Fin (INR k * spacing))) (range 1 offset_count).
Definition xnew_periodic_sequence (duration_ offset_count : xfloat)
    (pre_post_rotation : bool) (name : option string) : result xdds :=
  do* xcheck_duration duration_ in
  do* xcheck_offset_count offset_count in
  let* n := xint_count offset_count in
  xfinish duration_ (xuniform_arrays (xperiodic_offsets duration_ n) PI 0 0)
    pre_post_rotation name.

(** predefined.py:589-707 *)
Definition xnew_walsh_sequence (duration_ paley_order : xfloat)
    (pre_post_rotation : bool) (name : option string) : result xdds :=
  do* xcheck_duration duration_ in
  do* check_arguments (xle (Fin 1) paley_order && xle paley_order (Fin 2000))
        "Paley order must be between 1 and 2000." ["paley_order"] [] in
  let* k := xint_count paley_order in
  xfinish duration_
    (xuniform_arrays (map (fun x => xmul duration_ (Fin x)) (walsh_relative_offsets k)) PI 0 0)
    pre_post_rotation name.

(** predefined.py:794-808 *)
Definition xquadratic_rows (duration_ : xfloat) (inner outer : nat) : list (list xfloat) :=
  let outer_offsets := Fin 0 :: xuhrig_offsets duration_ outer ++ [duration_] in
  let inner_durations := xdiff outer_offsets in
  map (fun x => match x with ((inner_duration, t0), t1) =>
         map (fun t => xadd t t0) (xuhrig_offsets inner_duration inner) ++ [t1]
       end)
    (combine (combine inner_durations outer_offsets) (tl outer_offsets)).

(** predefined.py:710-844 *)
Definition xnew_quadratic_sequence (duration_ inner_offset_count outer_offset_count : xfloat)
    (pre_post_rotation : bool) (name : option string) : result xdds :=
  do* xcheck_duration duration_ in
  do* check_arguments (xle (Fin 1) inner_offset_count)
        "Number of offsets of inner pulses must be greater than zero."
        ["inner_offset_count"] [] in
  do* check_arguments (xle (Fin 1) outer_offset_count)
        "Number of offsets of outer pulses must be greater than zero."
        ["outer_offset_count"] [] in
  let* inner := xint_count inner_offset_count in
  let* outer := xint_count outer_offset_count in
  let offsets_ := removelast (List.concat (xquadratic_rows duration_ inner outer)) in
  let rabi := drop_last (List.concat (quadratic_rabi_rows inner outer)) in
  let detu := drop_last (List.concat (quadratic_detuning_rows inner outer)) in
  xfinish duration_
    {| xa_offsets := offsets_; xa_rabi := rabi;
       xa_azimuthal := np_zeros (List.length offsets_); xa_detuning := detu |}
    pre_post_rotation name.

(** *** Concatenated sequences

    [np.unique] sorts NaN last.  Since numpy 1.21 all NaN count as one value; before,
    each one is a value of its own.  Both are modelled. *)
Section Unique.
  Variable equal_nan : bool.
  Definition nan_le (a b : xfloat) : bool :=
    match a, b with _, NaN => true | NaN, _ => false | _, _ => xle a b end.
  Definition nan_eq (a b : xfloat) : bool := xeq a b || (equal_nan && is_nan a && is_nan b).

  (** predefined.py:911-923 *)
  Definition xx_offsets (unit_ : xfloat) (order : nat) : list xfloat :=
    let o := even_count_values nan_le nan_eq
               (running xadd (Fin 0) (map (fun c => xmul (Fin (IZR c)) unit_) (concatenation_x order))) in
    if Nat.eqb (order mod 2) 1 then removelast o else o.

  (** predefined.py:1019-1024, 1029-1034, 1041-1046 *)
  Definition xxy_offsets (unit_ : xfloat) (marker other1 other2 : Z) (cumulations : list Z)
    : list xfloat :=
    let ops := filter (fun c => negb (Z.eqb c other2))
                 (filter (fun c => negb (Z.eqb c other1)) cumulations) in
    even_count_values nan_le nan_eq
      (running xadd (Fin 0) (map (fun c => xmul (Fin (if Z.eqb c marker then 0 else 1)) unit_) ops)).

  (** predefined.py:1017-1108 *)
  Definition xxy_slots (unit_ : xfloat) (order : nat) : list slot :=
    let cum := concatenation_xy order in
    let xs := xxy_offsets unit_ (-1) (-2) (-3) cum in
    let ys := xxy_offsets unit_ (-2) (-1) (-3) cum in
    let zs := xxy_offsets unit_ (-3) (-2) (-1) cum in
    let merged := merge_xy xlt (List.length xs + List.length ys) xs ys in
    let initial := merged ++ repeat (blank (Fin 0)) (List.length zs) in
    z_loop (Fin 0) xlt (range 0 (List.length initial)) zs initial.

  Definition xcheck_concatenation_order (concatenation_order : xfloat) : result unit :=
    check_arguments (xle (Fin 1) concatenation_order)
      "Concatenation oder must be greater than zero." ["concatenation_order"] [].

  (** predefined.py:847-947 *)
  Definition xnew_x_concatenated_sequence (duration_ concatenation_order : xfloat)
      (pre_post_rotation : bool) (name : option string) : result xdds :=
    do* xcheck_duration duration_ in
    do* xcheck_concatenation_order concatenation_order in
    let* order := xint_count concatenation_order in
    xfinish duration_
      (xuniform_arrays (xx_offsets (xdivide duration_ (Fin (2 ^ order))) order) PI 0 0)
      pre_post_rotation name.

  (** predefined.py:950-1127 *)
  Definition xnew_xy_concatenated_sequence (duration_ concatenation_order : xfloat)
      (pre_post_rotation : bool) (name : option string) : result xdds :=
    do* xcheck_duration duration_ in
    do* xcheck_concatenation_order concatenation_order in
    let* order := xint_count concatenation_order in
    let slots := xxy_slots (xdivide duration_ (Fin (2 ^ (order * 2)))) order in
    xfinish duration_
      {| xa_offsets := map sl_offset slots;
         xa_rabi := map (fun s => if sl_rabi s then PI else 0) slots;
         xa_azimuthal := map (fun s => if sl_azimuthal s then PI / 2 else 0) slots;
         xa_detuning := map (fun s => if sl_detuning s then PI else 0) slots |}
      pre_post_rotation name.
End Unique.

(** ** Driven controls *)

(** /repo/qctrlopencontrols/driven_controls/predefined.py:30-53 *)
Definition xvalidate_rabi_parameters (rabi_rotation maximum_rabi_rate_ : xfloat) : result unit :=
  do* check_arguments (xlt (Fin 0) maximum_rabi_rate_)
        "Maximum rabi angular frequency should be greater than zero."
        ["maximum_rabi_rate"] [] in
  check_arguments (xneq rabi_rotation (Fin 0))
        "The rabi rotation must be non-zero." ["rabi_rotation"] [].

(** predefined.py:56-79 *)
Definition xwimperis (rabi_rotation : xfloat) : result xfloat :=
  do* check_arguments
        (xle (Fin (- (4) * PI)) rabi_rotation && xle rabi_rotation (Fin (4 * PI)))
        "The polar angle must be between -4 pi and 4 pi (inclusive)."
        ["rabi_rotation"] [] in
  Ok (xarc acos (xdivide (xopp rabi_rotation) (Fin (4 * PI)))).

Definition xconstant_rate_control (rabi_rotations azimuthal_angles_ : list xfloat)
    (maximum_rabi_rate_ : xfloat) (name : option string) : result xcontrol :=
  let n := List.length rabi_rotations in
  xDrivenControl (map (fun r => xdivide r maximum_rabi_rate_) rabi_rotations)
    (Some (repeat maximum_rabi_rate_ n)) (Some azimuthal_angles_)
    (Some (repeat (Fin 0) n)) name.

(** predefined.py:113-158 *)
Definition xnew_primitive_control (rabi_rotation maximum_rabi_rate_ azimuthal_angle : xfloat)
    (name : option string) : result xcontrol :=
  do* xvalidate_rabi_parameters rabi_rotation maximum_rabi_rate_ in
  xconstant_rate_control [rabi_rotation] [azimuthal_angle] maximum_rabi_rate_ name.

(** predefined.py:161-235 *)
Definition xnew_bb1_control (rabi_rotation maximum_rabi_rate_ azimuthal_angle : xfloat)
    (name : option string) : result xcontrol :=
  do* xvalidate_rabi_parameters rabi_rotation maximum_rabi_rate_ in
  let* phi_p := xwimperis rabi_rotation in
  xconstant_rate_control
    [rabi_rotation; Fin PI; Fin (2 * PI); Fin PI]
    [azimuthal_angle; xadd azimuthal_angle phi_p; xadd azimuthal_angle (xmul (Fin 3) phi_p);
     xadd azimuthal_angle phi_p]
    maximum_rabi_rate_ name.

(** predefined.py:238-314 *)
Definition xnew_sk1_control (rabi_rotation maximum_rabi_rate_ azimuthal_angle : xfloat)
    (name : option string) : result xcontrol :=
  do* xvalidate_rabi_parameters rabi_rotation maximum_rabi_rate_ in
  let* phi_p := xwimperis rabi_rotation in
  xconstant_rate_control
    [rabi_rotation; Fin (2 * PI); Fin (2 * PI)]
    [azimuthal_angle; xsub azimuthal_angle phi_p; xadd azimuthal_angle phi_p]
    maximum_rabi_rate_ name.

(** predefined.py:386-390, 821-825, 943-947 *)
Definition xcheck_supported_rotation (rabi_rotation : xfloat) : result unit :=
  check_arguments
    (np_any [xisclose rabi_rotation (Fin PI); xisclose rabi_rotation (Fin (PI / 2));
             xisclose rabi_rotation (Fin (PI / 4))])
    "rabi_rotation angle must be either pi, pi/2 or pi/4" ["rabi_rotation"] [].

(** predefined.py:392-409, 832-849 *)
Definition xscrofulous_theta_1 (rabi_rotation : xfloat) : R :=
  if xisclose rabi_rotation (Fin PI) then degrees_to_radians 180
  else if xisclose rabi_rotation (Fin (5 / 10 * PI)) then degrees_to_radians (1152 / 10)
  else degrees_to_radians (967 / 10).
Definition xscrofulous_phi_1 (theta_1 : R) (rabi_rotation : xfloat) : xfloat :=
  xarc acos (xdivide (Fin (- PI * cos theta_1 / 2 / theta_1)) (xsin (xdivide rabi_rotation (Fin 2)))).
Definition xscrofulous_phi_2 (theta_1 : R) (phi_1 : xfloat) : xfloat :=
  xsub phi_1 (xarc acos (Fin (- PI / 2 / theta_1))).

(** predefined.py:317-434 *)
Definition xnew_scrofulous_control (rabi_rotation maximum_rabi_rate_ azimuthal_angle : xfloat)
    (name : option string) : result xcontrol :=
  do* xvalidate_rabi_parameters rabi_rotation maximum_rabi_rate_ in
  do* xcheck_supported_rotation rabi_rotation in
  let theta_1 := xscrofulous_theta_1 rabi_rotation in
  let phi_1 := xscrofulous_phi_1 theta_1 rabi_rotation in
  let phi_2 := xscrofulous_phi_2 theta_1 phi_1 in
  xconstant_rate_control
    [Fin theta_1; Fin PI; Fin theta_1]
    [xadd azimuthal_angle phi_1; xadd azimuthal_angle phi_2; xadd azimuthal_angle phi_1]
    maximum_rabi_rate_ name.

(** predefined.py:496, 590, 694, 857 *)
Definition xcorpse_k (theta : xfloat) : xfloat :=
  xarc asin (xdivide (xsin (xdivide theta (Fin 2))) (Fin 2)).

(** predefined.py:437-516 *)
Definition xnew_corpse_control (rabi_rotation maximum_rabi_rate_ azimuthal_angle : xfloat)
    (name : option string) : result xcontrol :=
  do* xvalidate_rabi_parameters rabi_rotation maximum_rabi_rate_ in
  let k := xcorpse_k rabi_rotation in
  xconstant_rate_control
    [xsub (xadd (xdivide rabi_rotation (Fin 2)) (Fin (2 * PI))) k;
     xsub (Fin (2 * PI)) (xmul (Fin 2) k); xsub (xdivide rabi_rotation (Fin 2)) k]
    [azimuthal_angle; xadd azimuthal_angle (Fin PI); azimuthal_angle]
    maximum_rabi_rate_ name.

(** predefined.py:590-596, 694-700, 856-862 *)
Definition xcorpse_rotations (theta : xfloat) : list xfloat :=
  let k := xcorpse_k theta in
  [xsub (xadd (Fin (2 * PI)) (xdivide theta (Fin 2))) k;
   xsub (Fin (2 * PI)) (xmul (Fin 2) k); xsub (xdivide theta (Fin 2)) k].

(** predefined.py:519-621 *)
Definition xnew_corpse_in_bb1_control (rabi_rotation maximum_rabi_rate_ azimuthal_angle : xfloat)
    (name : option string) : result xcontrol :=
  do* xvalidate_rabi_parameters rabi_rotation maximum_rabi_rate_ in
  let* phi_p := xwimperis rabi_rotation in
  xconstant_rate_control
    (xcorpse_rotations rabi_rotation ++ [Fin PI; Fin (2 * PI); Fin PI])
    [azimuthal_angle; xadd azimuthal_angle (Fin PI); azimuthal_angle;
     xadd azimuthal_angle phi_p; xadd azimuthal_angle (xmul (Fin 3) phi_p);
     xadd azimuthal_angle phi_p]
    maximum_rabi_rate_ name.

(** predefined.py:624-723 *)
Definition xnew_corpse_in_sk1_control (rabi_rotation maximum_rabi_rate_ azimuthal_angle : xfloat)
    (name : option string) : result xcontrol :=
  do* xvalidate_rabi_parameters rabi_rotation maximum_rabi_rate_ in
  let* phi_p := xwimperis rabi_rotation in
  xconstant_rate_control
    (xcorpse_rotations rabi_rotation ++ [Fin (2 * PI); Fin (2 * PI)])
    [azimuthal_angle; xadd azimuthal_angle (Fin PI); azimuthal_angle;
     xsub azimuthal_angle phi_p; xadd azimuthal_angle phi_p]
    maximum_rabi_rate_ name.

(** predefined.py:856-865 *)
Definition xcorpse_rows (azimuthal_angle : xfloat) (theta_phi : xfloat * xfloat)
  : list (xfloat * xfloat) :=
  let (theta, phi) := theta_phi in
  combine (xcorpse_rotations theta)
    [xadd phi azimuthal_angle; xadd (xadd (Fin PI) phi) azimuthal_angle; xadd phi azimuthal_angle].

(** predefined.py:726-881 *)
Definition xnew_corpse_in_scrofulous_control
    (rabi_rotation maximum_rabi_rate_ azimuthal_angle : xfloat)
    (name : option string) : result xcontrol :=
  do* xvalidate_rabi_parameters rabi_rotation maximum_rabi_rate_ in
  do* xcheck_supported_rotation rabi_rotation in
  let theta_1 := xscrofulous_theta_1 rabi_rotation in
  let phi_1 := xscrofulous_phi_1 theta_1 rabi_rotation in
  let phi_2 := xscrofulous_phi_2 theta_1 phi_1 in
  let total_angles :=
    flat_map (xcorpse_rows azimuthal_angle)
      [(Fin theta_1, phi_1); (Fin PI, phi_2); (Fin theta_1, phi_1)] in
  xconstant_rate_control (map fst total_angles) (map snd total_angles)
    maximum_rabi_rate_ name.

(** predefined.py:949-957 *)
Definition xwamf1_thetas (rabi_rotation : xfloat) : R * R :=
  if xisclose rabi_rotation (Fin PI) then (PI, PI / 2)
  else if xisclose rabi_rotation (Fin (5 / 10 * PI)) then
    (PI * (25 / 10 + 65667825 / 100000000) / 4, PI * (25 / 10 - 65667825 / 100000000) / 4)
  else
    (PI * (225 / 100 + 36256159 / 100000000) / 4, PI * (225 / 100 - 36256159 / 100000000) / 4).

(** [x / y] of Python floats *)
Definition python_divide (x y : xfloat) : result xfloat :=
  if xeq y (Fin 0) then Raise (ZeroDivisionError "float division by zero") else Ok (xdivide x y).
Fixpoint map_result_list {A B : Type} (f : A -> result B) (l : list A) : result (list B) :=
  match l with
  | [] => Ok []
  | x :: l' => let* y := f x in let* ys := map_result_list f l' in Ok (y :: ys)
  end.

(** predefined.py:884-973; the divisions are of Python floats *)
Definition xnew_wamf1_control (rabi_rotation maximum_rabi_rate_ azimuthal_angle : xfloat)
    (name : option string) : result xcontrol :=
  do* xvalidate_rabi_parameters rabi_rotation maximum_rabi_rate_ in
  do* xcheck_supported_rotation rabi_rotation in
  let (theta_plus, theta_minus) := xwamf1_thetas rabi_rotation in
  let rabi_rotations := [Fin theta_plus; Fin theta_minus; Fin theta_minus; Fin theta_plus] in
  let* segment_duration := python_divide (Fin theta_plus) maximum_rabi_rate_ in
  let* rabi := map_result_list (fun r => python_divide r segment_duration) rabi_rotations in
  xDrivenControl (repeat segment_duration 4) (Some rabi)
    (Some (repeat azimuthal_angle 4)) (Some (repeat (Fin 0) 4)) name.

(** *** Modulated Gaussian *)

Definition xexp (x : xfloat) : xfloat :=
  match x with Fin a => Fin (exp a) | Inf n => if n then Fin 0 else Inf false | NaN => NaN end.
Definition xsquare (x : xfloat) : xfloat := xmul x x.
(** [x % y] for a finite positive [y] *)
Definition xmod (x : xfloat) (y : R) : xfloat :=
  match x with Fin a => Fin (py_mod a y) | _ => NaN end.
(** [np.max], [np.sum]: NaN propagates *)
Definition xmaximum (a b : xfloat) : xfloat := if is_nan a || is_nan b then NaN else xmax a b.
Definition xamax (l : list xfloat) : result xfloat :=
  match l with
  | [] => Raise (ValueError "zero-size array to reduction operation maximum which has no identity")
  | x :: l' => Ok (fold_left xmaximum l' x)
  end.
Definition xsum (l : list xfloat) : xfloat := fold_right xadd (Fin 0) l.
(** [int(np.ceil(x))] *)
Definition xceil (x : xfloat) : result nat :=
  match x with
  | Fin r => Ok (Z.to_nat (np_ceil r))
  | Inf _ => Raise (OverflowError "cannot convert float infinity to integer")
  | NaN => Raise (ValueError "cannot convert float NaN to integer")
  end.

(** predefined.py:1050-1054 *)
Definition xgaussian_base (duration_ t : xfloat) : xfloat :=
  xexp (xmul (Fin (- (5 / 10)))
    (xsquare (xdivide (xsub t (xmul (Fin (5 / 10)) duration_)) (xmul (Fin (1 / 10)) duration_)))).

(** predefined.py:1056-1090 *)
Definition xgaussian_segments
    (maximum_rabi_rate_ duration_ modulation_frequency segment_duration : xfloat)
    (midpoints : list xfloat) : result (list xfloat) :=
  let base := map (xgaussian_base duration_) midpoints in
  if xneq modulation_frequency (Fin 0) then
    let signals := map (fun t => xsin (xmul (xmul (Fin (2 * PI)) modulation_frequency)
                                         (xsub t (xdivide duration_ (Fin 2))))) midpoints in
    let modulated := zip_with xmul base signals in
    let* pulse_segments_maximum := xamax modulated in
    Ok (map (fun v => xdivide (xmul maximum_rabi_rate_ v) pulse_segments_maximum) modulated)
  else
    let* m := xamax base in
    let normalized := map (fun b => xdivide b m) base in
    let maximum_rotation_angle := xmul (xmul segment_duration (xsum normalized)) maximum_rabi_rate_ in
    let maximum_full_rotation_angle :=
      xmax (xsub maximum_rotation_angle (xmod maximum_rotation_angle (2 * PI))) (Fin (2 * PI)) in
    Ok (map (fun v => xmul (xmul v maximum_rabi_rate_)
                        (xdivide maximum_full_rotation_angle maximum_rotation_angle))
          normalized).

(** predefined.py:976-1099 *)
Definition xnew_modulated_gaussian_control
    (maximum_rabi_rate_ minimum_segment_duration duration_ modulation_frequency : xfloat)
    : result xcontrol :=
  do* check_arguments (xlt (Fin 0) maximum_rabi_rate_)
        "Maximum Rabi rate must be greater than zero." ["maximum_rabi_rate"] [] in
  do* check_arguments (xlt (Fin 0) minimum_segment_duration)
        "Minimum segment duration must be greater than zero."
        ["minimum_segment_duration"] [] in
  do* check_arguments (xlt minimum_segment_duration duration_)
        "Total duration must be greater than minimum segment duration."
        ["duration"; "minimum_segment_duration"] [] in
  let min_required_upper_bound := xdivide (Fin (sqrt (2 * PI))) (xmul (Fin (1 / 10)) duration_) in
  do* check_arguments (xle min_required_upper_bound maximum_rabi_rate_)
        "Maximum Rabi rate must be large enough to permit a 2Pi rotation."
        ["maximum_rabi_rate"]
        ["minimum required value for upper_bound (sqrt(2pi)/(0.1*maximum_duration))"] in
  let* segment_count := xceil (xdivide duration_ minimum_segment_duration) in
  let segment_duration := xdivide duration_ (Fin (INR segment_count)) in
  let midpoints := map (fun i => xadd (xmul (Fin (INR i)) segment_duration)
                                      (xdivide segment_duration (Fin 2)))
                     (range 0 segment_count) in
  let* segments := xgaussian_segments maximum_rabi_rate_ duration_ modulation_frequency
                     segment_duration midpoints in
  xDrivenControl (repeat segment_duration segment_count)
    (Some (map xabs segments))
    (Some (map (fun v => if xle (Fin 0) v then Fin 0 else Fin PI) segments))
    (Some (xzeros segment_count)) None.
