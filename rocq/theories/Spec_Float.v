(** * Specification of the predefined sequences in floating point *)

From Verif Require Export Spec_Predefined Spec_Conversion M_Float.
Import ListNotations.
Open Scope string_scope.
Open Scope list_scope.
Open Scope R_scope.

Section Requests.
  Variables (rnd fsin fsquare : R -> R) (fpi : R).

  Definition fl_build_sequence (r : request) (T : R) (pre : bool) (name : option string) : result dds :=
    match r with
    | Ramsey => fl_ramsey_sequence rnd T pre name
    | SpinEcho => fl_spin_echo_sequence rnd T pre name
    | CarrPurcell n => fl_count_sequence (fl_carr_purcell_offsets rnd) 0 T n pre name
    | CPMG n => fl_count_sequence (fl_carr_purcell_offsets rnd) (PI / 2) T n pre name
    | Uhrig n => fl_count_sequence (fl_uhrig_offsets rnd fsin fsquare fpi) (PI / 2) T n pre name
    | Periodic n => fl_count_sequence (fl_periodic_offsets rnd) 0 T n pre name
    | Walsh k => fl_walsh_sequence rnd fsin fpi T k pre name
    | Quadratic n1 n2 => fl_quadratic_sequence rnd fsin fsquare fpi T n1 n2 pre name
    | XConcatenated l => fl_x_concatenated_sequence rnd T l pre name
    | XYConcatenated l => fl_xy_concatenated_sequence rnd T l pre name
    end.
End Requests.

(** Accuracy of the library functions, in units of rounding where the exact
    value is not tiny: 8 half-units for the sine, 2 for the square. *)
Definition accurate_sine (fsin : R -> R) : Prop :=
  forall x, binary64_format x -> 0 <= x <= 2 ^ 13 -> / 2 ^ 30 <= Rabs (sin x) ->
    binary64_format (fsin x) /\ Rabs (fsin x - sin x) <= Rabs (sin x) / 2 ^ 50.
Definition accurate_square (fsquare : R -> R) : Prop :=
  forall x, binary64_format x -> / 2 ^ 31 <= x <= 2 -> Rabs (fsquare x - x ^ 2) <= x ^ 2 / 2 ^ 52.

(** durations far from overflow and underflow *)
Definition ordinary_duration (T : R) : Prop := binary64_format T /\ / 2 ^ 900 <= T <= 2 ^ 900.

(** sizes for which the spacing of the pulses is above the rounding errors *)
Definition moderate (r : request) : Prop :=
  match r with
  | Ramsey | SpinEcho | Walsh _ => True
  | CarrPurcell x | CPMG x | Periodic x => x <= 2 ^ 40
  | Uhrig x => x + 1 <= 2 ^ 20
  | Quadratic x y => (x + 1) * (y + 1) <= 2 ^ 20
  | XConcatenated x => x < 26
  | XYConcatenated x => x < 13
  end.

(** error of the times, as a fraction of the duration *)
Definition accuracy (r : request) : R :=
  match r with
  | Ramsey | SpinEcho => 0
  | CarrPurcell _ | CPMG _ | Periodic _ => / 2 ^ 50
  | Walsh _ => / 2 ^ 53
  | Uhrig _ => / 2 ^ 47
  | Quadratic _ _ => / 2 ^ 45
  | XConcatenated x => Rpower 2 (x - 53)
  | XYConcatenated x => Rpower 2 (2 * x - 53)
  end.

(** the same pulses in the same order, at times that differ by at most [e] *)
Definition same_order (a b : list R) : Prop :=
  forall i j, (i < List.length a)%nat -> (j < List.length a)%nat ->
    (nth i a 0 < nth j a 0 <-> nth i b 0 < nth j b 0).
Definition close_times (e : R) (a b : list R) : Prop := Forall2 (fun x y => Rabs (x - y) <= e) a b.
Definition rounded_sequence (e : R) (s s0 : dds) : Prop :=
  seq_duration s = seq_duration s0 /\ rabi_rotations s = rabi_rotations s0 /\
  seq_azimuthal_angles s = seq_azimuthal_angles s0 /\ detuning_rotations s = detuning_rotations s0 /\
  seq_name s = seq_name s0 /\ close_times e (offsets s) (offsets s0) /\
  same_order (offsets s) (offsets s0).

(** accumulated detuning [B] of a detuning that never exceeds [M] *)
Definition bounded_detuning (B : R -> R) (M T : R) : Prop :=
  forall t t', 0 <= t <= T -> 0 <= t' <= T -> Rabs (B t - B t') <= M * Rabs (t - t').

(** the evolutions of two sequences differ by at most [e] in every component *)
Definition same_evolution (e : R) (B : R -> R) (s s0 : dds) : Prop :=
  forall l l0, s = sequence_of (seq_duration s) (seq_name s) l ->
    s0 = sequence_of (seq_duration s0) (seq_name s0) l0 ->
    close_to e (dephased_evolution B (seq_duration s) l) (dephased_evolution B (seq_duration s0) l0).
