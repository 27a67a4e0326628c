(** * Specification: printed forms in floating point *)

From Verif Require Export Spec_Utils Spec_FloatText M_FloatPrinted.
Import ListNotations.
Open Scope string_scope.
Open Scope list_scope.
Open Scope R_scope.

(** the quotients of the numbers by the scale do not overflow *)
Definition finite_ratios (k : R) (l : list R) : Prop := Forall (fun x => finite_binary64 (binary64 (x / k))) l.

(** every number printed for a control, or a sequence, is finite *)
Definition control_prints (c : driven_control) (mr md : R) : Prop :=
  finite_binary64 mr /\ finite_binary64 md /\ finite_binary64 (fl_duration binary64 c) /\
  finite_ratios mr (rabi_rates c) /\ finite_ratios float_pi (azimuthal_angles c) /\
  finite_ratios md (detunings c) /\ finite_ratios (fl_duration binary64 c) (durations c).
Definition sequence_prints (s : dds) : Prop :=
  finite_binary64 (seq_duration s) /\ finite_ratios (seq_duration s) (offsets s) /\
  finite_ratios float_pi (rabi_rotations s) /\ finite_ratios float_pi (seq_azimuthal_angles s) /\
  finite_ratios float_pi (detuning_rotations s).

(** equal up to the rounding of a quotient by [k] *)
Definition same_ratio (k x y : R) : Prop :=
  Rabs (x - y) <= (Rabs x + Rabs y) / 2 ^ 53 + Rabs k / 2 ^ 1074.

(** a line [title = [a, b, ...] x scale] *)
Definition row_line (sep title : string) (strs : list string) (scale : string) : string :=
  (title ++ " = [" ++ String.concat sep strs ++ "] x " ++ scale)%string.

(** the text is read as a number whose product with the scale [k] is [x] up to the rounding of a quotient *)
Definition prints_ratio (k : R) (s : string) (x : R) : Prop :=
  exists q, read_float s = Some (Fin q) /\ Rabs (q * k - x) <= Rabs x / 2 ^ 53 + Rabs k / 2 ^ 1075.
