(** * Specification: from the request to the file in floating point *)

From Verif Require Export Spec_FloatConvert Spec_FloatExport M_FloatFiles.
Import ListNotations.
Open Scope string_scope.
Open Scope list_scope.
Open Scope R_scope.

(** every number of the control is a binary64 number *)
Definition stored_numbers (c : driven_control) : Prop :=
  forall x, In x (rabi_rates c) \/ In x (azimuthal_angles c) \/ In x (detunings c) \/ In x (durations c) ->
  binary64_format x.

(** the sequence contains a pulse that is not a rotation about z *)
Definition drives (r : request) (pre : bool) : Prop := r <> Ramsey \/ pre = true.

(** the file [f] written by [written] is a text that a JSON reader reads as the
    segments [l'] and the name [name] *)
Definition file_holds (f : string) (written : fs * option exn) (l' : list seg) (name : option string) : Prop :=
  exists d' file, written = (d', None) /\ d' f = Some file /\ ascii_text (exported_text binary64 file) /\
    read_json_text read_float "rabi_rates" "azimuthal_angles" false (exported_text binary64 file) =
      Some (map g_rabi l', map g_phi l', map g_det l', map g_dur l', name).

(** effect of the division by the maximum rate on the evolution with [N] pulses *)
Definition file_error (eps N : R) : R := (1 + Rabs eps) * N * PI / 2 ^ 53.

(** the same for a composite pulse of [n] segments *)
Definition scheme_file_error (eps : R) (n : nat) : R := Rabs (1 + eps) * INR n / 2 ^ 50.
