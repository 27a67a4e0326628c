(** * Specification: from the request to the file under noise along every direction *)

From Verif Require Export Spec_VectorControl Spec_FloatFiles.
Import ListNotations.
Open Scope string_scope.
Open Scope list_scope.
Open Scope R_scope.

(** difference to the evolution of [N] ideal pulses under the same noise, whose strength is below [M] and whose
    relative amplitude error is below [E]: finite pulses, rounded times and durations, amplitude error, rounded rates
    and [np.pi] *)
Definition vector_file_error (E M T D a N : R) : R :=
  M * (2 * N * D + N * a * T + (2 * N + 5) ^ 2 * T / 2 ^ 48) +
  E * N * PI * (1 + / 2 ^ 50) / 2 + N * PI / 2 ^ 52 + N * 4 / 10 ^ 16.
