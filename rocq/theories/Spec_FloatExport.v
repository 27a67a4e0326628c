(** * Specification of exported files in floating point *)

From Verif Require Export Spec_FloatText Spec_FloatControls M_FloatExport.
Import ListNotations.
Open Scope string_scope.
Open Scope list_scope.
Open Scope R_scope.

Definition finite_segment (g : seg) : Prop :=
  finite_binary64 (g_rabi g) /\ finite_binary64 (g_phi g) /\
  finite_binary64 (g_det g) /\ finite_binary64 (g_dur g).

(** [r'] is the rate [r] after division by the maximum [m] and rounding, and
    multiplication by [m] *)
Definition restored (m r' r : R) : Prop :=
  Rabs (r' - r) <= Rabs r / 2 ^ 53 + m / 2 ^ 1075 /\ (r = m -> r' = m) /\ (r = 0 -> r' = 0).
(** a segment read from a file; only the rate is not exact *)
Definition reread (m : R) (g' g : seg) : Prop :=
  g_phi g' = g_phi g /\ g_det g' = g_det g /\ g_dur g' = g_dur g /\ restored m (g_rabi g') (g_rabi g).

(** difference of the evolutions, under a relative amplitude error [eps] *)
Definition file_cost (eps m : R) (l : list seg) : R :=
  Rabs (1 + eps) * (total (map (fun g => g_rabi g * g_dur g) l) / 2 ^ 54 +
                    m * total (map g_dur l) / 2 ^ 1076).

(** amplitudes of segments with an angle for which sine and cosine are accurate *)
Definition moderate_segment (g : seg) : Prop :=
  finite_segment g /\ Rabs (g_phi g) <= 8 /\ g_rabi g <= 2 ^ 1000.
Definition amplitude_near (m x' x r : R) : Prop := Rabs (x' - x) <= r / 2 ^ 49 + (m + 1) / 2 ^ 1073.

(** a cell of a table is the text of a number *)
Definition cell_is (header row : list string) (k : string) (x : R) : Prop :=
  exists t, lookup k (combine header row) = Some t /\ read_float t = Some (Fin x).
