(** * Specification of the conversion in floating point *)

From Verif Require Export Spec_Float Spec_Qubit M_FloatConvert.
Import ListNotations.
Open Scope string_scope.
Open Scope list_scope.
Open Scope R_scope.

(** durations at which the tolerances of numpy are above the rounding errors *)
Definition laboratory_duration (T : R) : Prop := 2 / 10 ^ 8 <= T <= 2 ^ 20.

(** rotations that are clearly distinguished from zero, or zero *)
Definition definite (x : R) : Prop := x = 0 \/ 2 / 10 ^ 8 <= Rabs x.

(** pulses and idle times that are long enough to be resolved by floats *)
Definition resolved (maxr maxd mn T : R) (l : list event) : Prop :=
  (forall e, In e l -> effective e = true -> T / 2 ^ 40 <= pulse_width maxr maxd mn e) /\
  (forall g, In g (idle_times maxr maxd mn T l) -> mn <= g /\ T / 2 ^ 40 <= g).

(** the segment [g] is the segment [g0] up to rounding *)
Definition rounded_segment (T : R) (g g0 : seg) : Prop :=
  g_phi g = g_phi g0 /\
  Rabs (g_dur g - g_dur g0) <= T / 2 ^ 48 /\
  Rabs (g_rabi g - g_rabi g0) <= g_rabi g0 * (T / g_dur g0) / 2 ^ 48 /\
  Rabs (g_det g - g_det g0) <= Rabs (g_det g0) * (T / g_dur g0) / 2 ^ 48 /\
  Rabs (g_rabi g * g_dur g - g_rabi g0 * g_dur g0) <= g_rabi g0 * g_dur g0 / 2 ^ 53 /\
  Rabs (g_det g * g_dur g - g_det g0 * g_dur g0) <= Rabs (g_det g0) * g_dur g0 / 2 ^ 53.

(** the segment performs the rotation of the event up to rounding *)
Definition performs_rounded (e : event) (g : seg) : Prop :=
  (~ negligible (e_rabi e) /\ Rabs (g_rabi g * g_dur g - e_rabi e) <= e_rabi e / 2 ^ 53 /\ g_phi g = e_phi e /\ g_det g = 0) \/
  (negligible (e_rabi e) /\ g_rabi g = 0 /\ Rabs (g_det g * g_dur g - e_det e) <= Rabs (e_det e) / 2 ^ 53).

(** effect of rounding on the evolution under a relative amplitude error [eps]
    and a detuning [delta] *)
Definition rounding_cost (eps delta T : R) (l : list event) : R :=
  (Rabs (1 + eps) * total (map e_rabi l) + total (map (fun e => Rabs (e_det e)) l)) / 2 ^ 54 +
  Rabs delta * (INR (List.length l) + 2) * T / 2 ^ 48.

(** ** Predefined sequences, built and converted *)

(** duration of the longest pulse *)
Definition longest_pulse (maxr maxd mn : R) : R := Rmax (Rmax (PI / maxr) (PI / maxd)) mn.

(** rates at which the pulses of the request are resolved and do not overlap *)
Definition pipeline_rates (r : request) (T maxr maxd mn : R) : Prop :=
  0 < maxr /\ 0 < maxd /\ 0 <= mn /\ T / 2 ^ 40 <= 1 / maxr /\ T / 2 ^ 40 <= 1 / maxd /\
  2 * longest_pulse maxr maxd mn + mn + T / 2 ^ 40 <= (spacing r - 2 * accuracy r) * T.

(** difference to the evolution of [N] ideal pulses: finite pulses, rounded
    times, rounded durations, amplitude error, rounded rates and [np.pi] *)
Definition pipeline_error (eps delta T D a N : R) : R :=
  Rabs delta * (N * D + N * a * T + (N + 2) * T / 2 ^ 48) +
  Rabs eps * N * PI / 2 + (1 + Rabs eps) * N * PI / 2 ^ 54 + N * 4 / 10 ^ 16.

(** ** Pulses below the resolution of floats *)

(** the time of the pulse is so large that its duration vanishes beside it *)
Definition absorbed (maxr maxd : R) (e : event) : Prop :=
  binary64_format (e_time e) /\ / 2 ^ 100 <= e_time e /\
  e_rabi e / maxr <= e_time e / 2 ^ 56 /\ Rabs (e_det e) / maxd <= e_time e / 2 ^ 56.
