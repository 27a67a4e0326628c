(** * Specification of which error a rejected call raises *)

From Verif Require Export Spec_Predefined Spec_Gaussian Spec_Conversion.
Import ListNotations.
Open Scope string_scope.
Open Scope list_scope.
Open Scope R_scope.

(** A requirement on the inputs, and the error reported where it fails. *)
Definition rule : Type := Prop * exn.

(** [r] reports the first requirement that fails, and succeeds if none does *)
Fixpoint diagnoses {A : Type} (rules : list rule) (r : result A) : Prop :=
  match rules with
  | [] => exists a, r = Ok a
  | (ok, e) :: rest => (~ ok -> r = Raise e) /\ (ok -> diagnoses rest r)
  end.

(** the same for a function that returns the files and an exception, if any *)
Definition outcome (x : fs * option exn) : result fs :=
  match snd x with None => Ok (fst x) | Some e => Raise e end.

(** an [ArgumentsValueError] without extras *)
Definition bad (description : string) (arguments : list string) : exn :=
  ArgumentsValueError description arguments [].

(** ** DrivenControl *)

Definition control_rules (ts : list R) (r a d : option (list R)) : list rule :=
  [(all_positive ts,
    bad "Duration of driven control segments must all be greater than zero." ["durations"]);
   (fits (List.length ts) r /\ fits (List.length ts) a /\ fits (List.length ts) d,
    bad "If set, rabi rates, azimuthal angles, detunings and durations must be of same length"
      ["rabi_rates"; "azimuthal_angles"; "detunings"; "durations"]);
   (all_nonnegative r, bad "All rabi rates must be greater than zero." ["rabi_rates"])].

(** ** DynamicDecouplingSequence *)

Definition sequence_rules (T : R) (o r a d : list R) : list rule :=
  [(0 < T, bad "Sequence duration must be above zero." ["duration"]);
   (forall t, In t o -> 0 <= t <= T,
    bad "Offsets for dynamic decoupling sequence must be between 0 and the sequence duration (inclusive). "
      ["offsets"; "duration"]);
   (List.length r = List.length o,
    bad "rabi rotations must have the same length as offsets. " ["offsets"; "rabi_rotations"]);
   (List.length a = List.length o,
    bad "azimuthal angles must have the same length as offsets. " ["offsets"; "azimuthal_angles"]);
   (List.length d = List.length o,
    bad "detuning rotations must have the same length as offsets. " ["offsets"; "detuning_rotations"])].

(** ** The predefined controls *)

Definition scheme_rules (s : scheme) (th w : R) : list rule :=
  [(0 < w, bad "Maximum rabi angular frequency should be greater than zero." ["maximum_rabi_rate"]);
   (th <> 0, bad "The rabi rotation must be non-zero." ["rabi_rotation"])] ++
  match s with
  | Primitive | CORPSE => []
  | BB1 | SK1 | CORPSE_in_BB1 | CORPSE_in_SK1 =>
      [(- (4 * PI) <= th <= 4 * PI,
        bad "The polar angle must be between -4 pi and 4 pi (inclusive)." ["rabi_rotation"])]
  | SCROFULOUS | CORPSE_in_SCROFULOUS | WAMF1 =>
      [(supported th, bad "rabi_rotation angle must be either pi, pi/2 or pi/4" ["rabi_rotation"])]
  end ++
  [(0 < th, bad "Duration of driven control segments must all be greater than zero." ["durations"])].

Definition gaussian_rules (omega m T f : R) : list rule :=
  [(0 < omega, bad "Maximum Rabi rate must be greater than zero." ["maximum_rabi_rate"]);
   (0 < m, bad "Minimum segment duration must be greater than zero." ["minimum_segment_duration"]);
   (m < T, bad "Total duration must be greater than minimum segment duration."
             ["duration"; "minimum_segment_duration"]);
   (10 * sqrt (2 * PI) <= omega * T,
    ArgumentsValueError "Maximum Rabi rate must be large enough to permit a 2Pi rotation."
      ["maximum_rabi_rate"]
      ["minimum required value for upper_bound (sqrt(2pi)/(0.1*maximum_duration))"]);
   (has_signal m T f, bad "All rabi rates must be greater than zero." ["rabi_rates"])].

(** ** The predefined sequences *)

Definition too_few : exn := bad "Number of offsets must be greater than zero." ["offset_count"].
Definition bad_order : exn := bad "Concatenation oder must be greater than zero." ["concatenation_order"].
Definition request_rules (r : request) (T : R) : list rule :=
  (0 < T, bad "Sequence duration must be greater than zero." ["duration"]) ::
  match r with
  | Ramsey | SpinEcho => []
  | CarrPurcell x | CPMG x | Uhrig x | Periodic x => [(1 <= x, too_few)]
  | Walsh x => [(1 <= x <= 2000, bad "Paley order must be between 1 and 2000." ["paley_order"])]
  | Quadratic x y =>
      [(1 <= x, bad "Number of offsets of inner pulses must be greater than zero." ["inner_offset_count"]);
       (1 <= y, bad "Number of offsets of outer pulses must be greater than zero." ["outer_offset_count"])]
  | XConcatenated x | XYConcatenated x => [(1 <= x, bad_order)]
  end.

(** ** Conversion *)

Definition conversion_rules (maxr maxd mn T : R) (l : list event) : list rule :=
  [(0 < maxd, bad "Maximum detuning rate must be positive." ["maximum_detuning_rate"]);
   (0 < maxr, bad "Maximum rabi rate must be positive." ["maximum_rabi_rate"]);
   (0 <= mn, bad "Minimum segment duration must be greater than or equal to 0." ["minimum_segment_duration"]);
   (forall e, In e l -> 0 <= e_rabi e,
    bad "Sequence contains negative values for Rabi rotations." ["dynamic_decoupling_sequence"]);
   (forall e, In e l -> ~ (0 < e_rabi e /\ 0 < e_det e),
    ArgumentsValueError
      "Sequence operation includes rabi rotation and detuning rotation at the same instance."
      ["dynamic_decoupling_sequence"] ["maximum_rabi_rate"; "maximum_detuning_rate"]);
   (strictly_increasing (map e_time l),
    ArgumentsValueError
      "Pulse timing could not be properly deduced from the sequence offsets. Make sure all offsets are in increasing order."
      ["dynamic_decoupling_sequence"] ["offsets"]);
   (forall g, In g (idle_times maxr maxd mn T l) -> long_enough mn g,
    ArgumentsValueError
      "Distance between pulses does not respect minimum_segment_duration. Try decreasing the minimum_segment_duration or increasing the maximum_rabi_rate or the maximum_detuning_rate."
      ["dynamic_decoupling_sequence"; "maximum_rabi_rate"; "maximum_detuning_rate"; "minimum_segment_duration"]
      ["deduced_pulse_start_timing"; "deduced_pulse_end_timing"; "gap_durations"])].

(** ** Files and plots *)

(** the maximum of no numbers *)
Definition no_maximum : exn :=
  ValueError "zero-size array to reduction operation maximum which has no identity".

Definition file_rules (c : driven_control) (fmt ty coords : string) : list rule :=
  [(fmt = "Q-CTRL expanded",
    bad "Requested file format is not supported. Please use one of ['Q-CTRL expanded']" ["file_format"]);
   (ty = "JSON" \/ ty = "CSV",
    bad "Requested file type is not supported. Please use one of ['JSON', 'CSV']" ["file_type"]);
   (coords = "cartesian" \/ coords = "cylindrical",
    bad "Requested coordinate type is not supported. Please use one of ['cartesian', 'cylindrical']"
      ["coordinates"]);
   (rabi_rates c <> [], no_maximum);
   (ty = "CSV" -> dc_name c <> None, KeyError "name")].

(** after the rules of the conversion; converted controls have segments *)
Definition sequence_file_rules (name : option string) (fmt ty coords : string) : list rule :=
  [(fmt = "Q-CTRL expanded",
    bad "Requested file format is not supported. Please use one of ['Q-CTRL expanded']" ["file_format"]);
   (ty = "JSON" \/ ty = "CSV",
    bad "Requested file type is not supported. Please use one of ['JSON', 'CSV']" ["file_type"]);
   (coords = "cartesian" \/ coords = "cylindrical",
    bad "Requested coordinate type is not supported. Please use one of ['cartesian', 'cylindrical']"
      ["coordinates"]);
   (ty = "CSV" -> name <> None, KeyError "name")].

Definition plot_rules (c : driven_control) (coords : string) (dimensionless : bool) : list rule :=
  [(coords = "cartesian" \/ coords = "cylindrical",
    bad "Unsupported coordinates provided: " ["coordinates"]);
   (dimensionless = true -> rabi_rates c <> [], no_maximum)].
