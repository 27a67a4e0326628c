(** * Specification of requests with NaN and infinities *)

From Verif Require Export Spec_Qubit Spec_Predefined Spec_Gaussian Spec_Extended M_ExtendedPredefined.
Import ListNotations.
Open Scope string_scope.
Open Scope list_scope.
Open Scope R_scope.

(** ** Sequences *)

Inductive xrequest : Type :=
| XRamsey | XSpinEcho
| XCarrPurcell (n : xfloat) | XCPMG (n : xfloat) | XUhrig (n : xfloat) | XPeriodic (n : xfloat)
| XWalsh (k : xfloat) | XQuadratic (n1 n2 : xfloat)
| XXConcatenated (l : xfloat) | XXYConcatenated (l : xfloat).

Definition xbuild_sequence (equal_nan : bool) (r : xrequest) (T : xfloat) (pre : bool)
    (name : option string) : result xdds :=
  match r with
  | XRamsey => xnew_ramsey_sequence T pre name
  | XSpinEcho => xnew_spin_echo_sequence T pre name
  | XCarrPurcell n => xnew_carr_purcell_sequence T n pre name
  | XCPMG n => xnew_cpmg_sequence T n pre name
  | XUhrig n => xnew_uhrig_sequence T n pre name
  | XPeriodic n => xnew_periodic_sequence T n pre name
  | XWalsh k => xnew_walsh_sequence T k pre name
  | XQuadratic n1 n2 => xnew_quadratic_sequence T n1 n2 pre name
  | XXConcatenated l => xnew_x_concatenated_sequence equal_nan T l pre name
  | XXYConcatenated l => xnew_xy_concatenated_sequence equal_nan T l pre name
  end.

(** a request of finite numbers *)
Definition fin_request (r : request) : xrequest :=
  match r with
  | Ramsey => XRamsey | SpinEcho => XSpinEcho
  | CarrPurcell n => XCarrPurcell (Fin n) | CPMG n => XCPMG (Fin n)
  | Uhrig n => XUhrig (Fin n) | Periodic n => XPeriodic (Fin n)
  | Walsh k => XWalsh (Fin k) | Quadratic n1 n2 => XQuadratic (Fin n1) (Fin n2)
  | XConcatenated l => XXConcatenated (Fin l) | XYConcatenated l => XXYConcatenated (Fin l)
  end.

Definition at_least_one (x : xfloat) : Prop :=
  match x with Fin r => 1 <= r | Inf negative => negative = false | NaN => False end.
(** counts and orders within the documented range, possibly infinite *)
Definition xvalid_request (r : xrequest) : Prop :=
  match r with
  | XRamsey | XSpinEcho => True
  | XCarrPurcell x | XCPMG x | XUhrig x | XPeriodic x | XXConcatenated x | XXYConcatenated x => at_least_one x
  | XWalsh x => exists k, x = Fin k /\ 1 <= k <= 2000
  | XQuadratic x y => at_least_one x /\ at_least_one y
  end.
Definition infinite_count (r : xrequest) : Prop :=
  match r with
  | XRamsey | XSpinEcho | XWalsh _ => False
  | XCarrPurcell x | XCPMG x | XUhrig x | XPeriodic x | XXConcatenated x | XXYConcatenated x => x = Inf false
  | XQuadratic x y => x = Inf false \/ y = Inf false
  end.
Definition overflow_error {A : Type} (r : result A) : Prop := exists m, r = Raise (OverflowError m).

(** the sequence of duration 1 stretched to an infinite duration *)
Definition endless_time (t : R) : xfloat := if Req_EM_T t 0 then Fin 0 else Inf false.
Definition endless (s : dds) : xdds :=
  MkXDDS (Inf false) (map endless_time (offsets s)) (map Fin (rabi_rotations s))
    (map Fin (seq_azimuthal_angles s)) (map Fin (detuning_rotations s)) (seq_name s).

(** ** Controls *)

Definition xbuild (s : scheme) : xfloat -> xfloat -> xfloat -> option string -> result xcontrol :=
  match s with
  | Primitive => xnew_primitive_control
  | BB1 => xnew_bb1_control
  | SK1 => xnew_sk1_control
  | SCROFULOUS => xnew_scrofulous_control
  | CORPSE => xnew_corpse_control
  | CORPSE_in_BB1 => xnew_corpse_in_bb1_control
  | CORPSE_in_SK1 => xnew_corpse_in_sk1_control
  | CORPSE_in_SCROFULOUS => xnew_corpse_in_scrofulous_control
  | WAMF1 => xnew_wamf1_control
  end.

(** what the nine constructors accept *)
Definition xaccepts (s : scheme) (theta omega : xfloat) : Prop :=
  (exists t w, theta = Fin t /\ omega = Fin w /\ accepts s t w) \/
  (s = Primitive /\ theta = Inf false /\ exists w, omega = Fin w /\ 0 < w).
Definition finite (x : xfloat) : Prop := exists r, x = Fin r.
(** the control [c] with every azimuthal angle replaced by [a] *)
Definition with_angles (a : xfloat) (c : driven_control) : xcontrol :=
  MkXControl (map Fin (rabi_rates c)) (map (fun _ => a) (azimuthal_angles c)) (map Fin (detunings c))
    (map Fin (durations c)) (dc_name c).
Definition zero_division_error {A : Type} (r : result A) : Prop := exists m, r = Raise (ZeroDivisionError m).

(** [x < y] *)
Definition strictly_below (x y : xfloat) : Prop :=
  match x, y with
  | Fin a, Fin b => a < b
  | Fin _, Inf negative => negative = false
  | Inf negative, Fin _ => negative = true
  | Inf n, Inf m => n = true /\ m = false
  | _, _ => False
  end.
