(** * Specification of the composite pulses in floating point *)

From Verif Require Export Spec_Predefined Spec_Float M_FloatControls.
Import ListNotations.
Open Scope string_scope.
Open Scope list_scope.
Open Scope R_scope.

Definition fl_build (rnd fsin fcos facos fasin : R -> R) (fpi : R) (s : scheme)
  : R -> R -> R -> option string -> result driven_control :=
  match s with
  | Primitive => fl_primitive rnd
  | BB1 => fl_bb1 rnd facos fpi
  | SK1 => fl_sk1 rnd facos fpi
  | SCROFULOUS => fl_scrofulous rnd fsin fcos facos fpi
  | CORPSE => fl_corpse rnd fsin fasin fpi
  | CORPSE_in_BB1 => fl_corpse_in_bb1 rnd fsin facos fasin fpi
  | CORPSE_in_SK1 => fl_corpse_in_sk1 rnd fsin facos fasin fpi
  | CORPSE_in_SCROFULOUS => fl_corpse_in_scrofulous rnd fsin fcos facos fasin fpi
  | WAMF1 => fl_wamf1 rnd fpi
  end.

(** sine, cosine and their inverses with an absolute error of at most 8 units 2^-53 *)
Definition accurate_trigonometry (fsin fcos facos fasin : R -> R) : Prop :=
  (forall x, binary64_format x -> Rabs x <= 8 -> Rabs (fsin x - sin x) <= / 2 ^ 50) /\
  (forall x, binary64_format x -> Rabs x <= 8 -> Rabs (fcos x - cos x) <= / 2 ^ 50) /\
  (forall x, binary64_format x -> -1 <= x <= 1 -> Rabs (facos x - acos x) <= / 2 ^ 50) /\
  (forall x, binary64_format x -> -1 <= x <= 1 -> Rabs (fasin x - asin x) <= / 2 ^ 50).

(** rotations that are clearly one of the tabulated ones *)
Definition tabulated (theta : R) : Prop :=
  exists theta0, (theta0 = PI \/ theta0 = PI / 2 \/ theta0 = PI / 4) /\
    Rabs (theta - theta0) <= 9 / 10 ^ 6 * theta0.

(** inputs far from overflow, underflow and the tolerances of numpy *)
Definition ordinary_inputs (s : scheme) (theta omega phi : R) : Prop :=
  binary64_format theta /\ / 2 ^ 20 <= theta <= 4 * float_pi /\
  binary64_format omega /\ / 2 ^ 900 <= omega <= 2 ^ 900 /\
  binary64_format phi /\ Rabs phi <= 8 /\
  match s with
  | SCROFULOUS | CORPSE_in_SCROFULOUS | WAMF1 => tabulated theta
  | _ => True
  end.

(** error of the azimuthal angles: the arccosine of BB1 and SK1 is
    ill-conditioned for rotations near 4 pi *)
Definition axis_error (s : scheme) (theta : R) : R :=
  match s with
  | Primitive => 0
  | BB1 | SK1 | CORPSE_in_BB1 | CORPSE_in_SK1 => if Rle_dec theta (2 * PI) then / 2 ^ 46 else / 2 ^ 22
  | SCROFULOUS | CORPSE_in_SCROFULOUS => / 2 ^ 45
  | CORPSE | WAMF1 => / 2 ^ 49
  end.

(** error of the rotation angles *)
Definition rotation_error : R := / 2 ^ 46.

(** the segment [g] is the segment [g0] up to rounding *)
Definition near_segment (a e omega : R) (g g0 : seg) : Prop :=
  Rabs (g_rabi g - g_rabi g0) <= g_rabi g0 * e /\ Rabs (g_phi g - g_phi g0) <= a /\
  g_det g = 0 /\ g_det g0 = 0 /\
  Rabs (g_dur g - g_dur g0) <= e / omega /\
  Rabs (g_rabi g * g_dur g - g_rabi g0 * g_dur g0) <= e.

(** difference of the evolutions of [n] segments, under a relative amplitude
    error [eps] and a detuning [delta] *)
Definition float_cost (s : scheme) (theta omega eps delta : R) (n : nat) : R :=
  INR n * (Rabs (1 + eps) * (rotation_error + 14 * axis_error s theta) + Rabs delta / omega * rotation_error) / 2.

(** the schemes that perform the requested rotation exactly in real arithmetic
    (C12, C13, C15, C16, C18, C19) *)
Definition exact_scheme (s : scheme) : Prop :=
  match s with SCROFULOUS | CORPSE_in_SCROFULOUS | WAMF1 => False | _ => True end.
(** accuracy of the rotation of these schemes in floating point *)
Definition rotation_accuracy (theta : R) : R := if Rle_dec theta (2 * PI) then / 2 ^ 40 else / 2 ^ 16.
