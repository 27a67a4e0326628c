(** * Specification of the modulated Gaussian control in floating point *)

From Verif Require Export Spec_Gaussian Spec_FloatProperties M_FloatGaussian.
Import ListNotations.
Open Scope string_scope.
Open Scope list_scope.
Open Scope R_scope.

(** an exponential with a relative error of at most 8 units 2^-53 *)
Definition accurate_exp (fexp : R -> R) : Prop :=
  forall x, binary64_format x -> -16 <= x <= 0 -> Rabs (fexp x - exp x) <= exp x / 2 ^ 50.
(** a sine with an absolute error of at most 8 units 2^-53 *)
Definition accurate_sine (fsin : R -> R) : Prop :=
  forall x, binary64_format x -> Rabs x <= 2 ^ 14 -> Rabs (fsin x - sin x) <= / 2 ^ 50.

(** binary64 numbers for which no operation underflows, and at most 2^40 segments *)
Definition gaussian_floats (omega m T : R) : Prop :=
  binary64_format omega /\ binary64_format m /\ binary64_format T /\
  / 2 ^ 200 <= omega <= 2 ^ 200 /\ / 2 ^ 200 <= m /\ T <= 2 ^ 200 /\ T <= 2 ^ 39 * m.

(** the number of segments is the ceiling of [x], or the number just below [x] *)
Definition nearly_ceiling (x : R) (n : nat) : Prop := INR n - 1 < x <= INR n * (1 + / 2 ^ 52).

(** a segment of the X axis with signed Rabi rate [v], the half turn being
    numpy.pi *)
Definition float_signed_seg (dt v : R) : seg :=
  Seg (Rabs v) (if Rle_dec 0 v then 0 else float_pi) 0 dt.

(** the documented requirement on the Rabi rate up to a relative [e] *)
Definition reaches (e omega T : R) : Prop := 10 * sqrt (2 * PI) * (1 + e) <= omega * T.

(** bound on the rounding errors of the samples of the modulated pulse *)
Definition sample_error (f T : R) : R := (Rabs f * T + 8) / 2 ^ 47.
