(** * Specification: noise of one frequency and the filter function *)

From Verif Require Export Spec_Noise Spec_Fidelity.
Import ListNotations.
Open Scope string_scope.
Open Scope list_scope.
Open Scope R_scope.

(** integrals of cos (w t) and sin (w t) with a sign that flips at each time in [ts] *)
Definition filter_cos (w T : R) (ts : list R) : R := switched_integral (fun t => cos (w * t)) T ts.
Definition filter_sin (w T : R) (ts : list R) : R := switched_integral (fun t => sin (w * t)) T ts.

(** the squared modulus of the integral of e^(i w t) with that sign *)
Definition filter_function (w T : R) (ts : list R) : R := filter_cos w T ts ^ 2 + filter_sin w T ts ^ 2.

(** f t1 - f t2 + f t3 - ... *)
Fixpoint signed_sum (f : R -> R) (ts : list R) : R :=
  match ts with [] => 0 | t :: ts' => f t - signed_sum f ts' end.

(** [ps] are the pulses of the request, pre- and post-rotations apart *)
Definition pulses_of (r : request) (T : R) (ps : list (axis * R)) : Prop :=
  forall pre name, build_sequence r T pre name = Ok (sequence_of T name (with_pre_post pre T ps)).

(** the product over the binary digits of a Walsh function of  4 sin^2  (digit 1) or  4 cos^2  (digit 0)
    of y/4, y/8, ..., y/2^(m+1), times  4 sin^2  of y/2^(m+1), for [m] digits; [y] is w T *)
Fixpoint walsh_filter (bits : list bool) (y : R) : R :=
  match bits with
  | [] => 4 * sin (y / 2) ^ 2
  | b :: bits' => 4 * (if b then sin (y / 4) else cos (y / 4)) ^ 2 * walsh_filter bits' (y / 2)
  end.

(** noise of several frequencies: amplitude and frequency of each, and its phase *)
Fixpoint tones_at (tones : list (R * R)) (ps : list R) (t : R) : R :=
  match tones, ps with
  | (a, w) :: tones', p :: ps' => a * cos (w * t + p) + tones_at tones' ps' t
  | _, _ => 0
  end.

(** [m] is the mean of [f] over [n] phases, each taken uniformly from [0, 2 pi] *)
Fixpoint phase_mean (n : nat) (f : list R -> R) (m : R) : Prop :=
  match n with
  | O => f [] = m
  | S n' => exists g, (forall p, phase_mean n' (fun ps => f (p :: ps)) (g p)) /\ is_RInt g 0 (2 * PI) (2 * PI * m)
  end.

(** the mean of cos (x cos p) over all p, the Bessel function J0 *)
Definition mean_cosine (x : R) : R := RInt (fun p => cos (x * cos p)) 0 (2 * PI) / (2 * PI).

Fixpoint product (l : list R) : R := match l with [] => 1 | x :: l' => x * product l' end.
