(** * Specification: first-order sensitivity of finite pulses between pi/2 rotations *)

From Verif Require Export Spec_FirstOrder.
Import ListNotations.
Open Scope string_scope.
Open Scope list_scope.
Open Scope R_scope.

(** the sign given to a Z rotation by the pulses about x and y *)
Definition flip_sign (ps : list (axis * R)) : R := (-1) ^ count_not AZ ps.

(** the predefined sequences that cancel a constant detuning to first order
    between the two pi/2 rotations *)
Definition balanced_detuning_ends (r : request) : Prop :=
  match r with
  | SpinEcho => True
  | Ramsey | CPMG _ | Uhrig _ | XYConcatenated _ => False
  | CarrPurcell x | Periodic x | XConcatenated x => exists n, truncates_to x n /\ Nat.even n = false
  | Walsh x => exists n, truncates_to x n /\ Nat.even (ones n) = false
  | Quadratic x y => exists n m, truncates_to x n /\ truncates_to y m /\ Nat.even n = true /\ Nat.even m = false
  end.

(** those that cancel a constant relative error of the Rabi rate *)
Definition balanced_amplitude_ends (r : request) : Prop :=
  match r with
  | Ramsey | XYConcatenated _ => True
  | Quadratic x _ => exists n, truncates_to x n /\ Nat.even n = false
  | _ => False
  end.
