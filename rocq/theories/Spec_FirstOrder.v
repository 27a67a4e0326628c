(** * Specification: first-order sensitivity of sequences with finite pulses *)

From Verif Require Export Spec_Noise.
Import ListNotations.
Open Scope string_scope.
Open Scope list_scope.
Open Scope R_scope.

Definition other_than (a b : axis) : bool := negb (axis_eqb b a).

(** sum over the pulses about [a] of a sign, 1 at first, that changes at every
    pulse selected by [flips] *)
Fixpoint signed_count (a : axis) (flips : axis -> bool) (l : list (axis * R)) : R :=
  match l with
  | [] => 0
  | (b, _) :: l' => (if axis_eqb b a then 1 else 0) + (if flips b then -1 else 1) * signed_count a flips l'
  end.

(** the pulses at the middles of their windows: those at the ends of the
    sequence are moved inside by half their width *)
Definition centred (maxr maxd mn T : R) (ps : list (axis * R)) : list (axis * R) :=
  map (fun p => (fst p, centre T (pulse_width maxr maxd mn (pi_pulse p)) (snd p))) ps.

(** the predefined sequences whose finite pulses keep the first-order
    insensitivity to a constant detuning *)
Definition balanced_detuning (r : request) : Prop :=
  match r with
  | Ramsey | SpinEcho | Periodic _ => False
  | XYConcatenated x => 2 <= x
  | CarrPurcell x | CPMG x | Uhrig x | XConcatenated x => exists n, truncates_to x n /\ Nat.even n = true
  | Walsh x => exists n, truncates_to x n /\ Nat.even (ones n) = true
  | Quadratic x y => exists n m, truncates_to x n /\ truncates_to y m /\ Nat.even n = true /\ Nat.even m = true
  end.

(** those insensitive to a constant relative error of the Rabi rate *)
Definition balanced_amplitude (r : request) : Prop :=
  match r with
  | Ramsey | XYConcatenated _ => True
  | Quadratic x y => exists n m, truncates_to x n /\ truncates_to y m /\ Nat.even n = false /\ Nat.even m = true
  | _ => False
  end.
