(** * Specification: rows of Cartesian amplitudes *)

From Verif Require Export Spec_Predefined.
Open Scope R_scope.

(** [V] is the evolution under rows [x; y; z; duration], the first row acting first *)
Fixpoint rows_evolve (rows : list (list R)) (V : M2) : Prop :=
  match rows with
  | [] => V = mone
  | [x; y; z; dt] :: rows' => exists V1 V2,
      evolves (hamiltonian x y z) dt V1 /\ rows_evolve rows' V2 /\ V = mmul V2 V1
  | _ => False
  end.

(** rotations by [theta] about [phi], the first pair acting first *)
Fixpoint rotations (l : list (R * R)) : M2 :=
  match l with
  | [] => mone
  | (theta, phi) :: l' => mmul (rotations l') (rotation theta phi)
  end.

(** the rows of a control *)
Definition cartesian_rows (c : driven_control) : list (list R) :=
  map (fun i => [nth i (amplitude_x c) 0; nth i (amplitude_y c) 0; nth i (detunings c) 0; nth i (durations c) 0])
    (seq 0 (List.length (durations c))).
