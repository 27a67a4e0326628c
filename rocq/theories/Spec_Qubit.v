(** * Specification: a driven qubit

    Independent of the model's helpers: Pauli matrices are restated here, the
    Hamiltonian is the documented one
    (/repo/qctrlopencontrols/driven_controls/driven_control.py:62-92 and
    dynamic_decoupling_sequence.py:58-66), the evolution is characterised by the
    Schroedinger equation. *)

From Verif Require Export Matrix2.
From Coq Require Export List.
Export ListNotations.
Open Scope R_scope.

Definition pauli_x : M2 := mk2 (RtoC 0) (RtoC 1) (RtoC 1) (RtoC 0).
Definition pauli_y : M2 := mk2 (RtoC 0) (0, -1) (0, 1) (RtoC 0).
Definition pauli_z : M2 := mk2 (RtoC 1) (RtoC 0) (RtoC 0) (RtoC (-1)).

(** [x sx + y sy + z sz] *)
Definition pauli_vector (x y z : R) : M2 :=
  madd (mscale (RtoC x) pauli_x) (madd (mscale (RtoC y) pauli_y) (mscale (RtoC z) pauli_z)).

(** the Hamiltonian with amplitudes x, y and detuning z *)
Definition hamiltonian (x y z : R) : M2 := mscale (RtoC (1 / 2)) (pauli_vector x y z).

(** [V] is the evolution over time [T] under the constant Hamiltonian [H]:
    the value at [T] of a solution of  U' = -i H U,  U(0) = 1. *)
Definition evolves (H : M2) (T : R) (V : M2) : Prop :=
  exists U : R -> M2,
    U 0 = mone /\
    (forall t, m_derive U t (mscale (0, -1) (mmul H (U t)))) /\
    U T = V.

(** [cos(angle/2) - i sin(angle/2) (u . sigma)] *)
Definition bloch_rotation (angle ux uy uz : R) : M2 :=
  madd (mscale (RtoC (cos (angle / 2))) mone)
       (mscale (0, - sin (angle / 2)) (pauli_vector ux uy uz)).

(** rotation by [theta] about the axis (cos phi, sin phi, 0) *)
Definition rotation (theta phi : R) : M2 := bloch_rotation theta (cos phi) (sin phi) 0.
(** rotation by [theta] about the Z axis *)
Definition z_rotation (theta : R) : M2 := bloch_rotation theta 0 0 1.

(** closed form of the evolution over a segment (proved to be the unique
    solution in L_Qubit.v) *)
Definition segment_unitary (x y z dt : R) : M2 :=
  let w := sqrt (x ^ 2 + y ^ 2 + z ^ 2) in
  bloch_rotation (w * dt) (x / w) (y / w) (z / w).

(** One segment: Rabi rate, azimuthal angle, detuning, duration. *)
Record seg : Type := Seg { g_rabi : R; g_phi : R; g_det : R; g_dur : R }.

(** evolution of one segment with relative amplitude error [eps] and extra
    detuning [delta] *)
Definition noisy_segment (eps delta : R) (g : seg) : M2 :=
  segment_unitary ((1 + eps) * g_rabi g * cos (g_phi g))
                  ((1 + eps) * g_rabi g * sin (g_phi g))
                  (g_det g + delta) (g_dur g).

(** product over the segments, the first segment acting first *)
Fixpoint noisy_evolution (eps delta : R) (l : list seg) : M2 :=
  match l with
  | [] => mone
  | g :: l' => mmul (noisy_evolution eps delta l') (noisy_segment eps delta g)
  end.

Definition evolution (l : list seg) : M2 := noisy_evolution 0 0 l.

(** the same, directly from the Schroedinger equation *)
Fixpoint schroedinger (eps delta : R) (l : list seg) (V : M2) : Prop :=
  match l with
  | [] => V = mone
  | g :: l' =>
      exists V1 V2,
        evolves (hamiltonian ((1 + eps) * g_rabi g * cos (g_phi g))
                             ((1 + eps) * g_rabi g * sin (g_phi g))
                             (g_det g + delta)) (g_dur g) V1 /\
        schroedinger eps delta l' V2 /\ V = mmul V2 V1
  end.

(** every entry of [f] is insensitive to its argument at 0 up to order [k] *)
Definition flat_entry (k : nat) (f : R -> R) : Prop :=
  forall m, (1 <= m <= k)%nat -> is_derive_n f m 0 0.
Definition flat (k : nat) (f : R -> M2) : Prop :=
  flat_entry k (fun e => fst (m00 (f e))) /\ flat_entry k (fun e => snd (m00 (f e))) /\
  flat_entry k (fun e => fst (m01 (f e))) /\ flat_entry k (fun e => snd (m01 (f e))) /\
  flat_entry k (fun e => fst (m10 (f e))) /\ flat_entry k (fun e => snd (m10 (f e))) /\
  flat_entry k (fun e => fst (m11 (f e))) /\ flat_entry k (fun e => snd (m11 (f e))).

Definition amplitude_robust (k : nat) (l : list seg) : Prop :=
  flat k (fun eps => noisy_evolution eps 0 l).
Definition dephasing_robust (k : nat) (l : list seg) : Prop :=
  flat k (fun delta => noisy_evolution 0 delta l).

(** resonant pulses (rotation angle, azimuthal angle) driven at constant Rabi
    rate [w] *)
Definition pulses (w : R) (l : list (R * R)) : list seg :=
  map (fun p => Seg w (snd p) 0 (fst p / w)) l.
