(** * Specification: fidelity of the final state *)

From Verif Require Export Spec_Drive.
Import ListNotations.
Open Scope string_scope.
Open Scope list_scope.
Open Scope R_scope.

(** a state of the qubit, by its two amplitudes *)
Definition ket : Type := (Complex.C * Complex.C)%type.
Definition state_after (U : M2) (k : ket) : ket :=
  ((m00 U * fst k + m01 U * snd k)%C, (m10 U * fst k + m11 U * snd k)%C).
Definition inner (j k : ket) : Complex.C := (Cconj (fst j) * fst k + Cconj (snd j) * snd k)%C.
Definition normalised (k : ket) : Prop := inner k k = RtoC 1.

(** the probability that the state [k], after [V] instead of [U], is not found in the state it should be in *)
Definition infidelity (U V : M2) (k : ket) : R :=
  1 - Cmod (inner (state_after U k) (state_after V k)) ^ 2.

(** the largest over all states *)
Definition worst_infidelity (U V : M2) (x : R) : Prop :=
  (forall k, normalised k -> infidelity U V k <= x) /\ exists k, normalised k /\ infidelity U V k = x.

(** the mean over the six states along the axes z, x and y *)
Definition axis_states : list ket :=
  let h := / sqrt 2 in
  [((1, 0), (0, 0)); ((0, 0), (1, 0)); ((h, 0), (h, 0)); ((h, 0), (- h, 0)); ((h, 0), (0, h)); ((h, 0), (0, - h))].
Definition average_infidelity (U V : M2) : R := total (map (infidelity U V) axis_states) / 6.

(** the mean of [f] over all states: the integral over the sphere of polar angles [theta] and
    azimuths [phi], with the weight sin theta / (4 pi) *)
Definition sphere_state (theta phi : R) : ket :=
  ((cos (theta / 2), 0), (sin (theta / 2) * cos phi, sin (theta / 2) * sin phi)).
Definition sphere_average (f : ket -> R) (m : R) : Prop :=
  exists g, (forall theta, is_RInt (fun phi => f (sphere_state theta phi)) 0 (2 * PI) (g theta)) /\
    is_RInt (fun theta => g theta * sin theta) 0 PI (4 * PI * m).
(** the state [k] with a global phase *)
Definition with_phase (chi : R) (k : ket) : ket := (((cos chi, sin chi) * fst k)%C, ((cos chi, sin chi) * snd k)%C).
