(** * Specification of the modulated Gaussian control *)

From Verif Require Export Spec_Qubit Spec_DrivenControl M_DrivenPredefined.
Import ListNotations.
Open Scope string_scope.
Open Scope list_scope.
Open Scope R_scope.

Definition is_ceiling (x : R) (n : nat) : Prop := INR n - 1 < x <= INR n.

(** Gaussian of mean T/2 and width T/10 *)
Definition envelope (T t : R) : R := exp (- 50 * (t / T - 1 / 2) ^ 2).
(** modulated by a sine that vanishes at T/2 *)
Definition signal (f T t : R) : R := envelope T t * sin (2 * PI * f * (t - T / 2)).
(** middle of segment [i] of [n] *)
Definition midpoint (T : R) (n i : nat) : R := (INR i + 1 / 2) * (T / INR n).

(** inputs satisfying the documented requirements *)
Definition gaussian_inputs (omega m T : R) : Prop :=
  0 < omega /\ 0 < m /\ m < T /\ 10 * sqrt (2 * PI) <= omega * T.

(** a segment of the X axis with signed Rabi rate [v] *)
Definition signed_seg (dt v : R) : seg :=
  Seg (Rabs v) (if Rle_dec 0 v then 0 else PI) 0 dt.

Definition samples (g : R -> R) (T : R) (n : nat) : list R :=
  map (fun i => g (midpoint T n i)) (seq 0 n).

(** the rotation available at the maximum Rabi rate *)
Definition available_rotation (omega T : R) (n : nat) (peak : R) : R :=
  omega * (T / INR n) * (total (samples (envelope T) T n) / peak).

(** some segment has a non-vanishing sample, so that the pulse can be normalised *)
Definition has_signal (m T f : R) : Prop :=
  f = 0 \/ exists n i, is_ceiling (T / m) n /\ (i < n)%nat /\ signal f T (midpoint T n i) <> 0.
