(** * Specification: dephasing noise that varies in time *)

From Verif Require Export Spec_Conversion Spec_Predefined.
Import ListNotations.
Open Scope string_scope.
Open Scope list_scope.
Open Scope R_scope.

(** [V] is the evolution from [t0] to [t1] under the detuning [beta]: the value
    at [t1] of a solution of  U' = -i H U  with  H = beta(t) sz / 2. *)
Definition drifts (beta : R -> R) (t0 t1 : R) (V : M2) : Prop :=
  exists U : R -> M2,
    U t0 = mone /\
    (forall t, m_derive U t (mscale (0, -1) (mmul (hamiltonian 0 0 (beta t)) (U t)))) /\
    U t1 = V.

(** evolution of a sequence of instantaneous pulses under the detuning [beta] *)
Fixpoint noisy_sequence (beta : R -> R) (t0 T : R) (l : list event) (V : M2) : Prop :=
  match l with
  | [] => drifts beta t0 T V
  | e :: l' =>
      exists V1 V2, drifts beta t0 (e_time e) V1 /\ noisy_sequence beta (e_time e) T l' V2 /\
        V = mmul V2 (mmul (pulse_unitary e) V1)
  end.

(** continuous detuning whose n-th derivative never exceeds [M] *)
Definition smooth_detuning (beta : R -> R) (n : nat) (M T : R) : Prop :=
  (forall t, continuous beta t) /\
  forall t, 0 <= t <= T ->
    (forall k, (k <= n)%nat -> ex_derive_n beta k t) /\ Rabs (Derive_n beta n t) <= M.

(** such a detuning changes the ideal evolution by at most M T^(n+1) / (2 (n+1)!) *)
Definition suppresses (n : nat) (s : dds) : Prop :=
  forall beta M l V,
  smooth_detuning beta n M (seq_duration s) ->
  s = sequence_of (seq_duration s) (seq_name s) l ->
  noisy_sequence beta 0 (seq_duration s) l V ->
  close_to (M * seq_duration s ^ (n + 1) / (2 * INR (fact (n + 1)))) V (pulse_product l).

(** the number of orders in time a predefined sequence suppresses *)
Definition suppressed_order (r : request) (n : nat) : Prop :=
  match r with
  | Ramsey => n = 0%nat
  | SpinEcho => n = 1%nat
  | CarrPurcell x | CPMG x => exists k, truncates_to x k /\ n = if Nat.even k then 2%nat else 1%nat
  | Periodic x => exists k, truncates_to x k /\ n = if Nat.even k then 0%nat else 1%nat
  | Uhrig x | XConcatenated x => truncates_to x n
  | Walsh x => exists k, truncates_to x k /\ n = ones k
  | Quadratic _ y => truncates_to y n
  | XYConcatenated x => truncates_to x n /\ (n <= 2)%nat
  end.

(** some polynomial detuning of degree [n] changes the evolution, even up to a phase *)
Definition sensitive (n : nat) (s : dds) : Prop :=
  forall l, s = sequence_of (seq_duration s) (seq_name s) l ->
  exists c V, List.length c = S n /\
    noisy_sequence (polynomial c) 0 (seq_duration s) l V /\ ~ phase_equiv V (pulse_product l).
