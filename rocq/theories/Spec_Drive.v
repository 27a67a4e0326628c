(** * Specification: controls under noise that varies in time *)

From Verif Require Export Spec_Noise.
Import ListNotations.
Open Scope string_scope.
Open Scope list_scope.
Open Scope R_scope.

(** [V] is the evolution from [t0] to [t1] while the segment [g] is applied, with its
    amplitude multiplied by 1 + eps(t) and its detuning increased by beta(t): the value at
    [t1] of a solution of the Schroedinger equation *)
Definition driven (eps beta : R -> R) (g : seg) (t0 t1 : R) (V : M2) : Prop :=
  exists U : R -> M2,
    U t0 = mone /\
    (forall t, m_derive U t (mscale (0, -1) (mmul
       (hamiltonian ((1 + eps t) * g_rabi g * cos (g_phi g)) ((1 + eps t) * g_rabi g * sin (g_phi g))
          (g_det g + beta t)) (U t)))) /\
    U t1 = V.

(** evolution of a control that starts at [t0] *)
Fixpoint noisy_control (eps beta : R -> R) (t0 : R) (l : list seg) (V : M2) : Prop :=
  match l with
  | [] => V = mone
  | g :: l' =>
      exists V1 V2, driven eps beta g t0 (t0 + g_dur g) V1 /\
        noisy_control eps beta (t0 + g_dur g) l' V2 /\ V = mmul V2 V1
  end.

(** never exceeds [M] from [t0] to [t1] *)
Definition bounded_by (f : R -> R) (M t0 t1 : R) : Prop := forall t, t0 <= t <= t1 -> Rabs (f t) <= M.
