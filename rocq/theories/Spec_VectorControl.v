(** * Specification: controls under noise along every direction *)

From Verif Require Export Spec_VectorNoise Spec_Drive.
Import ListNotations.
Open Scope string_scope.
Open Scope list_scope.
Open Scope R_scope.

(** [V] is the evolution from [t0] to [t1] while the segment [g] is applied, with its amplitude multiplied
    by 1 + eps(t), under a noise with components [x], [y] and [z] *)
Definition pushed (eps x y z : R -> R) (g : seg) (t0 t1 : R) (V : M2) : Prop :=
  exists U : R -> M2,
    U t0 = mone /\
    (forall t, m_derive U t (mscale (0, -1) (mmul
       (hamiltonian ((1 + eps t) * g_rabi g * cos (g_phi g) + x t) ((1 + eps t) * g_rabi g * sin (g_phi g) + y t)
          (g_det g + z t)) (U t)))) /\
    U t1 = V.

(** evolution of a control that starts at [t0] *)
Fixpoint vector_control (eps x y z : R -> R) (t0 : R) (l : list seg) (V : M2) : Prop :=
  match l with
  | [] => V = mone
  | g :: l' =>
      exists V1 V2, pushed eps x y z g t0 (t0 + g_dur g) V1 /\
        vector_control eps x y z (t0 + g_dur g) l' V2 /\ V = mmul V2 V1
  end.
