(** * Specification: first-order response of a control to noise *)

From Verif Require Export Spec_Drive.
Import ListNotations.
Open Scope string_scope.
Open Scope list_scope.
Open Scope R_scope.

(** evolution without noise for the time [t] under the segment [g] *)
Definition segment_after (g : seg) (t : R) : M2 :=
  segment_unitary (g_rabi g * cos (g_phi g)) (g_rabi g * sin (g_phi g)) (g_det g) t.

(** [W] is the integral from [t0] to [t1] of -i times the Hamiltonian of the noise, seen
    from the frame that moves with the segment *)
Definition segment_response (eps beta : R -> R) (g : seg) (t0 t1 : R) (W : M2) : Prop :=
  exists F : R -> M2,
    F t0 = mzero /\
    (forall t, m_derive F t (mmul (madj (segment_after g (t - t0))) (mscale (0, -1) (mmul
       (hamiltonian (eps t * (g_rabi g * cos (g_phi g))) (eps t * (g_rabi g * sin (g_phi g))) (beta t))
       (segment_after g (t - t0)))))) /\
    F t1 = W.

(** the same for a control that starts at [t0], in the frame that moves with the control *)
Fixpoint response (eps beta : R -> R) (t0 : R) (l : list seg) (W : M2) : Prop :=
  match l with
  | [] => W = mzero
  | g :: l' =>
      exists W1 W2, segment_response eps beta g t0 (t0 + g_dur g) W1 /\
        response eps beta (t0 + g_dur g) l' W2 /\
        W = madd W1 (mmul (madj (segment_after g (g_dur g))) (mmul W2 (segment_after g (g_dur g))))
  end.
