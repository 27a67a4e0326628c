(** * Specification: how far an error can move the evolution of a control *)

From Verif Require Export Spec_Orders.
Import ListNotations.
Open Scope R_scope.

(** the angle through which the drive turns, whichever way *)
Definition turned (l : list seg) : R := total (map (fun g => g_rabi g * g_dur g) l).
