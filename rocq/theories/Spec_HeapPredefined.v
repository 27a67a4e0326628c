(** * Specification: predefined sequences in memory *)

From Verif Require Export Spec_Heap M_HeapPredefined.
Import ListNotations.
Open Scope list_scope.
Open Scope R_scope.

(** the program that handles a request *)
Definition hbuild_sequence (r : request) (T : R) (pre : bool) (name : option string) : prog hdds :=
  match r with
  | Ramsey => hnew_ramsey_sequence T pre name
  | SpinEcho => hnew_spin_echo_sequence T pre name
  | CarrPurcell n => hnew_carr_purcell_sequence T n pre name
  | CPMG n => hnew_cpmg_sequence T n pre name
  | Uhrig n => hnew_uhrig_sequence T n pre name
  | Periodic n => hnew_periodic_sequence T n pre name
  | Walsh k => hnew_walsh_sequence T k pre name
  | Quadratic n1 n2 => hnew_quadratic_sequence T n1 n2 pre name
  | XConcatenated l => hnew_x_concatenated_sequence T l pre name
  | XYConcatenated l => hnew_xy_concatenated_sequence T l pre name
  end.

(** only the memory block of [v] was written *)
Definition only_block (v : ndarray) (h h' : heap) : Prop :=
  List.length h' = List.length h /\ forall b, b <> nd_base v -> cell_at h' b = cell_at h b.
