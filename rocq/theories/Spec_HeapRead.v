(** * Specification: reading and exporting objects in memory *)

From Verif Require Export Spec_Heap M_HeapRead.
Import ListNotations.
Open Scope string_scope.
Open Scope list_scope.
Open Scope R_scope.

Definition control_lives (h : heap) (c : hcontrol) : Prop := forall v, In v (control_attributes c) -> lives h v.

(** [p] has the result [r] and writes nothing that existed *)
Definition reads {A : Type} (h : heap) (p : prog A) (r : result A) : Prop :=
  exists h', p h = (r, h') /\ preserves h h'.
(** the elements are floats *)
Definition float_array (h : heap) (v : ndarray) : Prop := c_float (cell_at h (nd_base v)) = true.
(** [p] returns a new array of floats with the entries [xs] and writes nothing that existed *)
Definition reads_array (h : heap) (p : prog ndarray) (xs : list R) : Prop :=
  exists v h', p h = (Ok v, h') /\ preserves h h' /\ lives h' v /\ (fresh h v /\ float_array h' v) /\ contents h' v = xs.

(** the rows of a matrix with three columns *)
Fixpoint triples (xs : list R) : list (R * R * R) :=
  match xs with x :: y :: z :: l => (x, y, z) :: triples l | _ => [] end.

Inductive array_property : Type := AmplitudeX | AmplitudeY | Angles | Times.
Definition read_property (q : array_property) : hcontrol -> prog ndarray :=
  match q with AmplitudeX => hamplitude_x | AmplitudeY => hamplitude_y | Angles => hangles | Times => htimes end.
Definition property_value (q : array_property) : driven_control -> list R :=
  match q with AmplitudeX => amplitude_x | AmplitudeY => amplitude_y | Angles => angles | Times => times end.
