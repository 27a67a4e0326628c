(** * Specification: sharing and copying of arrays *)

From Verif Require Export Spec_Conversion M_Heap.
Import ListNotations.
Open Scope string_scope.
Open Scope list_scope.
Open Scope R_scope.

(** what an object holds, in a given state of the memory *)
Definition control_at (h : heap) (c : hcontrol) : driven_control :=
  MkDrivenControl (contents h (hc_rabi_rates c)) (contents h (hc_azimuthal_angles c))
    (contents h (hc_detunings c)) (contents h (hc_durations c)) (hc_name c).
Definition sequence_at (h : heap) (s : hdds) : dds :=
  MkDDS (hs_duration s) (contents h (hs_offsets s)) (contents h (hs_rabi_rotations s))
    (contents h (hs_azimuthal_angles s)) (contents h (hs_detuning_rotations s)) (hs_name s).
Definition value (h : heap) (a : array_like) : list R :=
  match a with AList _ xs => xs | AArray v => contents h v end.

(** the array shows existing memory *)
Definition lives (h : heap) (v : ndarray) : Prop :=
  (nd_base v < List.length h)%nat /\
  forall p, In p (nd_at v) -> (p < List.length (c_values (cell_at h (nd_base v))))%nat.
Definition arg_lives (h : heap) (a : array_like) : Prop :=
  match a with AList _ _ => True | AArray v => lives h v end.
Definition opt_lives (h : heap) (a : option array_like) : Prop :=
  match a with Some a' => arg_lives h a' | None => True end.

(** nothing that existed before was written *)
Definition preserves (h h' : heap) : Prop := exists l, h' = h ++ l.
(** allocated after [h] *)
Definition fresh (h : heap) (v : ndarray) : Prop := (List.length h <= nd_base v)%nat.
(** arrays allocated after [h] do not overlap *)
Definition separate (h : heap) (vs : list ndarray) : Prop :=
  NoDup (filter (fun b => Nat.leb (List.length h) b) (map nd_base vs)).
Definition is_array (a : array_like) : Prop := exists v, a = AArray v.
Definition float_array (h : heap) (a : array_like) : Prop :=
  match a with AList _ _ => False | AArray v => c_float (cell_at h (nd_base v)) = true end.
(** the array [v] stored for the argument [a]: itself, or a copy *)
Definition is_argument (a : array_like) (v : ndarray) : Prop :=
  match a with AList _ _ => False | AArray u => v = u end.
Definition stored (h : heap) (a : option array_like) (v : ndarray) : Prop :=
  match a with
  | Some a' => (float_array h a' -> is_argument a' v) /\ (~ float_array h a' -> fresh h v)
  | None => fresh h v
  end.
Definition not_float_array (h : heap) (a : option array_like) : Prop :=
  match a with Some a' => ~ float_array h a' | None => True end.

(** a later state in which only memory below [n], respectively from [n] on, was written *)
Definition only_below (n : nat) (h h' : heap) : Prop :=
  List.length h' = List.length h /\ forall b, (n <= b)%nat -> cell_at h' b = cell_at h b.
Definition only_above (n : nat) (h h' : heap) : Prop :=
  List.length h' = List.length h /\ forall b, (b < n)%nat -> cell_at h' b = cell_at h b.

Definition sequence_arrays (s : hdds) : list ndarray :=
  [hs_offsets s; hs_rabi_rotations s; hs_azimuthal_angles s; hs_detuning_rotations s].
Definition control_attributes (c : hcontrol) : list ndarray :=
  [hc_rabi_rates c; hc_azimuthal_angles c; hc_detunings c; hc_durations c].
(** a sequence object whose arrays exist and have equal sizes *)
Definition sequence_lives (h : heap) (s : hdds) : Prop :=
  (forall v, In v (sequence_arrays s) -> lives h v) /\
  (forall v, In v (sequence_arrays s) -> size v = size (hs_offsets s)).
