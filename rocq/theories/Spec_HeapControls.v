(** * Specification: predefined controls in memory *)

From Verif Require Export Spec_Predefined Spec_HeapPredefined M_HeapControls.
Open Scope R_scope.

Definition hbuild (s : scheme) : R -> R -> R -> option string -> prog hcontrol :=
  match s with
  | Primitive => hnew_primitive_control
  | BB1 => hnew_bb1_control
  | SK1 => hnew_sk1_control
  | SCROFULOUS => hnew_scrofulous_control
  | CORPSE => hnew_corpse_control
  | CORPSE_in_BB1 => hnew_corpse_in_bb1_control
  | CORPSE_in_SK1 => hnew_corpse_in_sk1_control
  | CORPSE_in_SCROFULOUS => hnew_corpse_in_scrofulous_control
  | WAMF1 => hnew_wamf1_control
  end.

(** a program returns the control of the functional description [r] in new, separate
    arrays and writes nothing that exists *)
Definition yields (h : heap) (p : prog hcontrol) (r : result driven_control) : Prop :=
  exists res h', p h = (res, h') /\ preserves h h' /\
  map_result (control_at h') res = r /\
  (forall c, res = Ok c -> (forall v, In v (control_attributes c) -> lives h' v /\ fresh h v) /\
     NoDup (map nd_base (control_attributes c))).
