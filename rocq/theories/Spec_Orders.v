(** * Specification: the order to which each composite pulse cancels an error *)

From Verif Require Export Spec_Predefined.
Open Scope R_scope.

(** the number of orders in a relative error of the Rabi rate that cancel *)
Definition amplitude_order (s : scheme) : nat :=
  match s with
  | Primitive | CORPSE | WAMF1 => 0
  | SK1 | CORPSE_in_SK1 | SCROFULOUS | CORPSE_in_SCROFULOUS => 1
  | BB1 | CORPSE_in_BB1 => 2
  end.

(** BB1 and SK1 for two turns are four turns one way and back about one axis *)
Definition error_free (s : scheme) (th : R) : Prop :=
  match s with BB1 | SK1 | CORPSE_in_BB1 | CORPSE_in_SK1 => th = 4 * PI | _ => False end.

(** requests for which a constant detuning cancels to first order *)
Definition detuning_cancels (s : scheme) (th : R) : Prop :=
  match s with
  | Primitive | BB1 | SK1 => sin (th / 2) = 0
  | CORPSE | CORPSE_in_BB1 | CORPSE_in_SK1 | CORPSE_in_SCROFULOUS => True
  | WAMF1 => near th PI
  | SCROFULOUS => False
  end.
