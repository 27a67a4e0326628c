(** * Specification: a drive along the X axis in the frame that turns with it *)

From Verif Require Export Spec_Gaussian.
Import ListNotations.
Open Scope list_scope.
Open Scope R_scope.

(** the time integral of [g] of an angle that starts from [theta] and grows at the rate [v] *)
Definition turn_integral (g : R -> R) (dt theta v : R) : R := RInt (fun t => g (theta + v * t)) 0 dt.

(** the time integral of [g] of the angle turned so far, starting from [theta],
    while a drive with the signed Rabi rates [vs] is applied for [dt] each *)
Fixpoint path_integral (g : R -> R) (dt theta : R) (vs : list R) : R :=
  match vs with
  | [] => 0
  | v :: vs' => turn_integral g dt theta v + path_integral g dt (theta + v * dt) vs'
  end.
