(** * Specification of the behaviour on NaN and infinities *)

From Verif Require Export Spec_Conversion M_Extended.
Import ListNotations.
Open Scope string_scope.
Open Scope list_scope.
Open Scope R_scope.

Definition finite (x : xfloat) : Prop := exists r, x = Fin r.
(** above zero, at least zero; neither holds of NaN *)
Definition positive (x : xfloat) : Prop :=
  match x with Fin r => 0 < r | Inf negative => negative = false | NaN => False end.
Definition nonnegative (x : xfloat) : Prop :=
  match x with Fin r => 0 <= r | Inf negative => negative = false | NaN => False end.
(** the order of the extended real line; NaN is not comparable *)
Definition at_most (x y : xfloat) : Prop :=
  match x, y with
  | NaN, _ | _, NaN => False
  | Inf true, _ | _, Inf false => True
  | Fin a, Fin b => a <= b
  | _, _ => False
  end.

(** objects that only hold finite numbers *)
Definition fin_control (c : driven_control) : xcontrol :=
  MkXControl (map Fin (rabi_rates c)) (map Fin (azimuthal_angles c)) (map Fin (detunings c))
    (map Fin (durations c)) (dc_name c).
Definition fin_sequence (s : dds) : xdds :=
  MkXDDS (Fin (seq_duration s)) (map Fin (offsets s)) (map Fin (rabi_rotations s))
    (map Fin (seq_azimuthal_angles s)) (map Fin (detuning_rotations s)) (seq_name s).

(** acceptable arguments of [DrivenControl] *)
Definition valid_xinputs (ts : list xfloat) (r a d : option (list xfloat)) : Prop :=
  (forall t, In t ts -> positive t) /\
  (forall l, r = Some l -> List.length l = List.length ts /\ forall x, In x l -> nonnegative x) /\
  (forall l, a = Some l -> List.length l = List.length ts) /\
  (forall l, d = Some l -> List.length l = List.length ts).
Definition supplied_or_xzeros (n : nat) (o : option (list xfloat)) (l : list xfloat) : Prop :=
  match o with
  | Some l' => l = l'
  | None => List.length l = n /\ forall x, In x l -> x = Fin 0
  end.

Definition xconstructible_sequence (s : xdds) : Prop :=
  exists T ts r a d name, xDynamicDecouplingSequence T ts r a d name = Ok s.
Definition xconstructible (c : xcontrol) : Prop :=
  exists ts r a d name, xDrivenControl ts r a d name = Ok c.
