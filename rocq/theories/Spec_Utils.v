(** * Specification of the messages, representations and constants *)

From Verif Require Export M_Constants Spec_DrivenControl Spec_DDS.
From Coq Require Import Ascii.
Open Scope string_scope.

(** ** Lines of a text *)

Definition newline_char : ascii := ascii_of_nat 10.
Definition equals_char : ascii := "="%char.

(** the character does not occur in the text *)
Fixpoint free_of (ch : ascii) (s : string) : Prop :=
  match s with
  | EmptyString => True
  | String a s' => a <> ch /\ free_of ch s'
  end.

(** cut a text at every newline *)
Fixpoint lines (s : string) : list string :=
  match s with
  | EmptyString => [""]
  | String a s' =>
      if ascii_dec a newline_char then "" :: lines s'
      else match lines s' with
           | l :: ls => String a l :: ls
           | [] => [String a ""]
           end
  end.

(** [name=value] *)
Definition entry (kv : string * string) : string := fst kv ++ "=" ++ snd kv.

Definition one_line (kv : string * string) : Prop :=
  free_of newline_char (fst kv) /\ free_of newline_char (snd kv).

Definition dict_entries (o : option (list (string * string))) : list (string * string) :=
  match o with Some l => l | None => [] end.

(** ** Representations *)

(** the text [Class(a=va,b=vb,...)] *)
Definition call_text (class : string) (args : list (string * string)) : string :=
  class ++ "(" ++ String.concat "," (map entry args) ++ ")".

(** Python's [repr] of arrays of floats taken from the (countable) set [F]:
    determines arrays of up to 1000 elements (numpy abbreviates longer ones) and
    never shows an equals sign *)
Definition faithful_arrays (F : R -> Prop) (repr_array : list R -> string) : Prop :=
  (forall a b, (List.length a <= 1000)%nat -> (List.length b <= 1000)%nat ->
     Forall F a -> Forall F b -> repr_array a = repr_array b -> a = b) /\
  (forall a, free_of equals_char (repr_array a)).

Definition faithful_on {A : Type} (F : A -> Prop) (repr : A -> string) : Prop :=
  forall a b, F a -> F b -> repr a = repr b -> a = b.

(** all the numbers of a control or sequence are in [F] *)
Definition control_in (F : R -> Prop) (c : driven_control) : Prop :=
  Forall F (rabi_rates c) /\ Forall F (azimuthal_angles c) /\ Forall F (detunings c) /\
  Forall F (durations c).
Definition sequence_in (F : R -> Prop) (s : dds) : Prop :=
  F (seq_duration s) /\ Forall F (offsets s) /\ Forall F (rabi_rotations s) /\
  Forall F (seq_azimuthal_angles s) /\ Forall F (detuning_rotations s).

(** ** Pauli algebra *)

Definition anticommute (a b : M2) : Prop := madd (mmul a b) (mmul b a) = mzero.

(** e^(i phi) *)
Definition phase_factor (phi : R) : Complex.C := (cos phi, sin phi).

(** the Hamiltonian documented at driven_control.py:65-73, with [sm], [sp] for
    sigma_- and sigma_+ *)
Definition documented_hamiltonian (sm sp : M2) (omega phi delta : R) : M2 :=
  madd (mscale (RtoC (1 / 2))
          (madd (mscale (RtoC omega * phase_factor phi)%C sm)
                (mscale (RtoC omega * phase_factor (- phi))%C sp)))
       (mscale (RtoC (1 / 2 * delta)) pauli_z).

(** ** Printed forms *)

(** Python's [str] of floats in the set [F]: determines the number and uses no
    comma, closing bracket or newline *)
Definition printable (F : R -> Prop) (fmt : R -> string) : Prop :=
  faithful_on F fmt /\
  forall x, fmt x <> "" /\ free_of ","%char (fmt x) /\ free_of "]"%char (fmt x) /\
    free_of newline_char (fmt x).

Definition one_line_name (o : option string) : Prop :=
  forall n, o = Some n -> free_of newline_char n.

(** every number printed for the control with maximum Rabi rate [mr] and maximum
    detuning [md] is in [F] *)
Definition printed_in (F : R -> Prop) (c : driven_control) (mr md : R) : Prop :=
  F mr /\ F md /\ F (total (durations c)) /\
  Forall F (map (fun x => x / mr)%R (rabi_rates c)) /\
  Forall F (map (fun x => x / PI)%R (azimuthal_angles c)) /\
  Forall F (map (fun x => x / md)%R (detunings c)) /\
  Forall F (map (fun x => x / total (durations c))%R (durations c)).

Definition sequence_printed_in (F : R -> Prop) (s : dds) : Prop :=
  F (seq_duration s) /\ Forall F (map (fun x => x / seq_duration s)%R (offsets s)) /\
  Forall F (map (fun x => x / PI)%R (rabi_rotations s)) /\
  Forall F (map (fun x => x / PI)%R (seq_azimuthal_angles s)) /\
  Forall F (map (fun x => x / PI)%R (detuning_rotations s)).

(** the line [title = [a, b, ...] x scale] *)
Definition list_line (fmt : R -> string) (sep title : string) (numbers : list R) (scale : string) : string :=
  title ++ " = [" ++ String.concat sep (map fmt numbers) ++ "] x " ++ scale.

Definition name_lines (o : option string) : list string :=
  match o with Some n => [n ++ ":"] | None => [] end.
