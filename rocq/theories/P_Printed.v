(** * Properties of printed forms *)

From Verif Require Import L_Printed.
Import ListNotations.
Open Scope string_scope.
Open Scope list_scope.
Open Scope R_scope.

(** C11, partial.  Full statement: without the hypotheses on [md] and [md'].
    Missing: controls whose maximum detuning is 0 but which have negative detunings
    (C11_printed_form_refuted) *)

(** C11: controls with the same printed form are equal *)
Theorem C11_determines_partial :
  forall F fmt c c' mr mr' md md',
  printable F fmt -> constructible c -> constructible c' ->
  is_maximum mr (rabi_rates c) -> is_maximum md (detunings c) ->
  is_maximum mr' (rabi_rates c') -> is_maximum md' (detunings c') ->
  (md = 0 -> forall x, In x (detunings c) -> x = 0) ->
  (md' = 0 -> forall x, In x (detunings c') -> x = 0) ->
  one_line_name (dc_name c) -> one_line_name (dc_name c') ->
  printed_in F c mr md -> printed_in F c' mr' md' ->
  driven_control_str fmt c = driven_control_str fmt c' -> c = c'.
Proof. exact control_str_determines. Qed.
Print Assumptions C11_determines_partial.

(** C64: the printed form of a sequence, line by line *)
Theorem C64_printed_sequence :
  forall fmt s,
  dds_str fmt s = String.concat newline (name_lines (seq_name s) ++
    [("Duration = " ++ fmt (seq_duration s))%string;
     list_line fmt ", " "Offsets" (map (fun x => x / seq_duration s) (offsets s)) (fmt (seq_duration s));
     list_line fmt ", " "Rabi Rotations" (map (fun x => x / PI) (rabi_rotations s)) "pi";
     list_line fmt ", " "Azimuthal Angles" (map (fun x => x / PI) (seq_azimuthal_angles s)) "pi";
     list_line fmt ", " "Detuning Rotations" (map (fun x => x / PI) (detuning_rotations s)) "pi"]).
Proof. exact sequence_str. Qed.
Print Assumptions C64_printed_sequence.

(** C64: sequences with the same printed form are equal *)
Theorem C64_determines :
  forall F fmt s s',
  printable F fmt -> constructible_sequence s -> constructible_sequence s' ->
  one_line_name (seq_name s) -> one_line_name (seq_name s') ->
  sequence_printed_in F s -> sequence_printed_in F s' ->
  dds_str fmt s = dds_str fmt s' -> s = s'.
Proof. exact sequence_str_determines. Qed.
Print Assumptions C64_determines.

(** a printer of the floats 0, 1/2 and 1 *)
Definition halves (x : R) : Prop := x = 0 \/ x = 1 / 2 \/ x = 1.
Definition show_half (x : R) : string :=
  if Req_EM_T x 0 then "0.0" else if Req_EM_T x (1 / 2) then "0.5" else "1.0".

Lemma show_half_printable : printable halves show_half.
Proof.
  split.
  - unfold faithful_on, halves, show_half; intros a b Ha Hb.
    destruct (Req_EM_T a 0), (Req_EM_T b 0), (Req_EM_T a (1 / 2)), (Req_EM_T b (1 / 2));
      intros E; try discriminate; lra.
  - intros x; unfold show_half; destruct (Req_EM_T x 0), (Req_EM_T x (1 / 2)); cbn; intuition discriminate.
Qed.

Definition small_sequence : dds := MkDDS 1 [1 / 2; 1] [PI; PI / 2] [PI / 2; 0] [0; PI] (Some "s").

Example C64_case :
  dds_str show_half small_sequence =
    String.concat newline
      ["s:"; "Duration = 1.0"; "Offsets = [0.5, 1.0] x 1.0"; "Rabi Rotations = [1.0, 0.5] x pi";
       "Azimuthal Angles = [0.5, 0.0] x pi"; "Detuning Rotations = [0.0, 1.0] x pi"] /\
  forall s, constructible_sequence s -> one_line_name (seq_name s) -> sequence_printed_in halves s ->
    dds_str show_half s = dds_str show_half small_sequence -> s = small_sequence.
Proof.
  assert (PZ := PI_neq0).
  assert (S0 : show_half 0 = "0.0") by (unfold show_half; destruct (Req_EM_T 0 0); [auto|lra]).
  assert (S5 : show_half (1 / 2) = "0.5")
    by (unfold show_half; destruct (Req_EM_T (1 / 2) 0); [lra|destruct (Req_EM_T (1 / 2) (1 / 2)); [auto|lra]]).
  assert (S1 : show_half 1 = "1.0")
    by (unfold show_half; destruct (Req_EM_T 1 0); [lra|destruct (Req_EM_T 1 (1 / 2)); [lra|auto]]).
  split.
  - rewrite sequence_str; unfold list_line; cbn [map seq_name seq_duration offsets rabi_rotations
      seq_azimuthal_angles detuning_rotations small_sequence name_lines].
    replace (1 / 2 / 1) with (1 / 2) by field; replace (1 / 1) with 1 by field;
    replace (PI / PI) with 1 by (field; auto); replace (PI / 2 / PI) with (1 / 2) by (field; auto);
    replace (0 / PI) with 0 by (field; auto); rewrite S0, S5, S1; reflexivity.
  - intros s K N I E; refine (sequence_str_determines halves _ _ _ show_half_printable K _ N _ I _ E).
    + apply constructible_well_formed; unfold well_formed, valid_sequence; cbn.
      repeat match goal with |- _ /\ _ => split end; auto; try lra; intros t [<-|[<-|[]]]; lra.
    + intros n W; injection W as <-; cbn; intuition discriminate.
    + unfold sequence_printed_in; cbn; unfold halves;
      repeat match goal with |- _ /\ _ => split end; repeat (apply Forall_cons || apply Forall_nil);
      first [left; field; auto; lra | right; left; field; auto; lra | right; right; field; auto; lra | auto].
Qed.

Definition small_control : driven_control :=
  MkDrivenControl [1; 1 / 2] [PI; PI / 2] [1 / 2; 1] [1 / 2; 1 / 2] None.

Example C11_determines_case :
  forall c mr md, constructible c -> is_maximum mr (rabi_rates c) -> is_maximum md (detunings c) ->
    (md = 0 -> forall x, In x (detunings c) -> x = 0) ->
    one_line_name (dc_name c) -> printed_in halves c mr md ->
    driven_control_str show_half c = driven_control_str show_half small_control -> c = small_control.
Proof.
  intros c mr md K Mr Md Z N I E; assert (PZ := PI_neq0).
  refine (control_str_determines halves _ _ _ mr 1 md 1 show_half_printable K _ Mr Md _ _ Z _ N _ I _ E).
  - apply constructible_wf; unfold wf, all_positive; cbn; intuition lra.
  - split; [left; auto|intros x [<-|[<-|[]]]; lra].
  - split; [right; left; auto|intros x [<-|[<-|[]]]; lra].
  - lra.
  - intros n W; discriminate.
  - unfold printed_in; cbn; replace (0 + 1 / 2 + 1 / 2) with 1 by lra; unfold halves;
    repeat match goal with |- _ /\ _ => split end; repeat (apply Forall_cons || apply Forall_nil);
    first [left; field; auto; lra | right; left; field; auto; lra | right; right; field; auto; lra | auto].
Qed.

