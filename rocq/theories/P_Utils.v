(** * Properties of error messages, representations and constants *)

From Verif Require Import L_Utils.
Import ListNotations.
Open Scope string_scope.
Open Scope list_scope.
Open Scope R_scope.

(** C56: check_arguments raises exactly when the condition is false, with the full message *)
Theorem C56_check_arguments :
  forall condition description args extras,
  (condition = true -> check_arguments_values condition description args extras = None) /\
  (condition = false -> exists e,
     check_arguments_values condition description args extras = Some e /\
     err_description e = description /\ err_arguments e = args /\ err_extras e = extras /\
     err_message e = String.concat newline (description :: map entry (args ++ dict_entries extras))).
Proof. exact check_arguments_spec. Qed.
Print Assumptions C56_check_arguments.

(** C56: the lines of the message are the description and one name=value line per argument and extra, in order *)
Theorem C56_message_lines :
  forall description args extras e,
  check_arguments_values false description args extras = Some e ->
  free_of newline_char description -> Forall one_line (args ++ dict_entries extras) ->
  lines (err_message e) = description :: map entry (args ++ dict_entries extras).
Proof. exact message_lines. Qed.
Print Assumptions C56_message_lines.

(** C56: the exceptions of the rest of the model are these exceptions without the values *)
Theorem C56_names :
  forall condition description args extras,
  check_arguments condition description (map fst args) (map fst (dict_entries extras)) =
  match check_arguments_values condition description args extras with
  | None => Ok tt
  | Some e => Raise (ArgumentsValueError (err_description e) (map fst (err_arguments e))
                       (map fst (dict_entries (err_extras e))))
  end.
Proof. exact check_arguments_names. Qed.
Print Assumptions C56_names.

Example C56_case : exists e,
  check_arguments_values false "bad" [("x", "1"); ("y", "[2 3]")] (Some [("z", "None")]) = Some e /\
  lines (err_message e) = ["bad"; "x=1"; "y=[2 3]"; "z=None"].
Proof.
  eexists; split; [reflexivity|].
  refine (message_lines _ _ _ _ eq_refl _ _); [cbn; intuition discriminate|].
  repeat constructor; discriminate.
Qed.

(** C57: the general representation function *)
Theorem C57_create_repr :
  forall class reprs,
  (forall names values, names <> [] -> Forall2 (fun n v => reprs n = Some v) names values ->
     create_repr_from_attributes (Some (class, reprs)) (Some (map AttrStr names)) =
     Ok (call_text class (combine names values))) /\
  create_repr_from_attributes (Some (class, reprs)) (Some []) =
    Ok ("No attributes provided for object of class " ++ class)%string /\
  (forall names n, In n names -> reprs n = None -> exists m,
     In m names /\ reprs m = None /\
     create_repr_from_attributes (Some (class, reprs)) (Some (map AttrStr names)) =
     Raise (AttributeError m)).
Proof. exact repr_of_attributes. Qed.
Print Assumptions C57_create_repr.

(** C57: what it rejects *)
Theorem C57_create_repr_rejects :
  (forall attributes, create_repr_from_attributes None attributes =
     Raise (ArgumentsValueError "Class instance must be a valid object." ["class_instance"] [])) /\
  (forall object, create_repr_from_attributes (Some object) None =
     Raise (ArgumentsValueError "Attributes must be a list of string" ["attributes"] [])) /\
  (forall object names t rest,
     create_repr_from_attributes (Some object) (Some (map AttrStr names ++ AttrOther t :: rest)) =
     Raise (ArgumentsValueError ("Each attribute name must be a string. Found " ++ t ++ " type.")%string
              ["attribute"; "type(attribute)"] [])).
Proof. exact repr_rejects. Qed.
Print Assumptions C57_create_repr_rejects.

(** C57: repr of a control is the constructor call that recreates it *)
Theorem C57_control :
  forall ra rn c,
  constructible c ->
  driven_control_repr ra rn c =
    Ok (call_text "DrivenControl"
          [("rabi_rates", ra (rabi_rates c)); ("azimuthal_angles", ra (azimuthal_angles c));
           ("detunings", ra (detunings c)); ("durations", ra (durations c));
           ("name", rn (dc_name c))]) /\
  DrivenControl (durations c) (Some (rabi_rates c)) (Some (azimuthal_angles c))
    (Some (detunings c)) (dc_name c) = Ok c.
Proof. exact driven_repr. Qed.
Print Assumptions C57_control.

(** C57: repr of a sequence is the constructor call that recreates it *)
Theorem C57_sequence :
  forall rf ra rn s,
  constructible_sequence s ->
  dds_repr rf ra rn s =
    Ok (call_text "DynamicDecouplingSequence"
          [("duration", rf (seq_duration s)); ("offsets", ra (offsets s));
           ("rabi_rotations", ra (rabi_rotations s)); ("azimuthal_angles", ra (seq_azimuthal_angles s));
           ("detuning_rotations", ra (detuning_rotations s)); ("name", rn (seq_name s))]) /\
  DynamicDecouplingSequence (seq_duration s) (offsets s) (rabi_rotations s)
    (seq_azimuthal_angles s) (detuning_rotations s) (seq_name s) = Ok s.
Proof. exact sequence_repr. Qed.
Print Assumptions C57_sequence.

(** C57: repr identifies the control *)
Theorem C57_control_identified :
  forall F ra rn c c',
  faithful_arrays F ra -> faithful_on (fun _ => True) rn ->
  constructible c -> constructible c' -> control_in F c -> control_in F c' ->
  (List.length (durations c) <= 1000)%nat -> (List.length (durations c') <= 1000)%nat ->
  driven_control_repr ra rn c = driven_control_repr ra rn c' -> c = c'.
Proof. exact driven_repr_injective. Qed.
Print Assumptions C57_control_identified.

(** C57: repr identifies the sequence *)
Theorem C57_sequence_identified :
  forall F rf ra rn s s',
  faithful_on F rf -> (forall x, free_of equals_char (rf x)) ->
  faithful_arrays F ra -> faithful_on (fun _ => True) rn ->
  constructible_sequence s -> constructible_sequence s' -> sequence_in F s -> sequence_in F s' ->
  (List.length (offsets s) <= 1000)%nat -> (List.length (offsets s') <= 1000)%nat ->
  dds_repr rf ra rn s = dds_repr rf ra rn s' -> s = s'.
Proof. exact sequence_repr_injective. Qed.
Print Assumptions C57_sequence_identified.

Definition digit (x : R) : string := if Req_EM_T x 0 then "0" else "1".
Definition digits (l : list R) : string := fold_right (fun x s => (digit x ++ s)%string) "" l.
Definition show_name (o : option string) : string :=
  match o with None => "None" | Some s => ("'" ++ s)%string end.

Lemma digits_faithful : faithful_arrays (fun x => x = 0 \/ x = 1) digits.
Proof.
  assert (X : forall x y, (x = 0 \/ x = 1) -> (y = 0 \/ y = 1) -> forall s t,
     (digit x ++ s = digit y ++ t)%string -> x = y /\ s = t).
  { unfold digit; intros x y Hx Hy s t; destruct (Req_EM_T x 0), (Req_EM_T y 0); simpl; intros E;
      try discriminate; injection E as ->; split; auto; destruct Hx, Hy; congruence. }
  assert (L : forall x s, exists a, (digit x ++ s = String a s)%string /\ a <> equals_char).
  { unfold digit; intros x s; destruct (Req_EM_T x 0); simpl; eexists; split; eauto; discriminate. }
  split.
  - intros a b _ _ Fa Fb; revert b Fb; induction Fa as [|x a Hx Fa IH]; intros b Fb; destruct Fb as [|y b Hy Fb]; auto; cbn.
    + destruct (L y (digits b)) as [c [E _]]; fold (digits b); rewrite E; discriminate.
    + destruct (L x (digits a)) as [c [E _]]; fold (digits a); rewrite E; discriminate.
    + fold (digits a) (digits b); intros E; apply X in E; auto; destruct E as [-> E]; f_equal; auto.
  - induction a as [|x a IH]; cbn; auto; fold (digits a).
    destruct (L x (digits a)) as [c [E N]]; rewrite E; cbn; auto.
Qed.

Example C57_case :
  driven_control_repr digits show_name (MkDrivenControl [1; 0] [0; 0] [0; 1] [1; 1] (Some "x'"))
  = Ok "DrivenControl(rabi_rates=10,azimuthal_angles=00,detunings=01,durations=11,name='x')" /\
  forall c, constructible c -> control_in (fun x => x = 0 \/ x = 1) c -> (List.length (durations c) <= 1000)%nat ->
    driven_control_repr digits show_name c =
    driven_control_repr digits show_name (MkDrivenControl [1; 0] [0; 0] [0; 1] [1; 1] (Some "x'")) ->
    c = MkDrivenControl [1; 0] [0; 0] [0; 1] [1; 1] (Some "x'").
Proof.
  split.
  - rewrite driven_repr_text; unfold digits, digit; cbn [fold_right rabi_rates azimuthal_angles detunings durations dc_name].
    destruct (Req_EM_T 1 0); [lra|]; destruct (Req_EM_T 0 0); [|lra]; reflexivity.
  - intros c K I L E; refine (driven_repr_injective _ _ _ _ _ digits_faithful _ K _ I _ L _ E).
    + intros [a|] [b|] _ _; cbn; intros E'; try discriminate; auto; injection E' as ->; auto.
    + apply constructible_wf; unfold wf, all_positive; cbn; intuition lra.
    + unfold control_in; cbn; repeat match goal with |- _ /\ _ => split end; repeat (apply Forall_cons || apply Forall_nil); auto.
    + apply Nat.leb_le; reflexivity.
Qed.

(** C58: the Pauli algebra *)
Theorem C58_pauli :
  mmul SIGMA_X SIGMA_X = mone /\ mmul SIGMA_Y SIGMA_Y = mone /\ mmul SIGMA_Z SIGMA_Z = mone /\
  mmul SIGMA_X SIGMA_Y = mscale Ci SIGMA_Z /\ mmul SIGMA_Y SIGMA_Z = mscale Ci SIGMA_X /\
  mmul SIGMA_Z SIGMA_X = mscale Ci SIGMA_Y /\
  anticommute SIGMA_X SIGMA_Y /\ anticommute SIGMA_Y SIGMA_Z /\ anticommute SIGMA_Z SIGMA_X /\
  madj SIGMA_X = SIGMA_X /\ madj SIGMA_Y = SIGMA_Y /\ madj SIGMA_Z = SIGMA_Z /\
  SIGMA_X = pauli_x /\ SIGMA_Y = pauli_y /\ SIGMA_Z = pauli_z /\
  (forall x y z, hamiltonian x y z =
     mscale (RtoC (1 / 2)) (madd (mscale (RtoC x) SIGMA_X)
        (madd (mscale (RtoC y) SIGMA_Y) (mscale (RtoC z) SIGMA_Z)))).
Proof. exact pauli_constants. Qed.
Print Assumptions C58_pauli.

(** C58: the ladder operators *)
Theorem C58_ladder :
  SIGMA_M = mscale (RtoC (1 / 2)) (madd SIGMA_X (mscale Ci SIGMA_Y)) /\
  SIGMA_P = mscale (RtoC (1 / 2)) (madd SIGMA_X (mscale (- Ci)%C SIGMA_Y)) /\
  madj SIGMA_M = SIGMA_P /\ mmul SIGMA_M SIGMA_M = mzero /\ mmul SIGMA_P SIGMA_P = mzero /\
  madd (mmul SIGMA_M SIGMA_P) (mmul SIGMA_P SIGMA_M) = mone /\
  madd (mmul SIGMA_M SIGMA_P) (mscale (RtoC (-1)) (mmul SIGMA_P SIGMA_M)) = SIGMA_Z.
Proof. exact ladder_constants. Qed.
Print Assumptions C58_ladder.

(** C58: the documented Hamiltonian is the one with amplitudes (x, y) when SIGMA_P stands for sigma_- and SIGMA_M for sigma_+; missing: with the constants as named (refuted below) *)
Theorem C58_hamiltonian_partial :
  forall omega phi delta,
  documented_hamiltonian SIGMA_P SIGMA_M omega phi delta =
  hamiltonian (omega * cos phi) (omega * sin phi) delta.
Proof. exact documented_hamiltonian_exchanged. Qed.
Print Assumptions C58_hamiltonian_partial.

(** C58: with the constants as named the sign of the y amplitude is reversed *)
Theorem C58_hamiltonian_sign :
  forall omega phi delta,
  documented_hamiltonian SIGMA_M SIGMA_P omega phi delta =
  hamiltonian (omega * cos phi) (- (omega * sin phi)) delta.
Proof. exact documented_hamiltonian_sign. Qed.
Print Assumptions C58_hamiltonian_sign.

(** C58: so the claim is false for the constants as named *)
Theorem C58_hamiltonian_refuted :
  exists omega phi delta, 0 < omega /\
  documented_hamiltonian SIGMA_M SIGMA_P omega phi delta <>
  hamiltonian (omega * cos phi) (omega * sin phi) delta.
Proof. exact documented_hamiltonian_differs. Qed.
Print Assumptions C58_hamiltonian_refuted.

Example C58_case : documented_hamiltonian SIGMA_P SIGMA_M 2 (PI / 2) 1 = hamiltonian 0 2 1.
Proof. rewrite documented_hamiltonian_exchanged, cos_PI2, sin_PI2; f_equal; ring. Qed.

