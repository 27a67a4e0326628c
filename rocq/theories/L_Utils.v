(** * Proofs about messages, representations and constants *)

From Verif Require Export Spec_Utils L_DrivenControl L_DDS.
From Coq Require Import Ascii Lia.
Import ListNotations.
Open Scope string_scope.
Open Scope list_scope.

(** ** Strings *)

Lemma str_app_assoc (a b c : string) : ((a ++ b) ++ c = a ++ b ++ c)%string.
Proof. induction a; simpl; congruence. Qed.
Lemma str_app_nil (a : string) : (a ++ "" = a)%string.
Proof. induction a; simpl; congruence. Qed.
Lemma str_app_inj_l (a b c : string) : (a ++ b = a ++ c)%string -> b = c.
Proof. induction a; simpl; intros H; auto; injection H; auto. Qed.
Lemma str_app_inj_r (a b c : string) : (a ++ c = b ++ c)%string -> a = b.
Proof.
  assert (L : forall x y : string, String.length (x ++ y) = (String.length x + String.length y)%nat).
  { induction x; simpl; intros; auto. }
  revert b; induction a as [|x a IH]; intros [|y b] H; auto.
  - exfalso; apply (f_equal String.length) in H; simpl in H; rewrite L in H; lia.
  - exfalso; apply (f_equal String.length) in H; simpl in H; rewrite L in H; lia.
  - simpl in H; injection H as -> H; f_equal; apply IH; auto.
Qed.

Lemma free_of_app ch a b : free_of ch (a ++ b) <-> free_of ch a /\ free_of ch b.
Proof. induction a; simpl; tauto. Qed.

Lemma split_at ch a b r r' :
  free_of ch a -> free_of ch b -> (a ++ String ch r = b ++ String ch r')%string -> a = b /\ r = r'.
Proof.
  revert b; induction a as [|x a IH]; intros [|y b] Ha Hb H; simpl in *.
  - injection H as ->; auto.
  - injection H as -> _; tauto.
  - injection H as -> _; tauto.
  - injection H as -> H; destruct (IH b) as [-> ->]; tauto.
Qed.

Lemma lines_free s : free_of newline_char s -> lines s = [s].
Proof.
  induction s as [|a s IH]; simpl; auto; intros [H1 H2].
  destruct (ascii_dec a newline_char); [tauto|]; rewrite IH; auto.
Qed.

Lemma lines_app a b : free_of newline_char a ->
  lines (a ++ newline ++ b) = a :: lines b.
Proof.
  intros H; induction a as [|x a IH].
  - cbn [String.append newline lines].
    destruct (ascii_dec (ascii_of_nat 10) newline_char) as [|N]; [reflexivity|destruct N; reflexivity].
  - destruct H as [H1 H2]; specialize (IH H2).
    change ((String x a ++ newline ++ b)%string) with (String x (a ++ newline ++ b)).
    cbn [lines]; destruct (ascii_dec x newline_char); [tauto|]; rewrite IH; reflexivity.
Qed.

Lemma entry_line kv : one_line kv -> free_of newline_char (entry kv).
Proof.
  intros [A B]; unfold entry; rewrite !free_of_app; repeat split; auto.
  simpl; intuition discriminate.
Qed.

(** ** Error messages *)

(** description followed by one line per item *)
Definition message_text (description : string) (items : list (string * string)) : string :=
  String.concat newline (description :: map entry items).

Lemma append_items_text d items : append_items d items = message_text d items.
Proof.
  unfold append_items, message_text; revert d.
  induction items as [|kv l IH]; intros d; cbn [fold_left]; [reflexivity|].
  rewrite IH; cbn [map].
  change (String.concat newline (d :: entry kv :: map entry l))
    with (d ++ newline ++ String.concat newline (entry kv :: map entry l))%string.
  fold (entry kv); destruct (map entry l) as [|e m] eqn:E.
  - reflexivity.
  - change (String.concat newline ((d ++ newline ++ entry kv) :: e :: m)%string)
      with ((d ++ newline ++ entry kv) ++ newline ++ String.concat newline (e :: m))%string.
    change (String.concat newline (entry kv :: e :: m))
      with (entry kv ++ newline ++ String.concat newline (e :: m))%string.
    rewrite !str_app_assoc; reflexivity.
Qed.

Lemma append_items_app d a b : append_items (append_items d a) b = append_items d (a ++ b).
Proof. unfold append_items; rewrite fold_left_app; reflexivity. Qed.

Lemma error_message_text d args extras :
  error_message d args extras = message_text d (args ++ dict_entries extras).
Proof.
  rewrite <- append_items_text; unfold error_message, dict_entries; destruct extras.
  - apply append_items_app.
  - rewrite app_nil_r; reflexivity.
Qed.

Theorem check_arguments_spec condition description args extras :
  (condition = true -> check_arguments_values condition description args extras = None) /\
  (condition = false -> exists e,
     check_arguments_values condition description args extras = Some e /\
     err_description e = description /\ err_arguments e = args /\ err_extras e = extras /\
     err_message e = String.concat newline (description :: map entry (args ++ dict_entries extras))).
Proof.
  split; intros ->; [reflexivity|].
  eexists; split; [reflexivity|]; split; [reflexivity|]; split; [reflexivity|]; split; [reflexivity|].
  apply error_message_text.
Qed.

Lemma lines_message d items :
  free_of newline_char d -> Forall one_line items ->
  lines (message_text d items) = d :: map entry items.
Proof.
  unfold message_text; revert d; induction items as [|kv l IH]; intros d H F.
  - apply lines_free; exact H.
  - inversion F; subst; cbn [map].
    change (String.concat newline (d :: entry kv :: map entry l))
      with (d ++ newline ++ String.concat newline (entry kv :: map entry l))%string.
    rewrite lines_app; auto; f_equal; apply IH; auto; apply entry_line; auto.
Qed.

Theorem message_lines description args extras e :
  check_arguments_values false description args extras = Some e ->
  free_of newline_char description -> Forall one_line (args ++ dict_entries extras) ->
  lines (err_message e) = description :: map entry (args ++ dict_entries extras).
Proof.
  intros E D F; injection E as <-; cbn [err_message new_arguments_error].
  rewrite error_message_text; apply lines_message; auto.
Qed.

(** the exceptions of the rest of the model are these, without the values *)
Theorem check_arguments_names condition description args extras :
  check_arguments condition description (map fst args) (map fst (dict_entries extras)) =
  match check_arguments_values condition description args extras with
  | None => Ok tt
  | Some e => Raise (ArgumentsValueError (err_description e) (map fst (err_arguments e))
                       (map fst (dict_entries (err_extras e))))
  end.
Proof. destruct condition; reflexivity. Qed.

(** ** Representations *)

Lemma str_join_concat sep l : str_join sep l = String.concat sep l.
Proof.
  induction l as [|x [|y l] IH]; auto.
Qed.

Lemma find_strings names :
  find (fun a => negb (attr_is_str a)) (map AttrStr names) = None.
Proof. induction names; auto. Qed.

Lemma attribute_strings_ok reprs names values :
  Forall2 (fun n v => reprs n = Some v) names values ->
  attribute_strings reprs (map AttrStr names) = Ok (map entry (combine names values)).
Proof.
  induction 1 as [|n v names values H _ IH]; auto.
  cbn [map attribute_strings attr_name combine]; rewrite H, IH; reflexivity.
Qed.

Lemma attribute_strings_missing reprs names n :
  In n names -> reprs n = None ->
  exists m, In m names /\ reprs m = None /\
    attribute_strings reprs (map AttrStr names) = Raise (AttributeError m).
Proof.
  induction names as [|x l IH]; intros I E; [destruct I|].
  cbn [map attribute_strings attr_name]; destruct (reprs x) as [v|] eqn:X.
  - destruct I as [->|I]; [congruence|]; destruct (IH I E) as [m [A [B C]]].
    exists m; split; [right; auto|]; split; auto; rewrite C; reflexivity.
  - exists x; split; [left; auto|]; auto.
Qed.

Theorem repr_of_attributes class reprs :
  (forall names values, names <> [] -> Forall2 (fun n v => reprs n = Some v) names values ->
     create_repr_from_attributes (Some (class, reprs)) (Some (map AttrStr names)) =
     Ok (call_text class (combine names values))) /\
  create_repr_from_attributes (Some (class, reprs)) (Some []) =
    Ok ("No attributes provided for object of class " ++ class)%string /\
  (forall names n, In n names -> reprs n = None -> exists m,
     In m names /\ reprs m = None /\
     create_repr_from_attributes (Some (class, reprs)) (Some (map AttrStr names)) =
     Raise (AttributeError m)).
Proof.
  split; [|split].
  - intros names values N F; unfold create_repr_from_attributes.
    destruct names as [|n names]; [congruence|]; cbn [map].
    change (AttrStr n :: map AttrStr names) with (map AttrStr (n :: names)).
    rewrite find_strings, (attribute_strings_ok _ _ _ F); cbn [bind].
    rewrite str_join_concat; reflexivity.
  - reflexivity.
  - intros names n I E; destruct (attribute_strings_missing _ _ _ I E) as [m [A [B C]]].
    exists m; split; auto; split; auto; unfold create_repr_from_attributes.
    destruct names as [|x names]; [destruct I|]; cbn [map].
    change (AttrStr x :: map AttrStr names) with (map AttrStr (x :: names)).
    rewrite find_strings, C; reflexivity.
Qed.

Theorem repr_rejects :
  (forall attributes, create_repr_from_attributes None attributes =
     Raise (ArgumentsValueError "Class instance must be a valid object." ["class_instance"] [])) /\
  (forall object, create_repr_from_attributes (Some object) None =
     Raise (ArgumentsValueError "Attributes must be a list of string" ["attributes"] [])) /\
  (forall object names t rest,
     create_repr_from_attributes (Some object) (Some (map AttrStr names ++ AttrOther t :: rest)) =
     Raise (ArgumentsValueError ("Each attribute name must be a string. Found " ++ t ++ " type.")%string
              ["attribute"; "type(attribute)"] [])).
Proof.
  split; [reflexivity|]; split; [intros [? ?]; reflexivity|].
  intros [class reprs] names t rest; unfold create_repr_from_attributes.
  assert (F : find (fun a => negb (attr_is_str a)) (map AttrStr names ++ AttrOther t :: rest)
              = Some (AttrOther t)).
  { induction names; auto. }
  destruct names as [|n names]; cbn [map app] in *; [reflexivity|].
  rewrite F; reflexivity.
Qed.

Lemma driven_repr_text ra rn c :
  driven_control_repr ra rn c =
  Ok (call_text "DrivenControl"
        [("rabi_rates", ra (rabi_rates c)); ("azimuthal_angles", ra (azimuthal_angles c));
         ("detunings", ra (detunings c)); ("durations", ra (durations c));
         ("name", rn (dc_name c))]).
Proof.
  unfold driven_control_repr.
  rewrite (proj1 (repr_of_attributes _ _) _
     [ra (rabi_rates c); ra (azimuthal_angles c); ra (detunings c); ra (durations c); rn (dc_name c)]).
  - reflexivity.
  - discriminate.
  - repeat constructor.
Qed.

Lemma dds_repr_text rf ra rn s :
  dds_repr rf ra rn s =
  Ok (call_text "DynamicDecouplingSequence"
        [("duration", rf (seq_duration s)); ("offsets", ra (offsets s));
         ("rabi_rotations", ra (rabi_rotations s)); ("azimuthal_angles", ra (seq_azimuthal_angles s));
         ("detuning_rotations", ra (detuning_rotations s)); ("name", rn (seq_name s))]).
Proof.
  unfold dds_repr.
  rewrite (proj1 (repr_of_attributes _ _) _
     [rf (seq_duration s); ra (offsets s); ra (rabi_rotations s); ra (seq_azimuthal_angles s);
      ra (detuning_rotations s); rn (seq_name s)]).
  - reflexivity.
  - discriminate.
  - repeat constructor.
Qed.

(** [repr] shows the constructor call that recreates the object *)
Theorem driven_repr ra rn c :
  constructible c ->
  driven_control_repr ra rn c =
    Ok (call_text "DrivenControl"
          [("rabi_rates", ra (rabi_rates c)); ("azimuthal_angles", ra (azimuthal_angles c));
           ("detunings", ra (detunings c)); ("durations", ra (durations c));
           ("name", rn (dc_name c))]) /\
  DrivenControl (durations c) (Some (rabi_rates c)) (Some (azimuthal_angles c))
    (Some (detunings c)) (dc_name c) = Ok c.
Proof.
  intros K; split; [apply driven_repr_text|].
  apply constructible_wf in K; destruct K as [H1 [H2 [H3 [H4 H5]]]].
  rewrite DrivenControl_ok; [destruct c; reflexivity|].
  unfold valid_inputs, fits, all_nonnegative; repeat split; auto;
    intros l E; injection E as <-; auto.
Qed.

Theorem sequence_repr rf ra rn s :
  constructible_sequence s ->
  dds_repr rf ra rn s =
    Ok (call_text "DynamicDecouplingSequence"
          [("duration", rf (seq_duration s)); ("offsets", ra (offsets s));
           ("rabi_rotations", ra (rabi_rotations s)); ("azimuthal_angles", ra (seq_azimuthal_angles s));
           ("detuning_rotations", ra (detuning_rotations s)); ("name", rn (seq_name s))]) /\
  DynamicDecouplingSequence (seq_duration s) (offsets s) (rabi_rotations s)
    (seq_azimuthal_angles s) (detuning_rotations s) (seq_name s) = Ok s.
Proof.
  intros K; split; [apply dds_repr_text|].
  apply constructible_well_formed in K; rewrite DDS_ok; [destruct s; reflexivity|exact K].
Qed.

(** a call text determines its values when only the last may contain '=' *)
Lemma concat_cons2 sep (a b : string) l :
  String.concat sep (a :: b :: l) = (a ++ sep ++ String.concat sep (b :: l))%string.
Proof. reflexivity. Qed.

Lemma concat_first kv l : exists r,
  String.concat "," (map entry (kv :: l)) = (fst kv ++ "=" ++ r)%string.
Proof.
  destruct l as [|kv' l].
  - exists (snd kv); reflexivity.
  - exists (snd kv ++ "," ++ String.concat "," (map entry (kv' :: l)))%string.
    cbn [map]; rewrite concat_cons2; unfold entry; rewrite !str_app_assoc; reflexivity.
Qed.

Lemma call_text_inj class l l' :
  map fst l = map fst l' ->
  Forall (fun kv => free_of equals_char (fst kv)) l ->
  Forall (fun kv => free_of equals_char (snd kv)) (removelast l) ->
  Forall (fun kv => free_of equals_char (snd kv)) (removelast l') ->
  call_text class l = call_text class l' -> l = l'.
Proof.
  unfold call_text; intros K FK F F' E.
  apply str_app_inj_l, str_app_inj_l, str_app_inj_r in E.
  revert l' K F' E; induction l as [|[k v] l IH]; intros [|[k' v'] l'] K F' E;
    try discriminate; auto.
  injection K as <- K; destruct l as [|kv l]; destruct l' as [|kv' l']; try discriminate.
  - cbn [map String.concat entry fst snd] in E; unfold entry in E; cbn [fst snd] in E.
    apply str_app_inj_l, str_app_inj_l in E; subst; auto.
  - change (removelast ((k, v) :: kv :: l)) with ((k, v) :: removelast (kv :: l)) in F.
    change (removelast ((k, v') :: kv' :: l')) with ((k, v') :: removelast (kv' :: l')) in F'.
    inversion F as [|? ? Fv Fl]; inversion F' as [|? ? Fv' Fl']; inversion FK as [|? ? Fk FKl]; subst.
    cbn [fst snd] in *; injection K as K1 K2.
    cbn [map] in E; rewrite !concat_cons2 in E; 
    change (entry (k, v)) with (k ++ "=" ++ v)%string in E.
    change (entry (k, v')) with (k ++ "=" ++ v')%string in E.
    rewrite !str_app_assoc in E; apply str_app_inj_l, str_app_inj_l in E.
    change (entry kv :: map entry l) with (map entry (kv :: l)) in E.
    change (entry kv' :: map entry l') with (map entry (kv' :: l')) in E.
    assert (E0 := E).
    destruct (concat_first kv l) as [r R]; destruct (concat_first kv' l') as [r' R'].
    rewrite R, R', <- K1 in E.
    assert (X := split_at equals_char (v ++ "," ++ fst kv)%string (v' ++ "," ++ fst kv)%string r r').
    rewrite !str_app_assoc in X; destruct X as [X1 X2].
    + rewrite !free_of_app; inversion FKl; subst; repeat split; auto; simpl; intuition discriminate.
    + rewrite !free_of_app; inversion FKl; subst; repeat split; auto; simpl; intuition discriminate.
    + exact E.
    + rewrite <- !str_app_assoc in X1; apply str_app_inj_r, str_app_inj_r in X1; subst v' r'.
      apply str_app_inj_l, str_app_inj_l in E0.
      f_equal; apply IH; auto; simpl; congruence.
Qed.

Ltac equals_free := repeat (apply Forall_cons || apply Forall_nil); simpl; intuition discriminate.

(** [repr] identifies the object *)
Theorem driven_repr_injective F ra rn c c' :
  faithful_arrays F ra -> faithful_on (fun _ => True) rn ->
  constructible c -> constructible c' -> control_in F c -> control_in F c' ->
  (List.length (durations c) <= 1000)%nat -> (List.length (durations c') <= 1000)%nat ->
  driven_control_repr ra rn c = driven_control_repr ra rn c' -> c = c'.
Proof.
  intros [FA NA] FN K K' I I' L L' E; rewrite !driven_repr_text in E;
    apply (f_equal (fun r => match r with Ok a => a | Raise _ => "" end)) in E; cbn beta iota in E.
  apply constructible_wf in K, K'; destruct K as [H1 [H2 [H3 _]]]; destruct K' as [J1 [J2 [J3 _]]].
  apply call_text_inj in E.
  - injection E as E1 E2 E3 E4 E5; 
    destruct I as [I1 [I2 [I3 I4]]]; destruct I' as [I1' [I2' [I3' I4']]].
    apply FA in E1, E2, E3, E4; try congruence; try lia; apply FN in E5; auto.
    destruct c, c'; cbn in *; congruence.
  - reflexivity.
  - equals_free.
  - cbn [removelast]; repeat (apply Forall_cons || apply Forall_nil); cbn [snd]; auto.
  - cbn [removelast]; repeat (apply Forall_cons || apply Forall_nil); cbn [snd]; auto.
Qed.

Theorem sequence_repr_injective F rf ra rn s s' :
  faithful_on F rf -> (forall x, free_of equals_char (rf x)) ->
  faithful_arrays F ra -> faithful_on (fun _ => True) rn ->
  constructible_sequence s -> constructible_sequence s' -> sequence_in F s -> sequence_in F s' ->
  (List.length (offsets s) <= 1000)%nat -> (List.length (offsets s') <= 1000)%nat ->
  dds_repr rf ra rn s = dds_repr rf ra rn s' -> s = s'.
Proof.
  intros FF NF [FA NA] FN K K' I I' L L' E; rewrite !dds_repr_text in E;
    apply (f_equal (fun r => match r with Ok a => a | Raise _ => "" end)) in E; cbn beta iota in E.
  apply constructible_well_formed in K, K'; destruct K as [_ [_ [H1 [H2 H3]]]]; destruct K' as [_ [_ [J1 [J2 J3]]]].
  apply call_text_inj in E.
  - injection E as E0 E1 E2 E3 E4 E5; 
    destruct I as [I0 [I1 [I2 [I3 I4]]]]; destruct I' as [I0' [I1' [I2' [I3' I4']]]].
    apply FA in E1, E2, E3, E4; try congruence; try lia.
    apply FN in E5; auto; apply FF in E0; auto.
    destruct s, s'; cbn in *; congruence.
  - reflexivity.
  - equals_free.
  - cbn [removelast]; repeat (apply Forall_cons || apply Forall_nil); cbn [snd]; auto.
  - cbn [removelast]; repeat (apply Forall_cons || apply Forall_nil); cbn [snd]; auto.
Qed.

(** ** Constants *)

Theorem pauli_constants :
  mmul SIGMA_X SIGMA_X = mone /\ mmul SIGMA_Y SIGMA_Y = mone /\ mmul SIGMA_Z SIGMA_Z = mone /\
  mmul SIGMA_X SIGMA_Y = mscale Ci SIGMA_Z /\ mmul SIGMA_Y SIGMA_Z = mscale Ci SIGMA_X /\
  mmul SIGMA_Z SIGMA_X = mscale Ci SIGMA_Y /\
  anticommute SIGMA_X SIGMA_Y /\ anticommute SIGMA_Y SIGMA_Z /\ anticommute SIGMA_Z SIGMA_X /\
  madj SIGMA_X = SIGMA_X /\ madj SIGMA_Y = SIGMA_Y /\ madj SIGMA_Z = SIGMA_Z /\
  SIGMA_X = pauli_x /\ SIGMA_Y = pauli_y /\ SIGMA_Z = pauli_z /\
  (forall x y z, hamiltonian x y z =
     mscale (RtoC (1 / 2)) (madd (mscale (RtoC x) SIGMA_X)
        (madd (mscale (RtoC y) SIGMA_Y) (mscale (RtoC z) SIGMA_Z)))).
Proof.
  unfold anticommute; repeat match goal with |- _ /\ _ => split end; intros;
    m_real; ring.
Qed.

Theorem ladder_constants :
  SIGMA_M = mscale (RtoC (1 / 2)) (madd SIGMA_X (mscale Ci SIGMA_Y)) /\
  SIGMA_P = mscale (RtoC (1 / 2)) (madd SIGMA_X (mscale (- Ci)%C SIGMA_Y)) /\
  madj SIGMA_M = SIGMA_P /\ mmul SIGMA_M SIGMA_M = mzero /\ mmul SIGMA_P SIGMA_P = mzero /\
  madd (mmul SIGMA_M SIGMA_P) (mmul SIGMA_P SIGMA_M) = mone /\
  madd (mmul SIGMA_M SIGMA_P) (mscale (RtoC (-1)) (mmul SIGMA_P SIGMA_M)) = SIGMA_Z.
Proof.
  repeat match goal with |- _ /\ _ => split end; m_real; field.
Qed.

(** with the package's ladder operators exchanged, the documented Hamiltonian
    is the one that generates the documented rotation *)
Theorem documented_hamiltonian_exchanged omega phi delta :
  documented_hamiltonian SIGMA_P SIGMA_M omega phi delta =
  hamiltonian (omega * cos phi) (omega * sin phi) delta.
Proof. m_real; rewrite ?cos_neg, ?sin_neg; field. Qed.

(** as documented, the azimuthal angle turns the other way *)
Theorem documented_hamiltonian_sign omega phi delta :
  documented_hamiltonian SIGMA_M SIGMA_P omega phi delta =
  hamiltonian (omega * cos phi) (- (omega * sin phi)) delta.
Proof. m_real; rewrite ?cos_neg, ?sin_neg; field. Qed.

Theorem documented_hamiltonian_differs :
  exists omega phi delta, 0 < omega /\
  documented_hamiltonian SIGMA_M SIGMA_P omega phi delta <>
  hamiltonian (omega * cos phi) (omega * sin phi) delta.
Proof.
  exists 1, (PI / 2), 0; split; [lra|]; rewrite documented_hamiltonian_sign, sin_PI2, cos_PI2.
  intros E; apply (f_equal (fun m => snd (m10 m))) in E; simpl in E; lra.
Qed.
