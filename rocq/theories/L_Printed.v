(** * Printed forms determine controls and sequences *)

From Verif Require Export L_Utils L_DrivenExport.
From Coq Require Import Ascii Lia.
Import ListNotations.
Open Scope string_scope.
Open Scope list_scope.
Open Scope R_scope.

Lemma lines_concat ls : ls <> [] -> Forall (free_of newline_char) ls ->
  lines (String.concat newline ls) = ls.
Proof.
  intros N F; induction F as [|l ls Fl F IH]; [congruence|].
  destruct ls as [|m ls].
  - apply lines_free; auto.
  - rewrite concat_cons2, lines_app by auto; f_equal; apply IH; discriminate.
Qed.

(** joining with a separator that starts with a character absent from the items *)
Lemma concat_inj ch rest l l' :
  Forall (fun s => s <> ""%string /\ free_of ch s) l -> Forall (fun s => s <> ""%string /\ free_of ch s) l' ->
  String.concat (String ch rest) l = String.concat (String ch rest) l' -> l = l'.
Proof.
  intros F; revert l'; induction F as [|a l [Na Fa] F IH]; intros l' F' E.
  - destruct F' as [|b l' [Nb Fb] F']; auto; exfalso.
    destruct l'; [cbn in E; congruence|].
    rewrite concat_cons2 in E; destruct b; [congruence|discriminate].
  - destruct F' as [|b l' [Nb Fb] F'].
    + exfalso; destruct l; [cbn in E; congruence|].
      rewrite concat_cons2 in E; destruct a; [congruence|discriminate].
    + destruct l as [|a2 l]; destruct l' as [|b2 l'].
      * cbn in E; subst; auto.
      * exfalso; rewrite concat_cons2 in E; cbn [String.concat] in E.
        rewrite E in Fa; apply free_of_app in Fa; destruct Fa as [_ Fa]; cbn in Fa; tauto.
      * exfalso; rewrite concat_cons2 in E; cbn [String.concat] in E.
        rewrite <- E in Fb; apply free_of_app in Fb; destruct Fb as [_ Fb]; cbn in Fb; tauto.
      * rewrite !concat_cons2 in E.
        change (a ++ String ch (rest ++ String.concat (String ch rest) (a2 :: l)) =
                b ++ String ch (rest ++ String.concat (String ch rest) (b2 :: l')))%string in E.
        apply split_at in E; auto; destruct E as [-> E]; apply str_app_inj_l in E.
        f_equal; apply IH; auto.
Qed.

Lemma free_of_concat ch sep l :
  free_of ch sep -> Forall (free_of ch) l -> free_of ch (String.concat sep l).
Proof.
  intros S F; induction F as [|a l Fa F IH]; [exact I|].
  destruct l as [|b l]; [exact Fa|].
  rewrite concat_cons2, !free_of_app; auto.
Qed.

Lemma map_fmt_inj (F : R -> Prop) fmt l l' :
  faithful_on F fmt -> Forall F l -> Forall F l' -> map fmt l = map fmt l' -> l = l'.
Proof.
  intros I A; revert l'; induction A as [|x l Fx A IH]; intros l' B E; destruct B as [|y l' Fy B];
    try discriminate; auto.
  injection E as E1 E2; f_equal; auto.
Qed.

Lemma map_div_inj k l l' : k <> 0 ->
  map (fun x => x / k) l = map (fun x => x / k) l' -> l = l'.
Proof.
  intros K; revert l'; induction l as [|x l IH]; intros [|y l'] E; try discriminate; auto.
  injection E as E1 E2; f_equal; auto.
  apply (f_equal (fun z => z * k)) in E1; field_simplify in E1; auto.
Qed.

Section Lines.
  Context (F : R -> Prop) (fmt : R -> string) (P : printable F fmt).

  Lemma list_line_inj rest title ns ns' sc sc' :
    Forall F ns -> Forall F ns' -> free_of "]"%char rest -> 
    list_line fmt (String ","%char rest) title ns sc = list_line fmt (String ","%char rest) title ns' sc' ->
    ns = ns' /\ sc = sc'.
  Proof.
    destruct P as [I Q]; intros A B R E; unfold list_line in E.
    apply str_app_inj_l, str_app_inj_l in E.
    change ((String.concat (String "," rest) (map fmt ns) ++ String "]" (" x " ++ sc)) =
            (String.concat (String "," rest) (map fmt ns') ++ String "]" (" x " ++ sc')))%string in E.
    apply split_at in E.
    - destruct E as [E1 E2]; apply str_app_inj_l in E2; split; auto.
      apply concat_inj in E1.
      + apply (map_fmt_inj F fmt); auto.
      + apply Forall_forall; intros s S; apply in_map_iff in S; destruct S as [x [<- _]]; split; apply Q.
      + apply Forall_forall; intros s S; apply in_map_iff in S; destruct S as [x [<- _]]; split; apply Q.
    - apply free_of_concat; [cbn; split; [discriminate|auto]|].
      apply Forall_forall; intros s S; apply in_map_iff in S; destruct S as [x [<- _]]; apply Q.
    - apply free_of_concat; [cbn; split; [discriminate|auto]|].
      apply Forall_forall; intros s S; apply in_map_iff in S; destruct S as [x [<- _]]; apply Q.
  Qed.

  Lemma list_line_free rest title ns sc :
    free_of newline_char title -> free_of newline_char sc -> free_of newline_char rest ->
    free_of newline_char (list_line fmt (String ","%char rest) title ns sc).
  Proof.
    destruct P as [I Q]; intros A B C; unfold list_line; rewrite !free_of_app.
    repeat match goal with |- _ /\ _ => split end; auto; try (cbn; intuition discriminate).
    apply free_of_concat; [cbn; split; [discriminate|auto]|].
    apply Forall_forall; intros s S; apply in_map_iff in S; destruct S as [x [<- _]]; apply Q.
  Qed.
End Lines.

Lemma name_lines_free o : one_line_name o -> Forall (free_of newline_char) (name_lines o).
Proof.
  intros N; destruct o as [n|]; cbn; constructor; auto.
  rewrite free_of_app; split; [apply N; auto|cbn; intuition discriminate].
Qed.

Lemma name_lines_inj o o' : name_lines o = name_lines o' -> o = o'.
Proof.
  destruct o, o'; cbn; intros E; try discriminate; auto.
  injection E as E; apply str_app_inj_r in E; congruence.
Qed.

(** same number of remaining lines *)
Lemma app_inv_same {A} (a b c d : list A) : List.length c = List.length d -> a ++ c = b ++ d -> a = b /\ c = d.
Proof.
  revert b; induction a as [|x a IH]; intros [|y b] L E; cbn in *; auto.
  - exfalso; subst c; cbn in L; rewrite app_length in L; lia.
  - exfalso; subst d; cbn in L; rewrite app_length in L; lia.
  - injection E as -> E; destruct (IH b L E) as [-> ->]; auto.
Qed.

(** ** Sequences *)

Definition sequence_lines (fmt : R -> string) (s : dds) : list string :=
  [("Duration = " ++ fmt (seq_duration s))%string;
   list_line fmt ", " "Offsets" (map (fun x => x / seq_duration s) (offsets s)) (fmt (seq_duration s));
   list_line fmt ", " "Rabi Rotations" (map (fun x => x / PI) (rabi_rotations s)) "pi";
   list_line fmt ", " "Azimuthal Angles" (map (fun x => x / PI) (seq_azimuthal_angles s)) "pi";
   list_line fmt ", " "Detuning Rotations" (map (fun x => x / PI) (detuning_rotations s)) "pi"].

Theorem sequence_str fmt s :
  dds_str fmt s = String.concat newline (name_lines (seq_name s) ++
    [("Duration = " ++ fmt (seq_duration s))%string;
     list_line fmt ", " "Offsets" (map (fun x => x / seq_duration s) (offsets s)) (fmt (seq_duration s));
     list_line fmt ", " "Rabi Rotations" (map (fun x => x / PI) (rabi_rotations s)) "pi";
     list_line fmt ", " "Azimuthal Angles" (map (fun x => x / PI) (seq_azimuthal_angles s)) "pi";
     list_line fmt ", " "Detuning Rotations" (map (fun x => x / PI) (detuning_rotations s)) "pi"]).
Proof.
  unfold dds_str, list_line, array_to_str; destruct (seq_name s); reflexivity.
Qed.

Theorem sequence_str_determines F fmt s s' :
  printable F fmt -> constructible_sequence s -> constructible_sequence s' ->
  one_line_name (seq_name s) -> one_line_name (seq_name s') ->
  sequence_printed_in F s -> sequence_printed_in F s' ->
  dds_str fmt s = dds_str fmt s' -> s = s'.
Proof.
  intros P K K' N N' I I' E; rewrite !sequence_str in E.
  assert (G : forall t, one_line_name (seq_name t) ->
     Forall (free_of newline_char) (name_lines (seq_name t) ++ sequence_lines fmt t)).
  { intros t Nt; apply Forall_app; split; [apply name_lines_free; auto|].
    assert (Q := P); destruct Q as [_ Q]; unfold sequence_lines.
    repeat (apply Forall_cons || apply Forall_nil); try (apply (list_line_free F); auto; try apply Q; cbn; intuition discriminate).
    rewrite free_of_app; split; [cbn; intuition discriminate|apply Q]. }
  apply (f_equal lines) in E.
  rewrite lines_concat, lines_concat in E.
  2: destruct (name_lines (seq_name s')); discriminate.
  2: apply G; auto.
  2: destruct (name_lines (seq_name s)); discriminate.
  2: apply G; auto.
  apply app_inv_same in E; [|reflexivity]; destruct E as [E0 E]; apply name_lines_inj in E0.
  assert (E1 : ("Duration = " ++ fmt (seq_duration s) = "Duration = " ++ fmt (seq_duration s'))%string)
    by exact (f_equal (fun l => nth 0 l ""%string) E).
  assert (E2 := f_equal (fun l => nth 1 l ""%string) E); cbn [nth] in E2.
  assert (E3 := f_equal (fun l => nth 2 l ""%string) E); cbn [nth] in E3.
  assert (E4 := f_equal (fun l => nth 3 l ""%string) E); cbn [nth] in E4.
  assert (E5 := f_equal (fun l => nth 4 l ""%string) E); cbn [nth] in E5.
  destruct I as [I1 [I2 [I3 [I4 I5]]]]; destruct I' as [J1 [J2 [J3 [J4 J5]]]].
  apply str_app_inj_l in E1; apply (proj1 P) in E1; auto.
  apply (list_line_inj F fmt P) in E2, E3, E4, E5; auto; try (cbn; intuition discriminate).
  destruct E2 as [E2 _]; destruct E3 as [E3 _]; destruct E4 as [E4 _]; destruct E5 as [E5 _].
  assert (Z := PI_neq0); rewrite <- E1 in E2; apply map_div_inj in E2, E3, E4, E5; auto.
  - destruct s, s'; cbn in *; congruence.
  - apply constructible_well_formed in K; destruct K as [K _]; lra.
Qed.

(** ** Controls *)

Definition strings_line (title : string) (strs : list string) (scale : string) : string :=
  (title ++ " = [" ++ String.concat "," strs ++ "] x " ++ scale)%string.

Definition control_lines (fmt : R -> string) (c : driven_control) (mr md : R) : list string :=
  [strings_line "Rabi Rates" (scaled_strings fmt mr (rabi_rates c)) (fmt mr);
   strings_line "Azimuthal Angles" (map fmt (map (fun x => x / PI) (azimuthal_angles c))) "pi";
   strings_line "Detunings" (scaled_strings fmt md (detunings c)) (fmt md);
   strings_line "Durations" (map fmt (map (fun x => x / total (durations c)) (durations c)))
     (fmt (total (durations c)))].

Lemma control_str fmt c mr md :
  is_maximum mr (rabi_rates c) -> is_maximum md (detunings c) ->
  driven_control_str fmt c = Ok (String.concat newline (name_lines (dc_name c) ++ control_lines fmt c mr md)).
Proof.
  intros Mr Md; unfold driven_control_str, maximum_rabi_rate, maximum_detuning.
  rewrite (proj2 (amax_is_maximum _ _) Mr), (proj2 (amax_is_maximum _ _) Md); cbn [bind].
  unfold duration; rewrite np_sum_total; unfold control_lines; rewrite !map_map.
  destruct (dc_name c); reflexivity.
Qed.

Definition plain (s : string) : Prop :=
  s <> ""%string /\ free_of ","%char s /\ free_of "]"%char s /\ free_of newline_char s.

Lemma strings_line_inj title l l' sc sc' :
  Forall plain l -> Forall plain l' -> strings_line title l sc = strings_line title l' sc' ->
  l = l' /\ sc = sc'.
Proof.
  intros A B E; unfold strings_line in E; apply str_app_inj_l, str_app_inj_l in E.
  change ((String.concat "," l ++ String "]" (" x " ++ sc)) =
          (String.concat "," l' ++ String "]" (" x " ++ sc')))%string in E.
  apply split_at in E.
  - destruct E as [E1 E2]; apply str_app_inj_l in E2; split; auto.
    apply concat_inj in E1; auto; [revert A|revert B]; apply Forall_impl; unfold plain; tauto.
  - apply free_of_concat; [cbn; split; [discriminate|auto]|].
    revert A; apply Forall_impl; unfold plain; tauto.
  - apply free_of_concat; [cbn; split; [discriminate|auto]|].
    revert B; apply Forall_impl; unfold plain; tauto.
Qed.

Lemma strings_line_free title l sc :
  free_of newline_char title -> free_of newline_char sc -> Forall plain l ->
  free_of newline_char (strings_line title l sc).
Proof.
  intros A B D; unfold strings_line; rewrite !free_of_app.
  repeat match goal with |- _ /\ _ => split end; auto; try (cbn; intuition discriminate).
  apply free_of_concat; [cbn; split; [discriminate|auto]|].
  revert D; apply Forall_impl; unfold plain; tauto.
Qed.

Lemma plain_map F fmt l : printable F fmt -> Forall plain (map fmt l).
Proof.
  intros [_ Q]; apply Forall_forall; intros s S; apply in_map_iff in S; destruct S as [x [<- _]]; apply Q.
Qed.

Lemma plain_scaled F fmt k l : printable F fmt -> Forall plain (scaled_strings fmt k l).
Proof.
  intros [_ Q]; apply Forall_forall; intros s S; apply in_map_iff in S; destruct S as [x [<- _]].
  destruct (neqb k 0); [apply Q|]; unfold plain; cbn; intuition discriminate.
Qed.

Lemma scaled_inj (F : R -> Prop) fmt k l l' :
  faithful_on F fmt -> Forall F (map (fun x => x / k) l) -> Forall F (map (fun x => x / k) l') ->
  (k = 0 -> forall x, In x l -> x = 0) -> (k = 0 -> forall x, In x l' -> x = 0) ->
  scaled_strings fmt k l = scaled_strings fmt k l' -> l = l'.
Proof.
  intros FF A B Z Z' E; destruct (Req_EM_T k 0) as [K|K].
  - assert (L : List.length l = List.length l').
    { apply (f_equal (@List.length string)) in E; unfold scaled_strings in E; rewrite !map_length in E; auto. }
    specialize (Z K); specialize (Z' K); clear - Z Z' L; revert l' Z' L.
    induction l as [|x l IH]; intros [|y l'] Z' L; try discriminate; auto.
    rewrite (Z x), (Z' y) by (left; auto); f_equal; apply IH; auto.
    + intros; apply Z; right; auto.
    + intros; apply Z'; right; auto.
  - unfold scaled_strings in E; replace (neqb k 0) with true in E.
    + rewrite <- (map_map (fun x => x / k) fmt l), <- (map_map (fun x => x / k) fmt l') in E.
      apply (map_fmt_inj F) in E; auto; apply map_div_inj in E; auto.
    + unfold neqb, PyBase.eqb; destruct (Req_EM_T k 0) as [W|W]; [destruct (K W)|reflexivity].
Qed.

(** the printed form determines the control *)
Theorem control_str_determines F fmt c c' mr mr' md md' :
  printable F fmt -> constructible c -> constructible c' ->
  is_maximum mr (rabi_rates c) -> is_maximum md (detunings c) ->
  is_maximum mr' (rabi_rates c') -> is_maximum md' (detunings c') ->
  (md = 0 -> forall x, In x (detunings c) -> x = 0) ->
  (md' = 0 -> forall x, In x (detunings c') -> x = 0) ->
  one_line_name (dc_name c) -> one_line_name (dc_name c') ->
  printed_in F c mr md -> printed_in F c' mr' md' ->
  driven_control_str fmt c = driven_control_str fmt c' -> c = c'.
Proof.
  intros P K K' Mr Md Mr' Md' Z Z' N N' I I' E.
  rewrite (control_str fmt c mr md), (control_str fmt c' mr' md') in E by auto.
  apply (f_equal (fun r => match r with Ok a => a | Raise _ => ""%string end)) in E; cbn beta iota in E.
  assert (G : forall t a b, one_line_name (dc_name t) ->
     Forall (free_of newline_char) (name_lines (dc_name t) ++ control_lines fmt t a b)).
  { intros t a b Nt; apply Forall_app; split; [apply name_lines_free; auto|].
    assert (Q := P); destruct Q as [_ Q]; unfold control_lines.
    repeat (apply Forall_cons || apply Forall_nil); apply strings_line_free;
      try apply Q; try solve [eapply plain_map; eauto | eapply plain_scaled; eauto]; cbn; intuition discriminate. }
  apply (f_equal lines) in E.
  rewrite lines_concat, lines_concat in E.
  2: destruct (name_lines (dc_name c')); discriminate.
  2: apply G; auto.
  2: destruct (name_lines (dc_name c)); discriminate.
  2: apply G; auto.
  apply app_inv_same in E; [|reflexivity]; destruct E as [E0 E]; apply name_lines_inj in E0.
  assert (E1 := f_equal (fun l => nth 0 l ""%string) E); cbn [nth control_lines] in E1.
  assert (E2 := f_equal (fun l => nth 1 l ""%string) E); cbn [nth control_lines] in E2.
  assert (E3 := f_equal (fun l => nth 2 l ""%string) E); cbn [nth control_lines] in E3.
  assert (E4 := f_equal (fun l => nth 3 l ""%string) E); cbn [nth control_lines] in E4.
  clear E; assert (Y := P); destruct Y as [FF _].
  destruct I as [I1 [I2 [I3 [I4 [I5 [I6 I7]]]]]]; destruct I' as [J1 [J2 [J3 [J4 [J5 [J6 J7]]]]]].
  apply strings_line_inj in E1, E2, E3, E4;
    try solve [eapply plain_map; eauto | eapply plain_scaled; eauto].
  destruct E1 as [E1 X1]; destruct E2 as [E2 _]; destruct E3 as [E3 X3]; destruct E4 as [E4 X4].
  apply FF in X1, X3, X4; auto; subst mr' md'.
  apply constructible_wf in K, K'; destruct K as [H1 [H2 [H3 [H4 H5]]]]; destruct K' as [G1 [G2 [G3 [G4 G5]]]].
  assert (T : 0 < total (durations c)).
  { apply nil_or_total_pos; auto; intros W; rewrite W in H1; destruct Mr as [V _].
    destruct (rabi_rates c); [contradiction|discriminate]. }
  apply (scaled_inj F) in E1, E3; auto.
  - apply (map_fmt_inj F) in E2, E4; auto.
    assert (PZ := PI_neq0); apply map_div_inj in E2; auto.
    rewrite <- X4 in E4; apply map_div_inj in E4; [|lra].
    destruct c, c'; cbn in *; congruence.
  - intros W x V; destruct Mr as [_ U]; specialize (U x V); specialize (H5 x V); lra.
  - intros W x V; destruct Mr' as [_ U]; specialize (U x V); specialize (G5 x V); lra.
Qed.
