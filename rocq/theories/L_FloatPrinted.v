(** * Printed forms in floating point: lemmas *)

From Coq Require Import ZArith Ascii Lia Lra.
From Flocq Require Import Core.
From Verif Require Import L_Float L_FloatText L_Text L_FloatProperties L_FloatExport.
From Verif Require Import L_Printed.
From Verif Require L_FloatWalsh.
From Verif Require Export Spec_FloatPrinted.
Import ListNotations.
Set Bullet Behavior "Strict Subproofs".
Open Scope string_scope.
Open Scope list_scope.
Open Scope R_scope.

Lemma number_free ch s : number_char ch = false -> (forall c, In c (list_ascii_of_string s) -> number_char c = true) -> free_of ch s.
Proof.
  intros N; induction s as [|a s IH]; cbn; intros H; [exact Logic.I|]; split; [|apply IH; auto].
  intros ->; rewrite (H _ (or_introl eq_refl)) in N; discriminate.
Qed.
Lemma text_plain x : finite_binary64 x -> plain (finite_text binary64 x).
Proof.
  intros F; destruct (number_finite x F) as [N A]; split; [exact N|].
  split; [|split]; apply number_free; auto.
Qed.
Lemma zero_plain : plain "0".
Proof. unfold plain; cbn; intuition discriminate. Qed.
Lemma text_inj x y : finite_binary64 x -> finite_binary64 y -> finite_text binary64 x = finite_text binary64 y -> x = y.
Proof.
  intros F G E; assert (Q := float_text_distinct (Fin x) (Fin y) F G E); injection Q; auto.
Qed.

Lemma ratio_same k x y : k <> 0 -> binary64 (x / k) = binary64 (y / k) -> same_ratio k x y.
Proof.
  intros K E; unfold same_ratio; assert (A := rnd_error (x / k)); assert (B := rnd_error (y / k)); rewrite E in A.
  assert (D : Rabs (x / k - y / k) <= eps * (Rabs (x / k) + Rabs (y / k)) + 2 * eta).
  { replace (x / k - y / k) with (- (binary64 (y / k) - x / k) + (binary64 (y / k) - y / k)) by ring.
    eapply Rle_trans; [apply Rabs_triang|]; rewrite Rabs_Ropp; lra. }
  assert (AK : 0 < Rabs k) by (apply Rabs_pos_lt; auto).
  assert (Q : forall z, Rabs (z / k) * Rabs k = Rabs z) by (intros z; rewrite <- Rabs_mult; f_equal; field; auto).
  apply (Rmult_le_compat_r (Rabs k)) in D; [|lra].
  replace (Rabs (x / k - y / k) * Rabs k) with (Rabs (x - y)) in D by (rewrite <- Rabs_mult; f_equal; field; auto).
  replace ((eps * (Rabs (x / k) + Rabs (y / k)) + 2 * eta) * Rabs k) with ((Rabs x + Rabs y) * eps + Rabs k * (2 * eta)) in D
    by (rewrite <- (Q x), <- (Q y); ring).
  replace eps with (/ 2 ^ 53) in D by (unfold eps; lra).
  replace (2 * eta) with (/ 2 ^ 1074) in D; [exact D|].
  unfold eta; replace 1075%nat with (S 1074) by reflexivity; cbn [pow]; field; apply pow_nonzero; lra.
Qed.

Lemma ratio_list k l l' : k <> 0 -> finite_ratios k l -> finite_ratios k l' ->
  map (fl_ratio_text binary64 k) l = map (fl_ratio_text binary64 k) l' -> Forall2 (same_ratio k) l l'.
Proof.
  intros K F; revert l'; induction F as [|x l Fx F IH]; intros l' G E; destruct G as [|y l' Gy G]; try discriminate; constructor.
  - injection E as E1 _; apply ratio_same; auto; apply text_inj; auto.
  - injection E as _ E2; apply IH; auto.
Qed.
Lemma plain_ratios k l : finite_ratios k l -> Forall plain (map (fl_ratio_text binary64 k) l).
Proof. intros F; induction F; cbn [map]; constructor; auto; apply text_plain; auto. Qed.
Lemma plain_scaled_fl k l : finite_ratios k l -> Forall plain (fl_scaled_strings binary64 k l).
Proof.
  intros F; unfold fl_scaled_strings; induction F; cbn [map]; constructor; auto.
  destruct (neqb k 0); [apply text_plain; auto|apply zero_plain].
Qed.
Lemma Forall2_same k l l' : (forall x, In x l -> x = 0) -> (forall x, In x l' -> x = 0) -> List.length l = List.length l' ->
  Forall2 (same_ratio k) l l'.
Proof.
  revert l'; induction l as [|x l IH]; intros [|y l'] Z Z' L; try discriminate; constructor.
  - rewrite (Z x), (Z' y) by (left; auto); unfold same_ratio; rewrite Rminus_0_r, Rabs_R0.
    assert (0 <= Rabs k) by apply Rabs_pos; assert (0 < / 2 ^ 1074) by (apply Rinv_0_lt_compat, pow_lt; lra).
    assert (0 <= Rabs k / 2 ^ 1074) by (apply Rmult_le_pos; lra); lra.
  - apply IH; auto; intros; [apply Z|apply Z']; right; auto.
Qed.
Lemma scaled_same k l l' : finite_ratios k l -> finite_ratios k l' ->
  (k = 0 -> forall x, In x l -> x = 0) -> (k = 0 -> forall x, In x l' -> x = 0) ->
  fl_scaled_strings binary64 k l = fl_scaled_strings binary64 k l' -> Forall2 (same_ratio k) l l'.
Proof.
  intros F F' Z Z' E; destruct (Req_EM_T k 0) as [K|K].
  - apply Forall2_same; auto; apply (f_equal (@List.length string)) in E; unfold fl_scaled_strings in E; rewrite !map_length in E; auto.
  - apply ratio_list; auto; unfold fl_scaled_strings in E.
    assert (N : neqb k 0 = true) by (unfold neqb, PyBase.eqb; destruct (Req_EM_T k 0); [contradiction|reflexivity]).
    rewrite N in E; exact E.
Qed.

Lemma row_line_inj rest title l l' sc sc' : Forall plain l -> Forall plain l' -> free_of "]"%char rest ->
  row_line (String ","%char rest) title l sc = row_line (String ","%char rest) title l' sc' -> l = l' /\ sc = sc'.
Proof.
  intros A B FR E; unfold row_line in E; apply str_app_inj_l, str_app_inj_l in E.
  change ((String.concat (String "," rest) l ++ String "]" (" x " ++ sc)) =
          (String.concat (String "," rest) l' ++ String "]" (" x " ++ sc')))%string in E.
  apply split_at in E.
  - destruct E as [E1 E2]; apply str_app_inj_l in E2; split; auto.
    apply concat_inj in E1; auto; [revert A|revert B]; apply Forall_impl; unfold plain; tauto.
  - apply free_of_concat; [cbn; split; [discriminate|auto]|]; revert A; apply Forall_impl; unfold plain; tauto.
  - apply free_of_concat; [cbn; split; [discriminate|auto]|]; revert B; apply Forall_impl; unfold plain; tauto.
Qed.
Lemma row_line_free rest title l sc : free_of newline_char title -> free_of newline_char sc -> free_of newline_char rest -> Forall plain l ->
  free_of newline_char (row_line (String ","%char rest) title l sc).
Proof.
  intros A B FR D; unfold row_line; rewrite !free_of_app.
  repeat match goal with |- _ /\ _ => split end; auto; try (cbn; intuition discriminate).
  apply free_of_concat; [cbn; split; [discriminate|auto]|]; revert D; apply Forall_impl; unfold plain; tauto.
Qed.
Lemma text_free x : finite_binary64 x -> free_of newline_char (finite_text binary64 x).
Proof. intros F; apply (text_plain x F). Qed.

(** ** Controls *)

Definition fl_control_lines (c : driven_control) (mr md : R) : list string :=
  [row_line "," "Rabi Rates" (fl_scaled_strings binary64 mr (rabi_rates c)) (finite_text binary64 mr);
   row_line "," "Azimuthal Angles" (map (fl_ratio_text binary64 float_pi) (azimuthal_angles c)) "pi";
   row_line "," "Detunings" (fl_scaled_strings binary64 md (detunings c)) (finite_text binary64 md);
   row_line "," "Durations" (map (fl_ratio_text binary64 (fl_duration binary64 c)) (durations c)) (finite_text binary64 (fl_duration binary64 c))].
Lemma fl_control_str c mr md : is_maximum mr (rabi_rates c) -> is_maximum md (detunings c) ->
  fl_driven_control_str binary64 float_pi c = Ok (String.concat newline (name_lines (dc_name c) ++ fl_control_lines c mr md)).
Proof.
  intros Mr Md; unfold fl_driven_control_str, maximum_rabi_rate, maximum_detuning.
  rewrite (proj2 (amax_is_maximum _ _) Mr), (proj2 (amax_is_maximum _ _) Md); cbn [bind]; destruct (dc_name c); reflexivity.
Qed.

Lemma float_pi_pos : 0 < float_pi.
Proof. unfold float_pi; apply Rmult_lt_0_compat; [lra|apply Rinv_0_lt_compat, pow_lt; lra]. Qed.

Lemma fl_duration_pos c : constructible c -> durations c <> [] -> (forall t, In t (durations c) -> binary64_format t) ->
  (number_of_segments c <= 2 ^ 64)%nat -> 0 < fl_duration binary64 c.
Proof.
  intros K NE F N; assert (E := float_duration c 64 K F N ltac:(change 64%nat with (2 ^ 6)%nat; apply Nat.pow_le_mono_r; lia)).
  assert (T : 0 < total (durations c)) by (apply constructible_wf in K; destruct K as [_ [_ [_ [K _]]]]; apply nil_or_total_pos; auto).
  replace (INR 64) with 64 in E by (cbn; ring).
  assert (B : (64 + 27) / 2 ^ 53 < 1) by lra.
  assert ((64 + 27) / 2 ^ 53 * total (durations c) < 1 * total (durations c)) by (apply Rmult_lt_compat_r; auto).
  apply Rabs_le_inv in E; lra.
Qed.

Theorem float_control_str c c' mr mr' md md' : constructible c -> constructible c' ->
  (number_of_segments c <= 2 ^ 64)%nat -> (forall t, In t (durations c) -> binary64_format t) ->
  is_maximum mr (rabi_rates c) -> is_maximum md (detunings c) ->
  is_maximum mr' (rabi_rates c') -> is_maximum md' (detunings c') ->
  (md = 0 -> forall x, In x (detunings c) -> x = 0) -> (md' = 0 -> forall x, In x (detunings c') -> x = 0) ->
  one_line_name (dc_name c) -> one_line_name (dc_name c') -> control_prints c mr md -> control_prints c' mr' md' ->
  fl_driven_control_str binary64 float_pi c = fl_driven_control_str binary64 float_pi c' ->
  dc_name c = dc_name c' /\ mr = mr' /\ md = md' /\ fl_duration binary64 c = fl_duration binary64 c' /\
  Forall2 (same_ratio mr) (rabi_rates c) (rabi_rates c') /\
  Forall2 (same_ratio float_pi) (azimuthal_angles c) (azimuthal_angles c') /\
  Forall2 (same_ratio md) (detunings c) (detunings c') /\
  Forall2 (same_ratio (fl_duration binary64 c)) (durations c) (durations c').
Proof.
  intros K K' NS FD Mr Md Mr' Md' Z Z' N N' I J E.
  rewrite (fl_control_str c mr md), (fl_control_str c' mr' md') in E by auto.
  apply (f_equal (fun r => match r with Ok a => a | Raise _ => ""%string end)) in E; cbn beta iota in E.
  assert (G : forall t a b, one_line_name (dc_name t) -> control_prints t a b ->
     Forall (free_of newline_char) (name_lines (dc_name t) ++ fl_control_lines t a b)).
  { intros t a b Nt [P1 [P2 [P3 [P4 [P5 [P6 P7]]]]]]; apply Forall_app; split; [apply name_lines_free; auto|]; unfold fl_control_lines.
    repeat (apply Forall_cons || apply Forall_nil); apply row_line_free; auto using text_free, plain_ratios, plain_scaled_fl; cbn; intuition discriminate. }
  apply (f_equal lines) in E; rewrite lines_concat, lines_concat in E.
  2: destruct (name_lines (dc_name c')); discriminate.
  2: apply G; auto.
  2: destruct (name_lines (dc_name c)); discriminate.
  2: apply G; auto.
  apply app_inv_same in E; [|reflexivity]; destruct E as [E0 E]; apply name_lines_inj in E0.
  assert (E1 := f_equal (fun l => nth 0 l ""%string) E); cbn [nth fl_control_lines] in E1.
  assert (E2 := f_equal (fun l => nth 1 l ""%string) E); cbn [nth fl_control_lines] in E2.
  assert (E3 := f_equal (fun l => nth 2 l ""%string) E); cbn [nth fl_control_lines] in E3.
  assert (E4 := f_equal (fun l => nth 3 l ""%string) E); cbn [nth fl_control_lines] in E4; clear E G.
  destruct I as [I1 [I2 [I3 [I4 [I5 [I6 I7]]]]]]; destruct J as [J1 [J2 [J3 [J4 [J5 [J6 J7]]]]]].
  apply row_line_inj in E1, E2, E3, E4; auto using plain_ratios, plain_scaled_fl; try exact Logic.I.
  destruct E1 as [E1 X1]; destruct E2 as [E2 _]; destruct E3 as [E3 X3]; destruct E4 as [E4 X4].
  apply text_inj in X1, X3, X4; auto; subst mr' md'; rewrite <- X4 in E4, J7.
  assert (ND : durations c <> []).
  { apply constructible_wf in K; destruct K as [H1 _]; intros W; rewrite W in H1; destruct Mr as [V _].
    destruct (rabi_rates c); [contradiction|discriminate]. }
  assert (T := fl_duration_pos c K ND FD NS); assert (PP := float_pi_pos).
  apply constructible_wf in K, K'; destruct K as [H1 [H2 [H3 [H4 H5]]]]; destruct K' as [G1 [G2 [G3 [G4 G5]]]].
  split; [auto|split; [auto|split; [auto|split; [auto|]]]].
  split; [apply scaled_same; auto|split; [apply ratio_list; auto; lra|split; [apply scaled_same; auto|apply ratio_list; auto; lra]]].
  - intros W x V; destruct Mr as [_ U]; specialize (U x V); specialize (H5 x V); lra.
  - intros W x V; destruct Mr' as [_ U]; specialize (U x V); specialize (G5 x V); lra.
Qed.

(** ** Sequences *)

Definition fl_sequence_lines (s : dds) : list string :=
  let T := finite_text binary64 (seq_duration s) in
  [("Duration = " ++ T)%string;
   row_line ", " "Offsets" (map (fl_ratio_text binary64 (seq_duration s)) (offsets s)) T;
   row_line ", " "Rabi Rotations" (map (fl_ratio_text binary64 float_pi) (rabi_rotations s)) "pi";
   row_line ", " "Azimuthal Angles" (map (fl_ratio_text binary64 float_pi) (seq_azimuthal_angles s)) "pi";
   row_line ", " "Detuning Rotations" (map (fl_ratio_text binary64 float_pi) (detuning_rotations s)) "pi"].
Lemma fl_sequence_str s : fl_dds_str binary64 float_pi s = String.concat newline (name_lines (seq_name s) ++ fl_sequence_lines s).
Proof. unfold fl_dds_str; destruct (seq_name s); reflexivity. Qed.

Theorem float_sequence_str s s' : constructible_sequence s -> constructible_sequence s' ->
  one_line_name (seq_name s) -> one_line_name (seq_name s') -> sequence_prints s -> sequence_prints s' ->
  fl_dds_str binary64 float_pi s = fl_dds_str binary64 float_pi s' ->
  seq_name s = seq_name s' /\ seq_duration s = seq_duration s' /\
  Forall2 (same_ratio (seq_duration s)) (offsets s) (offsets s') /\
  Forall2 (same_ratio float_pi) (rabi_rotations s) (rabi_rotations s') /\
  Forall2 (same_ratio float_pi) (seq_azimuthal_angles s) (seq_azimuthal_angles s') /\
  Forall2 (same_ratio float_pi) (detuning_rotations s) (detuning_rotations s').
Proof.
  intros K K' N N' I J E; rewrite !fl_sequence_str in E.
  assert (G : forall t, one_line_name (seq_name t) -> sequence_prints t ->
     Forall (free_of newline_char) (name_lines (seq_name t) ++ fl_sequence_lines t)).
  { intros t Nt [P1 [P2 [P3 [P4 P5]]]]; apply Forall_app; split; [apply name_lines_free; auto|]; unfold fl_sequence_lines.
    repeat (apply Forall_cons || apply Forall_nil); try (apply row_line_free; auto using text_free, plain_ratios; cbn; intuition discriminate).
    rewrite free_of_app; split; [cbn; intuition discriminate|apply text_free; auto]. }
  apply (f_equal lines) in E; rewrite lines_concat, lines_concat in E.
  2: destruct (name_lines (seq_name s')); discriminate.
  2: apply G; auto.
  2: destruct (name_lines (seq_name s)); discriminate.
  2: apply G; auto.
  apply app_inv_same in E; [|reflexivity]; destruct E as [E0 E]; apply name_lines_inj in E0.
  assert (E1 : ("Duration = " ++ finite_text binary64 (seq_duration s) = "Duration = " ++ finite_text binary64 (seq_duration s'))%string)
    by exact (f_equal (fun l => nth 0 l ""%string) E).
  assert (E2 := f_equal (fun l => nth 1 l ""%string) E); cbn [nth fl_sequence_lines] in E2.
  assert (E3 := f_equal (fun l => nth 2 l ""%string) E); cbn [nth fl_sequence_lines] in E3.
  assert (E4 := f_equal (fun l => nth 3 l ""%string) E); cbn [nth fl_sequence_lines] in E4.
  assert (E5 := f_equal (fun l => nth 4 l ""%string) E); cbn [nth fl_sequence_lines] in E5; clear E G.
  destruct I as [I1 [I2 [I3 [I4 I5]]]]; destruct J as [J1 [J2 [J3 [J4 J5]]]].
  apply str_app_inj_l in E1; apply text_inj in E1; auto; rewrite <- E1 in E2, J2.
  apply row_line_inj in E2, E3, E4, E5; auto using plain_ratios; try (cbn; intuition discriminate).
  assert (PP := float_pi_pos); apply constructible_well_formed in K; destruct K as [K _].
  split; [auto|split; [auto|]]; repeat split; apply ratio_list; auto; try lra; tauto.
Qed.

(** ** Two different numbers with the same quotient *)

Lemma rnd_half_to_one n x : 1 / 2 <= x < 1 -> Rabs (x * 2 ^ 53 - IZR n) < / 2 -> binary64 x = IZR n / 2 ^ 53.
Proof.
  intros X D; unfold binary64, round, scaled_mantissa, cexp.
  assert (M : mag radix2 x = 0%Z :> Z).
  { apply mag_unique; rewrite Rabs_pos_eq by lra; cbn; lra. }
  rewrite M; change (FLT_exp (-1074) 53 0) with (-53)%Z; unfold F2R; cbn [Fnum Fexp Z.opp].
  replace (bpow radix2 53) with (2 ^ 53) by (cbn; lra); replace (bpow radix2 (-53)) with (/ 2 ^ 53) by (cbn; lra).
  rewrite (Znearest_imp _ _ n) by exact D; reflexivity.
Qed.
Lemma same_quotient : binary64 (1 / (3 / 2)) = binary64 ((1 - / 2 ^ 53) / (3 / 2)).
Proof.
  rewrite (rnd_half_to_one 6004799503160661 (1 / (3 / 2))), (rnd_half_to_one 6004799503160661 ((1 - / 2 ^ 53) / (3 / 2))); auto; try lra; apply Rabs_def1; lra.
Qed.

(** ** What the numbers say *)

Lemma ratio_prints k x : k <> 0 -> finite_binary64 (binary64 (x / k)) -> prints_ratio k (fl_ratio_text binary64 k x) x.
Proof.
  intros K F; unfold prints_ratio, fl_ratio_text; exists (binary64 (x / k)); split.
  - destruct (read_finite _ F) as [v [A B]]; rewrite (decimal_float _ _ A), B; reflexivity.
  - assert (A := rnd_error (x / k)); assert (AK : 0 < Rabs k) by (apply Rabs_pos_lt; auto).
    apply (Rmult_le_compat_r (Rabs k)) in A; [|lra]; rewrite <- Rabs_mult in A.
    replace ((binary64 (x / k) - x / k) * k) with (binary64 (x / k) * k - x) in A by (field; auto).
    replace ((eps * Rabs (x / k) + eta) * Rabs k) with (eps * Rabs (x / k * k) + eta * Rabs k) in A by (rewrite Rabs_mult; ring).
    replace (x / k * k) with x in A by (field; auto); unfold eta, eps in A; lra.
Qed.
Lemma ratios_print k l : k <> 0 -> finite_ratios k l -> Forall2 (prints_ratio k) (map (fl_ratio_text binary64 k) l) l.
Proof. intros K F; induction F; cbn [map]; constructor; auto using ratio_prints. Qed.
Lemma scaled_print k l : finite_ratios k l -> (k = 0 -> forall x, In x l -> x = 0) -> Forall2 (prints_ratio k) (fl_scaled_strings binary64 k l) l.
Proof.
  intros F Z; destruct (Req_EM_T k 0) as [K|K].
  - subst k; specialize (Z eq_refl); clear F; induction l as [|x l IH]; [constructor|].
    unfold fl_scaled_strings in *; cbn [map]; constructor; [|apply IH; intros; apply Z; right; auto].
    rewrite (Z x) by (left; auto).
    assert (N : neqb 0 0 = false) by (unfold neqb, PyBase.eqb; destruct (Req_EM_T 0 0); [reflexivity|contradiction]).
    rewrite N; exists 0; split; [|rewrite Rmult_0_l, Rminus_0_r, Rabs_R0; lra].
    unfold read_float; cbn [String.eqb Ascii.eqb Bool.eqb]; change (read_decimal "0") with (Some (IZR 0 * powerRZ 10 0)).
    cbn [option_map]; rewrite Rmult_0_l, rnd_format by apply format_0; reflexivity.
  - assert (N : neqb k 0 = true) by (unfold neqb, PyBase.eqb; destruct (Req_EM_T k 0); [contradiction|reflexivity]).
    unfold fl_scaled_strings; rewrite N; apply ratios_print; auto.
Qed.
Lemma text_reads x : finite_binary64 x -> read_float (finite_text binary64 x) = Some (Fin x).
Proof.
  intros F; destruct (read_finite _ F) as [v [A B]]; rewrite (decimal_float _ _ A), B; reflexivity.
Qed.

Theorem control_prints_numbers c mr md : constructible c -> (number_of_segments c <= 2 ^ 64)%nat ->
  (forall t, In t (durations c) -> binary64_format t) -> is_maximum mr (rabi_rates c) -> is_maximum md (detunings c) ->
  (md = 0 -> forall x, In x (detunings c) -> x = 0) -> control_prints c mr md ->
  exists rs ps ds ts smr smd sT,
    fl_driven_control_str binary64 float_pi c = Ok (String.concat newline (name_lines (dc_name c) ++
      [row_line "," "Rabi Rates" rs smr; row_line "," "Azimuthal Angles" ps "pi";
       row_line "," "Detunings" ds smd; row_line "," "Durations" ts sT])) /\
    Forall2 (prints_ratio mr) rs (rabi_rates c) /\ Forall2 (prints_ratio float_pi) ps (azimuthal_angles c) /\
    Forall2 (prints_ratio md) ds (detunings c) /\ Forall2 (prints_ratio (fl_duration binary64 c)) ts (durations c) /\
    read_float smr = Some (Fin mr) /\ read_float smd = Some (Fin md) /\ read_float sT = Some (Fin (fl_duration binary64 c)).
Proof.
  intros K NS FD Mr Md Z [I1 [I2 [I3 [I4 [I5 [I6 I7]]]]]].
  do 7 eexists; split; [apply fl_control_str; eauto|].
  assert (ND : durations c <> []).
  { apply constructible_wf in K; destruct K as [H1 _]; intros W; rewrite W in H1; destruct Mr as [V _].
    destruct (rabi_rates c); [contradiction|discriminate]. }
  assert (T := fl_duration_pos c K ND FD NS); assert (PP := float_pi_pos).
  apply constructible_wf in K; destruct K as [H1 [H2 [H3 [H4 H5]]]].
  repeat split; auto using text_reads; try (apply ratios_print; auto; lra); apply scaled_print; auto.
  intros W x V; destruct Mr as [_ U]; specialize (U x V); specialize (H5 x V); lra.
Qed.
Theorem sequence_prints_numbers s : constructible_sequence s -> sequence_prints s ->
  exists ts rs ps ds sT,
    fl_dds_str binary64 float_pi s = String.concat newline (name_lines (seq_name s) ++
      [("Duration = " ++ sT)%string; row_line ", " "Offsets" ts sT; row_line ", " "Rabi Rotations" rs "pi";
       row_line ", " "Azimuthal Angles" ps "pi"; row_line ", " "Detuning Rotations" ds "pi"]) /\
    Forall2 (prints_ratio (seq_duration s)) ts (offsets s) /\ Forall2 (prints_ratio float_pi) rs (rabi_rotations s) /\
    Forall2 (prints_ratio float_pi) ps (seq_azimuthal_angles s) /\ Forall2 (prints_ratio float_pi) ds (detuning_rotations s) /\
    read_float sT = Some (Fin (seq_duration s)).
Proof.
  intros K [I1 [I2 [I3 [I4 I5]]]]; do 5 eexists; split; [apply fl_sequence_str|].
  assert (PP := float_pi_pos); apply constructible_well_formed in K; destruct K as [K _].
  repeat split; auto using text_reads; apply ratios_print; auto; lra.
Qed.

(** ** A pair of controls with the same printed form *)

Definition two_rates (x : R) : driven_control := MkDrivenControl [3 / 2; x] [0; 0] [0; 0] [1; 1] None.
Lemma two_duration x : fl_duration binary64 (two_rates x) = 2.
Proof.
  unfold fl_duration, fl_sum; cbn [two_rates durations List.length].
  assert (F2 : binary64_format 2) by (replace 2 with (IZR 2 * / 2 ^ 0) by (cbn; lra); apply L_FloatWalsh.format_dyadic; lia).
  assert (P : fl_pairwise binary64 2 [1; 1] = 2).
  { cbn; rewrite ?Rplus_0_l, ?Rplus_0_r.
    replace (1 + 1) with 2 by ring; rewrite ?(rnd_format 1), ?(rnd_format 2) by auto using format_1; replace (1 + 1) with 2 by ring; rewrite ?(rnd_format 2) by auto; lra. }
  rewrite P, Rplus_0_l; apply rnd_format; auto.
Qed.

Lemma finite_dyadic (m : Z) (n : nat) x : x = IZR m * / 2 ^ n -> (Z.abs m < 2 ^ 53)%Z -> (n <= 1074)%nat -> Rabs x <= 4 -> finite_binary64 x.
Proof. intros E M N B; split; [rewrite E; apply L_FloatWalsh.format_dyadic; auto|apply big_1024; auto]. Qed.
Lemma two_prints x : 0 <= x <= 3 / 2 -> control_prints (two_rates x) (3 / 2) 0.
Proof.
  intros B; unfold control_prints; rewrite two_duration; cbn [two_rates rabi_rates azimuthal_angles detunings durations]; unfold finite_ratios.
  assert (Z0 : forall k, finite_binary64 (binary64 (0 / k))).
  { intros k; unfold Rdiv; rewrite Rmult_0_l, rnd_format by apply format_0; apply (finite_dyadic 0 0); try lia; [lra|rewrite Rabs_R0; lra]. }
  split; [apply (finite_dyadic 3 1); try lia; [cbn; lra|rewrite Rabs_pos_eq; lra]|].
  split; [apply (finite_dyadic 0 0); try lia; [lra|rewrite Rabs_R0; lra]|].
  split; [apply (finite_dyadic 2 0); try lia; [cbn; lra|rewrite Rabs_pos_eq; lra]|].
  split; [|split; [|split]]; (apply Forall_cons; [|apply Forall_cons; [|apply Forall_nil]]); auto; apply ratio_finite; lra.
Qed.
Lemma two_maximum x : 0 <= x <= 3 / 2 -> is_maximum (3 / 2) (rabi_rates (two_rates x)) /\ is_maximum 0 (detunings (two_rates x)).
Proof.
  intros B; split; (split; [left; reflexivity|]); cbn; intros y [<-|[<-|[]]]; lra.
Qed.
Lemma two_constructible x : 0 <= x <= 3 / 2 -> constructible (two_rates x).
Proof.
  intros B; apply constructible_wf; unfold wf; cbn; repeat split; auto.
  - intros y [<-|[<-|[]]]; lra.
  - intros y [<-|[<-|[]]]; lra.
Qed.
Lemma two_same_str : fl_driven_control_str binary64 float_pi (two_rates 1) = fl_driven_control_str binary64 float_pi (two_rates (1 - / 2 ^ 53)).
Proof.
  destruct (two_maximum 1 ltac:(lra)) as [A B]; destruct (two_maximum (1 - / 2 ^ 53) ltac:(lra)) as [A' B'].
  rewrite (fl_control_str _ _ _ A B), (fl_control_str _ _ _ A' B').
  unfold fl_control_lines; rewrite !two_duration; cbn [two_rates rabi_rates azimuthal_angles detunings durations dc_name].
  do 4 f_equal; unfold row_line; do 3 f_equal; unfold fl_scaled_strings, fl_ratio_text; cbn [map]; rewrite same_quotient; reflexivity.
Qed.

Theorem float_str_exact c s :
  fl_driven_control_str (fun x => x) PI c = driven_control_str (finite_text (fun x => x)) c /\
  fl_dds_str (fun x => x) PI s = dds_str (finite_text (fun x => x)) s.
Proof.
  destruct (float_properties_exact c) as [_ [D _]]; split.
  - unfold fl_driven_control_str, driven_control_str; rewrite D; reflexivity.
  - unfold fl_dds_str, dds_str, array_to_str; rewrite !map_map; reflexivity.
Qed.
