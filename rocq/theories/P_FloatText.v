(** * Properties of printed floats and of exported files in floating point *)

From Coq Require Import ZArith Lia Lra.
From Flocq Require Import Core.
From Verif Require Import L_FloatSchemes L_FloatExport L_FloatText.
Import ListNotations.
Open Scope string_scope.
Open Scope list_scope.
Open Scope R_scope.

(** C82: the text that Python prints for a float is read back as exactly that float, in JSON too *)
Theorem C82_round_trip :
  forall x,
  printable x ->
  read_float (float_repr binary64 x) = Some x /\
  read_float (json_floatstr binary64 x) = Some x /\ number_text (json_floatstr binary64 x).
Proof. exact float_text_round_trip. Qed.
Print Assumptions C82_round_trip.

(** C82: different floats have different texts *)
Theorem C82_distinct :
  forall x y,
  printable x -> printable y -> float_repr binary64 x = float_repr binary64 y -> x = y.
Proof. exact float_text_distinct. Qed.
Print Assumptions C82_distinct.

(** C82: no decimal number with fewer significant digits is read as the float *)
Theorem C82_shortest :
  forall x m k j,
  finite_binary64 x -> (0 <= m < 10 ^ Z.of_nat j)%Z -> binary64 (IZR m * powerRZ 10 k) = Rabs x ->
  (significant_digits (finite_text binary64 x) <= j)%nat.
Proof. exact float_text_shortest. Qed.
Print Assumptions C82_shortest.

(** C82: among the decimal numbers with as many digits that are read as the float, the printed one is closest *)
Theorem C82_closest :
  forall x v m k,
  finite_binary64 x -> read_decimal (finite_text binary64 x) = Some v ->
  (0 <= m < 10 ^ Z.of_nat (significant_digits (finite_text binary64 x)))%Z ->
  binary64 (IZR m * powerRZ 10 k) = Rabs x ->
  Rabs (v - x) <= Rabs (IZR m * powerRZ 10 k - Rabs x).
Proof. exact float_text_closest. Qed.
Print Assumptions C82_closest.

(** 1.0, 0.1, -0.1 and 1e-06; the float next to 10^-6 is below it *)
Lemma text_1 : finite_text binary64 1 = "1.0".
Proof.
  unfold finite_text; rewrite (proj2 (eqb_false 1 0)), (proj2 (ltb_false 1 0)) by lra.
  rewrite (one_digit_text 1 1 1); [reflexivity|cbn; lra|].
  apply (candidate_one 1 1 1); [cbn; lra| |]; cbn [Z.sub Z.add Z.opp Z.pos_sub Pos.add bpow].
  - rewrite Rmult_1_r; apply rnd_format, format_1.
  - apply (rnd_far 2); [lra| |lra]; change 2 with (bpow radix2 1).
    apply generic_format_bpow; cbn; lia.
Qed.
Lemma tenth : binary64 (1 / 10) = 3602879701896397 / 2 ^ 55.
Proof.
  rewrite (rnd_eval 7205759403792794 56); [| lia | |].
  - replace (2 ^ 56) with (2 * 2 ^ 55) by ring; field; apply pow_nonzero; lra.
  - replace (2 ^ 52) with 4503599627370496 by lra; replace (2 ^ 53) with 9007199254740992 by lra; replace (2 ^ 56) with 72057594037927936 by lra; lra.
  - replace (2 ^ 56) with 72057594037927936 by lra; apply Rabs_def1; lra.
Qed.
Lemma format_half k : binary64_format (/ 2 ^ k) \/ (1000 < k)%nat.
Proof.
  destruct (Nat.le_gt_cases k 1000); auto; left; rewrite <- bpow_inv; apply generic_format_bpow; unfold FLT_exp; lia.
Qed.
Lemma text_tenth : finite_text binary64 (binary64 (1 / 10)) = "0.1" /\ finite_text binary64 (- binary64 (1 / 10)) = "-0.1".
Proof.
  assert (T := tenth); replace (2 ^ 55) with 36028797018963968 in T by lra.
  assert (P : positive_text binary64 (binary64 (1 / 10)) = "0.1").
  { rewrite (one_digit_text (binary64 (1 / 10)) 0 1); [reflexivity|rewrite T; cbn; lra|].
    apply (candidate_one _ 0 1); [rewrite T; cbn; lra| |]; cbn [Z.sub Z.add Z.opp Z.pos_sub Pos.add bpow].
    - f_equal; cbn; lra.
    - apply (rnd_far (/ 2 ^ 3)); [cbn; lra| |rewrite T; lra]; destruct (format_half 3); auto; lia. }
  split.
  - unfold finite_text; rewrite (proj2 (eqb_false _ 0)), (proj2 (ltb_false _ 0)) by (rewrite T; lra); exact P.
  - unfold finite_text; rewrite (proj2 (eqb_false _ 0)), (proj2 (ltb_true _ 0)) by (rewrite T; lra); rewrite Ropp_involutive, P; reflexivity.
Qed.
Lemma millionth : binary64 (/ 10 ^ 6) = 4722366482869645 * / 2 ^ 72.
Proof.
  apply rnd_eval; [lia| |]; replace (2 ^ 72) with 4722366482869645213696 by lra.
  - replace (2 ^ 52) with 4503599627370496 by lra; replace (2 ^ 53) with 9007199254740992 by lra; lra.
  - apply Rabs_def1; lra.
Qed.
Lemma text_millionth : finite_text binary64 (binary64 (/ 10 ^ 6)) = "1e-06" /\ binary64 (/ 10 ^ 6) < / 10 ^ 6.
Proof.
  assert (T := millionth); replace (2 ^ 72) with 4722366482869645213696 in T by lra; split; [|rewrite T; lra].
  unfold finite_text; rewrite (proj2 (eqb_false _ 0)), (proj2 (ltb_false _ 0)) by (rewrite T; lra).
  assert (A : bpow radix10 (-7) = / 10000000) by reflexivity; assert (B : bpow radix10 (-6) = / 1000000) by reflexivity.
  assert (C : bpow radix10 7 = 10000000) by reflexivity.
  rewrite (one_digit_text (binary64 (/ 10 ^ 6)) (-6) 10); [reflexivity| |].
  - change (-6 - 1)%Z with (-7)%Z; rewrite A, B, T; lra.
  - apply (candidate_one _ (-6) 9); [change (1 - -6)%Z with 7%Z; rewrite C, T; lra| |]; change (-6 - 1)%Z with (-7)%Z; rewrite A.
    + intros E; assert (Q : binary64 (9 * / 10000000) <= 2100000 * / 2 ^ 41).
      { rewrite <- (rnd_format (2100000 * / 2 ^ 41)).
        - apply rnd_mono; replace (2 ^ 41) with 2199023255552 by lra; lra.
        - apply generic_format_FLT; exists (Float radix2 2100000 (-41)); [|cbn; lia|cbn; lia].
          unfold F2R; cbn [Fnum Fexp]; change (-41)%Z with (- Z.of_nat 41)%Z; rewrite bpow_inv; auto. }
      rewrite E, T in Q; replace (2 ^ 41) with 2199023255552 in Q by lra; lra.
    + f_equal; change (9 + 1)%Z with 10%Z; cbn [pow]; lra.
Qed.
Example C82_case : finite_text binary64 1 = "1.0" /\ finite_text binary64 0 = "0.0" /\
  finite_text binary64 (binary64 (1 / 10)) = "0.1" /\ finite_text binary64 (- binary64 (1 / 10)) = "-0.1" /\
  finite_text binary64 (binary64 (/ 10 ^ 6)) = "1e-06" /\ finite_binary64 (binary64 (/ 10 ^ 6)).
Proof.
  split; [exact text_1|]; split; [unfold finite_text; rewrite (proj2 (eqb_true 0 0)) by lra; auto|].
  split; [apply text_tenth|]; split; [apply text_tenth|]; split; [apply text_millionth|].
  split; [apply format_rnd|]; rewrite millionth; apply big_1024; replace (2 ^ 72) with 4722366482869645213696 by lra; apply Rabs_le; lra.
Qed.
(** layouts; the shortest text of some other numbers *)
Example C82_layout :
  format_float_short [1%Z; 2%Z; 5%Z] (-2) = "0.00125" /\ format_float_short [1%Z; 2%Z; 5%Z] 1 = "1.25" /\
  format_float_short [1%Z; 2%Z; 5%Z] 3 = "125.0" /\ format_float_short [1%Z; 2%Z; 5%Z] 16 = "1250000000000000.0" /\
  format_float_short [1%Z; 2%Z; 5%Z] 17 = "1.25e+16" /\ format_float_short [1%Z; 2%Z; 5%Z] (-4) = "1.25e-05" /\
  format_float_short [5%Z] (-323) = "5e-324".
Proof. vm_compute; auto 10. Qed.
Example C82_rejects : read_decimal "1." = None /\ read_decimal ".5" = None /\ read_decimal "1e" = None /\ read_decimal "1 " = None /\
  read_decimal "" = None /\ read_decimal "--1" = None.
Proof. vm_compute; auto 10. Qed.

(** C83: a control of finite floats exported to JSON in cylindrical coordinates and read back: durations, detunings, angles and name are exact, rates and evolution agree up to rounding *)
Theorem C83_json_cylindrical :
  forall fsin fcos d c l m f,
  constructible c -> describes l c -> is_maximum m (map g_rabi l) -> 0 < m ->
  (forall g, In g l -> finite_segment g) ->
  exists d' file l',
    fl_export_to_file binary64 fsin fcos d c f "Q-CTRL expanded" "JSON" "cylindrical" = (d', None) /\ d' f = Some file /\
    ascii_text (exported_text binary64 file) /\
    read_json_text read_float "rabi_rates" "azimuthal_angles" false (exported_text binary64 file) =
      Some (map g_rabi l', map g_phi l', map g_det l', map g_dur l', dc_name c) /\
    Forall2 (reread m) l' l /\
    forall eps delta, close_to (file_cost eps m l) (noisy_evolution eps delta l') (noisy_evolution eps delta l).
Proof. exact float_json_cylindrical. Qed.
Print Assumptions C83_json_cylindrical.

(** C83: in Cartesian coordinates *)
Theorem C83_json_cartesian :
  forall fsin fcos facos fasin d c l m f,
  accurate_trigonometry fsin fcos facos fasin ->
  constructible c -> describes l c -> is_maximum m (map g_rabi l) -> 0 < m ->
  (forall g, In g l -> moderate_segment g) ->
  exists d' file xs ys,
    fl_export_to_file binary64 fsin fcos d c f "Q-CTRL expanded" "JSON" "cartesian" = (d', None) /\ d' f = Some file /\
    ascii_text (exported_text binary64 file) /\
    read_json_text read_float "amplitude_x" "amplitude_y" true (exported_text binary64 file) =
      Some (xs, ys, detunings c, durations c, dc_name c) /\
    Forall2 (fun x g => amplitude_near m x (seg_x g) (g_rabi g)) xs l /\
    Forall2 (fun y g => amplitude_near m y (seg_y g) (g_rabi g)) ys l.
Proof. exact float_json_cartesian. Qed.
Print Assumptions C83_json_cartesian.

(** C83: exported to CSV *)
Theorem C83_csv :
  forall fsin fcos facos fasin d c l m n f,
  accurate_trigonometry fsin fcos facos fasin ->
  constructible c -> describes l c -> is_maximum m (map g_rabi l) -> 0 < m -> dc_name c = Some n ->
  ((forall g, In g l -> moderate_segment g) ->
   exists d' file header table,
     fl_export_to_file binary64 fsin fcos d c f "Q-CTRL expanded" "CSV" "cartesian" = (d', None) /\ d' f = Some file /\
     csv_read (exported_text binary64 file) = Some (header :: table) /\ List.length table = List.length l /\
     forall i g, nth_error l i = Some g ->
       exists row x y, nth_error table i = Some row /\ List.length row = List.length header /\
         cell_is header row "amplitude_x" x /\ amplitude_near m (m * x) (seg_x g) (g_rabi g) /\
         cell_is header row "amplitude_y" y /\ amplitude_near m (m * y) (seg_y g) (g_rabi g) /\
         cell_is header row "detuning" (g_det g) /\ cell_is header row "duration" (g_dur g) /\
         cell_is header row "maximum_rabi_rate" m) /\
  ((forall g, In g l -> finite_segment g) ->
   exists d' file header table,
     fl_export_to_file binary64 fsin fcos d c f "Q-CTRL expanded" "CSV" "cylindrical" = (d', None) /\ d' f = Some file /\
     csv_read (exported_text binary64 file) = Some (header :: table) /\ List.length table = List.length l /\
     forall i g, nth_error l i = Some g ->
       exists row r, nth_error table i = Some row /\ List.length row = List.length header /\
         cell_is header row "rabi_rates" r /\ restored m (m * r) (g_rabi g) /\
         cell_is header row "azimuthal_angles" (g_phi g) /\
         cell_is header row "detuning" (g_det g) /\ cell_is header row "duration" (g_dur g) /\
         cell_is header row "maximum_rabi_rate" m).
Proof. exact float_csv. Qed.
Print Assumptions C83_csv.

(** C83: without rounding the program is the one of C07-C10 *)
Theorem C83_unrounded :
  forall d c f fmt ty coords,
  fl_export_to_file (fun x => x) sin cos d c f fmt ty coords = export_to_file d c f fmt ty coords.
Proof. exact export_unrounded. Qed.
Print Assumptions C83_unrounded.

(** a control with one segment: the text of the file *)
Definition exported_case : string := (
  "{" ++ newline ++
  "    ""azimuthal_angles"": [" ++ newline ++ "        0.0" ++ newline ++ "    ]," ++ newline ++
  "    ""detuning"": [" ++ newline ++ "        -0.1" ++ newline ++ "    ]," ++ newline ++
  "    ""duration"": [" ++ newline ++ "        1e-06" ++ newline ++ "    ]," ++ newline ++
  "    ""maximum_rabi_rate"": 0.1," ++ newline ++
  "    ""name"": ""x""," ++ newline ++
  "    ""rabi_rates"": [" ++ newline ++ "        1.0" ++ newline ++ "    ]" ++ newline ++
  "}")%string.
Example C83_case d : exists d' file,
  fl_export_to_file binary64 (fun x => binary64 (sin x)) (fun x => binary64 (cos x)) d
    (MkDrivenControl [binary64 (1 / 10)] [0] [- binary64 (1 / 10)] [binary64 (/ 10 ^ 6)] (Some "x"))
    "f" "Q-CTRL expanded" "JSON" "cylindrical" = (d', None) /\ d' "f" = Some file /\
  exported_text binary64 file = exported_case.
Proof.
  set (c := MkDrivenControl _ _ _ _ _); set (l := [Seg (binary64 (1 / 10)) 0 (- binary64 (1 / 10)) (binary64 (/ 10 ^ 6))]).
  assert (P : 0 < binary64 (1 / 10)) by (rewrite tenth; apply Rdiv_lt_0_compat; [lra|apply pow_lt; lra]).
  assert (D : describes l c) by (repeat split; reflexivity).
  assert (M : is_maximum (binary64 (1 / 10)) (map g_rabi l)) by (split; [left; reflexivity|intros x [<-|[]]; cbn; lra]).
  do 2 eexists; split; [apply (fl_json_written binary64 _ _ false d c l _ "f" D M)|].
  split; [unfold fs_write; rewrite String.eqb_refl; reflexivity|].
  assert (Z : finite_text binary64 0 = "0.0") by (unfold finite_text; rewrite (proj2 (eqb_true 0 0)) by lra; auto).
  unfold fl_content, l, fl_r; cbn [map g_rabi g_det g_dur g_phi dc_name c].
  rewrite fl_xdiv_fin by lra; replace (binary64 (1 / 10) / binary64 (1 / 10)) with 1 by (field; lra); rewrite (rnd_format 1) by apply format_1.
  unfold exported_text, exported_case; destruct text_tenth as [T1 T2]; destruct text_millionth as [T3 _].
  clear - T1 T2 T3 Z; revert T3; generalize (binary64 (/ 10 ^ 6)); intros x T3; cbn -[finite_text append newline]; rewrite T1, T2, T3, Z, text_1; reflexivity.
Qed.
(** hypotheses *)
Example C83_case_finite : finite_segment (Seg (binary64 (1 / 10)) 0 (- binary64 (1 / 10)) (binary64 (/ 10 ^ 6))) /\
  moderate_segment (Seg 1 0 0 1).
Proof.
  assert (T := tenth); replace (2 ^ 55) with 36028797018963968 in T by lra.
  assert (F : forall x, binary64_format x -> Rabs x <= 4 -> finite_binary64 x) by (intros; split; auto; apply big_1024; auto).
  assert (Z : finite_binary64 0) by (apply F; [apply format_0|rewrite Rabs_R0; lra]).
  assert (O : finite_binary64 1) by (apply F; [apply format_1|rewrite Rabs_R1; lra]).
  split; [|split; [split; [|split; [|split]]; auto|cbn [g_phi g_rabi]; rewrite Rabs_R0; split; [lra|apply pow_R1_Rle; lra]]].
  split; [|split; [|split]]; cbn; auto.
  - apply F; [apply format_rnd|rewrite T; apply Rabs_le; lra].
  - apply F; [apply generic_format_opp, format_rnd|rewrite T; apply Rabs_le; lra].
  - apply C82_case.
Qed.

