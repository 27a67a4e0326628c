(** * Properties of the text of exported files *)

From Verif Require Import L_Text.
Import ListNotations.
Open Scope string_scope.
Open Scope list_scope.
Open Scope R_scope.

(** C71: reading the text that json.dump writes gives back the value, for every value *)
Theorem C71_json :
  forall v level,
  (forall t, In t (json_numbers v) -> number_text t) -> json_read (json_text level v) = Some v.
Proof. exact json_round_trip_text. Qed.
Print Assumptions C71_json.

(** C71: that text only contains printable ASCII characters and newlines *)
Theorem C71_ascii :
  forall v,
  (forall t, In t (json_numbers v) -> number_text t) -> forall level, ascii_text (json_text level v).
Proof. exact json_ascii. Qed.
Print Assumptions C71_ascii.

(** C71: the text of an exported JSON file, read by a JSON reader, gives back the control; the only assumption is that the numbers in the file are read back as printed *)
Theorem C71_control :
  forall repr str number d c l m f,
  constructible c -> describes l c -> is_maximum m (map g_rabi l) -> 0 < m ->
  (exists d' obj,
     export_to_file d c f "Q-CTRL expanded" "JSON" "cartesian" = (d', None) /\ d' f = Some (JsonFile obj) /\
     ((forall x, written obj x -> number_text (repr x) /\ number (repr x) = Some x) ->
      ascii_text (file_text repr str (JsonFile obj)) /\
      read_json_text number "amplitude_x" "amplitude_y" true (file_text repr str (JsonFile obj)) =
        Some (map seg_x l, map seg_y l, detunings c, durations c, dc_name c))) /\
  (exists d' obj,
     export_to_file d c f "Q-CTRL expanded" "JSON" "cylindrical" = (d', None) /\ d' f = Some (JsonFile obj) /\
     ((forall x, written obj x -> number_text (repr x) /\ number (repr x) = Some x) ->
      ascii_text (file_text repr str (JsonFile obj)) /\
      read_json_text number "rabi_rates" "azimuthal_angles" false (file_text repr str (JsonFile obj)) =
        Some (rabi_rates c, azimuthal_angles c, detunings c, durations c, dc_name c))).
Proof. exact control_json_text. Qed.
Print Assumptions C71_control.

Definition two_numbers (x : xfloat) : string := match x with Fin r => if eqb r 0 then "0.0" else "1.0" | _ => "NaN" end.
Definition read_two (s : string) : option xfloat :=
  if String.eqb s "0.0" then Some (Fin 0) else if String.eqb s "1.0" then Some (Fin 1) else None.
Definition written_text : string := (
  "{" ++ newline ++
  "    ""azimuthal_angles"": [" ++ newline ++ "        0.0" ++ newline ++ "    ]," ++ newline ++
  "    ""detuning"": [" ++ newline ++ "        0.0" ++ newline ++ "    ]," ++ newline ++
  "    ""duration"": [" ++ newline ++ "        1.0" ++ newline ++ "    ]," ++ newline ++
  "    ""maximum_rabi_rate"": 1.0," ++ newline ++
  "    ""name"": ""x""," ++ newline ++
  "    ""rabi_rates"": [" ++ newline ++ "        1.0" ++ newline ++ "    ]" ++ newline ++
  "}")%string.
Example C71_control_case d : exists d' obj,
  export_to_file d (MkDrivenControl [1] [0] [0] [1] (Some "x")) "f" "Q-CTRL expanded" "JSON" "cylindrical" = (d', None) /\ d' "f" = Some (JsonFile obj) /\
  (forall x, written obj x -> number_text (two_numbers x) /\ read_two (two_numbers x) = Some x) /\
  file_text two_numbers two_numbers (JsonFile obj) = written_text.
Proof.
  assert (E : forall a b, a <> b -> eqb a b = false) by (intros a b; apply eqb_false).
  set (obj := [("azimuthal_angles", VList [Fin 0]); ("detuning", VList [Fin 0]); ("duration", VList [Fin 1]);
    ("maximum_rabi_rate", VNum 1); ("name", VStr "x"); ("rabi_rates", VList [Fin (1 / 1)])]).
  eexists; exists obj; split; [|split; [|split]].
  - cbv -[eqb ltb Rdiv Rplus Ropp Rmult Rinv IZR fs_write]. rewrite (E 1 0) by lra. reflexivity.
  - reflexivity.
  - assert (Z : two_numbers (Fin 0) = "0.0") by (cbn; rewrite (proj2 (eqb_true 0 0)) by lra; auto).
    assert (O : forall r, r <> 0 -> two_numbers (Fin r) = "1.0") by (intros r H; cbn; rewrite (E r 0 H); auto).
    assert (NT : number_text "0.0" /\ number_text "1.0").
    { split; (split; [discriminate|intros x J; vm_compute in J; repeat (destruct J as [<-|J]); try contradiction J; vm_compute; reflexivity]). }
    assert (A : forall x, x = Fin 0 \/ x = Fin 1 -> number_text (two_numbers x) /\ read_two (two_numbers x) = Some x).
    { intros x [-> | ->]; [rewrite Z|rewrite O by lra]; split; try tauto; reflexivity. }
    intros x W; apply A; unfold obj in W; replace (1 / 1) with 1 in W by lra.
    destruct W as [[k [r [I ->]]]|[k [l [I J]]]].
    + repeat (destruct I as [I|I]; [try discriminate I; injection I as <- <-; auto|]); destruct I.
    + repeat (destruct I as [I|I]; [try discriminate I; injection I as <- <-; destruct J as [<-|[]]; auto|]); destruct I.
  - cbv -[eqb Rdiv IZR]; rewrite (proj2 (eqb_true 0 0)) by lra; rewrite !E by lra; reflexivity.
Qed.

(** names with quotation marks, backslashes, control and non-ASCII characters *)
Example C71_case_text :
  json_text 0 (JObject [("duration", JArray [JNumber "1.0"; JNumber "2e-07"]);
                        ("name", JString ("a""b\" ++ String (Ascii.ascii_of_nat 10) (String (Ascii.ascii_of_nat 233) "")))]) =
  ("{" ++ newline ++
   "    ""duration"": [" ++ newline ++
   "        1.0," ++ newline ++
   "        2e-07" ++ newline ++
   "    ]," ++ newline ++
   "    ""name"": ""a\""b\\\n\u00e9""" ++ newline ++
   "}")%string.
Proof. vm_compute; reflexivity. Qed.
Example C71_case : forall c, In c (json_numbers (JObject [("duration", JArray [JNumber "1.0"; JNumber "-2e-07"; JNumber "NaN"])])) -> number_text c.
Proof.
  intros c I; vm_compute in I; destruct I as [<-|[<-|[<-|[]]]]; (split; [discriminate|]);
    intros x J; vm_compute in J; repeat (destruct J as [<-|J]); try contradiction J; vm_compute; reflexivity.
Qed.
(** other texts are rejected *)
Example C71_rejects : json_read "[1 2]" = None /\ json_read "[""a]" = None /\ json_read "{""a"": 1,}" = None /\ json_read "[1] " = Some (JArray [JNumber "1"]).
Proof. vm_compute; auto. Qed.

(** C72: reading the text that csv.writer writes gives back the rows, whatever the fields contain *)
Theorem C72_csv :
  forall rows,
  (forall r, In r rows -> r <> []) -> csv_read (csv_text rows) = Some rows.
Proof. exact csv_round_trip_text. Qed.
Print Assumptions C72_csv.

(** C72: the text of an exported CSV file, read by a CSV reader, is a table with one row per segment and the printed values under their titles *)
Theorem C72_control :
  forall repr str d c l m n f,
  constructible c -> describes l c -> is_maximum m (map g_rabi l) -> dc_name c = Some n ->
  (exists d' file header table,
     export_to_file d c f "Q-CTRL expanded" "CSV" "cartesian" = (d', None) /\ d' f = Some file /\
     csv_read (file_text repr str file) = Some (header :: table) /\ List.length table = List.length l /\
     forall i g, nth_error l i = Some g ->
       exists row, nth_error table i = Some row /\ List.length row = List.length header /\
         lookup "amplitude_x" (combine header row) = Some (str (xdiv (seg_x g) m)) /\
         lookup "amplitude_y" (combine header row) = Some (str (xdiv (seg_y g) m)) /\
         lookup "detuning" (combine header row) = Some (str (Fin (g_det g))) /\
         lookup "duration" (combine header row) = Some (str (Fin (g_dur g))) /\
         lookup "maximum_rabi_rate" (combine header row) = Some (str (Fin m))) /\
  (exists d' file header table,
     export_to_file d c f "Q-CTRL expanded" "CSV" "cylindrical" = (d', None) /\ d' f = Some file /\
     csv_read (file_text repr str file) = Some (header :: table) /\ List.length table = List.length l /\
     forall i g, nth_error l i = Some g ->
       exists row, nth_error table i = Some row /\ List.length row = List.length header /\
         lookup "rabi_rates" (combine header row) = Some (str (xdiv (g_rabi g) m)) /\
         lookup "azimuthal_angles" (combine header row) = Some (str (Fin (g_phi g))) /\
         lookup "detuning" (combine header row) = Some (str (Fin (g_det g))) /\
         lookup "duration" (combine header row) = Some (str (Fin (g_dur g))) /\
         lookup "maximum_rabi_rate" (combine header row) = Some (str (Fin m))).
Proof. exact control_csv_text. Qed.
Print Assumptions C72_control.

Example C72_case : csv_text [["a"; "b,c"]; [""]; ["x""y"; ""]] =
  ("a,""b,c""" ++ carriage_return ++ newline ++ """""" ++ carriage_return ++ newline ++ """x""""y""," ++ carriage_return ++ newline)%string.
Proof. vm_compute; reflexivity. Qed.
Example C72_rejects : csv_read "a,b" = None /\ csv_read ("a""" ++ carriage_return ++ newline)%string = None.
Proof. vm_compute; auto. Qed.

