(** * Properties C01-C11: the DrivenControl class *)

From Verif Require Import L_DrivenExport.
Import ListNotations.
Open Scope string_scope.
Open Scope list_scope.
Open Scope R_scope.

(** C01: accepts exactly the valid inputs; blames the right arguments otherwise *)
Theorem C01_construction :
  forall ts r a d name,
  (valid_inputs ts r a d ->
     exists c, DrivenControl ts r a d name = Ok c /\
       durations c = ts /\ dc_name c = name /\
       supplied_or_zeros (List.length ts) r (rabi_rates c) /\
       supplied_or_zeros (List.length ts) a (azimuthal_angles c) /\
       supplied_or_zeros (List.length ts) d (detunings c) /\
       List.length (rabi_rates c) = List.length ts /\
       List.length (azimuthal_angles c) = List.length ts /\
       List.length (detunings c) = List.length ts) /\
  (~ valid_inputs ts r a d ->
     exists s args, DrivenControl ts r a d name = Raise (ArgumentsValueError s args []) /\
       blames ts r a d args).
Proof. exact driven_control_accepts. Qed.
Print Assumptions C01_construction.

(** C01: every control is a unique list of segments with positive durations and non-negative rates *)
Theorem C01_segments :
  forall c,
  constructible c ->
  exists l, describes l c /\ (forall l', describes l' c -> l' = l) /\
    (forall g, In g l -> 0 < g_dur g /\ 0 <= g_rabi g).
Proof. exact constructible_segments. Qed.
Print Assumptions C01_segments.

(** C01: every such list of segments is a control *)
Theorem C01_segments_complete :
  forall l name,
  (forall g, In g l -> 0 < g_dur g /\ 0 <= g_rabi g) ->
  exists c, DrivenControl (map g_dur l) (Some (map g_rabi l)) (Some (map g_phi l))
              (Some (map g_det l)) name = Ok c /\ describes l c /\ dc_name c = name.
Proof. exact segments_constructible. Qed.
Print Assumptions C01_segments_complete.

Example C01_valid : valid_inputs [1; 2] (Some [3; 0]) None (Some [-1; 5]).
Proof.
  split; [intros x [<-|[<-|[]]]; lra|].
  repeat split; try (intros l E; inversion E; subst; reflexivity).
  intros l E; injection E as <-; intros x [<-|[<-|[]]]; lra.
Qed.
Example C01_invalid : ~ valid_inputs [1; 0] None None None.
Proof. intros [H _]; assert (0 < 0) by (apply H; simpl; auto); lra. Qed.

(** C02: segment boundary times *)
Theorem C02_times :
  forall c,
  constructible c ->
  List.length (times c) = S (number_of_segments c) /\
  nth_error (times c) 0 = Some 0 /\
  strictly_increasing (times c) /\
  (forall i a b, nth_error (times c) i = Some a -> nth_error (times c) (S i) = Some b ->
     nth_error (durations c) i = Some (b - a)) /\
  (forall i t, nth_error (times c) i = Some t -> t = total (firstn i (durations c))) /\
  nth_error (times c) (number_of_segments c) = Some (duration c) /\
  duration c = total (durations c).
Proof. exact times_spec. Qed.
Print Assumptions C02_times.

Example C02_case : exists c, constructible c /\ nth_error (times c) 3 = Some (9 / 2).
Proof.
  destruct (demo_control None) as [c [K [D [_ [_ N]]]]]; exists c; split; auto.
  destruct (times_spec c K) as [_ [_ [_ [_ [_ [H E]]]]]]; rewrite N in H; rewrite H, E.
  destruct D as [_ [_ [_ ->]]]; simpl; f_equal; lra.
Qed.

(** C03: extremal properties are true extrema; ValueError on the empty control *)
Theorem C03_extrema :
  forall c,
  constructible c ->
  (number_of_segments c <> 0%nat ->
   exists mr md tM tm,
     maximum_rabi_rate c = Ok mr /\ is_maximum mr (rabi_rates c) /\
     maximum_detuning c = Ok md /\ is_maximum md (detunings c) /\
     maximum_duration c = Ok tM /\ is_maximum tM (durations c) /\
     minimum_duration c = Ok tm /\ is_minimum tm (durations c) /\
     0 < tm /\
     INR (number_of_segments c) * tm <= duration c <= INR (number_of_segments c) * tM) /\
  (number_of_segments c = 0%nat ->
     (exists s, maximum_rabi_rate c = Raise (ValueError s)) /\
     (exists s, maximum_detuning c = Raise (ValueError s)) /\
     (exists s, maximum_duration c = Raise (ValueError s)) /\
     (exists s, minimum_duration c = Raise (ValueError s))).
Proof. exact extrema_spec. Qed.
Print Assumptions C03_extrema.

Example C03_case : exists c, constructible c /\ number_of_segments c <> 0%nat /\ maximum_rabi_rate c = Ok 2.
Proof.
  destruct (demo_control None) as [c [K [D [_ [M N]]]]]; exists c; split; auto.
  split; [rewrite N; discriminate|apply (desc_max demo c 2 D); auto].
Qed.
Example C03_empty : exists c, constructible c /\ number_of_segments c = 0%nat.
Proof. exists (MkDrivenControl [] [] [] [] None); split; [|reflexivity].
  apply constructible_wf; repeat split; intros x []. Qed.

(** C04: amplitudes and rotation angle of each segment, tied to the Schroedinger equation *)
Theorem C04_amplitudes_and_angles :
  forall c l i g,
  constructible c -> describes l c -> nth_error l i = Some g ->
  exists x y a,
    nth_error (amplitude_x c) i = Some x /\ nth_error (amplitude_y c) i = Some y /\
    nth_error (angles c) i = Some a /\
    x = g_rabi g * cos (g_phi g) /\ y = g_rabi g * sin (g_phi g) /\
    x * x + y * y = g_rabi g * g_rabi g /\
    a = sqrt (g_rabi g * g_rabi g + g_det g * g_det g) * g_dur g /\
    exists ux uy uz,
      ux * ux + uy * uy + uz * uz = 1 /\
      x = norm3 x y (g_det g) * ux /\ y = norm3 x y (g_det g) * uy /\
      g_det g = norm3 x y (g_det g) * uz /\
      forall V, evolves (hamiltonian x y (g_det g)) (g_dur g) V <-> V = bloch_rotation a ux uy uz.
Proof. exact amplitudes_and_angles. Qed.
Print Assumptions C04_amplitudes_and_angles.

Example C04_case : exists c, constructible c /\ describes demo c /\ nth_error demo 2 = Some (Seg 1 PI 0 (1 / 2)).
Proof. destruct (demo_control None) as [c [K [D _]]]; exists c; auto. Qed.

(** C05, partial.  Full statement: for every segment with seg_norm g <> 0 the row of
    directions is the unit vector (seg_x g, seg_y g, g_det g) / seg_norm g.
    Missing: segments with 0 < seg_norm g <= threshold m, for which the row is the
    un-normalised vector (see C05_directions_refuted) *)
Theorem C05_directions_partial :
  forall c l,
  constructible c -> describes l c -> l <> [] ->
  exists m ds,
    is_maximum m (map seg_norm l) /\ directions c = Ok ds /\
    List.length ds = number_of_segments c /\
    forall i g, nth_error l i = Some g ->
      exists dx dy dz, nth_error ds i = Some (dx, dy, dz) /\
        (threshold m < seg_norm g ->
           dx = seg_x g / seg_norm g /\ dy = seg_y g / seg_norm g /\ dz = g_det g / seg_norm g /\
           dx * dx + dy * dy + dz * dz = 1) /\
        (seg_norm g <= threshold m -> dx = seg_x g /\ dy = seg_y g /\ dz = g_det g).
Proof. exact directions_spec. Qed.
Print Assumptions C05_directions_partial.

(** C05, refuted at full strength: a non-zero segment whose direction is not a unit vector *)
Theorem C05_directions_refuted :
  exists c l g i dx dy dz,
    constructible c /\ describes l c /\ nth_error l i = Some g /\
    seg_norm g <> 0 /\
    (exists ds, directions c = Ok ds /\ nth_error ds i = Some (dx, dy, dz)) /\
    dx * dx + dy * dy + dz * dz <> 1.
Proof. exact directions_refuted. Qed.
Print Assumptions C05_directions_refuted.

Example C05_case : exists c, constructible c /\ describes demo c /\ demo <> [].
Proof. destruct (demo_control None) as [c [K [D _]]]; exists c; repeat split; auto; try apply D; discriminate. Qed.

(** C06: plotting export without normalisation *)
Theorem C06_export_unnormalised :
  forall c l,
  constructible c -> describes l c ->
  export c "cartesian" false = Ok (cartesian_plot 1 l) /\
  export c "cylindrical" false = Ok (cylindrical_plot 1 l).
Proof. exact export_unnormalised. Qed.
Print Assumptions C06_export_unnormalised.

(** C06: plotting export with normalisation, positive maximum *)
Theorem C06_export_normalised :
  forall c l m,
  constructible c -> describes l c -> is_maximum m (map g_rabi l) -> 0 < m ->
  export c "cartesian" true = Ok (cartesian_plot m l) /\
  export c "cylindrical" true = Ok (cylindrical_plot m l).
Proof. exact export_normalised. Qed.
Print Assumptions C06_export_normalised.

(** C06: all moduli in [0,1], 1 attained *)
Theorem C06_export_normalised_range :
  forall c l m pts,
  constructible c -> describes l c -> is_maximum m (map g_rabi l) -> 0 < m ->
  lookup "Rabi rate" (cylindrical_plot m l) = Some pts ->
  (forall p, In p pts -> exists v, modulus (value p) v /\ 0 <= v <= 1) /\
  (exists p, In p pts /\ modulus (value p) 1).
Proof. exact export_normalised_range. Qed.
Print Assumptions C06_export_normalised_range.

(** C06: unsupported coordinates *)
Theorem C06_export_invalid :
  forall c coordinates dim,
  coordinates <> "cartesian" -> coordinates <> "cylindrical" ->
  exists s, export c coordinates dim = Raise (ArgumentsValueError s ["coordinates"] []).
Proof. exact export_invalid. Qed.
Print Assumptions C06_export_invalid.

(** C06: normalising an empty control raises ValueError *)
Theorem C06_export_empty :
  forall c coordinates,
  constructible c -> number_of_segments c = 0%nat -> In coordinates coordinate_systems ->
  exists s, export c coordinates true = Raise (ValueError s).
Proof. exact export_empty_normalised. Qed.
Print Assumptions C06_export_empty.

(** C06: a non-empty control with all Rabi rates zero exports NaN on every segment *)
Theorem C06_export_zero :
  forall c l dim_pts,
  constructible c -> describes l c -> l <> [] -> (forall g, In g l -> g_rabi g = 0) ->
  export c "cylindrical" true = Ok dim_pts ->
  exists pts, lookup "Rabi rate" dim_pts = Some pts /\ pts <> [] /\
    forall p, In p pts -> value p = PComplex NaN NaN.
Proof. exact export_zero_control. Qed.
Print Assumptions C06_export_zero.

(** C06, refuted without the hypothesis of a positive maximum *)
Theorem C06_export_zero_refuted :
  exists c p pts entries,
    constructible c /\ number_of_segments c <> 0%nat /\
    export c "cylindrical" true = Ok entries /\ lookup "Rabi rate" entries = Some pts /\
    In p pts /\ forall v, ~ modulus (value p) v.
Proof. exact export_zero_refuted. Qed.
Print Assumptions C06_export_zero_refuted.

Example C06_case : exists c, constructible c /\ describes demo c /\ is_maximum 2 (map g_rabi demo) /\ 0 < 2.
Proof. destruct (demo_control None) as [c [K [D [_ [M _]]]]]; exists c; repeat (split; auto); try apply D; try apply M; lra. Qed.

(** C07: JSON export round trip *)
Theorem C07_json_round_trip :
  forall d c l m f,
  constructible c -> describes l c -> is_maximum m (map g_rabi l) -> 0 < m ->
  (exists d' obj,
     export_to_file d c f "Q-CTRL expanded" "JSON" "cartesian" = (d', None) /\
     d' f = Some (JsonFile obj) /\
     map fst obj = ["amplitude_x"; "amplitude_y"; "detuning"; "duration"; "maximum_rabi_rate"]
                   ++ match dc_name c with Some _ => ["name"] | None => [] end /\
     read_json "amplitude_x" "amplitude_y" true obj =
       Some (map seg_x l, map seg_y l, detunings c, durations c, dc_name c)) /\
  (exists d' obj,
     export_to_file d c f "Q-CTRL expanded" "JSON" "cylindrical" = (d', None) /\
     d' f = Some (JsonFile obj) /\
     map fst obj = ["azimuthal_angles"; "detuning"; "duration"; "maximum_rabi_rate"]
                   ++ match dc_name c with Some _ => ["name"] | None => [] end ++ ["rabi_rates"] /\
     read_json "rabi_rates" "azimuthal_angles" false obj =
       Some (rabi_rates c, azimuthal_angles c, detunings c, durations c, dc_name c)).
Proof. exact json_round_trip. Qed.
Print Assumptions C07_json_round_trip.

Example C07_case : exists c, constructible c /\ describes demo c /\ is_maximum 2 (map g_rabi demo) /\ dc_name c = Some "demo".
Proof. destruct (demo_control (Some "demo")) as [c [K [D [N [M _]]]]]; exists c; auto. Qed.

(** C08, partial.  Full statement: the same for every non-empty control, named or not.
    Missing: unnamed controls, for which the export raises (C08_csv_unnamed, C08_csv_refuted) *)
Theorem C08_csv_partial :
  forall d c l m n f,
  constructible c -> describes l c -> is_maximum m (map g_rabi l) -> dc_name c = Some n ->
  (exists d' header rows,
     export_to_file d c f "Q-CTRL expanded" "CSV" "cartesian" = (d', None) /\
     d' f = Some (CsvFile header rows) /\ List.length rows = List.length l /\
     forall i g, nth_error l i = Some g ->
       exists row, nth_error rows i = Some row /\ List.length row = List.length header /\
         csv_cell_of header row "amplitude_x" = Some (xdiv (seg_x g) m) /\
         csv_cell_of header row "amplitude_y" = Some (xdiv (seg_y g) m) /\
         csv_cell_of header row "detuning" = Some (Fin (g_det g)) /\
         csv_cell_of header row "duration" = Some (Fin (g_dur g)) /\
         csv_cell_of header row "maximum_rabi_rate" = Some (Fin m)) /\
  (exists d' header rows,
     export_to_file d c f "Q-CTRL expanded" "CSV" "cylindrical" = (d', None) /\
     d' f = Some (CsvFile header rows) /\ List.length rows = List.length l /\
     forall i g, nth_error l i = Some g ->
       exists row, nth_error rows i = Some row /\ List.length row = List.length header /\
         csv_cell_of header row "rabi_rates" = Some (xdiv (g_rabi g) m) /\
         csv_cell_of header row "azimuthal_angles" = Some (Fin (g_phi g)) /\
         csv_cell_of header row "detuning" = Some (Fin (g_det g)) /\
         csv_cell_of header row "duration" = Some (Fin (g_dur g)) /\
         csv_cell_of header row "maximum_rabi_rate" = Some (Fin m)).
Proof. exact csv_named. Qed.
Print Assumptions C08_csv_partial.

(** C08: what happens for every unnamed non-empty control *)
Theorem C08_csv_unnamed :
  forall d c l f coords,
  constructible c -> describes l c -> l <> [] -> dc_name c = None ->
  In coords coordinate_systems ->
  export_to_file d c f "Q-CTRL expanded" "CSV" coords = (d, Some (KeyError "name")).
Proof. exact csv_unnamed. Qed.
Print Assumptions C08_csv_unnamed.

(** C08, refuted at full strength *)
Theorem C08_csv_refuted :
  exists c, constructible c /\ number_of_segments c <> 0%nat /\
    forall d f coords, In coords coordinate_systems ->
      exists k, snd (export_to_file d c f "Q-CTRL expanded" "CSV" coords) = Some (KeyError k).
Proof. exact csv_refuted. Qed.
Print Assumptions C08_csv_refuted.

Example C08_case : exists c d' header rows row, constructible c /\ describes demo c /\
  export_to_file (fun _ => None) c "f" "Q-CTRL expanded" "CSV" "cylindrical" = (d', None) /\ d' "f" = Some (CsvFile header rows) /\
  nth_error rows 2 = Some row /\ csv_cell_of header row "duration" = Some (Fin (1 / 2)) /\
  csv_cell_of header row "rabi_rates" = Some (xdiv 1 2).
Proof.
  destruct (demo_control (Some "demo")) as [c [K [D [N [M _]]]]].
  destruct (C08_csv_partial (fun _ => None) c demo 2 "demo" "f" K D M N) as [_ [d' [h [rows [E [F [_ R]]]]]]].
  destruct (R 2%nat _ eq_refl) as [row [R1 [_ [R2 [_ [_ [R3 _]]]]]]].
  exists c, d', h, rows, row; exact (conj K (conj D (conj E (conj F (conj R1 (conj R3 R2)))))).
Qed.

(** C09, partial.  Full statement: the same for both coordinate systems.
    Missing: cylindrical coordinates (C09_csv_layout_refuted) *)
Theorem C09_csv_layout_partial :
  forall d c l m n f d',
  constructible c -> describes l c -> is_maximum m (map g_rabi l) -> dc_name c = Some n ->
  export_to_file d c f "Q-CTRL expanded" "CSV" "cartesian" = (d', None) ->
  exists header rows,
    d' f = Some (CsvFile header rows) /\ List.length header = 5%nat /\
    nth_error header 4 = Some "maximum_rabi_rate" /\
    forall row, In row rows -> List.length row = 5%nat /\ nth_error row 4 = Some (Fin m).
Proof. exact csv_layout_cartesian. Qed.
Print Assumptions C09_csv_layout_partial.

(** C09: the layout actually written for cylindrical coordinates *)
Theorem C09_csv_layout_cylindrical :
  forall d c l m n f d',
  constructible c -> describes l c -> is_maximum m (map g_rabi l) -> dc_name c = Some n ->
  export_to_file d c f "Q-CTRL expanded" "CSV" "cylindrical" = (d', None) ->
  exists header rows,
    d' f = Some (CsvFile header rows) /\ List.length header = 5%nat /\
    nth_error header 3 = Some "maximum_rabi_rate" /\ nth_error header 4 = Some "rabi_rates" /\
    forall row, In row rows -> List.length row = 5%nat /\ nth_error row 3 = Some (Fin m).
Proof. exact csv_layout_cylindrical. Qed.
Print Assumptions C09_csv_layout_cylindrical.

(** C09, refuted for cylindrical coordinates *)
Theorem C09_csv_layout_refuted :
  exists c m, constructible c /\ is_maximum m (rabi_rates c) /\ dc_name c <> None /\
    forall d f, exists d' header rows,
      export_to_file d c f "Q-CTRL expanded" "CSV" "cylindrical" = (d', None) /\
      d' f = Some (CsvFile header rows) /\ rows <> [] /\
      nth_error header 4 <> Some "maximum_rabi_rate" /\
      exists row, In row rows /\ nth_error row 4 <> Some (Fin m).
Proof. exact csv_layout_refuted. Qed.
Print Assumptions C09_csv_layout_refuted.

Example C09_case : exists c, constructible c /\ describes demo c /\ is_maximum 2 (map g_rabi demo) /\ dc_name c = Some "demo".
Proof. destruct (demo_control (Some "demo")) as [c [K [D [N [M _]]]]]; exists c; auto. Qed.

(** C10: file export touches only the target, and nothing on failure (controls) *)
Theorem C10_export_frame :
  forall d c f fmt ty coords d' e,
  constructible c ->
  export_to_file d c f fmt ty coords = (d', e) ->
  same_except f d d' /\ (e <> None -> d' = d) /\ (e = None -> d' f <> None).
Proof. exact export_frame. Qed.
Print Assumptions C10_export_frame.

Example C10_case : exists c d' e,
  constructible c /\ export_to_file (fun _ => None) c "f" "Q-CTRL expanded" "xml" "cartesian" = (d', e) /\ e <> None.
Proof. destruct (demo_control None) as [c [K _]]; do 3 eexists; split; [exact K|]; split; [reflexivity|discriminate]. Qed.

(** C11, partial.  Full statement: without the hypothesis on [md].
    Missing: controls whose maximum detuning is 0 but which have negative detunings
    (C11_printed_form_refuted) *)
Theorem C11_printed_form_partial :
  forall fmt c mr md,
  constructible c -> is_maximum mr (rabi_rates c) -> is_maximum md (detunings c) ->
  (md = 0 -> forall x, In x (detunings c) -> x = 0) ->
  exists l1 l2 l3 l4,
    driven_control_str fmt c =
      Ok (str_join newline
            (match dc_name c with Some n => [(n ++ ":")%string] | None => [] end ++ [l1; l2; l3; l4])) /\
    scaled_line fmt "Rabi Rates" mr (fmt mr) (rabi_rates c) l1 /\
    scaled_line fmt "Azimuthal Angles" PI "pi" (azimuthal_angles c) l2 /\
    scaled_line fmt "Detunings" md (fmt md) (detunings c) l3 /\
    scaled_line fmt "Durations" (total (durations c)) (fmt (total (durations c))) (durations c) l4.
Proof. exact printed_form. Qed.
Print Assumptions C11_printed_form_partial.

(** C11, refuted at full strength: two different controls with the same printed form *)
Theorem C11_printed_form_refuted :
  exists c c', constructible c /\ constructible c' /\ detunings c <> detunings c' /\
    forall fmt, driven_control_str fmt c = driven_control_str fmt c' /\
                exists s, driven_control_str fmt c = Ok s.
Proof. exact printed_form_refuted. Qed.
Print Assumptions C11_printed_form_refuted.

Example C11_case : exists c, constructible c /\ is_maximum 2 (rabi_rates c) /\ is_maximum 1 (detunings c).
Proof.
  destruct (demo_control None) as [c [K [D [_ [M _]]]]]; exists c; split; auto.
  destruct D as [-> [_ [-> _]]]; split; auto.
  split; [left; auto|intros x [<-|[<-|[<-|[]]]]; simpl; lra].
Qed.

