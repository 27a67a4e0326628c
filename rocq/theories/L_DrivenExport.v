(** * Proofs about the exports and printed forms of DrivenControl *)

From Verif Require Export L_DrivenControl.
Import ListNotations.
Open Scope string_scope.
Open Scope list_scope.
Open Scope R_scope.

Lemma desc_nonempty l c : describes l c -> l <> [] -> rabi_rates c <> [].
Proof. intros [E _] H; rewrite E; intros Z; apply map_eq_nil in Z; auto. Qed.

Lemma desc_max l c m :
  describes l c -> (maximum_rabi_rate c = Ok m <-> is_maximum m (map g_rabi l)).
Proof. intros [E _]; unfold maximum_rabi_rate; rewrite E; apply amax_is_maximum. Qed.

Lemma xdiv_fin x m : m <> 0 -> xdiv x m = Fin (x / m).
Proof. intros H; unfold xdiv; rewrite (proj2 (eqb_false m 0)); auto. Qed.

Lemma map_xdiv {A} (f : A -> R) m l :
  m <> 0 -> map (fun x => xdiv x m) (map f l) = map (fun x => Fin (f x / m)) l.
Proof. intros H; rewrite map_map; apply map_ext; intros; apply xdiv_fin; auto. Qed.

Lemma plot_points_map (f : seg -> plot_value) l :
  plot_points (map f l) (map g_dur l) = track f l.
Proof. unfold plot_points; rewrite zip_with_map; reflexivity. Qed.

(** ** C06 *)

Lemma export_raw c l (k : R) dim :
  describes l c -> k <> 0 ->
  (if dim : bool then maximum_rabi_rate c else Ok 1) = Ok k ->
  export c CARTESIAN dim = Ok (cartesian_plot k l) /\
  export c CYLINDRICAL dim = Ok (cylindrical_plot k l).
Proof.
  intros D K E; unfold export.
  rewrite E, (amplitude_x_desc l c D), (amplitude_y_desc l c D).
  destruct D as [E1 [E2 [E3 E4]]]; rewrite E1, E2, E3, E4.
  split; cbn [check_arguments str_in existsb coordinate_systems String.eqb CARTESIAN CYLINDRICAL
              Ascii.eqb Bool.eqb orb bind app]; rewrite !map_xdiv by auto.
  - unfold cartesian_plot; rewrite !map_map, !plot_points_map; reflexivity.
  - unfold cylindrical_plot; rewrite !map_map, zip_with_map, !plot_points_map.
    unfold track; rewrite (map_ext
      (fun g => MkPoint (PComplex (xscale (Fin (g_rabi g / k)) (cos (g_phi g)))
                                  (xscale (Fin (g_rabi g / k)) (sin (g_phi g)))) (g_dur g))
      (fun g => MkPoint (PComplex (Fin (seg_x g / k)) (Fin (seg_y g / k))) (g_dur g)));
      [reflexivity|].
    intros g; cbn [xscale]; unfold seg_x, seg_y.
    replace (g_rabi g / k * cos (g_phi g)) with (g_rabi g * cos (g_phi g) / k) by (field; auto).
    replace (g_rabi g / k * sin (g_phi g)) with (g_rabi g * sin (g_phi g) / k) by (field; auto).
    reflexivity.
Qed.

Theorem export_unnormalised c l :
  constructible c -> describes l c ->
  export c CARTESIAN false = Ok (cartesian_plot 1 l) /\
  export c CYLINDRICAL false = Ok (cylindrical_plot 1 l).
Proof. intros _ D; apply (export_raw c l 1 false D); [lra|reflexivity]. Qed.

Theorem export_normalised c l m :
  constructible c -> describes l c -> is_maximum m (map g_rabi l) -> 0 < m ->
  export c CARTESIAN true = Ok (cartesian_plot m l) /\
  export c CYLINDRICAL true = Ok (cylindrical_plot m l).
Proof.
  intros _ D M P; apply (export_raw c l m true D); [lra|].
  apply (desc_max l c m D); auto.
Qed.

Lemma planar_norm r p : 0 <= r -> sqrt (r * cos p * (r * cos p) + r * sin p * (r * sin p)) = r.
Proof.
  intros H.
  replace (r * cos p * (r * cos p) + r * sin p * (r * sin p))
    with (r * r * (cos p * cos p + sin p * sin p)) by ring.
  rewrite cos2_sin2, Rmult_1_r; apply sqrt_square; auto.
Qed.

Theorem export_normalised_range c l m pts :
  constructible c -> describes l c -> is_maximum m (map g_rabi l) -> 0 < m ->
  lookup "Rabi rate" (cylindrical_plot m l) = Some pts ->
  (forall p, In p pts -> exists v, modulus (value p) v /\ 0 <= v <= 1) /\
  (exists p, In p pts /\ modulus (value p) 1).
Proof.
  intros K D M P L; cbn in L; injection L as <-.
  destruct (constructible_segments c K) as [l' [D' [_ B]]].
  assert (l' = l) by (eapply describes_unique; eauto); subst l'.
  assert (Q : forall g, In g l -> modulus (PComplex (Fin (seg_x g / m)) (Fin (seg_y g / m))) (g_rabi g / m)).
  { intros g Hg; cbn; destruct (B g Hg) as [_ R0].
    replace (seg_x g / m) with (g_rabi g / m * cos (g_phi g)) by (unfold seg_x; field; lra).
    replace (seg_y g / m) with (g_rabi g / m * sin (g_phi g)) by (unfold seg_y; field; lra).
    symmetry; apply planar_norm; apply Rmult_le_pos; [auto|].
    apply Rlt_le, Rinv_0_lt_compat; auto. }
  split.
  - intros p Hp; apply in_map_iff in Hp; destruct Hp as [g [<- Hg]].
    exists (g_rabi g / m); split; [apply Q; auto|].
    destruct (B g Hg) as [_ R0]; destruct M as [_ U].
    assert (g_rabi g <= m) by (apply U, in_map; auto).
    split.
    + apply Rmult_le_pos; [auto|apply Rlt_le, Rinv_0_lt_compat; auto].
    + apply (Rmult_le_reg_r m); [auto|]. unfold Rdiv; rewrite Rmult_assoc, Rinv_l by lra; lra.
  - destruct M as [I _]; apply in_map_iff in I; destruct I as [g [E Hg]].
    exists (MkPoint (PComplex (Fin (seg_x g / m)) (Fin (seg_y g / m))) (g_dur g)).
    split; [apply (in_map (fun g => MkPoint (PComplex (Fin (seg_x g / m)) (Fin (seg_y g / m))) (g_dur g)) l g Hg)|].
    cbn [value]; replace 1 with (g_rabi g / m) by (rewrite E; field; lra).
    apply Q; auto.
Qed.

Lemma str_in_false s l : str_in s l = false <-> ~ In s l.
Proof.
  unfold str_in; split.
  - intros H I; assert (E : existsb (String.eqb s) l = true); [|congruence].
    apply existsb_exists; exists s; split; auto; apply String.eqb_refl.
  - intros H; destruct (existsb (String.eqb s) l) eqn:E; auto.
    apply existsb_exists in E; destruct E as [x [I E]]; apply String.eqb_eq in E; subst; contradiction.
Qed.
Lemma str_in_true s l : str_in s l = true <-> In s l.
Proof.
  destruct (str_in s l) eqn:E.
  - split; auto; intros _. apply existsb_exists in E; destruct E as [x [I E]];
      apply String.eqb_eq in E; subst; auto.
  - apply str_in_false in E; split; [discriminate|contradiction].
Qed.

Theorem export_invalid c coordinates dim :
  coordinates <> "cartesian" -> coordinates <> "cylindrical" ->
  exists s, export c coordinates dim = Raise (ArgumentsValueError s ["coordinates"] []).
Proof.
  intros A B; unfold export.
  replace (str_in coordinates coordinate_systems) with false.
  - eexists; reflexivity.
  - symmetry; apply str_in_false; intros [H|[H|[]]]; symmetry in H; auto.
Qed.

Theorem export_empty_normalised c coordinates :
  constructible c -> number_of_segments c = 0%nat -> In coordinates coordinate_systems ->
  exists s, export c coordinates true = Raise (ValueError s).
Proof.
  intros K N I; destruct (proj2 (extrema_spec c K) N) as [[s E] _].
  exists s; unfold export; rewrite (proj2 (str_in_true _ _) I); cbn [check_arguments bind].
  rewrite E; reflexivity.
Qed.

(** every segment of an all-zero control is exported as NaN *)
Theorem export_zero_control c l dim_pts :
  constructible c -> describes l c -> l <> [] -> (forall g, In g l -> g_rabi g = 0) ->
  export c CYLINDRICAL true = Ok dim_pts ->
  exists pts, lookup "Rabi rate" dim_pts = Some pts /\ pts <> [] /\
    forall p, In p pts -> value p = PComplex NaN NaN.
Proof.
  intros K D NE Z E.
  assert (M : maximum_rabi_rate c = Ok 0).
  { apply (desc_max l c 0 D); split.
    - destruct l as [|g l]; [congruence|]; left; apply Z; left; auto.
    - intros x Hx; apply in_map_iff in Hx; destruct Hx as [g [<- Hg]]; rewrite Z by auto; lra. }
  assert (E0 : rabi_rates c = map (fun _ => 0) l).
  { destruct D as [E1 _]; rewrite E1; apply map_ext_in; auto. }
  assert (X0 : forall x, x = 0 -> xdiv x 0 = NaN).
  { intros x ->; unfold xdiv; rewrite (proj2 (eqb_true 0 0)); auto. }
  destruct D as [E1 [E2 [E3 E4]]].
  unfold export in E; rewrite M, E0, E2, E3, E4 in E.
  cbn [check_arguments str_in existsb coordinate_systems String.eqb CARTESIAN CYLINDRICAL
       Ascii.eqb Bool.eqb orb bind app] in E.
  injection E as <-.
  rewrite map_map, (map_ext _ (fun _ : seg => NaN)) by (intros; apply X0; auto).
  rewrite zip_with_map, plot_points_map; cbn.
  eexists; split; [reflexivity|]; split; [destruct l; [congruence|discriminate]|].
  intros p Hp; apply in_map_iff in Hp; destruct Hp as [g [<- _]]; reflexivity.
Qed.

Theorem export_zero_refuted :
  exists c p pts entries,
    constructible c /\ number_of_segments c <> 0%nat /\
    export c CYLINDRICAL true = Ok entries /\ lookup "Rabi rate" entries = Some pts /\
    In p pts /\ forall v, ~ modulus (value p) v.
Proof.
  destruct (segments_constructible [Seg 0 0 1 1] None) as [c [Hc [D _]]].
  { intros g [<-|[]]; simpl; lra. }
  assert (K : constructible c) by (do 5 eexists; exact Hc).
  assert (E : exists e, export c CYLINDRICAL true = Ok e).
  { unfold export.
    assert (M : maximum_rabi_rate c = Ok 0).
    { apply (desc_max _ c 0 D); split; [left; auto|intros x [<-|[]]; simpl; lra]. }
    rewrite M; eexists; reflexivity. }
  destruct E as [e E].
  destruct (export_zero_control c [Seg 0 0 1 1] e K D) as [pts [L [NE H]]]; auto.
  { discriminate. } { intros g [<-|[]]; reflexivity. }
  destruct pts as [|p pts]; [congruence|].
  exists c, p, (p :: pts), e; repeat (split; [solve [auto]|]); split.
  - unfold number_of_segments; destruct D as [-> _]; discriminate.
  - repeat (split; [solve [auto | left; auto]|]).
    intros v; rewrite (H p) by (left; auto); exact (fun f => f).
Qed.

(** ** C07: JSON *)

Definition cartesian_json (name : option string) (m : R) (l : list seg) : info :=
  [("amplitude_x", VList (map (fun g => Fin (seg_x g / m)) l));
   ("amplitude_y", VList (map (fun g => Fin (seg_y g / m)) l));
   ("detuning", VList (map (fun g => Fin (g_det g)) l));
   ("duration", VList (map (fun g => Fin (g_dur g)) l));
   ("maximum_rabi_rate", VNum m)] ++
  match name with Some n => [("name", VStr n)] | None => [] end.

Definition cylindrical_json (name : option string) (m : R) (l : list seg) : info :=
  [("azimuthal_angles", VList (map (fun g => Fin (g_phi g)) l));
   ("detuning", VList (map (fun g => Fin (g_det g)) l));
   ("duration", VList (map (fun g => Fin (g_dur g)) l));
   ("maximum_rabi_rate", VNum m)] ++
  match name with Some n => [("name", VStr n)] | None => [] end ++
  [("rabi_rates", VList (map (fun g => Fin (g_rabi g / m)) l))].

Lemma content_cartesian c l m :
  describes l c -> maximum_rabi_rate c = Ok m ->
  qctrl_expanded_export_content c CARTESIAN =
  Ok (([("maximum_rabi_rate", VNum m);
       ("detuning", VList (map (fun g => Fin (g_det g)) l));
       ("duration", VList (map (fun g => Fin (g_dur g)) l))] ++
      match dc_name c with Some n => [("name", VStr n)] | None => [] end) ++
      [("amplitude_x", VList (map (fun g => xdiv (seg_x g) m) l));
       ("amplitude_y", VList (map (fun g => xdiv (seg_y g) m) l))]).
Proof.
  intros D M; unfold qctrl_expanded_export_content; rewrite M; cbn [bind].
  rewrite (amplitude_x_desc l c D), (amplitude_y_desc l c D); destruct D as [_ [_ [-> ->]]].
  rewrite !map_map; destruct (dc_name c); reflexivity.
Qed.

Lemma content_cylindrical c l m :
  describes l c -> maximum_rabi_rate c = Ok m ->
  qctrl_expanded_export_content c CYLINDRICAL =
  Ok (([("maximum_rabi_rate", VNum m);
       ("detuning", VList (map (fun g => Fin (g_det g)) l));
       ("duration", VList (map (fun g => Fin (g_dur g)) l))] ++
      match dc_name c with Some n => [("name", VStr n)] | None => [] end) ++
      [("rabi_rates", VList (map (fun g => xdiv (g_rabi g) m) l));
       ("azimuthal_angles", VList (map (fun g => Fin (g_phi g)) l))]).
Proof.
  intros D M; unfold qctrl_expanded_export_content; rewrite M; cbn [bind].
  destruct D as [-> [-> [-> ->]]].
  rewrite !map_map; destruct (dc_name c); reflexivity.
Qed.

Lemma export_valid_args d c f ty coords :
  In ty file_types -> In coords coordinate_systems ->
  export_to_file d c f FILE_FORMAT_QCTRL ty coords =
  export_to_qctrl_expanded_format d c f ty coords.
Proof.
  intros T C; unfold export_to_file.
  rewrite (proj2 (str_in_true _ _) T), (proj2 (str_in_true _ _) C); reflexivity.
Qed.

Lemma xdiv_map (f : seg -> R) m l :
  m <> 0 -> map (fun g => xdiv (f g) m) l = map (fun g => Fin (f g / m)) l.
Proof. intros H; apply map_ext; intros; apply xdiv_fin; auto. Qed.

Lemma json_cartesian_written d c l m f :
  describes l c -> is_maximum m (map g_rabi l) -> 0 < m ->
  export_to_file d c f FILE_FORMAT_QCTRL FILE_TYPE_JSON CARTESIAN =
  (fs_write d f (JsonFile (cartesian_json (dc_name c) m l)), None).
Proof.
  intros D M P; apply (desc_max l c m D) in M.
  rewrite export_valid_args by (simpl; auto).
  unfold export_to_qctrl_expanded_format; rewrite (content_cartesian c l m D M).
  cbn [String.eqb FILE_TYPE_JSON FILE_TYPE_CSV Ascii.eqb Bool.eqb].
  rewrite !xdiv_map by lra.
  unfold cartesian_json; destruct (dc_name c); reflexivity.
Qed.

Lemma json_cylindrical_written d c l m f :
  describes l c -> is_maximum m (map g_rabi l) -> 0 < m ->
  export_to_file d c f FILE_FORMAT_QCTRL FILE_TYPE_JSON CYLINDRICAL =
  (fs_write d f (JsonFile (cylindrical_json (dc_name c) m l)), None).
Proof.
  intros D M P; apply (desc_max l c m D) in M.
  rewrite export_valid_args by (simpl; auto).
  unfold export_to_qctrl_expanded_format; rewrite (content_cylindrical c l m D M).
  cbn [String.eqb FILE_TYPE_JSON FILE_TYPE_CSV Ascii.eqb Bool.eqb].
  rewrite !xdiv_map by lra.
  unfold cylindrical_json; destruct (dc_name c); reflexivity.
Qed.

Lemma finite_values_map (f : seg -> R) l : finite_values (map (fun g => Fin (f g)) l) = Some (map f l).
Proof. induction l; simpl; auto; rewrite IHl; auto. Qed.

Lemma rescale (f : seg -> R) m l : m <> 0 -> map (fun x => m * x) (map (fun g => f g / m) l) = map f l.
Proof. intros H; rewrite map_map; apply map_ext; intros; field; auto. Qed.

Theorem json_round_trip d c l m f :
  constructible c -> describes l c -> is_maximum m (map g_rabi l) -> 0 < m ->
  (exists d' obj,
     export_to_file d c f FILE_FORMAT_QCTRL FILE_TYPE_JSON CARTESIAN = (d', None) /\
     d' f = Some (JsonFile obj) /\
     map fst obj = ["amplitude_x"; "amplitude_y"; "detuning"; "duration"; "maximum_rabi_rate"]
                   ++ match dc_name c with Some _ => ["name"] | None => [] end /\
     read_json "amplitude_x" "amplitude_y" true obj =
       Some (map seg_x l, map seg_y l, detunings c, durations c, dc_name c)) /\
  (exists d' obj,
     export_to_file d c f FILE_FORMAT_QCTRL FILE_TYPE_JSON CYLINDRICAL = (d', None) /\
     d' f = Some (JsonFile obj) /\
     map fst obj = ["azimuthal_angles"; "detuning"; "duration"; "maximum_rabi_rate"]
                   ++ match dc_name c with Some _ => ["name"] | None => [] end ++ ["rabi_rates"] /\
     read_json "rabi_rates" "azimuthal_angles" false obj =
       Some (rabi_rates c, azimuthal_angles c, detunings c, durations c, dc_name c)).
Proof.
  intros _ D M P; split.
  - do 2 eexists; split; [apply (json_cartesian_written d c l m f D M P)|].
    split; [unfold fs_write; rewrite String.eqb_refl; reflexivity|].
    destruct D as [_ [_ [E3 E4]]]; rewrite E3, E4.
    destruct (dc_name c) as [n|]; split; try reflexivity; cbn -[map finite_values];
      rewrite !finite_values_map, !rescale by lra; reflexivity.
  - do 2 eexists; split; [apply (json_cylindrical_written d c l m f D M P)|].
    split; [unfold fs_write; rewrite String.eqb_refl; reflexivity|].
    destruct D as [E1 [E2 [E3 E4]]]; rewrite E1, E2, E3, E4.
    destruct (dc_name c) as [n|]; split; try reflexivity; cbn -[map finite_values];
      rewrite !finite_values_map, !rescale by lra; reflexivity.
Qed.

(** ** C08, C09: CSV *)

Lemma nth_error_seg {B} (f : seg -> B) l i g :
  nth_error l i = Some g -> nth_error (map f l) i = Some (f g).
Proof. intros; apply map_nth_error; auto. Qed.

Lemma csv_rows_all d names (row : seg -> list xfloat) l pre :
  (forall i g, nth_error l i = Some g -> csv_row d (pre + i) names = Ok (row g)) ->
  csv_rows d names (seq pre (List.length l)) = (map row l, None).
Proof.
  revert pre; induction l as [|g l IH]; intros pre H; [reflexivity|].
  cbn [List.length seq csv_rows map].
  assert (E := H 0%nat g eq_refl); rewrite Nat.add_0_r in E; rewrite E.
  rewrite (IH (S pre)); [reflexivity|].
  intros i g' Hi; rewrite <- (H (S i) g' Hi); f_equal; lia.
Qed.

Definition cartesian_row (m : R) (g : seg) : list xfloat :=
  [xdiv (seg_x g) m; xdiv (seg_y g) m; Fin (g_det g); Fin (g_dur g); Fin m].
Definition cylindrical_row (m : R) (g : seg) : list xfloat :=
  [Fin (g_phi g); Fin (g_det g); Fin (g_dur g); Fin m; xdiv (g_rabi g) m].

Lemma nth_error_repeat' {A} (a : A) n i : (i < n)%nat -> nth_error (repeat a n) i = Some a.
Proof. revert i; induction n; intros [|i] H; simpl; auto; try lia; apply IHn; lia. Qed.

Lemma segments_count l c : describes l c -> number_of_segments c = List.length l.
Proof. intros [E _]; unfold number_of_segments; rewrite E, map_length; auto. Qed.

Lemma csv_cartesian_written d c l m n f :
  describes l c -> is_maximum m (map g_rabi l) -> dc_name c = Some n ->
  export_to_file d c f FILE_FORMAT_QCTRL FILE_TYPE_CSV CARTESIAN =
  (fs_write d f (CsvFile ["amplitude_x"; "amplitude_y"; "detuning"; "duration"; "maximum_rabi_rate"]
                   (map (cartesian_row m) l)), None).
Proof.
  intros D M N; assert (M' := M); apply (desc_max l c m D) in M.
  rewrite export_valid_args by (simpl; auto).
  unfold export_to_qctrl_expanded_format; rewrite (content_cartesian c l m D M), N.
  cbn [String.eqb FILE_TYPE_CSV Ascii.eqb Bool.eqb].
  rewrite M; cbn [dict_pop app dict_get String.eqb Ascii.eqb Bool.eqb dict_remove filter negb fst
                  dict_set map].
  set (tb := [("maximum_rabi_rate", _); _; _; _; _]).
  replace (sorted_strings ["maximum_rabi_rate"; "detuning"; "duration"; "amplitude_x"; "amplitude_y"])
    with ["amplitude_x"; "amplitude_y"; "detuning"; "duration"; "maximum_rabi_rate"] by reflexivity.
  unfold range; rewrite (segments_count l c D).
  rewrite (csv_rows_all tb _ (cartesian_row m) l 0); [reflexivity|].
  intros i g Hi; unfold tb; cbn [Nat.add csv_row csv_cell dict_get String.eqb Ascii.eqb Bool.eqb].
  rewrite !(nth_error_seg _ l i g Hi), (segments_count l c D).
  rewrite nth_error_repeat'; [reflexivity|]. apply nth_error_Some; congruence.
Qed.

Lemma csv_cylindrical_written d c l m n f :
  describes l c -> is_maximum m (map g_rabi l) -> dc_name c = Some n ->
  export_to_file d c f FILE_FORMAT_QCTRL FILE_TYPE_CSV CYLINDRICAL =
  (fs_write d f (CsvFile ["azimuthal_angles"; "detuning"; "duration"; "maximum_rabi_rate"; "rabi_rates"]
                   (map (cylindrical_row m) l)), None).
Proof.
  intros D M N; assert (M' := M); apply (desc_max l c m D) in M.
  rewrite export_valid_args by (simpl; auto).
  unfold export_to_qctrl_expanded_format; rewrite (content_cylindrical c l m D M), N.
  cbn [String.eqb FILE_TYPE_CSV Ascii.eqb Bool.eqb].
  rewrite M; cbn [dict_pop app dict_get String.eqb Ascii.eqb Bool.eqb dict_remove filter negb fst
                  dict_set map].
  set (tb := [("maximum_rabi_rate", _); _; _; _; _]).
  replace (sorted_strings ["maximum_rabi_rate"; "detuning"; "duration"; "rabi_rates"; "azimuthal_angles"])
    with ["azimuthal_angles"; "detuning"; "duration"; "maximum_rabi_rate"; "rabi_rates"] by reflexivity.
  unfold range; rewrite (segments_count l c D).
  rewrite (csv_rows_all tb _ (cylindrical_row m) l 0); [reflexivity|].
  intros i g Hi; unfold tb; cbn [Nat.add csv_row csv_cell dict_get String.eqb Ascii.eqb Bool.eqb].
  rewrite !(nth_error_seg _ l i g Hi), (segments_count l c D).
  rewrite nth_error_repeat'; [reflexivity|]. apply nth_error_Some; congruence.
Qed.

Theorem csv_named d c l m n f :
  constructible c -> describes l c -> is_maximum m (map g_rabi l) -> dc_name c = Some n ->
  (exists d' header rows,
     export_to_file d c f FILE_FORMAT_QCTRL FILE_TYPE_CSV CARTESIAN = (d', None) /\
     d' f = Some (CsvFile header rows) /\ List.length rows = List.length l /\
     forall i g, nth_error l i = Some g ->
       exists row, nth_error rows i = Some row /\ List.length row = List.length header /\
         csv_cell_of header row "amplitude_x" = Some (xdiv (seg_x g) m) /\
         csv_cell_of header row "amplitude_y" = Some (xdiv (seg_y g) m) /\
         csv_cell_of header row "detuning" = Some (Fin (g_det g)) /\
         csv_cell_of header row "duration" = Some (Fin (g_dur g)) /\
         csv_cell_of header row "maximum_rabi_rate" = Some (Fin m)) /\
  (exists d' header rows,
     export_to_file d c f FILE_FORMAT_QCTRL FILE_TYPE_CSV CYLINDRICAL = (d', None) /\
     d' f = Some (CsvFile header rows) /\ List.length rows = List.length l /\
     forall i g, nth_error l i = Some g ->
       exists row, nth_error rows i = Some row /\ List.length row = List.length header /\
         csv_cell_of header row "rabi_rates" = Some (xdiv (g_rabi g) m) /\
         csv_cell_of header row "azimuthal_angles" = Some (Fin (g_phi g)) /\
         csv_cell_of header row "detuning" = Some (Fin (g_det g)) /\
         csv_cell_of header row "duration" = Some (Fin (g_dur g)) /\
         csv_cell_of header row "maximum_rabi_rate" = Some (Fin m)).
Proof.
  intros _ D M N; split.
  - do 3 eexists; split; [apply (csv_cartesian_written d c l m n f D M N)|].
    split; [unfold fs_write; rewrite String.eqb_refl; reflexivity|].
    split; [apply map_length|].
    intros i g Hi; exists (cartesian_row m g); split; [apply map_nth_error; auto|].
    repeat split; reflexivity.
  - do 3 eexists; split; [apply (csv_cylindrical_written d c l m n f D M N)|].
    split; [unfold fs_write; rewrite String.eqb_refl; reflexivity|].
    split; [apply map_length|].
    intros i g Hi; exists (cylindrical_row m g); split; [apply map_nth_error; auto|].
    repeat split; reflexivity.
Qed.

Theorem csv_unnamed d c l f coords :
  constructible c -> describes l c -> l <> [] -> dc_name c = None ->
  In coords coordinate_systems ->
  export_to_file d c f FILE_FORMAT_QCTRL FILE_TYPE_CSV coords = (d, Some (KeyError "name")).
Proof.
  intros K D NE N I; destruct (np_amax_ok (rabi_rates c)) as [m M].
  { eapply desc_nonempty; eauto. }
  change (maximum_rabi_rate c = Ok m) in M.
  rewrite export_valid_args by (simpl; auto); unfold export_to_qctrl_expanded_format.
  destruct I as [<-|[<-|[]]].
  - rewrite (content_cartesian c l m D M), N; reflexivity.
  - rewrite (content_cylindrical c l m D M), N; reflexivity.
Qed.

Theorem csv_refuted :
  exists c, constructible c /\ number_of_segments c <> 0%nat /\
    forall d f coords, In coords coordinate_systems ->
      exists k, snd (export_to_file d c f FILE_FORMAT_QCTRL FILE_TYPE_CSV coords) = Some (KeyError k).
Proof.
  destruct (segments_constructible [Seg 1 0 0 1] None) as [c [Hc [D N]]].
  { intros g [<-|[]]; simpl; lra. }
  assert (K : constructible c) by (do 5 eexists; exact Hc).
  exists c; split; [auto|]; split; [rewrite (segments_count _ _ D); discriminate|].
  intros d f coords I; exists "name".
  rewrite (csv_unnamed d c [Seg 1 0 0 1] f coords K D); auto; discriminate.
Qed.

Theorem csv_layout_cartesian d c l m n f d' :
  constructible c -> describes l c -> is_maximum m (map g_rabi l) -> dc_name c = Some n ->
  export_to_file d c f FILE_FORMAT_QCTRL FILE_TYPE_CSV CARTESIAN = (d', None) ->
  exists header rows,
    d' f = Some (CsvFile header rows) /\ List.length header = 5%nat /\
    nth_error header 4 = Some "maximum_rabi_rate" /\
    forall row, In row rows -> List.length row = 5%nat /\ nth_error row 4 = Some (Fin m).
Proof.
  intros _ D M N E; rewrite (csv_cartesian_written d c l m n f D M N) in E; injection E as <-.
  do 2 eexists; split; [unfold fs_write; rewrite String.eqb_refl; reflexivity|].
  split; [reflexivity|]; split; [reflexivity|].
  intros row Hr; apply in_map_iff in Hr; destruct Hr as [g [<- _]]; split; reflexivity.
Qed.

Theorem csv_layout_cylindrical d c l m n f d' :
  constructible c -> describes l c -> is_maximum m (map g_rabi l) -> dc_name c = Some n ->
  export_to_file d c f FILE_FORMAT_QCTRL FILE_TYPE_CSV CYLINDRICAL = (d', None) ->
  exists header rows,
    d' f = Some (CsvFile header rows) /\ List.length header = 5%nat /\
    nth_error header 3 = Some "maximum_rabi_rate" /\ nth_error header 4 = Some "rabi_rates" /\
    forall row, In row rows -> List.length row = 5%nat /\ nth_error row 3 = Some (Fin m).
Proof.
  intros _ D M N E; rewrite (csv_cylindrical_written d c l m n f D M N) in E; injection E as <-.
  do 2 eexists; split; [unfold fs_write; rewrite String.eqb_refl; reflexivity|].
  split; [reflexivity|]; split; [reflexivity|]; split; [reflexivity|].
  intros row Hr; apply in_map_iff in Hr; destruct Hr as [g [<- _]]; split; reflexivity.
Qed.

Theorem csv_layout_refuted :
  exists c m, constructible c /\ is_maximum m (rabi_rates c) /\ dc_name c <> None /\
    forall d f, exists d' header rows,
      export_to_file d c f FILE_FORMAT_QCTRL FILE_TYPE_CSV CYLINDRICAL = (d', None) /\
      d' f = Some (CsvFile header rows) /\ rows <> [] /\
      nth_error header 4 <> Some "maximum_rabi_rate" /\
      exists row, In row rows /\ nth_error row 4 <> Some (Fin m).
Proof.
  destruct (segments_constructible [Seg 2 0 0 1] (Some "x")) as [c [Hc [D N]]].
  { intros g [<-|[]]; simpl; lra. }
  assert (K : constructible c) by (do 5 eexists; exact Hc).
  assert (M : is_maximum 2 (map g_rabi [Seg 2 0 0 1])).
  { split; [left; auto|intros x [<-|[]]; simpl; lra]. }
  exists c, 2; split; [auto|]; split; [destruct D as [-> _]; auto|]; split; [congruence|].
  intros d f; do 3 eexists; split; [apply (csv_cylindrical_written d c _ 2 "x" f D M N)|].
  split; [unfold fs_write; rewrite String.eqb_refl; reflexivity|].
  split; [discriminate|]; split; [discriminate|].
  exists (cylindrical_row 2 (Seg 2 0 0 1)); split; [left; auto|].
  cbn; rewrite xdiv_fin by lra; intros E; injection E; lra.
Qed.

(** ** C10: frame *)

Lemma fs_write_same_except d f x : same_except f d (fs_write d f x).
Proof.
  intros q H; unfold fs_write; destruct (String.eqb q f) eqn:E; auto.
  apply String.eqb_eq in E; contradiction.
Qed.

Lemma describes_max c l : describes l c -> l <> [] -> exists m, is_maximum m (map g_rabi l).
Proof.
  intros D NE; destruct (np_amax_ok (map g_rabi l)) as [m M].
  - intros E; apply map_eq_nil in E; auto.
  - exists m; apply amax_is_maximum; auto.
Qed.

Theorem export_frame d c f fmt ty coords d' e :
  constructible c ->
  export_to_file d c f fmt ty coords = (d', e) ->
  same_except f d d' /\ (e <> None -> d' = d) /\ (e = None -> d' f <> None).
Proof.
  intros K E.
  destruct (str_in fmt file_formats) eqn:F.
  2:{ unfold export_to_file in E; rewrite F in E; cbn in E; injection E as <- <-.
      split; [intros q _; reflexivity|split; [reflexivity|discriminate]]. }
  destruct (str_in ty file_types) eqn:T.
  2:{ unfold export_to_file in E; rewrite F, T in E; cbn in E; injection E as <- <-.
      split; [intros q _; reflexivity|split; [reflexivity|discriminate]]. }
  destruct (str_in coords coordinate_systems) eqn:C.
  2:{ unfold export_to_file in E; rewrite F, T, C in E; cbn in E; injection E as <- <-.
      split; [intros q _; reflexivity|split; [reflexivity|discriminate]]. }
  apply str_in_true in F; apply str_in_true in T; apply str_in_true in C.
  destruct F as [<-|[]].
  destruct (constructible_segments c K) as [l [D _]].
  destruct l as [|g0 l0].
  { rewrite export_valid_args in E by auto.
    unfold export_to_qctrl_expanded_format, qctrl_expanded_export_content, maximum_rabi_rate in E.
    destruct D as [D1 _]; rewrite D1 in E; cbn in E; injection E as <- <-.
    split; [intros q _; reflexivity|split; [reflexivity|discriminate]]. }
  assert (NE : g0 :: l0 <> []) by discriminate; remember (g0 :: l0) as l eqn:El; clear El.
  destruct (describes_max c l D NE) as [m M].
  assert (W : forall x, d' = fs_write d f x -> e = None ->
                same_except f d d' /\ (e <> None -> d' = d) /\ (e = None -> d' f <> None)).
  { intros x -> ->; split; [apply fs_write_same_except|]; split; [congruence|].
    intros _; unfold fs_write; rewrite String.eqb_refl; discriminate. }
  destruct T as [<-|[<-|[]]].
  - rewrite export_valid_args in E by (simpl; auto).
    unfold export_to_qctrl_expanded_format in E.
    apply (desc_max l c m D) in M.
    destruct C as [<-|[<-|[]]].
    + rewrite (content_cartesian c l m D M) in E; cbn [String.eqb FILE_TYPE_JSON FILE_TYPE_CSV Ascii.eqb Bool.eqb] in E.
      injection E as <- <-; eapply W; reflexivity.
    + rewrite (content_cylindrical c l m D M) in E; cbn [String.eqb FILE_TYPE_JSON FILE_TYPE_CSV Ascii.eqb Bool.eqb] in E.
      injection E as <- <-; eapply W; reflexivity.
  - destruct (dc_name c) as [n|] eqn:N.
    + destruct C as [<-|[<-|[]]].
      * rewrite (csv_cartesian_written d c l m n f D M N) in E; injection E as <- <-; eapply W; reflexivity.
      * rewrite (csv_cylindrical_written d c l m n f D M N) in E; injection E as <- <-; eapply W; reflexivity.
    + rewrite (csv_unnamed d c l f coords K D NE N C) in E; injection E as <- <-.
      split; [intros q _; reflexivity|split; [reflexivity|discriminate]].
Qed.

(** ** C11: printed form *)

Lemma Forall2_prints_fmt fmt (l : list R) : Forall2 (prints fmt) (map fmt l) l.
Proof. induction l; constructor; auto; left; auto. Qed.

Lemma scaled_strings_denote fmt scale l :
  (scale = 0 -> forall x, In x l -> x = 0) ->
  exists qs, Forall2 (prints fmt) (scaled_strings fmt scale l) qs /\ map (fun q => q * scale) qs = l.
Proof.
  intros H; unfold scaled_strings; destruct (neqb scale 0) eqn:E; breflect.
  - exists (map (fun x => x / scale) l); split.
    + rewrite <- (map_map (fun x => x / scale) fmt); apply Forall2_prints_fmt.
    + rewrite map_map, (map_ext _ (fun x => x)); [apply map_id|intros; field; auto].
  - exists (map (fun _ => 0) l); split.
    + clear H; induction l; constructor; auto; right; auto.
    + rewrite map_map; rewrite <- (map_id l) at 2; apply map_ext_in.
      intros x Hx; rewrite (H E x Hx); ring.
Qed.

Lemma nil_or_total_pos l : all_positive l -> l <> [] -> 0 < total l.
Proof.
  destruct l as [|x l]; [congruence|]; intros H _; simpl.
  assert (0 < x) by (apply H; left; auto).
  assert (0 <= total l); [|lra].
  rewrite <- np_sum_total; apply np_sum_nonneg, Forall_forall; intros y Hy.
  apply Rlt_le, H; right; auto.
Qed.

Theorem printed_form fmt c mr md :
  constructible c -> is_maximum mr (rabi_rates c) -> is_maximum md (detunings c) ->
  (md = 0 -> forall x, In x (detunings c) -> x = 0) ->
  exists l1 l2 l3 l4,
    driven_control_str fmt c =
      Ok (str_join newline
            (match dc_name c with Some n => [(n ++ ":")%string] | None => [] end ++ [l1; l2; l3; l4])) /\
    scaled_line fmt "Rabi Rates" mr (fmt mr) (rabi_rates c) l1 /\
    scaled_line fmt "Azimuthal Angles" PI "pi" (azimuthal_angles c) l2 /\
    scaled_line fmt "Detunings" md (fmt md) (detunings c) l3 /\
    scaled_line fmt "Durations" (total (durations c)) (fmt (total (durations c))) (durations c) l4.
Proof.
  intros K Mr Md Z; assert (W := K); apply constructible_wf in W; destruct W as [H1 [H2 [H3 [H4 H5]]]].
  assert (T : 0 < total (durations c)).
  { apply nil_or_total_pos; auto; intros E; rewrite E in H1; destruct Mr as [I _].
    destruct (rabi_rates c); [contradiction|discriminate]. }
  unfold driven_control_str, maximum_rabi_rate, maximum_detuning.
  rewrite (proj2 (amax_is_maximum _ _) Mr), (proj2 (amax_is_maximum _ _) Md); cbn [bind].
  unfold duration; rewrite np_sum_total.
  do 4 eexists; split; [reflexivity|].
  split; [|split; [|split]].
  - destruct (scaled_strings_denote fmt mr (rabi_rates c)) as [qs [Q1 Q2]].
    { intros E x Hx; destruct Mr as [_ U]; assert (x <= mr) by auto; assert (0 <= x) by auto; lra. }
    do 2 eexists; split; [exact Q1|split; [exact Q2|reflexivity]].
  - exists (map (fun a => fmt (a / PI)) (azimuthal_angles c)), (map (fun a => a / PI) (azimuthal_angles c)).
    split; [rewrite <- (map_map (fun a => a / PI) fmt); apply Forall2_prints_fmt|].
    split; [rewrite map_map, (map_ext _ (fun x => x)); [apply map_id|intros; field; apply PI_neq0]|reflexivity].
  - destruct (scaled_strings_denote fmt md (detunings c) Z) as [qs [Q1 Q2]].
    do 2 eexists; split; [exact Q1|split; [exact Q2|reflexivity]].
  - exists (map (fun a => fmt (a / total (durations c))) (durations c)),
      (map (fun a => a / total (durations c)) (durations c)).
    split; [rewrite <- (map_map (fun a => a / total (durations c)) fmt); apply Forall2_prints_fmt|].
    split; [rewrite map_map, (map_ext _ (fun x => x)); [apply map_id|intros; field; lra]|reflexivity].
Qed.

(** two different controls with the same printed form *)
Theorem printed_form_refuted :
  exists c c', constructible c /\ constructible c' /\ detunings c <> detunings c' /\
    forall fmt, driven_control_str fmt c = driven_control_str fmt c' /\
                exists s, driven_control_str fmt c = Ok s.
Proof.
  destruct (segments_constructible [Seg 1 0 0 1; Seg 1 0 (-1) 1] None) as [c [Hc [D N]]].
  { intros g [<-|[<-|[]]]; simpl; lra. }
  destruct (segments_constructible [Seg 1 0 0 1; Seg 1 0 (-2) 1] None) as [c' [Hc' [D' N']]].
  { intros g [<-|[<-|[]]]; simpl; lra. }
  exists c, c'; split; [do 5 eexists; exact Hc|]; split; [do 5 eexists; exact Hc'|].
  destruct D as [A1 [A2 [A3 A4]]]; destruct D' as [B1 [B2 [B3 B4]]].
  split; [rewrite A3, B3; simpl; intros E; injection E; lra|].
  assert (M : maximum_detuning c = Ok 0).
  { apply amax_is_maximum; rewrite A3; split; [left; auto|intros x [<-|[<-|[]]]; simpl; lra]. }
  assert (M' : maximum_detuning c' = Ok 0).
  { apply amax_is_maximum; rewrite B3; split; [left; auto|intros x [<-|[<-|[]]]; simpl; lra]. }
  intros fmt; unfold driven_control_str; rewrite M, M'.
  unfold maximum_rabi_rate, duration; rewrite A1, A2, A3, A4, B1, B2, B3, B4, N, N'.
  assert (Z : forall l, scaled_strings fmt 0 l = map (fun _ => "0") l).
  { intros l; unfold scaled_strings; rewrite (proj2 (neqb_false 0 0)); auto. }
  cbn [map np_amax bind g_rabi g_det g_phi g_dur].
  rewrite !Z; split; [reflexivity|eexists; reflexivity].
Qed.

(** ** A concrete control used in the non-vacuity examples *)

Definition demo : list seg := [Seg 2 (PI / 2) 1 1; Seg 0 0 (-1) 3; Seg 1 PI 0 (1 / 2)].

Lemma demo_control name :
  exists c, constructible c /\ describes demo c /\ dc_name c = name /\
    is_maximum 2 (map g_rabi demo) /\ number_of_segments c = 3%nat.
Proof.
  destruct (segments_constructible demo name) as [c [Hc [D N]]].
  { intros g [<-|[<-|[<-|[]]]]; simpl; lra. }
  exists c; split; [do 5 eexists; exact Hc|]; split; [auto|]; split; [auto|].
  split; [split; [left; auto|intros x [<-|[<-|[<-|[]]]]; simpl; lra]|].
  apply (segments_count demo c D).
Qed.
