(** * Reading and exporting objects in memory *)

From Coq Require Import Lia Lra.
From Verif Require Import L_Base.
From Verif Require Export L_HeapConvert Spec_HeapRead.
Import ListNotations.
Set Bullet Behavior "Strict Subproofs".
Open Scope string_scope.
Open Scope list_scope.
Open Scope R_scope.

Lemma control_old h h' c : preserves h h' -> control_lives h c -> control_lives h' c /\ control_at h' c = control_at h c.
Proof.
  intros P L; split; [intros v I; apply (preserves_lives h); auto|].
  unfold control_at; f_equal; apply preserves_contents; auto; apply L; cbn; auto.
Qed.

(** one step of a program *)
Lemma step {A B} h0 h (p : prog A) (k : A -> prog B) a h1 r : p h = (Ok a, h1) -> preserves h0 h1 ->
  (preserves h0 h1 -> exists h', k a h1 = (r, h') /\ preserves h0 h') -> exists h', pbind p k h = (r, h') /\ preserves h0 h'.
Proof. intros E P H; rewrite (pbind_ok _ _ _ _ _ E); auto. Qed.

Lemma new_array h f xs : exists v h', new f xs h = (Ok v, h') /\ preserves h h' /\ lives h' v /\
  (fresh h v /\ c_float (cell_at h' (nd_base v)) = f) /\ contents h' v = xs.
Proof.
  exists (whole (List.length h) (List.length xs)), (h ++ Cell f xs :: nil)%list; split; [apply new_run|].
  split; [apply preserves_new|split; [apply lives_new|split; [|apply contents_new]]].
  split; [unfold fresh, whole; cbn; lia|unfold cell_at, whole; cbn [nd_base]; rewrite nth_middle; reflexivity].
Qed.
Lemma mapped_array h f u : reads_array h (mapped f u) (map f (contents h u)).
Proof. unfold reads_array, mapped; rewrite get_run; apply new_array. Qed.
Lemma zipped_array h f u v : reads_array h (zipped f u v) (zip_with f (contents h u) (contents h v)).
Proof. unfold reads_array, zipped; rewrite !get_run; apply new_array. Qed.

Lemma reads_array_bind h p k xs ys : reads_array h p xs ->
  (forall v h1, preserves h h1 -> lives h1 v -> fresh h v /\ float_array h1 v -> contents h1 v = xs -> reads_array h1 (k v) ys) ->
  reads_array h (pbind p k) ys.
Proof.
  intros [v [h1 [E [P [L [F C]]]]]] H; destruct (H v h1 P L F C) as [w [h2 [E2 [P2 [L2 [F2 C2]]]]]].
  exists w, h2; rewrite (pbind_ok _ _ _ _ _ E); split; auto; split; [apply (preserves_trans _ h1); auto|].
  split; auto; split; auto; destruct F as [F _], F2 as [F2 D]; split; auto; apply preserves_length in P; unfold fresh in *; lia.
Qed.
Lemma reads_bind_array {A} h p (k : ndarray -> prog A) xs r : reads_array h p xs ->
  (forall v h1, preserves h h1 -> lives h1 v -> contents h1 v = xs -> reads h1 (k v) r) -> reads h (pbind p k) r.
Proof.
  intros [v [h1 [E [P [L [F C]]]]]] H; destruct (H v h1 P L C) as [h2 [E2 P2]].
  exists h2; rewrite (pbind_ok _ _ _ _ _ E); split; auto; apply (preserves_trans _ h1); auto.
Qed.
Lemma reads_bind {A B} h (p : prog A) (k : A -> prog B) r q : reads h p r ->
  (forall a h1, preserves h h1 -> r = Ok a -> reads h1 (k a) (q a)) -> reads h (pbind p k) (bind r q).
Proof.
  intros [h1 [E P]] H; destruct r as [a|e]; cbn [bind].
  - destruct (H a h1 P eq_refl) as [h2 [E2 P2]]; exists h2; rewrite (pbind_ok _ _ _ _ _ E); split; auto; apply (preserves_trans _ h1); auto.
  - exists h1; rewrite (pbind_raise _ _ _ _ _ E); auto.
Qed.
Lemma reads_bind_ok {A B} h (p : prog A) (k : A -> prog B) a r : reads h p (Ok a) ->
  (forall h1, preserves h h1 -> reads h1 (k a) r) -> reads h (pbind p k) r.
Proof. intros H K; apply (reads_bind h p k (Ok a) (fun _ => r)); auto; intros b h1 P E; injection E as <-; auto. Qed.
Lemma reads_get {B} h v (k : list R -> prog B) r : reads h (k (contents h v)) r -> reads h (pbind (get v) k) r.
Proof. intros H; unfold reads; rewrite get_run; exact H. Qed.
Lemma reads_ret {A} h (a : A) : reads h (ret a) (Ok a).
Proof. exists h; split; [reflexivity|apply preserves_refl]. Qed.
Lemma reads_lift {A} h (r : result A) : reads h (lift r) r.
Proof. exists h; split; [reflexivity|apply preserves_refl]. Qed.

Lemma amplitude_zip (f : R -> R) : forall r p, zip_with Rmult r (map f p) = zip_with (fun r p => r * f p) r p.
Proof. unfold zip_with; induction r as [|x r IH]; intros [|y p]; cbn; f_equal; auto. Qed.
Lemma amplitudes_zip : forall x y z,
  map sqrt (zip_with Rplus (zip_with Rplus (map (fun a => a ^ 2) x) (map (fun a => a ^ 2) y)) (map (fun a => a ^ 2) z)) =
  zip_with (fun xy z => sqrt (fst xy ^ 2 + snd xy ^ 2 + z ^ 2)) (combine x y) z.
Proof.
  unfold zip_with; induction x as [|a x IH]; intros [|b y] [|c z]; try reflexivity.
  cbn [map combine]; rewrite <- IH; reflexivity.
Qed.

Section Control.
  Variable c : hcontrol.

  Lemma attribute h v : control_lives h c -> In v (control_attributes c) -> forall h', preserves h h' -> contents h' v = contents h v.
  Proof. intros L I h' P; apply preserves_contents; auto. Qed.

  Lemma reads_x h : control_lives h c -> reads_array h (hamplitude_x c) (amplitude_x (control_at h c)).
  Proof.
    intros L; unfold hamplitude_x; eapply reads_array_bind; [apply mapped_array|]; intros v h1 P1 L1 _ C1.
    unfold amplitude_x; rewrite <- amplitude_zip; cbn [control_at rabi_rates azimuthal_angles].
    rewrite <- C1, <- (attribute h (hc_rabi_rates c) L ltac:(cbn; auto) h1 P1); apply zipped_array.
  Qed.
  Lemma reads_y h : control_lives h c -> reads_array h (hamplitude_y c) (amplitude_y (control_at h c)).
  Proof.
    intros L; unfold hamplitude_y; eapply reads_array_bind; [apply mapped_array|]; intros v h1 P1 L1 _ C1.
    unfold amplitude_y; rewrite <- amplitude_zip; cbn [control_at rabi_rates azimuthal_angles].
    rewrite <- C1, <- (attribute h (hc_rabi_rates c) L ltac:(cbn; auto) h1 P1); apply zipped_array.
  Qed.

  Lemma reads_amplitudes h : control_lives h c -> reads_array h (hamplitudes c) (amplitudes (control_at h c)).
  Proof.
    intros L; unfold hamplitudes; eapply reads_array_bind; [apply reads_x; auto|]; intros x h1 P1 L1 _ C1.
    eapply reads_array_bind; [apply mapped_array|]; intros x2 h2 P2 L2 _ C2; rewrite C1 in C2.
    assert (P02 := preserves_trans _ _ _ P1 P2); destruct (control_old h h2 c P02 L) as [LC2 EC2].
    eapply reads_array_bind; [apply reads_y; auto|]; intros y h3 P3 L3 _ C3; rewrite EC2 in C3.
    eapply reads_array_bind; [apply mapped_array|]; intros y2 h4 P4 L4 _ C4; rewrite C3 in C4.
    assert (P24 := preserves_trans _ _ _ P3 P4).
    rewrite <- (preserves_contents _ _ _ P24 L2) in C2; assert (L2' := preserves_lives _ _ _ P24 L2).
    eapply reads_array_bind; [apply zipped_array|]; intros xy h5 P5 L5 _ C5; rewrite C2, C4 in C5.
    assert (P05 := preserves_trans _ _ _ P02 (preserves_trans _ _ _ P24 P5)).
    eapply reads_array_bind; [apply mapped_array|]; intros z2 h6 P6 L6 _ C6.
    rewrite (attribute h (hc_detunings c) L ltac:(cbn; auto) h5 P05) in C6; rewrite <- (preserves_contents _ _ _ P6 L5) in C5.
    eapply reads_array_bind; [apply zipped_array|]; intros xyz h7 P7 L7 _ C7; rewrite C5, C6 in C7.
    unfold amplitudes; rewrite <- amplitudes_zip; change (detunings (control_at h c)) with (contents h (hc_detunings c)).
    rewrite <- C7; apply mapped_array.
  Qed.

  Lemma reads_property q h : control_lives h c -> reads_array h (read_property q c) (property_value q (control_at h c)).
  Proof.
    intros L; destruct q; cbn [read_property property_value]; [apply reads_x; auto|apply reads_y; auto| |].
    - unfold hangles; eapply reads_array_bind; [apply reads_amplitudes; auto|]; intros v h1 P1 L1 _ C1.
      unfold angles; rewrite <- C1; cbn [control_at durations]; rewrite <- (attribute h (hc_durations c) L ltac:(cbn; auto) h1 P1); apply zipped_array.
    - unfold htimes, reads_array; rewrite get_run; eapply reads_array_bind; [apply new_array|]; intros v h1 P1 L1 _ C1.
      unfold reads_array; rewrite get_run, C1; apply new_array.
  Qed.

  Lemma reads_directions h : control_lives h c -> exists res h', hdirections c h = (res, h') /\ preserves h h' /\
    map_result (fun m => triples (contents h' (m_data m))) res = directions (control_at h c) /\
    (forall m, res = Ok m -> lives h' (m_data m) /\ fresh h (m_data m) /\ float_array h' (m_data m) /\ m_columns m = 3%nat).
  Proof.
    intros L; unfold hdirections, directions.
    destruct (reads_amplitudes h L) as [a [h1 [E1 [P1 [L1 [_ C1]]]]]]; rewrite (pbind_ok _ _ _ _ _ E1), get_run, C1.
    destruct (np_amax (amplitudes (control_at h c))) as [mx|e] eqn:M; cbn [bind].
    2:{ exists (Raise e), h1; split; [reflexivity|split; [auto|split; [reflexivity|discriminate]]]. }
    rewrite (pbind_ok _ _ h1 mx h1) by reflexivity.
    destruct (mapped_array h1 (safe_amplitude (direction_tolerance mx)) a) as [s [h2 [E2 [P2 [L2 [_ C2]]]]]]; rewrite (pbind_ok _ _ _ _ _ E2); rewrite C1 in C2.
    assert (P02 := preserves_trans _ _ _ P1 P2); destruct (control_old h h2 c P02 L) as [LC2 EC2].
    destruct (reads_x h2 LC2) as [x [h3 [E3 [P3 [L3 [_ C3]]]]]]; rewrite (pbind_ok _ _ _ _ _ E3); rewrite EC2 in C3.
    destruct (zipped_array h3 Rdiv x s) as [nx [h4 [E4 [P4 [L4 [_ C4]]]]]]; rewrite (pbind_ok _ _ _ _ _ E4).
    rewrite C3, (preserves_contents _ _ _ P3 L2), C2 in C4.
    assert (P24 := preserves_trans _ _ _ P3 P4); assert (P04 := preserves_trans _ _ _ P02 P24); destruct (control_old h h4 c P04 L) as [LC4 EC4].
    destruct (reads_y h4 LC4) as [y [h5 [E5 [P5 [L5 [_ C5]]]]]]; rewrite (pbind_ok _ _ _ _ _ E5); rewrite EC4 in C5.
    destruct (zipped_array h5 Rdiv y s) as [ny [h6 [E6 [P6 [L6 [_ C6]]]]]]; rewrite (pbind_ok _ _ _ _ _ E6).
    assert (P25 := preserves_trans _ _ _ P24 P5); rewrite C5, (preserves_contents _ _ _ P25 L2), C2 in C6.
    assert (P26 := preserves_trans _ _ _ P25 P6); assert (P06 := preserves_trans _ _ _ P02 P26).
    destruct (zipped_array h6 Rdiv (hc_detunings c) s) as [nz [h7 [E7 [P7 [L7 [_ C7]]]]]]; rewrite (pbind_ok _ _ _ _ _ E7).
    rewrite (preserves_contents _ _ _ P26 L2), C2, (attribute h (hc_detunings c) L ltac:(cbn; auto) h6 P06) in C7.
    rewrite !get_run, C7, (preserves_contents _ _ _ P7 L6), C6, (preserves_contents _ _ _ (preserves_trans _ _ _ P5 (preserves_trans _ _ _ P6 P7)) L4), C4.
    assert (P07 := preserves_trans _ _ _ P06 P7).
    match goal with |- context [new true ?l] => destruct (new_array h7 true l) as [v [h8 [E8 [P8 [L8 [F8 C8]]]]]] end.
    rewrite (pbind_ok _ _ _ _ _ E8); exists (Ok (Matrix v 3)), h8; split; [reflexivity|].
    split; [apply (preserves_trans _ _ _ P07 P8)|]; split.
    - cbn [map_result m_data]; rewrite C8; f_equal; clear; cbn [control_at detunings]; match goal with |- triples (flat_map _ ?l) = _ => generalize l end.
      intros l; induction l as [|[[x y] z] l IH]; [reflexivity|]; cbn [flat_map app triples]; f_equal; exact IH.
    - intros m [= <-]; cbn [m_data m_columns]; destruct F8 as [F8 D8]; split; auto; split; [apply preserves_length in P07; unfold fresh in *; lia|split; [exact D8|reflexivity]].
  Qed.

  Lemma reads_maximum h : reads h (hmaximum_rabi_rate c) (maximum_rabi_rate (control_at h c)).
  Proof. apply reads_get, reads_lift. Qed.
  Lemma reads_max_detuning h : reads h (hmaximum_detuning c) (maximum_detuning (control_at h c)).
  Proof. apply reads_get, reads_lift. Qed.
  Lemma reads_duration h : reads h (hduration c) (Ok (duration (control_at h c))).
  Proof. apply reads_get, reads_ret. Qed.
  Lemma reads_numbers h :
    reads h (hnumber_of_segments c) (Ok (number_of_segments (control_at h c))) /\
    reads h (hmaximum_rabi_rate c) (maximum_rabi_rate (control_at h c)) /\
    reads h (hmaximum_detuning c) (maximum_detuning (control_at h c)) /\
    reads h (hmaximum_duration c) (maximum_duration (control_at h c)) /\
    reads h (hminimum_duration c) (minimum_duration (control_at h c)) /\
    reads h (hduration c) (Ok (duration (control_at h c))).
  Proof.
    split; [unfold number_of_segments; cbn [control_at rabi_rates]; rewrite contents_length; apply reads_ret|].
    repeat split; apply reads_get; try apply reads_lift; apply reads_ret.
  Qed.

  Lemma reads_quotient h v m : reads h (hquotient v m) (Ok (map (fun x => xdiv x m) (contents h v))).
  Proof. apply reads_get, reads_ret. Qed.

  Lemma reads_content h coordinates : control_lives h c ->
    reads h (hcontent c coordinates) (qctrl_expanded_export_content (control_at h c) coordinates).
  Proof.
    intros L; unfold hcontent, qctrl_expanded_export_content; eapply reads_bind; [apply reads_maximum|]; intros m h1 P1 M.
    destruct (control_old h h1 c P1 L) as [L1 E1]; rewrite <- E1 in *; clear h P1 L E1.
    apply reads_get, reads_get; destruct (String.eqb coordinates CARTESIAN).
    - eapply reads_bind_array; [apply reads_x; auto|]; intros x h2 P2 LX CX; destruct (control_old h1 h2 c P2 L1) as [L2 E2].
      eapply reads_bind_ok; [rewrite <- M, <- E2; apply reads_maximum|]; intros h3 P3.
      eapply reads_bind_ok; [apply reads_quotient|]; intros h4 P4; rewrite (preserves_contents _ _ _ P3 LX), CX.
      assert (P24 := preserves_trans _ _ _ P3 P4); destruct (control_old h2 h4 c P24 L2) as [L4 E4].
      eapply reads_bind_array; [apply reads_y; auto|]; intros y h5 P5 LY CY; rewrite E4, E2 in CY; destruct (control_old h4 h5 c P5 L4) as [L5 E5].
      eapply reads_bind_ok; [rewrite <- M, <- E2, <- E4, <- E5; apply reads_maximum|]; intros h6 P6.
      eapply reads_bind_ok; [apply reads_quotient|]; intros h7 P7; rewrite (preserves_contents _ _ _ P6 LY), CY; apply reads_ret.
    - eapply reads_bind_ok; [rewrite <- M; apply reads_maximum|]; intros h2 P2.
      eapply reads_bind_ok; [apply reads_quotient|]; intros h3 P3; apply reads_get.
      rewrite (attribute h1 (hc_rabi_rates c) L1 ltac:(cbn; auto) h2 P2), (attribute h1 (hc_azimuthal_angles c) L1 ltac:(cbn; auto) h3 (preserves_trans _ _ _ P2 P3)); apply reads_ret.
  Qed.

  Lemma reads_file h d filename file_format file_type coordinates : control_lives h c ->
    exists h', hexport_to_file d c filename file_format file_type coordinates h =
      (export_to_file d (control_at h c) filename file_format file_type coordinates, h') /\ preserves h h'.
  Proof.
    intros L; unfold hexport_to_file, export_to_file.
    match goal with |- context [match ?x with Ok _ => _ | Raise _ => _ end] => destruct x as [u|e] end; [|exists h; split; [reflexivity|apply preserves_refl]].
    destruct (String.eqb file_format FILE_FORMAT_QCTRL); [|exists h; split; [reflexivity|apply preserves_refl]].
    unfold hexport_expanded, export_to_qctrl_expanded_format.
    destruct (reads_content h coordinates L) as [h1 [E1 P1]]; rewrite E1; destruct (control_old h h1 c P1 L) as [L1 C1].
    destruct (qctrl_expanded_export_content (control_at h c) coordinates) as [inf|e]; [|exists h1; auto].
    destruct (String.eqb file_type FILE_TYPE_CSV); [|exists h1; auto].
    destruct (dict_pop "name" inf) as [popped|e]; [|exists h1; split; [reflexivity|auto]].
    rewrite (pbind_ok (lift (Ok popped)) _ h1 popped h1) by reflexivity.
    destruct (reads_maximum h1) as [h2 [E2 P2]]; rewrite C1 in E2.
    destruct (maximum_rabi_rate (control_at h c)) as [m|e]; [|rewrite (pbind_raise _ _ _ _ _ E2); exists h2; split; [reflexivity|apply (preserves_trans _ h1); auto]].
    rewrite (pbind_ok _ _ _ _ _ E2); unfold hnumber_of_segments; rewrite (pbind_ok (ret _) _ h2 _ h2) by reflexivity; cbn [ret].
    replace (number_of_segments (control_at h c)) with (size (hc_rabi_rates c)) by (unfold number_of_segments; cbn [control_at rabi_rates]; rewrite contents_length; reflexivity).
    exists h2; split; [|apply (preserves_trans _ h1); auto].
    destruct (csv_rows _ _ _) as [rows e]; reflexivity.
  Qed.

  Lemma reads_export h coordinates dimensionless : control_lives h c ->
    reads h (hexport c coordinates dimensionless) (export (control_at h c) coordinates dimensionless).
  Proof.
    intros L; unfold hexport, export; eapply reads_bind; [apply reads_lift|]; intros _ h0 P0 _.
    destruct (control_old h h0 c P0 L) as [L0 E0]; rewrite <- E0 in *; clear h P0 L E0; rename h0 into h; rename L0 into L.
    eapply reads_bind; [destruct dimensionless; [apply reads_maximum|apply reads_ret]|]; intros n h0 P0 _.
    destruct (control_old h h0 c P0 L) as [L0 E0]; rewrite <- E0 in *; clear h P0 L E0; rename h0 into h; rename L0 into L.
    eapply reads_bind_array; [apply reads_x; auto|]; intros x h1 P1 LX CX; destruct (control_old h h1 c P1 L) as [L1 E1].
    eapply reads_bind_ok; [apply reads_quotient|]; intros h2 P2; rewrite CX.
    assert (P02 := preserves_trans _ _ _ P1 P2); destruct (control_old h h2 c P02 L) as [L2 E2].
    eapply reads_bind_array; [apply reads_y; auto|]; intros y h3 P3 LY CY; rewrite E2 in CY.
    eapply reads_bind_ok; [apply reads_quotient|]; intros h4 P4; rewrite CY.
    eapply reads_bind_ok; [apply reads_quotient|]; intros h5 P5.
    assert (P04 := preserves_trans _ _ _ P02 (preserves_trans _ _ _ P3 P4)); rewrite (attribute h (hc_rabi_rates c) L ltac:(cbn; auto) h4 P04).
    assert (P05 := preserves_trans _ _ _ P04 P5).
    assert (A : forall v, In v (control_attributes c) -> contents h5 v = contents h v) by (intros v I; apply attribute; auto).
    eapply reads_bind_ok.
    { instantiate (1 := if String.eqb coordinates CARTESIAN then _ else _); destruct (String.eqb coordinates CARTESIAN); [apply reads_get, reads_get, reads_ret|apply reads_ret]. }
    intros h6 P6; rewrite !A by (cbn; auto); assert (P06 := preserves_trans _ _ _ P05 P6).
    assert (A6 : forall v, In v (control_attributes c) -> contents h6 v = contents h v) by (intros v I; apply attribute; auto).
    eapply reads_bind_ok.
    { instantiate (1 := if String.eqb coordinates CYLINDRICAL then _ else _); destruct (String.eqb coordinates CYLINDRICAL); [apply reads_get, reads_get, reads_ret|apply reads_ret]. }
    intros h7 P7; rewrite !A6 by (cbn; auto); assert (P07 := preserves_trans _ _ _ P06 P7).
    apply reads_get, reads_get; rewrite !(fun v I => attribute h v L I h7 P07) by (cbn; auto); apply reads_ret.
  Qed.

  Lemma reads_comprehension {A B} (f : A -> prog B) (g : A -> B) : forall l h,
    control_lives h c -> (forall x h', preserves h h' -> reads h' (f x) (Ok (g x))) -> reads h (comprehension f l) (Ok (map g l)).
  Proof.
    induction l as [|x l IH]; intros h L H; cbn [comprehension map]; [apply reads_ret|].
    eapply reads_bind_ok; [apply H, preserves_refl|]; intros h1 P1.
    eapply reads_bind_ok; [apply IH; [apply (control_old h h1 c P1 L)|intros y h' P'; apply H, (preserves_trans _ h1); auto]|]; intros h2 _; apply reads_ret.
  Qed.

  Lemma reads_scaled h fmt p m v : control_lives h c -> (forall h', preserves h h' -> reads h' p (Ok m)) ->
    reads h (hscaled_strings fmt p v) (Ok (scaled_strings fmt m (contents h v))).
  Proof.
    intros L H; apply reads_get; unfold scaled_strings; apply reads_comprehension; auto.
    intros x h1 P1; eapply reads_bind_ok; [apply H; auto|]; intros h2 P2; destruct (neqb m 0); [|apply reads_ret].
    eapply reads_bind_ok; [apply H, (preserves_trans _ h1); auto|]; intros h3 _; apply reads_ret.
  Qed.

  Lemma reads_scaled_max h fmt v : control_lives h c -> In v (control_attributes c) ->
    reads h (hscaled_strings fmt (let! xs := get v in lift (np_amax xs)) v)
      (Ok (match np_amax (contents h v) with Ok m => scaled_strings fmt m (contents h v) | Raise _ => [] end)).
  Proof.
    intros L I; destruct (np_amax (contents h v)) as [m|e] eqn:M.
    - apply reads_scaled; auto; intros h1 P1; rewrite <- M, <- (attribute h v L I h1 P1); apply reads_get, reads_lift.
    - apply reads_get; destruct (contents h v); [apply reads_ret|discriminate].
  Qed.

  Lemma reads_str h fmt : control_lives h c -> reads h (hdriven_control_str fmt c) (driven_control_str fmt (control_at h c)).
  Proof.
    intros L; unfold hdriven_control_str.
    eapply reads_bind_ok; [apply (reads_scaled_max h fmt (hc_rabi_rates c)); cbn; auto|]; intros h1 P1; apply reads_get.
    destruct (control_old h h1 c P1 L) as [L1 E1].
    eapply reads_bind_ok; [apply (reads_scaled_max h1 fmt (hc_detunings c)); cbn; auto|]; intros h2 P2; apply reads_get.
    destruct (control_old h1 h2 c P2 L1) as [L2 E2].
    eapply reads_bind_ok.
    { apply (reads_comprehension _ (fun t => fmt (t / duration (control_at h c)))); auto; intros t h3 P3.
      eapply reads_bind_ok; [apply reads_duration|]; intros h4 _; rewrite (proj2 (control_old h2 h3 c P3 L2)), E2, E1; apply reads_ret. }
    intros h3 P3; destruct (control_old h2 h3 c P3 L2) as [L3 E3]; unfold driven_control_str.
    assert (CE : control_at h3 c = control_at h c) by congruence.
    eapply reads_bind; [rewrite <- CE; apply reads_maximum|]; intros mr h4 P4 MR; destruct (control_old h3 h4 c P4 L3) as [L4 E4].
    eapply reads_bind; [rewrite <- CE, <- E4; apply reads_max_detuning|]; intros md h5 P5 MD; destruct (control_old h4 h5 c P5 L4) as [L5 E5].
    eapply reads_bind_ok; [apply reads_duration|]; intros h6 _.
    assert (P02 := preserves_trans _ _ _ P1 P2).
    unfold maximum_rabi_rate in MR; unfold maximum_detuning in MD; rewrite E5, E4, CE in *; cbn [control_at rabi_rates azimuthal_angles detunings durations dc_name] in *.
    rewrite (attribute h (hc_detunings c) L ltac:(cbn; auto) h1 P1), (attribute h (hc_azimuthal_angles c) L ltac:(cbn; auto) h1 P1),
      (attribute h (hc_durations c) L ltac:(cbn; auto) h2 P02), MR, MD; apply reads_ret.
  Qed.

  Lemma read_independent q h v h' : control_lives h c -> read_property q c h = (Ok v, h') ->
    (forall h'', only_above (List.length h) h' h'' -> control_at h'' c = control_at h c) /\
    (forall h'', only_below (List.length h) h' h'' -> contents h'' v = property_value q (control_at h c)).
  Proof.
    intros L E; destruct (reads_property q h L) as [v' [h1 [E1 [P [LV [F C]]]]]]; rewrite E in E1; injection E1 as <- <-; split.
    - intros h'' [_ A]; rewrite <- (proj2 (control_old h h' c P L)); unfold control_at.
      assert (X : forall u, In u (control_attributes c) -> contents h'' u = contents h' u) by (intros u I; apply contents_cell, A, (L u I)).
      rewrite !X by (cbn; auto); reflexivity.
    - intros h'' B; rewrite <- C; destruct F as [F _]; apply (below_contents (List.length h)); auto.
  Qed.
End Control.

Lemma reads_sequence_export s h : reads h (hdds_export s) (Ok (dds_export (sequence_at h s))).
Proof. unfold hdds_export; repeat apply reads_get; apply reads_ret. Qed.

Lemma reads_sequence_str fmt s h : (forall v, In v (sequence_arrays s) -> lives h v) ->
  reads h (hdds_str fmt s) (Ok (dds_str fmt (sequence_at h s))).
Proof.
  intros L; unfold hdds_str.
  assert (ST : forall d v h1, reads h1 (hscaled_array fmt d v) (Ok (array_to_str fmt (map (fun x => x / d) (contents h1 v))))).
  { intros d v h1; unfold hscaled_array; eapply reads_bind_array; [apply mapped_array|]; intros w h2 _ _ C; apply reads_get; rewrite C; apply reads_ret. }
  eapply reads_bind_ok; [apply ST|]; intros h1 P1; eapply reads_bind_ok; [apply ST|]; intros h2 P2; assert (P02 := preserves_trans _ _ _ P1 P2).
  eapply reads_bind_ok; [apply ST|]; intros h3 P3; assert (P03 := preserves_trans _ _ _ P02 P3); eapply reads_bind_ok; [apply ST|]; intros h4 P4.
  rewrite (preserves_contents h h1), (preserves_contents h h2), (preserves_contents h h3) by (auto; apply L; cbn; auto); apply reads_ret.
Qed.

Lemma reads_sequence_file d s filename file_format file_type coordinates maxr maxd h : sequence_lives h s ->
  exists h', hdds_export_to_file d s filename file_format file_type coordinates maxr maxd h =
    (dds_export_to_file d (sequence_at h s) filename file_format file_type coordinates maxr maxd, h') /\ preserves h h'.
Proof.
  intros L; unfold hdds_export_to_file, dds_export_to_file; cbn [sequence_at seq_name].
  destruct (convert_heap s maxr maxd 0 (hs_name s) h L) as [res [h1 [E [P [V S]]]]]; rewrite E, <- V.
  destruct res as [c|e]; cbn [map_result]; [|exists h1; auto].
  destruct (reads_file c h1 d filename file_format file_type coordinates) as [h2 [E2 P2]]; [intros v I; apply (S c eq_refl); auto|].
  exists h2; split; auto; apply (preserves_trans _ h1); auto.
Qed.

Lemma reads_repr c ra rn h : reads h (hdriven_control_repr ra rn c) (driven_control_repr ra rn (control_at h c)).
Proof. unfold hdriven_control_repr; repeat apply reads_get; apply reads_lift. Qed.
Lemma reads_sequence_repr s rf ra rn h : reads h (hdds_repr rf ra rn s) (dds_repr rf ra rn (sequence_at h s)).
Proof. unfold hdds_repr; repeat apply reads_get; apply reads_lift. Qed.
