(** * Exported files in floating point: lemmas *)

From Coq Require Import ZArith Ascii Lia Lra.
From Flocq Require Import Core Relative.
From Verif Require Import L_Float L_FloatControlsThms L_Text L_DrivenExport L_FloatText.
From Verif Require Export Spec_FloatExport.
Import ListNotations.
Open Scope string_scope.
Open Scope list_scope.
Open Scope R_scope.

(** ** Without rounding *)

Lemma fl_xdiv_exact x m : fl_xdiv (fun x => x) x m = xdiv x m.
Proof. unfold fl_xdiv; destruct (xdiv x m); auto. Qed.
Lemma map_xdiv_exact m l : map (fun x => fl_xdiv (fun x => x) x m) l = map (fun x => xdiv x m) l.
Proof. apply map_ext; intros; apply fl_xdiv_exact. Qed.

Theorem export_unrounded d c f fmt ty coords :
  fl_export_to_file (fun x => x) sin cos d c f fmt ty coords = export_to_file d c f fmt ty coords.
Proof.
  unfold fl_export_to_file, export_to_file, fl_export_to_qctrl_expanded_format, export_to_qctrl_expanded_format.
  assert (E : fl_qctrl_expanded_export_content (fun x => x) sin cos c coords = qctrl_expanded_export_content c coords).
  { unfold fl_qctrl_expanded_export_content, qctrl_expanded_export_content; destruct (maximum_rabi_rate c); cbn [bind]; auto.
    rewrite !map_xdiv_exact; reflexivity. }
  rewrite E; reflexivity.
Qed.

(** ** What is written *)

Section Written.
  Variables (rnd fsin fcos : R -> R).

  Definition fl_x (m : R) (g : seg) : xfloat := fl_xdiv rnd (rnd (g_rabi g * fcos (g_phi g))) m.
  Definition fl_y (m : R) (g : seg) : xfloat := fl_xdiv rnd (rnd (g_rabi g * fsin (g_phi g))) m.
  Definition fl_r (m : R) (g : seg) : xfloat := fl_xdiv rnd (g_rabi g) m.

  Lemma zip_with_segs (h : R -> R -> R) l : zip_with h (map g_rabi l) (map g_phi l) = map (fun g => h (g_rabi g) (g_phi g)) l.
  Proof. unfold zip_with; induction l as [|g l IH]; cbn; auto; rewrite IH; auto. Qed.

  Definition fl_content (b : bool) (name : option string) (m : R) (l : list seg) : info :=
    ([("maximum_rabi_rate", VNum m);
      ("detuning", VList (map (fun g => Fin (g_det g)) l));
      ("duration", VList (map (fun g => Fin (g_dur g)) l))] ++
     match name with Some n => [("name", VStr n)] | None => [] end) ++
    if b then [("amplitude_x", VList (map (fl_x m) l)); ("amplitude_y", VList (map (fl_y m) l))]
    else [("rabi_rates", VList (map (fl_r m) l)); ("azimuthal_angles", VList (map (fun g => Fin (g_phi g)) l))].

  Lemma fl_content_eq (b : bool) c l m : describes l c -> maximum_rabi_rate c = Ok m ->
    fl_qctrl_expanded_export_content rnd fsin fcos c (if b then CARTESIAN else CYLINDRICAL) = Ok (fl_content b (dc_name c) m l).
  Proof.
    intros D M; unfold fl_qctrl_expanded_export_content, fl_amplitude_x, fl_amplitude_y, fl_content; rewrite M; cbn [bind].
    destruct D as [-> [-> [-> ->]]]; rewrite !zip_with_segs, !map_map; destruct b, (dc_name c); reflexivity.
  Qed.

  Lemma fl_export_valid d c f ty coords : In ty file_types -> In coords coordinate_systems ->
    fl_export_to_file rnd fsin fcos d c f FILE_FORMAT_QCTRL ty coords = fl_export_to_qctrl_expanded_format rnd fsin fcos d c f ty coords.
  Proof.
    intros T C; unfold fl_export_to_file; rewrite (proj2 (str_in_true _ _) T), (proj2 (str_in_true _ _) C); reflexivity.
  Qed.

  Lemma fl_json_written (b : bool) d c l m f : describes l c -> is_maximum m (map g_rabi l) ->
    fl_export_to_file rnd fsin fcos d c f FILE_FORMAT_QCTRL FILE_TYPE_JSON (if b then CARTESIAN else CYLINDRICAL) =
    (fs_write d f (JsonFile (sort_keys (fl_content b (dc_name c) m l))), None).
  Proof.
    intros D M; apply (desc_max l c m D) in M; rewrite fl_export_valid by (destruct b; simpl; auto).
    unfold fl_export_to_qctrl_expanded_format; rewrite (fl_content_eq b c l m D M); reflexivity.
  Qed.

  Definition fl_header (b : bool) : list string :=
    if b then ["amplitude_x"; "amplitude_y"; "detuning"; "duration"; "maximum_rabi_rate"]
    else ["azimuthal_angles"; "detuning"; "duration"; "maximum_rabi_rate"; "rabi_rates"].
  Definition fl_row (b : bool) (m : R) (g : seg) : list xfloat :=
    if b then [fl_x m g; fl_y m g; Fin (g_det g); Fin (g_dur g); Fin m]
    else [Fin (g_phi g); Fin (g_det g); Fin (g_dur g); Fin m; fl_r m g].

  Lemma fl_csv_written (b : bool) d c l m n f : describes l c -> is_maximum m (map g_rabi l) -> dc_name c = Some n ->
    fl_export_to_file rnd fsin fcos d c f FILE_FORMAT_QCTRL FILE_TYPE_CSV (if b then CARTESIAN else CYLINDRICAL) =
    (fs_write d f (CsvFile (fl_header b) (map (fl_row b m) l)), None).
  Proof.
    intros D M N; apply (desc_max l c m D) in M; rewrite fl_export_valid by (destruct b; simpl; auto).
    unfold fl_export_to_qctrl_expanded_format; rewrite (fl_content_eq b c l m D M), N, M; unfold fl_content.
    destruct b.
    - cbn [String.eqb FILE_TYPE_CSV Ascii.eqb Bool.eqb].
      cbn [dict_pop app dict_get String.eqb Ascii.eqb Bool.eqb dict_remove filter negb fst dict_set map].
      set (tb := [("maximum_rabi_rate", _); _; _; _; _]).
      replace (sorted_strings ["maximum_rabi_rate"; "detuning"; "duration"; "amplitude_x"; "amplitude_y"]) with (fl_header true) by reflexivity.
      unfold range; rewrite (segments_count l c D), (csv_rows_all tb _ (fl_row true m) l 0); [reflexivity|].
      intros i g Hi; unfold tb, fl_header; cbn [Nat.add csv_row csv_cell dict_get String.eqb Ascii.eqb Bool.eqb].
      rewrite !(nth_error_seg _ l i g Hi), (segments_count l c D).
      rewrite nth_error_repeat'; [reflexivity|]; apply nth_error_Some; congruence.
    - cbn [String.eqb FILE_TYPE_CSV Ascii.eqb Bool.eqb].
      cbn [dict_pop app dict_get String.eqb Ascii.eqb Bool.eqb dict_remove filter negb fst dict_set map].
      set (tb := [("maximum_rabi_rate", _); _; _; _; _]).
      replace (sorted_strings ["maximum_rabi_rate"; "detuning"; "duration"; "rabi_rates"; "azimuthal_angles"]) with (fl_header false) by reflexivity.
      unfold range; rewrite (segments_count l c D), (csv_rows_all tb _ (fl_row false m) l 0); [reflexivity|].
      intros i g Hi; unfold tb, fl_header; cbn [Nat.add csv_row csv_cell dict_get String.eqb Ascii.eqb Bool.eqb].
      rewrite !(nth_error_seg _ l i g Hi), (segments_count l c D).
      rewrite nth_error_repeat'; [reflexivity|]; apply nth_error_Some; congruence.
  Qed.
End Written.

(** ** Quotients *)

Lemma format_1 : binary64_format 1.
Proof. change 1 with (bpow radix2 0); apply generic_format_bpow; unfold FLT_exp; cbn; lia. Qed.
Lemma rnd_abs x M : binary64_format M -> Rabs x <= M -> Rabs (binary64 x) <= M.
Proof.
  intros F H; apply Rabs_le_inv in H; apply Rabs_le; split.
  - rewrite <- (rnd_format (- M)) by (apply generic_format_opp; auto); apply rnd_mono; lra.
  - rewrite <- (rnd_format M) by auto; apply rnd_mono; lra.
Qed.
Lemma fl_xdiv_fin x m : m <> 0 -> fl_xdiv binary64 x m = Fin (binary64 (x / m)).
Proof. intros H; unfold fl_xdiv; rewrite xdiv_fin by auto; auto. Qed.
Lemma big_1024 x : Rabs x <= 4 -> Rabs x < 2 ^ 1024.
Proof. intros H; eapply Rle_lt_trans; [apply H|]; apply Rlt_le_trans with (2 ^ 3); [lra|apply Rle_pow; [lra|lia]]. Qed.

Lemma ratio_finite r m : 0 < m -> 0 <= r <= m -> finite_binary64 (binary64 (r / m)).
Proof.
  intros P B; split; [apply format_rnd|]; apply big_1024; apply Rle_trans with 1; [|lra]; apply rnd_abs; [apply format_1|].
  rewrite Rabs_pos_eq; [apply (Rmult_le_reg_r m); auto; replace (r / m * m) with r by (field; lra); lra|].
  apply Rmult_le_pos; [lra|left; apply Rinv_0_lt_compat; auto].
Qed.

Definition eta : R := / 2 ^ 1075.
Lemma eta_pos : 0 < eta. Proof. apply inv_pow_pos. Qed.
Lemma rnd_error x : Rabs (binary64 x - x) <= eps * Rabs x + eta.
Proof.
  destruct (error_N_FLT radix2 (-1074) 53 ltac:(lia) (fun z => negb (Z.even z)) x) as [e [h [A [B [_ E]]]]].
  unfold binary64; rewrite E; replace (x * (1 + e) + h - x) with (e * x + h) by ring.
  eapply Rle_trans; [apply Rabs_triang|]; rewrite Rabs_mult; apply Rplus_le_compat.
  - apply Rmult_le_compat_r; [apply Rabs_pos|]; eapply Rle_trans; [apply A|].
    rewrite <- bpow_53; change (- (53) + 1)%Z with (1 + (-53))%Z; rewrite bpow_plus; apply Req_le; change (bpow radix2 1) with 2; field.
  - eapply Rle_trans; [apply B|]; apply Req_le; change (-1074)%Z with (- Z.of_nat 1074)%Z; rewrite bpow_inv.
    unfold eta; change 1075%nat with (S 1074); cbn [pow]; field; apply pow_nonzero; lra.
Qed.

Lemma ratio_restored r m : 0 < m -> 0 <= r -> restored m (m * binary64 (r / m)) r.
Proof.
  intros P B; assert (E := rnd_error (r / m)); split; [|split].
  - replace (m * binary64 (r / m) - r) with (m * (binary64 (r / m) - r / m)) by (field; lra).
    rewrite Rabs_mult, (Rabs_pos_eq m) by lra.
    apply Rle_trans with (m * (eps * Rabs (r / m) + eta)); [apply Rmult_le_compat_l; lra|].
    rewrite Rabs_div, (Rabs_pos_eq m) by lra.
    change (m / 2 ^ 1075) with (m * eta); apply Req_le; unfold eps; replace (2 ^ 53) with 9007199254740992 by lra; field; lra.
  - intros ->; replace (m / m) with 1 by (field; lra); rewrite rnd_format by apply format_1; ring.
  - intros ->; unfold Rdiv; rewrite Rmult_0_l, rnd_format by apply format_0; ring.
Qed.

(** ** Cylindrical coordinates *)

Section Control.
  Variables (fsin fcos : R -> R) (c : driven_control) (l : list seg) (m : R).
  Hypothesis (K : constructible c) (D : describes l c) (M : is_maximum m (map g_rabi l)) (P : 0 < m).

  Lemma segment_bounds g : In g l -> 0 < g_dur g /\ 0 <= g_rabi g <= m.
  Proof.
    intros I; destruct (constructible_segments c K) as [l' [_ [U B]]]; rewrite <- (U _ D) in B; destruct (B g I) as [A R0].
    split; auto; split; auto; apply M, in_map; auto.
  Qed.

  Definition reread_segment (g : seg) : seg := Seg (m * binary64 (g_rabi g / m)) (g_phi g) (g_det g) (g_dur g).
  Lemma reread_near l' : incl l' l -> Forall2 (reread m) (map reread_segment l') l'.
  Proof.
    induction l' as [|g l' IH]; intros I; constructor.
    - destruct (segment_bounds g (I g (or_introl eq_refl))) as [_ B]; split; [reflexivity|split; [reflexivity|split; [reflexivity|]]].
      apply ratio_restored; lra.
    - apply IH; intros x J; apply I; right; auto.
  Qed.

  Hypothesis FS : forall g, In g l -> finite_segment g.
  Lemma m_finite : finite_binary64 m.
  Proof. destruct M as [I _]; apply in_map_iff in I; destruct I as [g [<- I]]; apply FS; auto. Qed.

  Lemma fl_r_fin g : fl_r binary64 m g = Fin (binary64 (g_rabi g / m)).
  Proof. apply fl_xdiv_fin; lra. Qed.

  Lemma written_number d x : (forall x, written d x -> printable x) -> written d x ->
    number_text (json_floatstr binary64 x) /\ read_float (json_floatstr binary64 x) = Some x.
  Proof. intros W I; destruct (float_text_round_trip x (W x I)) as [_ [A B]]; auto. Qed.

  Lemma cylindrical_printable x : written (sort_keys (fl_content binary64 fsin fcos false (dc_name c) m l)) x -> printable x.
  Proof.
    assert (W : forall k v, In (k, v) (sort_keys (fl_content binary64 fsin fcos false (dc_name c) m l)) ->
      v = VNum m \/ (exists n, v = VStr n) \/ v = VList (map (fun g => Fin (g_det g)) l) \/ v = VList (map (fun g => Fin (g_dur g)) l) \/
      v = VList (map (fun g => Fin (g_phi g)) l) \/ v = VList (map (fl_r binary64 m) l)).
    { unfold fl_content; intros k v; destruct (dc_name c) as [n|]; cbn; intros I;
        repeat (destruct I as [I|I]; [injection I as <- <-; eauto 10|]); destruct I. }
    intros [[k [r [I ->]]]|[k [lst [I J]]]]; apply W in I.
    - destruct I as [E|[[n E]|[E|[E|[E|E]]]]]; try discriminate E; injection E as ->; apply m_finite.
    - destruct I as [E|[[n E]|[E|[E|[E|E]]]]]; try discriminate E; injection E as ->;
        apply in_map_iff in J; destruct J as [g [<- J]]; destruct (FS g J) as [F1 [F2 [F3 F4]]]; auto.
      rewrite fl_r_fin; apply ratio_finite; auto; apply segment_bounds; auto.
  Qed.

  Lemma cylindrical_read : read_json "rabi_rates" "azimuthal_angles" false (sort_keys (fl_content binary64 fsin fcos false (dc_name c) m l)) =
    Some (map g_rabi (map reread_segment l), map g_phi (map reread_segment l), map g_det (map reread_segment l), map g_dur (map reread_segment l), dc_name c).
  Proof.
    assert (R : map (fl_r binary64 m) l = map (fun g => Fin (binary64 (g_rabi g / m))) l) by (apply map_ext; intros; apply fl_r_fin).
    unfold fl_content; destruct (dc_name c) as [n|]; cbn -[map finite_values]; rewrite R, !finite_values_map, !map_map; reflexivity.
  Qed.

  Lemma reread_evolution e delta l' : incl l' l ->
    qnear (file_cost e m l') (qevolution e delta (map reread_segment l')) (qevolution e delta l').
  Proof.
    induction l' as [|g l' IH]; intros I; cbn [map qevolution].
    - replace (file_cost e m []) with 0 by (unfold file_cost; cbn [map total]; field; split; apply pow_nonzero; lra); apply qnear_refl.
    - assert (IH' := IH (fun x J => I x (or_intror J))); destruct (segment_bounds g (I g (or_introl eq_refl))) as [T B].
      destruct (ratio_restored (g_rabi g) m P ltac:(lra)) as [E _]; rewrite (Rabs_pos_eq (g_rabi g)) in E by lra.
      set (k := Rabs (1 + e) * ((g_rabi g / 2 ^ 53 + m / 2 ^ 1075) * g_dur g) / 2).
      assert (S1 : file_cost e m (g :: l') = file_cost e m l' + k).
      { unfold file_cost, k; cbn [map total]; change (2 ^ 1076) with (2 * 2 ^ 1075); change (2 ^ 54) with (2 * 2 ^ 53).
        generalize (2 ^ 1075), (pow_lt 2 1075 ltac:(lra)), (2 ^ 53), (pow_lt 2 53 ltac:(lra)); intros; field; lra. }
      rewrite S1; apply qnear_mul; auto.
      + apply unit_qevolution; intros x J; apply segment_bounds; auto; apply I; right; auto.
      + unfold qnoisy; rewrite qseg_exp by auto; apply unit_qexp.
      + unfold qnoisy, reread_segment; cbn [g_rabi g_phi g_det g_dur]; rewrite !qseg_exp by auto.
        assert (K0 : 0 <= (g_rabi g / 2 ^ 53 + m / 2 ^ 1075) * g_dur g).
        { apply Rmult_le_pos; [|lra]; eapply Rle_trans; [apply Rabs_pos|exact E]. }
        assert (KP : 0 <= Rabs (1 + e) * ((g_rabi g / 2 ^ 53 + m / 2 ^ 1075) * g_dur g)) by (apply Rmult_le_pos; [apply Rabs_pos|auto]).
        apply qexp_near; [unfold k; lra|].
        set (r' := m * binary64 (g_rabi g / m)) in *.
        replace (((1 + e) * r' * cos (g_phi g) * g_dur g - (1 + e) * g_rabi g * cos (g_phi g) * g_dur g) ^ 2 +
                 ((1 + e) * r' * sin (g_phi g) * g_dur g - (1 + e) * g_rabi g * sin (g_phi g) * g_dur g) ^ 2 +
                 ((g_det g + delta) * g_dur g - (g_det g + delta) * g_dur g) ^ 2)
          with (((1 + e) * ((r' - g_rabi g) * g_dur g)) ^ 2 * ((sin (g_phi g))² + (cos (g_phi g))²)) by (unfold Rsqr; ring).
        rewrite sin2_cos2, Rmult_1_r; rewrite <- pow2_abs, Rabs_mult, Rabs_mult, (Rabs_pos_eq (g_dur g)) by lra.
        apply pow_incr; split; [apply Rmult_le_pos; [apply Rabs_pos|apply Rmult_le_pos; [apply Rabs_pos|lra]]|].
        unfold k; replace (2 * (Rabs (1 + e) * ((g_rabi g / 2 ^ 53 + m / 2 ^ 1075) * g_dur g) / 2)) with (Rabs (1 + e) * ((g_rabi g / 2 ^ 53 + m / 2 ^ 1075) * g_dur g)) by field.
        apply Rmult_le_compat_l; [apply Rabs_pos|]; apply Rmult_le_compat_r; lra.
  Qed.
End Control.

Theorem float_json_cylindrical fsin fcos d c l m f :
  constructible c -> describes l c -> is_maximum m (map g_rabi l) -> 0 < m ->
  (forall g, In g l -> finite_segment g) ->
  exists d' file l',
    fl_export_to_file binary64 fsin fcos d c f FILE_FORMAT_QCTRL FILE_TYPE_JSON CYLINDRICAL = (d', None) /\ d' f = Some file /\
    ascii_text (exported_text binary64 file) /\
    read_json_text read_float "rabi_rates" "azimuthal_angles" false (exported_text binary64 file) =
      Some (map g_rabi l', map g_phi l', map g_det l', map g_dur l', dc_name c) /\
    Forall2 (reread m) l' l /\
    forall eps delta, close_to (file_cost eps m l) (noisy_evolution eps delta l') (noisy_evolution eps delta l).
Proof.
  intros K D M P FS; do 2 eexists; exists (map (reread_segment m) l).
  split; [apply (fl_json_written binary64 fsin fcos false d c l m f D M)|].
  split; [unfold fs_write; rewrite String.eqb_refl; reflexivity|].
  assert (W := fun x => cylindrical_printable fsin fcos c l m K D M P FS x).
  destruct (json_text_of_control (json_floatstr binary64) (float_repr binary64) read_float _ (fun x I => proj1 (written_number _ x W I))) as [_ [X Y]].
  split; [exact X|split; [|split]].
  - unfold exported_text; rewrite (Y (fun x I => proj2 (written_number _ x W I))); apply cylindrical_read; auto.
  - apply (reread_near c l m K D M P); apply incl_refl.
  - intros e delta; rewrite !noisy_evolution_qmat; apply qnear_close, (reread_evolution c l m K D M P), incl_refl.
Qed.

(** ** Cartesian coordinates *)

Lemma amplitude_error m r u u0 : 0 < m -> binary64_format m -> 0 <= r <= m -> Rabs u0 <= 1 -> Rabs (u - u0) <= / 2 ^ 50 ->
  Rabs (m * binary64 (binary64 (r * u) / m) - r * u0) <= r / 2 ^ 49 + (m + 1) / 2 ^ 1073 /\
  finite_binary64 (binary64 (binary64 (r * u) / m)).
Proof.
  intros P F B U0 U; assert (E := rnd_error (r * u)); set (x := binary64 (r * u)) in *.
  assert (E2 := rnd_error (x / m)); assert (HP := eta_pos).
  assert (A50 : / 2 ^ 50 = 8 * eps) by (unfold eps; replace (2 ^ 50) with 1125899906842624 by lra; lra).
  assert (E0 : eps = / 9007199254740992) by (unfold eps; lra); assert (EP := eps_pos).
  assert (U1 : Rabs u <= 1 + 8 * eps).
  { replace u with ((u - u0) + u0) by ring; eapply Rle_trans; [apply Rabs_triang|]; lra. }
  assert (RU : Rabs (r * u) <= r * (1 + 8 * eps)) by (rewrite Rabs_mult, (Rabs_pos_eq r) by lra; apply Rmult_le_compat_l; lra).
  assert (X0 : Rabs (x - r * u0) <= r * (8 * eps + eps * (1 + 8 * eps)) + eta).
  { replace (x - r * u0) with ((x - r * u) + r * (u - u0)) by ring; eapply Rle_trans; [apply Rabs_triang|].
    rewrite (Rabs_mult r), (Rabs_pos_eq r) by lra.
    assert (r * Rabs (u - u0) <= r * (8 * eps)) by (apply Rmult_le_compat_l; lra).
    assert (eps * Rabs (r * u) <= eps * (r * (1 + 8 * eps))) by (apply Rmult_le_compat_l; lra). lra. }
  assert (X1 : Rabs x <= r * (1 + 10 * eps) + eta).
  { replace x with ((x - r * u0) + r * u0) by ring; eapply Rle_trans; [apply Rabs_triang|].
    rewrite (Rabs_mult r), (Rabs_pos_eq r) by lra; assert (r * Rabs u0 <= r * 1) by (apply Rmult_le_compat_l; lra).
    assert (Q : r * (8 * eps + eps * (1 + 8 * eps)) <= r * (10 * eps)).
    { apply Rmult_le_compat_l; [lra|]; rewrite E0; lra. }
    lra. }
  split.
  - replace (m * binary64 (x / m) - r * u0) with (m * (binary64 (x / m) - x / m) + (x - r * u0)) by (field; lra).
    eapply Rle_trans; [apply Rabs_triang|]; rewrite (Rabs_mult m), (Rabs_pos_eq m) by lra.
    assert (Y : m * Rabs (binary64 (x / m) - x / m) <= eps * Rabs x + m * eta).
    { apply Rle_trans with (m * (eps * Rabs (x / m) + eta)); [apply Rmult_le_compat_l; lra|].
      rewrite Rabs_div, (Rabs_pos_eq m) by lra; apply Req_le; field; lra. }
    assert (Z : eps * Rabs x <= eps * (r * (1 + 10 * eps) + eta)) by (apply Rmult_le_compat_l; lra).
    assert (W : r * (eps * (1 + 10 * eps) + (8 * eps + eps * (1 + 8 * eps))) <= r * (16 * eps)).
    { apply Rmult_le_compat_l; [lra|]; rewrite E0; lra. }
    assert (V : eps * eta <= eta) by (rewrite <- (Rmult_1_l eta) at 2; apply Rmult_le_compat_r; rewrite ?E0; lra).
    replace (r / 2 ^ 49) with (r * (16 * eps)) by (unfold eps; replace (2 ^ 49) with 562949953421312 by lra; lra).
    replace ((m + 1) / 2 ^ 1073) with (4 * (m + 1) * eta).
    2:{ unfold eta; change (2 ^ 1075) with (2 * (2 * 2 ^ 1073)); field; apply pow_nonzero; lra. }
    assert (0 <= m * eta) by (apply Rmult_le_pos; lra). lra.
  - split; [apply format_rnd|]; apply big_1024.
    assert (ME : eta <= m).
    { pose proof (generic_format_ge_bpow radix2 (FLT_exp (-1074) 53) (-1074) ltac:(unfold FLT_exp; lia) m P F) as L.
      change (-1074)%Z with (- Z.of_nat 1074)%Z in L; rewrite bpow_inv in L; eapply Rle_trans; [|exact L].
      unfold eta; apply inv_pow_le; lia. }
    assert (XM : Rabs (x / m) <= 3).
    { rewrite Rabs_div, (Rabs_pos_eq m) by lra; apply (Rmult_le_reg_r m); auto; replace (Rabs x / m * m) with (Rabs x) by (field; lra).
      assert (r * (1 + 10 * eps) <= m * (1 + 10 * eps)) by (apply Rmult_le_compat_r; lra).
      assert (m * (10 * eps) <= m * / 2) by (apply Rmult_le_compat_l; rewrite ?E0; lra). lra. }
    assert (T := Rabs_triang (binary64 (x / m) - x / m) (x / m)); replace (binary64 (x / m) - x / m + x / m) with (binary64 (x / m)) in T by ring.
    assert (EX : eps * Rabs (x / m) <= eps * 3) by (apply Rmult_le_compat_l; lra).
    assert (ET : eta <= / 2) by (unfold eta; rewrite <- (pow_1 2) at 2; apply inv_pow_le; lia).
    rewrite E0 in *; lra.
Qed.

Section Cartesian.
  Variables (fsin fcos : R -> R) (c : driven_control) (l : list seg) (m : R).
  Hypothesis (K : constructible c) (D : describes l c) (M : is_maximum m (map g_rabi l)) (P : 0 < m).
  Hypothesis (MS : forall g, In g l -> moderate_segment g).
  Hypothesis SIN : forall x, binary64_format x -> Rabs x <= 8 -> Rabs (fsin x - sin x) <= / 2 ^ 50.
  Hypothesis COS : forall x, binary64_format x -> Rabs x <= 8 -> Rabs (fcos x - cos x) <= / 2 ^ 50.

  Lemma FSM g : In g l -> finite_segment g. Proof. intros I; apply MS; auto. Qed.
  Lemma x_amplitude g : In g l -> amplitude_near m (m * binary64 (binary64 (g_rabi g * fcos (g_phi g)) / m)) (seg_x g) (g_rabi g) /\
    finite_binary64 (binary64 (binary64 (g_rabi g * fcos (g_phi g)) / m)).
  Proof.
    intros I; destruct (segment_bounds c l m K D M g I) as [_ B]; destruct (MS g I) as [[_ [[F2 _] _]] [PH _]].
    apply amplitude_error; auto; [apply (m_finite l m M P FSM)|apply Rabs_le; generalize (COS_bound (g_phi g)); lra].
  Qed.
  Lemma y_amplitude g : In g l -> amplitude_near m (m * binary64 (binary64 (g_rabi g * fsin (g_phi g)) / m)) (seg_y g) (g_rabi g) /\
    finite_binary64 (binary64 (binary64 (g_rabi g * fsin (g_phi g)) / m)).
  Proof.
    intros I; destruct (segment_bounds c l m K D M g I) as [_ B]; destruct (MS g I) as [[_ [[F2 _] _]] [PH _]].
    apply amplitude_error; auto; [apply (m_finite l m M P FSM)|apply Rabs_le; generalize (SIN_bound (g_phi g)); lra].
  Qed.

  Lemma fl_x_fin g : fl_x binary64 fcos m g = Fin (binary64 (binary64 (g_rabi g * fcos (g_phi g)) / m)).
  Proof. apply fl_xdiv_fin; lra. Qed.
  Lemma fl_y_fin g : fl_y binary64 fsin m g = Fin (binary64 (binary64 (g_rabi g * fsin (g_phi g)) / m)).
  Proof. apply fl_xdiv_fin; lra. Qed.

  Lemma cartesian_printable x : written (sort_keys (fl_content binary64 fsin fcos true (dc_name c) m l)) x -> printable x.
  Proof.
    assert (W : forall k v, In (k, v) (sort_keys (fl_content binary64 fsin fcos true (dc_name c) m l)) ->
      v = VNum m \/ (exists n, v = VStr n) \/ v = VList (map (fun g => Fin (g_det g)) l) \/ v = VList (map (fun g => Fin (g_dur g)) l) \/
      v = VList (map (fl_x binary64 fcos m) l) \/ v = VList (map (fl_y binary64 fsin m) l)).
    { unfold fl_content; intros k v; destruct (dc_name c) as [n|]; cbn; intros I;
        repeat (destruct I as [I|I]; [injection I as <- <-; eauto 10|]); destruct I. }
    intros [[k [r [I ->]]]|[k [lst [I J]]]]; apply W in I.
    - destruct I as [E|[[n E]|[E|[E|[E|E]]]]]; try discriminate E; injection E as ->; apply (m_finite l m M P FSM).
    - destruct I as [E|[[n E]|[E|[E|[E|E]]]]]; try discriminate E; injection E as ->;
        apply in_map_iff in J; destruct J as [g [<- J]]; destruct (FSM g J) as [F1 [F2 [F3 F4]]]; auto.
      + rewrite fl_x_fin; apply x_amplitude; auto.
      + rewrite fl_y_fin; apply y_amplitude; auto.
  Qed.

  Lemma cartesian_read : read_json "amplitude_x" "amplitude_y" true (sort_keys (fl_content binary64 fsin fcos true (dc_name c) m l)) =
    Some (map (fun g => m * binary64 (binary64 (g_rabi g * fcos (g_phi g)) / m)) l,
          map (fun g => m * binary64 (binary64 (g_rabi g * fsin (g_phi g)) / m)) l, detunings c, durations c, dc_name c).
  Proof.
    assert (R : map (fl_x binary64 fcos m) l = map (fun g => Fin (binary64 (binary64 (g_rabi g * fcos (g_phi g)) / m))) l) by (apply map_ext; intros; apply fl_x_fin).
    assert (R' : map (fl_y binary64 fsin m) l = map (fun g => Fin (binary64 (binary64 (g_rabi g * fsin (g_phi g)) / m))) l) by (apply map_ext; intros; apply fl_y_fin).
    destruct D as [_ [_ [-> ->]]].
    unfold fl_content; destruct (dc_name c) as [n|]; cbn -[map finite_values]; rewrite R, R', !finite_values_map, !map_map; reflexivity.
  Qed.
End Cartesian.

Theorem float_json_cartesian fsin fcos facos fasin d c l m f :
  accurate_trigonometry fsin fcos facos fasin ->
  constructible c -> describes l c -> is_maximum m (map g_rabi l) -> 0 < m ->
  (forall g, In g l -> moderate_segment g) ->
  exists d' file xs ys,
    fl_export_to_file binary64 fsin fcos d c f FILE_FORMAT_QCTRL FILE_TYPE_JSON CARTESIAN = (d', None) /\ d' f = Some file /\
    ascii_text (exported_text binary64 file) /\
    read_json_text read_float "amplitude_x" "amplitude_y" true (exported_text binary64 file) =
      Some (xs, ys, detunings c, durations c, dc_name c) /\
    Forall2 (fun x g => amplitude_near m x (seg_x g) (g_rabi g)) xs l /\
    Forall2 (fun y g => amplitude_near m y (seg_y g) (g_rabi g)) ys l.
Proof.
  intros [HS [HC _]] K D M P MS; do 4 eexists.
  split; [apply (fl_json_written binary64 fsin fcos true d c l m f D M)|].
  split; [unfold fs_write; rewrite String.eqb_refl; reflexivity|].
  assert (W := fun x => cartesian_printable fsin fcos c l m K D M P MS HS HC x).
  destruct (json_text_of_control (json_floatstr binary64) (float_repr binary64) read_float _ (fun x I => proj1 (written_number _ x W I))) as [_ [X Y]].
  split; [exact X|split; [|split]].
  - unfold exported_text; rewrite (Y (fun x I => proj2 (written_number _ x W I))); apply cartesian_read; auto.
  - assert (Q : forall l', incl l' l -> Forall2 (fun x g => amplitude_near m x (seg_x g) (g_rabi g)) (map (fun g => m * binary64 (binary64 (g_rabi g * fcos (g_phi g)) / m)) l') l').
    { induction l' as [|g l' IH]; intros I; constructor; [apply (x_amplitude fcos c l m K D M P MS HC), I; left; auto|apply IH; intros x J; apply I; right; auto]. }
    apply Q, incl_refl.
  - assert (Q : forall l', incl l' l -> Forall2 (fun x g => amplitude_near m x (seg_y g) (g_rabi g)) (map (fun g => m * binary64 (binary64 (g_rabi g * fsin (g_phi g)) / m)) l') l').
    { induction l' as [|g l' IH]; intros I; constructor; [apply (y_amplitude fsin c l m K D M P MS HS), I; left; auto|apply IH; intros x J; apply I; right; auto]. }
    apply Q, incl_refl.
Qed.

(** ** CSV *)

Lemma cell_number header row k x : finite_binary64 x -> csv_cell_of header row k = Some (Fin x) ->
  cell_is header (map (float_repr binary64) row) k x.
Proof.
  intros F E; exists (float_repr binary64 (Fin x)); split; [unfold csv_cell_of in E; rewrite lookup_map, E; auto|].
  apply (float_text_round_trip (Fin x) F).
Qed.

Theorem float_csv fsin fcos facos fasin d c l m n f :
  accurate_trigonometry fsin fcos facos fasin ->
  constructible c -> describes l c -> is_maximum m (map g_rabi l) -> 0 < m -> dc_name c = Some n ->
  ((forall g, In g l -> moderate_segment g) ->
   exists d' file header table,
     fl_export_to_file binary64 fsin fcos d c f FILE_FORMAT_QCTRL FILE_TYPE_CSV CARTESIAN = (d', None) /\ d' f = Some file /\
     csv_read (exported_text binary64 file) = Some (header :: table) /\ List.length table = List.length l /\
     forall i g, nth_error l i = Some g ->
       exists row x y, nth_error table i = Some row /\ List.length row = List.length header /\
         cell_is header row "amplitude_x" x /\ amplitude_near m (m * x) (seg_x g) (g_rabi g) /\
         cell_is header row "amplitude_y" y /\ amplitude_near m (m * y) (seg_y g) (g_rabi g) /\
         cell_is header row "detuning" (g_det g) /\ cell_is header row "duration" (g_dur g) /\
         cell_is header row "maximum_rabi_rate" m) /\
  ((forall g, In g l -> finite_segment g) ->
   exists d' file header table,
     fl_export_to_file binary64 fsin fcos d c f FILE_FORMAT_QCTRL FILE_TYPE_CSV CYLINDRICAL = (d', None) /\ d' f = Some file /\
     csv_read (exported_text binary64 file) = Some (header :: table) /\ List.length table = List.length l /\
     forall i g, nth_error l i = Some g ->
       exists row r, nth_error table i = Some row /\ List.length row = List.length header /\
         cell_is header row "rabi_rates" r /\ restored m (m * r) (g_rabi g) /\
         cell_is header row "azimuthal_angles" (g_phi g) /\
         cell_is header row "detuning" (g_det g) /\ cell_is header row "duration" (g_dur g) /\
         cell_is header row "maximum_rabi_rate" m).
Proof.
  intros [HS [HC _]] K D M P N; split; intros FS.
  - assert (FS' : forall g, In g l -> finite_segment g) by (intros g I; apply FS; auto); assert (MF := m_finite l m M P FS').
    do 3 eexists; exists (map (map (float_repr binary64)) (map (fl_row binary64 fsin fcos true m) l)).
    split; [apply (fl_csv_written binary64 fsin fcos true d c l m n f D M N)|].
    split; [unfold fs_write; rewrite String.eqb_refl; reflexivity|].
    split; [|split; [rewrite !map_length; auto|]].
    + apply csv_text_rows; [discriminate|]; intros r I; apply in_map_iff in I; destruct I as [g [<- _]]; reflexivity.
    + intros i g I; assert (J := nth_error_In _ _ I); destruct (FS' g J) as [F1 [F2 [F3 F4]]].
      destruct (x_amplitude fcos c l m K D M P FS HC g J) as [X1 X2]; destruct (y_amplitude fsin c l m K D M P FS HS g J) as [Y1 Y2].
      exists (map (float_repr binary64) (fl_row binary64 fsin fcos true m g)); do 2 eexists.
      split; [rewrite map_map; apply map_nth_error with (f := fun g => map (float_repr binary64) (fl_row binary64 fsin fcos true m g)); auto|].
      split; [reflexivity|].
      split; [apply cell_number; [exact X2|]; cbn -[fl_x]; rewrite (fl_x_fin fcos m P); reflexivity|split; [exact X1|]].
      split; [apply cell_number; [exact Y2|]; cbn -[fl_y]; rewrite (fl_y_fin fsin m P); reflexivity|split; [exact Y1|]].
      split; [apply cell_number; auto|split; apply cell_number; auto].
  - assert (MF := m_finite l m M P FS).
    do 3 eexists; exists (map (map (float_repr binary64)) (map (fl_row binary64 fsin fcos false m) l)).
    split; [apply (fl_csv_written binary64 fsin fcos false d c l m n f D M N)|].
    split; [unfold fs_write; rewrite String.eqb_refl; reflexivity|].
    split; [|split; [rewrite !map_length; auto|]].
    + apply csv_text_rows; [discriminate|]; intros r I; apply in_map_iff in I; destruct I as [g [<- _]]; reflexivity.
    + intros i g I; assert (J := nth_error_In _ _ I); destruct (FS g J) as [F1 [F2 [F3 F4]]].
      destruct (segment_bounds c l m K D M g J) as [_ B].
      exists (map (float_repr binary64) (fl_row binary64 fsin fcos false m g)), (binary64 (g_rabi g / m)).
      split; [rewrite map_map; apply map_nth_error with (f := fun g => map (float_repr binary64) (fl_row binary64 fsin fcos false m g)); auto|].
      split; [reflexivity|].
      split; [apply cell_number; [apply ratio_finite; auto|]; cbn -[fl_r]; rewrite (fl_r_fin m P); reflexivity|].
      split; [apply ratio_restored; lra|].
      split; [apply cell_number; auto|split; [apply cell_number; auto|split; apply cell_number; auto]].
Qed.
