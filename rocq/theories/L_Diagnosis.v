(** * Which error a rejected call raises *)

From Coq Require Import Lia Lra Classical.
From Verif Require Export Spec_Diagnosis L_Gaussian L_Symmetry L_ConvertProps L_Requests.
Import ListNotations.
Open Scope string_scope.
Open Scope list_scope.
Open Scope R_scope.
Set Bullet Behavior "Strict Subproofs".

Lemma diag_check {A} b (ok : Prop) d a x rest (k : unit -> result A) :
  (b = true <-> ok) -> (ok -> diagnoses rest (k tt)) ->
  diagnoses ((ok, ArgumentsValueError d a x) :: rest) (bind (check_arguments b d a x) k).
Proof.
  intros E H; cbn [diagnoses]; split.
  - intros N; rewrite check_false; [reflexivity|]; destruct b; auto; exfalso; apply N, E; auto.
  - intros O; rewrite check_true by (apply E; auto); cbn [bind]; auto.
Qed.

Lemma diag_last b (ok : Prop) d a x :
  (b = true <-> ok) -> diagnoses [(ok, ArgumentsValueError d a x)] (check_arguments b d a x).
Proof.
  intros E; cbn [diagnoses]; split.
  - intros N; apply check_false; destruct b; auto; exfalso; apply N, E; auto.
  - intros O; exists tt; apply check_true, E; auto.
Qed.

Lemma diag_bind {A B} rules rest (r : result A) (k : A -> result B) :
  diagnoses rules r -> (forall a, r = Ok a -> diagnoses rest (k a)) -> diagnoses (rules ++ rest) (bind r k).
Proof.
  induction rules as [|[ok e] rules IH]; cbn [diagnoses app].
  - intros [a E] H; rewrite E; cbn [bind]; auto.
  - intros [N O] H; split; [intros X; rewrite N by auto; reflexivity|intros X; apply IH; auto].
Qed.

Lemma diag_raise {A} (ok : Prop) e rest (r : result A) : (~ ok -> r = Raise e) -> (ok -> diagnoses rest r) ->
  diagnoses ((ok, e) :: rest) r.
Proof. intros; split; auto. Qed.

(** the outcome is determined *)
Lemma diag_unique {A} rules (r r' : result A) : diagnoses rules r -> diagnoses rules r' ->
  (forall e, r = Raise e <-> r' = Raise e).
Proof.
  induction rules as [|[ok e] rules IH]; cbn [diagnoses].
  - intros [a ->] [b ->] e; split; discriminate.
  - intros [N O] [N' O'] e0; destruct (classic ok) as [H|H]; auto.
    rewrite N, N' by auto; tauto.
Qed.

(** success exactly where every requirement holds *)
Lemma diag_accepts {A} rules (r : result A) : diagnoses rules r ->
  ((exists a, r = Ok a) <-> Forall (fun p : rule => fst p) rules).
Proof.
  induction rules as [|[ok e] rules IH]; cbn [diagnoses].
  - intros H; split; auto.
  - intros [N O]; split.
    + intros [a E]; destruct (classic ok) as [H|H]; [|rewrite N in E by auto; discriminate].
      constructor; auto; apply IH; eauto.
    + intros F; inversion F; subst; apply IH; auto.
Qed.

(** ** DrivenControl *)

Theorem control_diagnosis ts r a d name : diagnoses (control_rules ts r a d) (DrivenControl ts r a d name).
Proof.
  unfold DrivenControl, control_rules, bad.
  apply diag_check; [apply all_positive_b|intros H1].
  apply diag_check; [rewrite Nat.eqb_eq; apply input_lengths_one|intros H2].
  cbv zeta; apply diag_check; [apply all_nonnegative_b|intros H3].
  eexists; reflexivity.
Qed.

Lemma only_durations ts r a d name :
  fits (List.length ts) r /\ fits (List.length ts) a /\ fits (List.length ts) d -> all_nonnegative r ->
  (forall e, DrivenControl ts r a d name = Raise e ->
    e = bad "Duration of driven control segments must all be greater than zero." ["durations"]).
Proof.
  intros F P e E; destruct (control_diagnosis ts r a d name) as [H1 H2].
  destruct (classic (all_positive ts)) as [O|O]; [|rewrite H1 in E by auto; congruence].
  destruct (proj2 (proj2 (H2 O) F) P) as [c X]; congruence.
Qed.

(** ** DynamicDecouplingSequence *)

Theorem sequence_diagnosis T o r a d name :
  diagnoses (sequence_rules T o r a d) (DynamicDecouplingSequence T o r a d name).
Proof.
  unfold DynamicDecouplingSequence, sequence_rules, bad.
  apply diag_check; [apply ltb_true|intros _].
  apply diag_check; [|intros _].
  { rewrite forallb_forall; split; intros H t I; specialize (H t I).
    - apply andb_true_iff in H; rewrite !leb_true in H; tauto.
    - apply andb_true_iff; rewrite !leb_true; tauto. }
  cbv zeta; do 3 (apply diag_check; [apply Nat.eqb_eq|intros _]).
  eexists; reflexivity.
Qed.

(** ** The predefined controls *)

Lemma validate_diagnosis th w : diagnoses
  [(0 < w, bad "Maximum rabi angular frequency should be greater than zero." ["maximum_rabi_rate"]);
   (th <> 0, bad "The rabi rotation must be non-zero." ["rabi_rotation"])] (validate_rabi_parameters th w).
Proof.
  unfold validate_rabi_parameters, bad; apply diag_check; [apply ltb_true|intros _].
  apply diag_last; apply neqb_true.
Qed.

Lemma wimperis_diagnosis th : diagnoses
  [(- (4 * PI) <= th <= 4 * PI,
    bad "The polar angle must be between -4 pi and 4 pi (inclusive)." ["rabi_rotation"])]
  (get_transformed_rabi_rotation_wimperis th).
Proof.
  unfold get_transformed_rabi_rotation_wimperis, bad; apply diag_check; [|intros _; eexists; reflexivity].
  rewrite andb_true_iff, !leb_true; split; intros [A B]; split; lra.
Qed.

Lemma supported_diagnosis th : diagnoses
  [(supported th, bad "rabi_rotation angle must be either pi, pi/2 or pi/4" ["rabi_rotation"])]
  (check_supported_rotation th).
Proof.
  unfold check_supported_rotation, bad; apply diag_last.
  unfold np_any; cbn [existsb]; rewrite !orb_true_iff, !L_Predefined.isclose_near; unfold supported.
  split; [intros [H|[H|[H|H]]]; auto; discriminate|intros [H|[H|H]]; auto].
Qed.

Lemma rates_nonnegative (w : R) n : 0 < w -> all_nonnegative (Some (repeat w n)).
Proof. intros W l E x I; injection E as <-; apply repeat_spec in I; lra. Qed.

Lemma constant_rate_raises th az w name : 0 < w -> List.length az = List.length th ->
  forall e, constant_rate_control th az w name = Raise e ->
    e = bad "Duration of driven control segments must all be greater than zero." ["durations"].
Proof.
  intros W L; unfold constant_rate_control; cbv zeta; apply only_durations; [|apply rates_nonnegative; auto].
  rewrite map_length; repeat split; intros l E; injection E as <-; rewrite ?repeat_length; auto.
Qed.

Lemma tail_rule s th w phi name r :
  build s th w phi name = r -> 0 < w -> (0 < th -> accepts s th w) ->
  (forall e, r = Raise e -> e = bad "Duration of driven control segments must all be greater than zero." ["durations"]) ->
  diagnoses [(0 < th, bad "Duration of driven control segments must all be greater than zero." ["durations"])] r.
Proof.
  intros E W A H; destruct (build_iff s th w phi name) as [B1 [_ B3]]; split.
  - intros N; assert (NA : ~ accepts s th w) by (intros X; apply N, X).
    destruct (B3 NA) as [d [args [X _]]]; rewrite E in X; rewrite X; f_equal; apply H, X.
  - intros P; destruct (proj1 B1 (A P)) as [c X]; exists c; congruence.
Qed.

Theorem scheme_diagnosis s th w phi name : diagnoses (scheme_rules s th w) (build s th w phi name).
Proof.
  assert (V := validate_diagnosis th w).
  assert (KV : forall A (k : unit -> result A) rest,
    (0 < w -> th <> 0 -> validate_rabi_parameters th w = Ok tt -> diagnoses rest (k tt)) ->
    diagnoses (([(0 < w, bad "Maximum rabi angular frequency should be greater than zero." ["maximum_rabi_rate"]);
      (th <> 0, bad "The rabi rotation must be non-zero." ["rabi_rotation"])]) ++ rest)
      (bind (validate_rabi_parameters th w) k)).
  { intros A k rest H; cbn [app diagnoses]; destruct V as [V1 V2]; split.
    - intros N; rewrite V1 by auto; reflexivity.
    - intros W; destruct (V2 W) as [V3 V4]; split.
      + intros N; rewrite V3 by auto; reflexivity.
      + intros Z; destruct (V4 Z) as [[] E]; rewrite E; cbn [bind]; auto. }
  unfold scheme_rules; destruct s; cbn [build app];
    unfold new_primitive_control, new_bb1_control, new_sk1_control, new_scrofulous_control,
      new_corpse_control, new_corpse_in_bb1_control, new_corpse_in_sk1_control,
      new_corpse_in_scrofulous_control, new_wamf1_control; apply (KV driven_control); intros W Z EV.
  all: clear KV V.
  all: try (apply (diag_bind [_]); [apply wimperis_diagnosis|intros p EP];
            assert (RG := Forall_inv (proj1 (diag_accepts _ _ (wimperis_diagnosis th)) (ex_intro _ p EP)));
            cbn [fst] in RG).
  all: try (apply (diag_bind [_]); [apply supported_diagnosis|intros [] EP];
            assert (RG := Forall_inv (proj1 (diag_accepts _ _ (supported_diagnosis th)) (ex_intro _ tt EP)));
            cbn [fst] in RG).
  1: apply (tail_rule Primitive th w phi name).
  5: apply (tail_rule BB1 th w phi name).
  9: apply (tail_rule SK1 th w phi name).
  13: apply (tail_rule SCROFULOUS th w phi name).
  17: apply (tail_rule CORPSE th w phi name).
  21: apply (tail_rule CORPSE_in_BB1 th w phi name).
  25: apply (tail_rule CORPSE_in_SK1 th w phi name).
  29: apply (tail_rule CORPSE_in_SCROFULOUS th w phi name).
  33: apply (tail_rule WAMF1 th w phi name).
  all: try exact W.
  all: try (cbn [build]; unfold new_primitive_control, new_bb1_control, new_sk1_control, new_scrofulous_control,
      new_corpse_control, new_corpse_in_bb1_control, new_corpse_in_sk1_control,
      new_corpse_in_scrofulous_control, new_wamf1_control; rewrite EV; cbn [bind]; try (rewrite EP; cbn [bind]); reflexivity).
  all: try (intros P; unfold accepts; repeat split; auto; tauto).
  all: try (cbv zeta; apply constant_rate_raises; [exact W|reflexivity]).
  destruct (wamf1_thetas th) as [a b] eqn:EW; cbv zeta; apply only_durations.
  - repeat split; intros l E; injection E as <-; reflexivity.
  - assert (PP := PI_pos); assert (AB : 0 < a /\ 0 < b).
    { unfold wamf1_thetas in EW; destruct (np_isclose th PI); [|destruct (np_isclose th (5 / 10 * PI))];
        injection EW as <- <-; lra. }
    destruct AB as [PA PB]; assert (D : 0 < a / w) by (apply Rdiv_lt_0_compat; auto).
    intros l E x I; injection E as <-.
    assert (Q : 0 < a / (a / w) /\ 0 < b / (a / w)) by (split; apply Rdiv_lt_0_compat; auto).
    destruct I as [<-|[<-|[<-|[<-|[]]]]]; lra.
Qed.

Theorem gaussian_diagnosis omega m T f :
  diagnoses (gaussian_rules omega m T f) (new_modulated_gaussian_control omega m T f).
Proof.
  assert (A := gaussian_accepts omega m T f); destruct A as [A _].
  assert (FIN : gaussian_inputs omega m T -> ~ has_signal m T f -> new_modulated_gaussian_control omega m T f =
    Raise (bad "All rabi rates must be greater than zero." ["rabi_rates"])).
  { intros V NS; destruct (Req_dec f 0) as [->|F]; [exfalso; apply NS; left; auto|].
    destruct (gaussian_inputs_ok omega m T f V) as [C [N E]]; cbv zeta in E; rewrite E.
    set (n := gaussian_segment_count T m) in *; clearbody n.
    destruct V as [W [M [L B]]]; assert (T0 : T <> 0) by lra.
    unfold gaussian_segments; rewrite (proj2 (neqb_true f 0) F).
    rewrite (gaussian_samples _ (signal f T)); [|lia|].
    2:{ intros t; unfold gaussian_modulated, signal; rewrite gaussian_base_envelope by auto; reflexivity. }
    destruct (np_amax_ok (samples (signal f T) T n)) as [peak PK]; [apply samples_nonempty; lia|].
    rewrite PK; cbn [bind]; apply amax_is_maximum in PK.
    assert (Z : peak = 0).
    { apply NNPP; intros Z; apply NS; right; destruct PK as [I _]; apply in_samples in I.
      destruct I as [i [I X]]; exists n, i; split; auto; split; auto; congruence. }
    destruct (samples (signal f T) T n) as [|x xs] eqn:ES; [exfalso; apply (samples_nonempty (signal f T) T n); auto; lia|].
    cbn [map all_finite]; unfold xdiv at 1; rewrite (proj2 (eqb_true peak 0) Z).
    destruct (eqb (omega * x) 0); reflexivity. }
  unfold gaussian_rules; apply diag_raise; [|intros W; apply diag_raise; [|intros M; apply diag_raise; [|intros L; apply diag_raise]]].
  1,2,3,4: intros N; unfold new_modulated_gaussian_control.
  - rewrite check_false by (apply ltb_false; lra); reflexivity.
  - rewrite check_true by (apply ltb_true; auto); cbn [bind].
    rewrite check_false by (apply ltb_false; lra); reflexivity.
  - rewrite check_true by (apply ltb_true; auto); cbn [bind].
    rewrite check_true by (apply ltb_true; auto); cbn [bind].
    rewrite check_false by (apply ltb_false; lra); reflexivity.
  - do 3 (rewrite check_true by (apply ltb_true; auto); cbn [bind]).
    cbv zeta; rewrite check_false; [reflexivity|].
    apply leb_false; rewrite gaussian_required by lra; apply Rnot_le_lt; intros B; apply N.
    apply (Rmult_le_compat_r T) in B; [|lra].
    unfold Rdiv in B; rewrite Rmult_assoc, Rinv_l in B by lra; lra.
  - intros B; assert (V : gaussian_inputs omega m T) by (repeat split; auto).
    split; [apply FIN; auto|intros S; cbn [diagnoses]; apply A; auto].
Qed.

(** ** The predefined sequences *)

Lemma request_ok r T pre name : 0 < T -> valid_request r -> exists s, build_sequence r T pre name = Ok s.
Proof.
  intros HT V; destruct (request_validity r T pre name) as [H _].
  destruct H as [s [E _]]; eauto.
Qed.

Theorem request_diagnosis r T pre name : diagnoses (request_rules r T) (build_sequence r T pre name).
Proof.
  assert (OK := request_ok r T pre name).
  assert (D : forall A (k : unit -> result A), (~ 0 < T -> bind (check_duration T) k =
      Raise (bad "Sequence duration must be greater than zero." ["duration"])) /\
      (0 < T -> bind (check_duration T) k = k tt)).
  { intros A k; unfold check_duration; split; intros H;
      [rewrite check_false by (apply ltb_false; lra)|rewrite check_true by (apply ltb_true; lra)]; reflexivity. }
  unfold request_rules; apply diag_raise.
  - intros N; destruct r; cbn [build_sequence]; apply D; auto.
  - intros HT; assert (OK' := OK HT); clear OK.
    assert (LE : forall x d a, (~ 1 <= x -> check_arguments (leb 1 x) d a [] = Raise (bad d a))).
    { intros x d a N; apply check_false, leb_false; lra. }
    assert (LO : forall x d a, (1 <= x -> check_arguments (leb 1 x) d a [] = Ok tt)).
    { intros x d a N; apply check_true, leb_true; lra. }
    destruct r as [| |x|x|x|x|x|x y|x|x]; cbn [build_sequence valid_request] in *.
    1,2: apply OK'; exact I.
    all: apply diag_raise; [intros N|intros V].
    all: try (apply OK'; exact V).
    all: unfold new_carr_purcell_sequence, new_cpmg_sequence, new_uhrig_sequence, new_periodic_sequence, new_walsh_sequence,
        new_quadratic_sequence, new_x_concatenated_sequence, new_xy_concatenated_sequence.
    all: try (rewrite (proj2 (D _ _) HT); unfold check_offset_count, check_concatenation_order; rewrite LE by auto; reflexivity).
    + rewrite (proj2 (D _ _) HT); rewrite check_false; [reflexivity|].
      destruct (leb 1 x && leb x 2000)%bool eqn:E; auto; exfalso; apply N.
      apply andb_true_iff in E; rewrite !leb_true in E; lra.
    + apply diag_raise; [intros N|intros V'; apply OK'; auto].
      rewrite (proj2 (D _ _) HT); rewrite LO by auto; cbn [bind]; rewrite LE by auto; reflexivity.
Qed.

(** ** Conversion *)

Theorem conversion_diagnosis T n0 l maxr maxd mn name : constructible_sequence (sequence_of T n0 l) ->
  diagnoses (conversion_rules maxr maxd mn T l)
    (convert_dds_to_driven_control (sequence_of T n0 l) maxr maxd mn name).
Proof.
  intros CS; destruct (sequence_bounds _ _ _ CS) as [HT B].
  assert (OK := proj1 (proj1 (conversion_acceptance T n0 l maxr maxd mn name CS))); revert OK.
  unfold convert_dds_to_driven_control at 2, conversion_rules, bad; intros OK.
  set (r := convert_dds_to_driven_control (sequence_of T n0 l) maxr maxd mn name) in OK.
  assert (OK' : convertible maxr maxd mn T l -> exists c, r = Ok c) by exact OK; clear OK; subst r.
  revert OK'; unfold convert_dds_to_driven_control at 1; intros OK.
  apply diag_check; [apply ltb_true|intros Hd].
  rewrite (check_true _ _ _ _ (proj2 (ltb_true 0 maxd) Hd)) in OK; cbn [bind] in OK.
  apply diag_check; [apply ltb_true|intros Hr].
  rewrite (check_true _ _ _ _ (proj2 (ltb_true 0 maxr) Hr)) in OK; cbn [bind] in OK.
  apply diag_check; [apply leb_true|intros Hmn].
  rewrite (check_true _ _ _ _ (proj2 (leb_true 0 mn) Hmn)) in OK; cbn [bind] in OK.
  cbn [sequence_of rabi_rotations detuning_rotations seq_duration] in *.
  apply diag_check; [apply forallb_rabi|intros P].
  rewrite (check_true _ _ _ _ (proj2 (forallb_rabi l) P)) in OK; cbn [bind] in OK.
  apply diag_check; [apply check_valid_spec|intros V].
  rewrite (check_true _ _ _ _ (proj2 (check_valid_spec l) V)) in OK; cbn [bind] in OK.
  cbv zeta in *.
  change (MkDDS T (map e_time l) (map e_rabi l) (map e_phi l) (map e_det l) n0) with (sequence_of T n0 l) in *.
  rewrite dds_operations_of, pad_with_ends in * by auto.
  assert (M : map op_offset (map op_of (with_ends T l)) = map e_time (with_ends T l)) by (rewrite map_map; auto).
  rewrite M in *.
  apply diag_check; [rewrite negb_true_iff, np_diff_increasing; apply with_ends_increasing; auto|intros I].
  assert (NI : negb (existsb (fun d => leb d 0) (np_diff (map e_time (with_ends T l)))) = true)
    by (rewrite negb_true_iff, np_diff_increasing; apply with_ends_increasing; auto).
  rewrite (check_true _ _ _ _ NI) in OK; cbn [bind] in OK.
  rewrite windows_model in * by auto; rewrite gap_durations_gaps in *.
  apply diag_check; [apply gaps_ok_spec|intros G].
  rewrite (check_true _ _ _ _ (proj2 (gaps_ok_spec _ _) G)) in OK; cbn [bind] in OK.
  apply OK; unfold convertible; tauto.
Qed.

(** ** Files and plots *)

Lemma coordinates_in coords : In coords coordinate_systems <-> coords = "cartesian" \/ coords = "cylindrical".
Proof. cbn; split; [intros [H|[H|[]]]; auto|intros [->| ->]; auto]. Qed.
Lemma types_in ty : In ty file_types <-> ty = "JSON" \/ ty = "CSV".
Proof. cbn; split; [intros [H|[H|[]]]; auto|intros [->| ->]; auto]. Qed.
Lemma formats_in fmt : In fmt file_formats <-> fmt = "Q-CTRL expanded".
Proof. cbn; split; [intros [H|[]]; auto|intros ->; auto]. Qed.

Theorem file_diagnosis d c f fmt ty coords : constructible c ->
  diagnoses (file_rules c fmt ty coords) (outcome (export_to_file d c f fmt ty coords)).
Proof.
  intros K; destruct (constructible_segments c K) as [l [D _]].
  unfold file_rules; apply diag_raise; [intros N|intros ->; apply diag_raise; [intros N|intros TY; apply diag_raise; [intros N|intros CO]]].
  - unfold export_to_file; rewrite check_false; [reflexivity|].
    apply str_in_false; rewrite formats_in; auto.
  - unfold export_to_file; rewrite check_true by (apply str_in_true, formats_in; auto); cbn [bind].
    rewrite check_false; [reflexivity|]; apply str_in_false; rewrite types_in; auto.
  - unfold export_to_file; rewrite check_true by (apply str_in_true, formats_in; auto); cbn [bind].
    rewrite check_true by (apply str_in_true, types_in; auto); cbn [bind].
    rewrite check_false; [reflexivity|]; apply str_in_false; rewrite coordinates_in; auto.
  - change "Q-CTRL expanded" with FILE_FORMAT_QCTRL.
    rewrite export_valid_args by (apply types_in + apply coordinates_in; auto).
    apply diag_raise; [intros N|intros NE; apply diag_raise; [intros N|intros NM]].
    + unfold export_to_qctrl_expanded_format, qctrl_expanded_export_content, maximum_rabi_rate.
      destruct (rabi_rates c); [reflexivity|exfalso; apply N; discriminate].
    + destruct (dc_name c) as [n|] eqn:EN; [exfalso; apply N; discriminate|].
      assert (ty = "CSV") by (apply NNPP; intros X; apply N; intros Y; contradiction); subst ty.
      assert (LN : l <> []) by (intros ->; apply NE; apply D).
      rewrite <- export_valid_args by (apply types_in + apply coordinates_in; auto).
      change "CSV" with FILE_TYPE_CSV; rewrite (csv_unnamed d c l f coords K D LN EN); [reflexivity|].
      apply coordinates_in; auto.
    + destruct (np_amax_ok (rabi_rates c) NE) as [m M]; change (maximum_rabi_rate c = Ok m) in M.
      assert (MX : is_maximum m (map g_rabi l)) by (apply (desc_max l c m D); auto).
      rewrite <- export_valid_args by (apply types_in + apply coordinates_in; auto).
      destruct TY as [->| ->].
      * rewrite export_valid_args by (apply types_in + apply coordinates_in; auto).
        unfold export_to_qctrl_expanded_format; destruct CO as [->| ->];
          [change "cartesian" with CARTESIAN; rewrite (content_cartesian c l m D M)
          |change "cylindrical" with CYLINDRICAL; rewrite (content_cylindrical c l m D M)]; eexists; reflexivity.
      * destruct (dc_name c) as [n|] eqn:EN; [|exfalso; apply NM; auto].
        change "CSV" with FILE_TYPE_CSV; destruct CO as [->| ->].
        -- change "cartesian" with CARTESIAN; rewrite (csv_cartesian_written d c l m n f D MX EN); eexists; reflexivity.
        -- change "cylindrical" with CYLINDRICAL; rewrite (csv_cylindrical_written d c l m n f D MX EN); eexists; reflexivity.
Qed.

Theorem plot_diagnosis c coords dim : diagnoses (plot_rules c coords dim) (export c coords dim).
Proof.
  unfold plot_rules, bad, export; apply diag_check; [rewrite str_in_true; apply coordinates_in|intros _].
  apply diag_raise.
  - intros N; destruct dim; [|exfalso; apply N; discriminate].
    unfold maximum_rabi_rate; destruct (rabi_rates c); [reflexivity|exfalso; apply N; discriminate].
  - intros H; destruct dim.
    + destruct (np_amax_ok (rabi_rates c) (H eq_refl)) as [m M]; unfold maximum_rabi_rate; rewrite M; eexists; reflexivity.
    + eexists; reflexivity.
Qed.

Lemma converted_nonempty maxr maxd mn T l : convertible maxr maxd mn T l -> 0 < T ->
  (forall e, In e l -> 0 <= e_time e <= T) -> converted maxr maxd mn T l <> [].
Proof.
  intros C HT B N; assert (TO : T + overlap (idle_times maxr maxd mn T l) <= 0).
  { unfold converted in N; destruct (allclose0 _); [discriminate|].
    destruct (first_last maxr maxd mn T l C HT B) as [e0 [F [S [A Z]]]]; unfold idle_times.
    change (map (fun e => window T (pulse_width maxr maxd mn e) (e_time e)) (with_ends T l)) with
      (map (win maxr maxd mn T) (with_ends T l)).
    assert (W := weave_total maxr maxd mn T l C F e0); rewrite <- S, N, A in W; cbn [map total] in W.
    rewrite S in W; rewrite Z in W; rewrite S; lra. }
  assert (O := overlap_bounds maxr maxd mn T l C); lra.
Qed.

Theorem sequence_file_diagnosis d T n0 l f fmt ty coords maxr maxd : constructible_sequence (sequence_of T n0 l) ->
  diagnoses (conversion_rules maxr maxd 0 T l ++ sequence_file_rules n0 fmt ty coords)
    (outcome (dds_export_to_file d (sequence_of T n0 l) f fmt ty coords maxr maxd)).
Proof.
  intros CS; assert (CD := conversion_diagnosis T n0 l maxr maxd 0 n0 CS).
  replace (outcome (dds_export_to_file d (sequence_of T n0 l) f fmt ty coords maxr maxd)) with
    (bind (convert_dds_to_driven_control (sequence_of T n0 l) maxr maxd 0 n0)
       (fun c => outcome (export_to_file d c f fmt ty coords))).
  2:{ unfold dds_export_to_file; cbn [sequence_of seq_name].
      change (MkDDS T (map e_time l) (map e_rabi l) (map e_phi l) (map e_det l) n0) with (sequence_of T n0 l).
      destruct (convert_dds_to_driven_control (sequence_of T n0 l) maxr maxd 0 n0); reflexivity. }
  apply diag_bind; [exact CD|]; intros c E.
  destruct (conversion_result _ _ _ _ _ _ _ _ CS E) as [HT [B [CV [D N]]]].
  assert (K : constructible c) by (apply (conversion_acceptance T n0 l maxr maxd 0 n0 CS); auto).
  assert (NE : rabi_rates c <> []).
  { intros Z; destruct D as [DR _]; rewrite Z in DR; symmetry in DR; apply map_eq_nil in DR.
    apply (converted_nonempty maxr maxd 0 T l CV HT B); auto. }
  assert (FD := file_diagnosis d c f fmt ty coords K); unfold file_rules in FD; unfold sequence_file_rules; cbn [diagnoses] in *.
  rewrite N in FD; intuition.
Qed.
