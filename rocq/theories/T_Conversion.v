(** * The project's tests of conversion, on the model

    /repo/tests/test_dynamical_decoupling.py:290-842.  These check the model, they are no
    properties: each test's inputs and expected values, with [np.allclose] replaced by
    equality. *)

From Coq Require Import Reals Lia Lra.
From Verif Require Import Spec_Qubit L_Base L_DDS M_DDS.
Import ListNotations.
Set Bullet Behavior "Strict Subproofs".
Open Scope string_scope.
Open Scope list_scope.
Open Scope R_scope.

Local Arguments IZR : simpl never.
Local Arguments Rminus : simpl never.
Local Arguments Rabs : simpl never.

Lemma over_pi a b : b <> 0 -> a * PI / (b * PI) = a / b.
Proof. intros B; assert (P := PI_RGT_0); field; lra. Qed.

(** the stages of the conversion *)
Lemma convert_run s mr md mn name ops ses segs c :
  0 < md -> 0 < mr -> 0 <= mn -> forallb (fun r => leb 0 r) (rabi_rotations s) = true ->
  check_valid_operation (rabi_rotations s) (detuning_rotations s) = true ->
  pad_operations (seq_duration s) (dds_operations s) = ops ->
  existsb (fun d => leb d 0) (np_diff (map op_offset ops)) = false ->
  pulse_start_ends (half_pulse_duration mr md mn) (seq_duration s) ops = ses ->
  gaps_ok mn (gap_durations ses) = true -> allclose0 ses = false ->
  filter (fun g => ltb 0 (seg_duration g)) (interleave ops ses) = segs -> control_of_segments segs name = Ok c ->
  convert_dds_to_driven_control s mr md mn name = Ok c.
Proof.
  intros A B C D E <- F <- G H <- I; unfold convert_dds_to_driven_control, check_arguments.
  rewrite (proj2 (ltb_true 0 md) A), (proj2 (ltb_true 0 mr) B), (proj2 (leb_true 0 mn) C), D, E; cbn [bind]; rewrite F, G, H; exact I.
Qed.

Ltac bound := let P := fresh in assert (P := PI_bounds); lra.
Ltac decide_one :=
  match goal with
  | |- context [- (?a * PI)] => rewrite (Ropp_mult_distr_l a PI)
  | |- context [?a * PI / (?b * PI)] => rewrite (over_pi a b) by lra
  | |- context [Rabs ?a] => first [rewrite (Rabs_pos_eq a) by bound | rewrite (Rabs_left1 a) by bound]
  | |- context [ltb ?a ?b] => first [rewrite (proj2 (ltb_true a b)) by bound | rewrite (proj2 (ltb_false a b)) by bound]
  | |- context [leb ?a ?b] => first [rewrite (proj2 (leb_true a b)) by bound | rewrite (proj2 (leb_false a b)) by bound]
  | |- context [eqb ?a ?b] => first [rewrite (proj2 (eqb_true a b)) by bound | rewrite (proj2 (eqb_false a b)) by bound]
  end.
Ltac tidy := cbn [negb andb orb fst snd op_offset op_rabi op_azimuthal op_detuning seg_rabi seg_azimuthal seg_detuning seg_duration].
Ltac decide_all := repeat (tidy; decide_one); tidy.
Ltac open := unfold check_valid_operation, pad_operations, pad_back, pad_front, pad_empty, pulse_start_ends, half_pulse_duration, shift_first, shift_last,
  py_max, gaps_ok, allclose0, np_isclose, np_isclose_tol, neqb, interleave, pulse_segment, start_end, dds_operations, operations_of, null_operation.
Ltac stage1 := open; cbn; open; tidy; decide_all; try reflexivity.
Ltac stage := stage1; try solve [stage1; stage1].
Lemma op_eq a b c d a' b' c' d' : a = a' -> b = b' -> c = c' -> d = d' -> MkOp a b c d = MkOp a' b' c' d'.
Proof. congruence. Qed.
Lemma seg_eq a b c d a' b' c' d' : a = a' -> b = b' -> c = c' -> d = d' -> MkSeg a b c d = MkSeg a' b' c' d'.
Proof. congruence. Qed.
Lemma cons_eq {A} (x y : A) l l' : x = y -> l = l' -> x :: l = y :: l'.
Proof. congruence. Qed.
Lemma pair_eq {A B} (x y : A) (u v : B) : x = y -> u = v -> (x, u) = (y, v).
Proof. congruence. Qed.
Ltac entries := repeat first [reflexivity | apply cons_eq | apply pair_eq | apply op_eq | apply seg_eq]; try (field; bound); try bound.
Notation keep := (filter (fun g => ltb 0 (seg_duration g))).
Lemma keep_yes g g' l l' : 0 < seg_duration g -> g = g' -> keep l = l' -> keep (g :: l) = g' :: l'.
Proof. intros A <- <-; cbn; rewrite (proj2 (ltb_true _ _) A); reflexivity. Qed.
Lemma keep_no g l l' : seg_duration g <= 0 -> keep l = l' -> keep (g :: l) = l'.
Proof. intros A <-; cbn; rewrite (proj2 (ltb_false _ _) A); reflexivity. Qed.
Ltac kept := cbn [seg_duration]; bound.
Ltac segments := unfold interleave, pulse_segment, start_end, np_isclose, np_isclose_tol, neqb; cbn -[filter]; decide_all;
  repeat first [reflexivity | apply keep_yes; [kept|entries|] | apply keep_no; [kept|]].

(** test_conversion_to_driven_controls (290-335) *)
Example test_conversion : exists c,
  convert_dds_to_driven_control (MkDDS 2 [(1 / 2); 1; (3 / 2)] [(1 * PI); 0; (1 * PI)]
    [((1 / 2) * PI); 0; 0] [0; (1 * PI); 0] None) (20 * PI) (20 * PI) 0 None = Ok c /\
  rabi_rates c = [0; (20 * PI); 0; 0; 0; (20 * PI); 0] /\
  azimuthal_angles c = [0; ((1 / 2) * PI); 0; 0; 0; 0; 0] /\
  detunings c = [0; 0; 0; (20 * PI); 0; 0; 0] /\
  durations c = [(19 / 40); (1 / 20); (9 / 20); (1 / 20); (9 / 20); (1 / 20); (19 / 40)].
Proof.
  eexists; split; [eapply (convert_run _ _ _ _ _
    [MkOp 0 0 0 0; MkOp (1 / 2) (1 * PI) ((1 / 2) * PI) 0; MkOp 1 0 0 (1 * PI); MkOp (3 / 2) (1 * PI) 0 0; MkOp 2 0 0 0]
    [(0, 0); ((19 / 40), (21 / 40)); ((39 / 40), (41 / 40)); ((59 / 40), (61 / 40)); (2, 2)]
    [MkSeg 0 0 0 (19 / 40); MkSeg (20 * PI) ((1 / 2) * PI) 0 (1 / 20); MkSeg 0 0 0 (9 / 20); MkSeg 0 0 (20 * PI) (1 / 20); MkSeg 0 0 0 (9 / 20); MkSeg (20 * PI) 0 0 (1 / 20); MkSeg 0 0 0 (19 / 40)])|].
  - bound.
  - bound.
  - bound.
  - stage.
  - stage.
  - stage; entries.
  - stage.
  - stage; entries.
  - stage.
  - stage.
  - segments.
  - unfold control_of_segments, DrivenControl, check_arguments; stage.
  - cbn; split; [|split; [|split]]; entries.
Qed.

(** test_conversion_of_pi_2_pulses_to_driven_controls (338-447) *)
Example test_pi_2_pulses : exists c,
  convert_dds_to_driven_control (MkDDS 6 [(1 / 2); (3 / 2); (5 / 2); (7 / 2); (9 / 2); (11 / 2)] [((1 / 2) * PI); 0; ((1 / 2) * PI); ((1 / 2) * PI); 0; ((1 / 2) * PI)]
    [((1 / 2) * PI); 0; 0; ((-1 / 2) * PI); 0; (1 * PI)] [0; ((1 / 2) * PI); 0; 0; ((-1 / 2) * PI); 0] None) (20 * PI) (20 * PI) 0 None = Ok c /\
  rabi_rates c = [0; (20 * PI); 0; 0; 0; (20 * PI); 0; (20 * PI); 0; 0; 0; (20 * PI); 0] /\
  azimuthal_angles c = [0; ((1 / 2) * PI); 0; 0; 0; 0; 0; ((-1 / 2) * PI); 0; 0; 0; (1 * PI); 0] /\
  detunings c = [0; 0; 0; (20 * PI); 0; 0; 0; 0; 0; ((-20) * PI); 0; 0; 0] /\
  durations c = [(39 / 80); (1 / 40); (39 / 40); (1 / 40); (39 / 40); (1 / 40); (39 / 40); (1 / 40); (39 / 40); (1 / 40); (39 / 40); (1 / 40); (39 / 80)].
Proof.
  eexists; split; [eapply (convert_run _ _ _ _ _
    [MkOp 0 0 0 0; MkOp (1 / 2) ((1 / 2) * PI) ((1 / 2) * PI) 0; MkOp (3 / 2) 0 0 ((1 / 2) * PI); MkOp (5 / 2) ((1 / 2) * PI) 0 0; MkOp (7 / 2) ((1 / 2) * PI) ((-1 / 2) * PI) 0; MkOp (9 / 2) 0 0 ((-1 / 2) * PI); MkOp (11 / 2) ((1 / 2) * PI) (1 * PI) 0; MkOp 6 0 0 0]
    [(0, 0); ((39 / 80), (41 / 80)); ((119 / 80), (121 / 80)); ((199 / 80), (201 / 80)); ((279 / 80), (281 / 80)); ((359 / 80), (361 / 80)); ((439 / 80), (441 / 80)); (6, 6)]
    [MkSeg 0 0 0 (39 / 80); MkSeg (20 * PI) ((1 / 2) * PI) 0 (1 / 40); MkSeg 0 0 0 (39 / 40); MkSeg 0 0 (20 * PI) (1 / 40); MkSeg 0 0 0 (39 / 40); MkSeg (20 * PI) 0 0 (1 / 40); MkSeg 0 0 0 (39 / 40); MkSeg (20 * PI) ((-1 / 2) * PI) 0 (1 / 40); MkSeg 0 0 0 (39 / 40); MkSeg 0 0 ((-20) * PI) (1 / 40); MkSeg 0 0 0 (39 / 40); MkSeg (20 * PI) (1 * PI) 0 (1 / 40); MkSeg 0 0 0 (39 / 80)])|].
  - bound.
  - bound.
  - bound.
  - stage.
  - stage.
  - stage; entries.
  - stage.
  - stage; entries.
  - stage.
  - stage.
  - segments.
  - unfold control_of_segments, DrivenControl, check_arguments; stage.
  - cbn; split; [|split; [|split]]; entries.
Qed.

(** test_conversion_of_x_pi_2_pulses_at_extremities (450-491) *)
Example test_x_pulses_at_extremities : exists c,
  convert_dds_to_driven_control (MkDDS 1 [0; 1] [((1 / 2) * PI); ((1 / 2) * PI)]
    [(1 * PI); 0] [0; 0] None) (20 * PI) (20 * PI) 0 None = Ok c /\
  rabi_rates c = [(20 * PI); 0; (20 * PI)] /\
  azimuthal_angles c = [(1 * PI); 0; 0] /\
  detunings c = [0; 0; 0] /\
  durations c = [(1 / 40); (19 / 20); (1 / 40)].
Proof.
  eexists; split; [eapply (convert_run _ _ _ _ _
    [MkOp 0 ((1 / 2) * PI) (1 * PI) 0; MkOp 1 ((1 / 2) * PI) 0 0]
    [(0, (1 / 40)); ((39 / 40), 1)]
    [MkSeg (20 * PI) (1 * PI) 0 (1 / 40); MkSeg 0 0 0 (19 / 20); MkSeg (20 * PI) 0 0 (1 / 40)])|].
  - bound.
  - bound.
  - bound.
  - stage.
  - stage.
  - stage; entries.
  - stage.
  - stage; entries.
  - stage.
  - stage.
  - segments.
  - unfold control_of_segments, DrivenControl, check_arguments; stage.
  - cbn; split; [|split; [|split]]; entries.
Qed.

(** test_conversion_of_y_pi_2_pulses_at_extremities (494-535) *)
Example test_y_pulses_at_extremities : exists c,
  convert_dds_to_driven_control (MkDDS 1 [0; 1] [((1 / 2) * PI); ((1 / 2) * PI)]
    [((-1 / 2) * PI); ((1 / 2) * PI)] [0; 0] None) (20 * PI) (20 * PI) 0 None = Ok c /\
  rabi_rates c = [(20 * PI); 0; (20 * PI)] /\
  azimuthal_angles c = [((-1 / 2) * PI); 0; ((1 / 2) * PI)] /\
  detunings c = [0; 0; 0] /\
  durations c = [(1 / 40); (19 / 20); (1 / 40)].
Proof.
  eexists; split; [eapply (convert_run _ _ _ _ _
    [MkOp 0 ((1 / 2) * PI) ((-1 / 2) * PI) 0; MkOp 1 ((1 / 2) * PI) ((1 / 2) * PI) 0]
    [(0, (1 / 40)); ((39 / 40), 1)]
    [MkSeg (20 * PI) ((-1 / 2) * PI) 0 (1 / 40); MkSeg 0 0 0 (19 / 20); MkSeg (20 * PI) ((1 / 2) * PI) 0 (1 / 40)])|].
  - bound.
  - bound.
  - bound.
  - stage.
  - stage.
  - stage; entries.
  - stage.
  - stage; entries.
  - stage.
  - stage.
  - segments.
  - unfold control_of_segments, DrivenControl, check_arguments; stage.
  - cbn; split; [|split; [|split]]; entries.
Qed.

(** test_conversion_of_z_pi_2_pulses_at_extremities (538-576) *)
Example test_z_pulses_at_extremities : exists c,
  convert_dds_to_driven_control (MkDDS 1 [0; 1] [0; 0]
    [0; 0] [((-1 / 2) * PI); ((1 / 2) * PI)] None) (20 * PI) (20 * PI) 0 None = Ok c /\
  rabi_rates c = [0; 0; 0] /\
  azimuthal_angles c = [0; 0; 0] /\
  detunings c = [((-20) * PI); 0; (20 * PI)] /\
  durations c = [(1 / 40); (19 / 20); (1 / 40)].
Proof.
  eexists; split; [eapply (convert_run _ _ _ _ _
    [MkOp 0 0 0 ((-1 / 2) * PI); MkOp 1 0 0 ((1 / 2) * PI)]
    [(0, (1 / 40)); ((39 / 40), 1)]
    [MkSeg 0 0 ((-20) * PI) (1 / 40); MkSeg 0 0 0 (19 / 20); MkSeg 0 0 (20 * PI) (1 / 40)])|].
  - bound.
  - bound.
  - bound.
  - stage.
  - stage.
  - stage; entries.
  - stage.
  - stage; entries.
  - stage.
  - stage.
  - segments.
  - unfold control_of_segments, DrivenControl, check_arguments; stage.
  - cbn; split; [|split; [|split]]; entries.
Qed.

(** test_conversion_of_pulses_with_arbitrary_rabi_rotations (579-631) *)
Example test_arbitrary_rabi_rotations : exists c,
  convert_dds_to_driven_control (MkDDS 3 [(1 / 2); (3 / 2); (5 / 2)] [1; 2; 3]
    [((1 / 2) * PI); ((1 / 2) * PI); ((1 / 2) * PI)] [0; 0; 0] None) 20 10 (1 / 10) None = Ok c /\
  rabi_rates c = [0; 10; 0; 20; 0; 20; 0] /\
  azimuthal_angles c = [0; ((1 / 2) * PI); 0; ((1 / 2) * PI); 0; ((1 / 2) * PI); 0] /\
  detunings c = [0; 0; 0; 0; 0; 0; 0] /\
  durations c = [(9 / 20); (1 / 10); (9 / 10); (1 / 10); (7 / 8); (3 / 20); (17 / 40)].
Proof.
  eexists; split; [eapply (convert_run _ _ _ _ _
    [MkOp 0 0 0 0; MkOp (1 / 2) 1 ((1 / 2) * PI) 0; MkOp (3 / 2) 2 ((1 / 2) * PI) 0; MkOp (5 / 2) 3 ((1 / 2) * PI) 0; MkOp 3 0 0 0]
    [(0, 0); ((9 / 20), (11 / 20)); ((29 / 20), (31 / 20)); ((97 / 40), (103 / 40)); (3, 3)]
    [MkSeg 0 0 0 (9 / 20); MkSeg 10 ((1 / 2) * PI) 0 (1 / 10); MkSeg 0 0 0 (9 / 10); MkSeg 20 ((1 / 2) * PI) 0 (1 / 10); MkSeg 0 0 0 (7 / 8); MkSeg 20 ((1 / 2) * PI) 0 (3 / 20); MkSeg 0 0 0 (17 / 40)])|].
  - bound.
  - bound.
  - bound.
  - stage.
  - stage.
  - stage; entries.
  - stage.
  - stage; entries.
  - stage.
  - stage.
  - segments.
  - unfold control_of_segments, DrivenControl, check_arguments; stage.
  - cbn; split; [|split; [|split]]; entries.
Qed.

(** test_conversion_of_pulses_with_arbitrary_azimuthal_angles (634-686) *)
Example test_arbitrary_azimuthal_angles : exists c,
  convert_dds_to_driven_control (MkDDS 3 [(1 / 2); (3 / 2); (5 / 2)] [(1 * PI); (1 * PI); (1 * PI)]
    [(1 / 2); 1; (3 / 2)] [0; 0; 0] None) (20 * PI) (10 * PI) (1 / 10) None = Ok c /\
  rabi_rates c = [0; (10 * PI); 0; (10 * PI); 0; (10 * PI); 0] /\
  azimuthal_angles c = [0; (1 / 2); 0; 1; 0; (3 / 2); 0] /\
  detunings c = [0; 0; 0; 0; 0; 0; 0] /\
  durations c = [(9 / 20); (1 / 10); (9 / 10); (1 / 10); (9 / 10); (1 / 10); (9 / 20)].
Proof.
  eexists; split; [eapply (convert_run _ _ _ _ _
    [MkOp 0 0 0 0; MkOp (1 / 2) (1 * PI) (1 / 2) 0; MkOp (3 / 2) (1 * PI) 1 0; MkOp (5 / 2) (1 * PI) (3 / 2) 0; MkOp 3 0 0 0]
    [(0, 0); ((9 / 20), (11 / 20)); ((29 / 20), (31 / 20)); ((49 / 20), (51 / 20)); (3, 3)]
    [MkSeg 0 0 0 (9 / 20); MkSeg (10 * PI) (1 / 2) 0 (1 / 10); MkSeg 0 0 0 (9 / 10); MkSeg (10 * PI) 1 0 (1 / 10); MkSeg 0 0 0 (9 / 10); MkSeg (10 * PI) (3 / 2) 0 (1 / 10); MkSeg 0 0 0 (9 / 20)])|].
  - bound.
  - bound.
  - bound.
  - stage.
  - stage.
  - stage; entries.
  - stage.
  - stage; entries.
  - stage.
  - stage.
  - segments.
  - unfold control_of_segments, DrivenControl, check_arguments; stage.
  - cbn; split; [|split; [|split]]; entries.
Qed.

(** test_conversion_of_pulses_with_arbitrary_detuning_rotations (689-741) *)
Example test_arbitrary_detuning_rotations : exists c,
  convert_dds_to_driven_control (MkDDS 3 [(1 / 2); (3 / 2); (5 / 2)] [0; 0; 0]
    [0; 0; 0] [1; 2; 3] None) 20 10 (1 / 5) None = Ok c /\
  rabi_rates c = [0; 0; 0; 0; 0; 0; 0] /\
  azimuthal_angles c = [0; 0; 0; 0; 0; 0; 0] /\
  detunings c = [0; 5; 0; 10; 0; 10; 0] /\
  durations c = [(2 / 5); (1 / 5); (4 / 5); (1 / 5); (3 / 4); (3 / 10); (7 / 20)].
Proof.
  eexists; split; [eapply (convert_run _ _ _ _ _
    [MkOp 0 0 0 0; MkOp (1 / 2) 0 0 1; MkOp (3 / 2) 0 0 2; MkOp (5 / 2) 0 0 3; MkOp 3 0 0 0]
    [(0, 0); ((2 / 5), (3 / 5)); ((7 / 5), (8 / 5)); ((47 / 20), (53 / 20)); (3, 3)]
    [MkSeg 0 0 0 (2 / 5); MkSeg 0 0 5 (1 / 5); MkSeg 0 0 0 (4 / 5); MkSeg 0 0 10 (1 / 5); MkSeg 0 0 0 (3 / 4); MkSeg 0 0 10 (3 / 10); MkSeg 0 0 0 (7 / 20)])|].
  - bound.
  - bound.
  - bound.
  - stage.
  - stage.
  - stage; entries.
  - stage.
  - stage; entries.
  - stage.
  - stage.
  - segments.
  - unfold control_of_segments, DrivenControl, check_arguments; stage.
  - cbn; split; [|split; [|split]]; entries.
Qed.

(** test_free_evolution_conversion, first part (775-803) *)
Example test_free_evolution : exists c,
  convert_dds_to_driven_control (MkDDS 10 [] []
    [] [] None) (20 * PI) (20 * PI) 0 None = Ok c /\
  rabi_rates c = [0] /\
  azimuthal_angles c = [0] /\
  detunings c = [0] /\
  durations c = [10].
Proof.
  eexists; split; [eapply (convert_run _ _ _ _ _
    [MkOp 0 0 0 0; MkOp 10 0 0 0]
    [(0, 0); (10, 10)]
    [MkSeg 0 0 0 10])|].
  - bound.
  - bound.
  - bound.
  - stage.
  - stage.
  - stage; entries.
  - stage.
  - stage; entries.
  - stage.
  - stage.
  - segments.
  - unfold control_of_segments, DrivenControl, check_arguments; stage.
  - cbn; split; [|split; [|split]]; entries.
Qed.

(** test_free_evolution_conversion, second part (805-842) *)
Example test_free_evolution_rotations : exists c,
  convert_dds_to_driven_control (MkDDS 10 [0; 10] [((1 / 2) * PI); ((1 / 2) * PI)]
    [0; 0] [0; 0] None) (20 * PI) (20 * PI) 0 None = Ok c /\
  rabi_rates c = [(20 * PI); 0; (20 * PI)] /\
  azimuthal_angles c = [0; 0; 0] /\
  detunings c = [0; 0; 0] /\
  durations c = [(1 / 40); (199 / 20); (1 / 40)].
Proof.
  eexists; split; [eapply (convert_run _ _ _ _ _
    [MkOp 0 ((1 / 2) * PI) 0 0; MkOp 10 ((1 / 2) * PI) 0 0]
    [(0, (1 / 40)); ((399 / 40), 10)]
    [MkSeg (20 * PI) 0 0 (1 / 40); MkSeg 0 0 0 (199 / 20); MkSeg (20 * PI) 0 0 (1 / 40)])|].
  - bound.
  - bound.
  - bound.
  - stage.
  - stage.
  - stage; entries.
  - stage.
  - stage; entries.
  - stage.
  - stage.
  - segments.
  - unfold control_of_segments, DrivenControl, check_arguments; stage.
  - cbn; split; [|split; [|split]]; entries.
Qed.

