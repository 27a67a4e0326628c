(** * Properties of conversion under symmetries of the sequence *)

From Coq Require Import Lia.
From Verif Require Import L_PreConvert L_Requests L_ConvertSymmetry L_Palindromes.
Import ListNotations.
Set Bullet Behavior "Strict Subproofs".
Open Scope string_scope.
Open Scope list_scope.
Open Scope R_scope.

(** C101: a sequence played backwards is converted to the control played backwards *)
Theorem C101_reversal :
  forall T n0 l maxr maxd mn name, constructible_sequence (sequence_of T n0 l) -> / 10 ^ 8 < T ->
  corresponds (@rev seg) (convert_dds_to_driven_control (sequence_of T n0 l) maxr maxd mn name)
    (convert_dds_to_driven_control (sequence_of T n0 (backwards T l)) maxr maxd mn name).
Proof. exact conversion_reversal. Qed.
Print Assumptions C101_reversal.

(** C101: shifting every azimuthal angle shifts those of the driven segments *)
Theorem C101_azimuth :
  forall T n0 l maxr maxd mn name a, constructible_sequence (sequence_of T n0 l) ->
  corresponds (map (turned a)) (convert_dds_to_driven_control (sequence_of T n0 l) maxr maxd mn name)
    (convert_dds_to_driven_control (sequence_of T n0 (map (turn a) l)) maxr maxd mn name).
Proof. exact conversion_turned. Qed.
Print Assumptions C101_azimuth.

(** C102: negating every detuning negates those of the control, if no pulse
    has both a Rabi rotation and a detuning rotation *)
Theorem C102_detuning_partial :
  forall T n0 l maxr maxd mn name, constructible_sequence (sequence_of T n0 l) ->
  (forall e, In e l -> e_rabi e <= 0 \/ e_det e = 0) ->
  corresponds (map conjugated) (convert_dds_to_driven_control (sequence_of T n0 l) maxr maxd mn name)
    (convert_dds_to_driven_control (sequence_of T n0 (map conjugate l)) maxr maxd mn name).
Proof. exact conversion_conjugated. Qed.
Print Assumptions C102_detuning_partial.

(** a pulse with both is rejected for a positive detuning rotation only *)
Theorem C102_detuning_refuted :
  exists T l, constructible_sequence (sequence_of T None l) /\
  ~ corresponds (map conjugated) (convert_dds_to_driven_control (sequence_of T None l) 1 1 0 None)
      (convert_dds_to_driven_control (sequence_of T None (map conjugate l)) 1 1 0 None).
Proof. exact conversion_conjugated_refuted. Qed.
Print Assumptions C102_detuning_refuted.

(** C102: times in another unit, if no idle time is shorter than the minimum *)
Theorem C102_units_partial :
  forall T n0 l maxr maxd mn name k, constructible_sequence (sequence_of T n0 l) ->
  0 < k -> / 10 ^ 8 < T -> / 10 ^ 8 < k * T ->
  (forall g, In g (idle_times maxr maxd mn T l) -> mn <= g) ->
  corresponds (map (rescaled k)) (convert_dds_to_driven_control (sequence_of T n0 l) maxr maxd mn name)
    (convert_dds_to_driven_control (sequence_of (k * T) n0 (map (rescale k) l)) (maxr / k) (maxd / k) (k * mn) name).
Proof. exact conversion_units. Qed.
Print Assumptions C102_units_partial.

(** the absolute tolerance on idle times has a unit *)
Theorem C102_units_refuted :
  exists T l k, constructible_sequence (sequence_of T None l) /\ 0 < k /\ / 10 ^ 8 < T /\ / 10 ^ 8 < k * T /\
  ~ corresponds (map (rescaled k)) (convert_dds_to_driven_control (sequence_of T None l) 1 1 0 None)
    (convert_dds_to_driven_control (sequence_of (k * T) None (map (rescale k) l)) (1 / k) (1 / k) (k * 0) None).
Proof. exact conversion_units_refuted. Qed.
Print Assumptions C102_units_refuted.

(** C103: the predefined sequences are their own time reverse *)
Theorem C103_sequences :
  forall r T name, 0 < T -> valid_request r -> palindromic r ->
  exists l, build_sequence r T false name = Ok (sequence_of T name l) /\ backwards T l = l.
Proof. exact palindromes. Qed.
Print Assumptions C103_sequences.

(** C103: so are the controls they are converted to *)
Theorem C103_controls :
  forall r T name s maxr maxd mn name' c, / 10 ^ 8 < T -> palindromic r ->
  build_sequence r T false name = Ok s -> convert_dds_to_driven_control s maxr maxd mn name' = Ok c ->
  rabi_rates c = rev (rabi_rates c) /\ azimuthal_angles c = rev (azimuthal_angles c) /\
  detunings c = rev (detunings c) /\ durations c = rev (durations c).
Proof. exact palindromic_control. Qed.
Print Assumptions C103_controls.

(** C103: the XY concatenated sequence of order 1 is not *)
Theorem C103_xy :
  forall T name, 0 < T -> exists l, build_sequence (XYConcatenated 1) T false name = Ok (sequence_of T name l) /\
  map e_time (backwards T l) <> map e_time l.
Proof. exact xy_not_palindromic. Qed.
Print Assumptions C103_xy.

(** ** Cases *)

Lemma converts r T m : 0 < T -> valid_request r -> separated r false -> 2 * PI / (spacing r * T) <= m ->
  exists s c, build_sequence r T false None = Ok s /\ convert_dds_to_driven_control s m m 0 None = Ok c /\ constructible_sequence s.
Proof.
  intros HT V SP M; destruct (predefined_rates r T false None m m None) as [s [c [A [B _]]]]; auto.
  destruct (request_validity r T false None) as [[s' [A' [CS _]]] _]; [split; auto|].
  rewrite A in A'; injection A' as <-; eauto.
Qed.

(** a sequence that differs from its reverse *)
Example C101_case : exists l c c', map e_time (backwards 16 l) <> map e_time l /\
  convert_dds_to_driven_control (sequence_of 16 None l) 8 8 0 None = Ok c /\
  convert_dds_to_driven_control (sequence_of 16 None (backwards 16 l)) 8 8 0 None = Ok c' /\
  durations c' = rev (durations c) /\ azimuthal_angles c' = rev (azimuthal_angles c).
Proof.
  assert (P := PI_4).
  destruct (converts (XYConcatenated 1) 16 8) as [s [c [A [B CS]]]]; try lra; try (cbn [spacing valid_request separated]; auto; lra).
  destruct (C103_xy 16 None ltac:(lra)) as [l [A' N]]; rewrite A in A'; injection A' as ->.
  assert (R := C101_reversal 16 None l 8 8 0 None CS ltac:(lra)); rewrite B in R.
  destruct (conversion_result _ _ _ _ _ _ _ _ CS B) as [_ [_ [_ [D _]]]].
  destruct (convert_dds_to_driven_control (sequence_of 16 None (backwards 16 l)) 8 8 0 None) as [c'|] eqn:B'; [|destruct R].
  destruct R as [R _]; apply R in D as D'; exists l, c, c'; repeat (split; [assumption || reflexivity|]).
  destruct D as [D1 [D2 [D3 D4]]], D' as [E1 [E2 [E3 E4]]]; rewrite D2, D4, E2, E4, <- !map_rev; auto.
Qed.

(** pulses about x become pulses about y: Carr-Purcell turned by pi/2 is CPMG *)
Example C101_case_azimuth : exists s s' c c' segs, build_sequence (CarrPurcell 2) 16 false None = Ok s /\
  convert_dds_to_driven_control s 8 8 0 None = Ok c /\ describes segs c /\
  build_sequence (CPMG 2) 16 false None = Ok s' /\ convert_dds_to_driven_control s' 8 8 0 None = Ok c' /\
  describes (map (turned (PI / 2)) segs) c'.
Proof.
  assert (P := PI_4).
  destruct (converts (CarrPurcell 2) 16 8) as [s [c [A [B CS]]]]; try lra; try (cbn [spacing valid_request separated]; auto; lra).
  assert (TR : truncates_to 2 2) by (unfold truncates_to; cbn; lra).
  assert (E : build_sequence (CarrPurcell 2) 16 false None = _) by (apply (carr_purcell_timing 16 2 2 false None); auto; lra).
  assert (E' : build_sequence (CPMG 2) 16 false None = _) by (apply (cpmg_timing 16 2 2 false None); auto; lra).
  cbn [with_pre_post] in E, E'; set (l := map pi_pulse (map (fun i => (AX, _)) _)) in E.
  assert (Es : s = sequence_of 16 None l) by congruence; subst s.
  destruct (conversion_result _ _ _ _ _ _ _ _ CS B) as [_ [_ [_ [D _]]]].
  assert (R := C101_azimuth 16 None l 8 8 0 None (PI / 2) CS); rewrite B in R.
  assert (TL : map (turn (PI / 2)) l = map pi_pulse (map (fun i : nat => (AY, 16 / INR 2 * (INR i - 1 / 2))) (seq 1 2))).
  { unfold l; rewrite !map_map; apply map_ext; intros i; unfold turn, pi_pulse; cbn [e_time e_rabi e_phi e_det]; f_equal; ring. }
  rewrite <- TL in E'.
  destruct (convert_dds_to_driven_control (sequence_of 16 None (map (turn (PI / 2)) l)) 8 8 0 None) as [c'|] eqn:B'; [|destruct R].
  do 2 eexists; exists c, c'; eexists; split; [exact A|]; split; [exact B|]; split; [exact D|]; split; [exact E'|]; split; [exact B'|].
  apply R; auto.
Qed.

(** the pulses about z of a quadratic sequence *)
Example C102_case_detuning : exists l c c', build_sequence (Quadratic 1 1) 16 false None = Ok (sequence_of 16 None l) /\
  (exists e, In e l /\ e_det e = PI) /\
  convert_dds_to_driven_control (sequence_of 16 None l) 8 8 0 None = Ok c /\
  convert_dds_to_driven_control (sequence_of 16 None (map conjugate l)) 8 8 0 None = Ok c' /\
  detunings c' = map Ropp (detunings c) /\ rabi_rates c' = rabi_rates c.
Proof.
  assert (P := PI_4); assert (P0 := PI_RGT_0).
  assert (SQ : sin (PI / (2 * (1 + 1))) ^ 2 = 1 / 2).
  { replace (PI / (2 * (1 + 1))) with (PI / 4) by field; rewrite sin_PI4; unfold Rdiv; rewrite Rpow_mult_distr, pow_inv, pow2_sqrt; lra. }
  destruct (converts (Quadratic 1 1) 16 8) as [s [c [A [B CS]]]]; try (cbn [spacing valid_request separated]; auto; lra).
  { cbn [spacing]; rewrite SQ; lra. }
  assert (TR : truncates_to 1 1) by (unfold truncates_to; cbn; lra).
  destruct (proj1 (quadratic_timing 16 1 1 1 1 false None)) as [E _]; auto; [lra|].
  change (new_quadratic_sequence 16 1 1 false None) with (build_sequence (Quadratic 1 1) 16 false None) in E.
  cbn [with_pre_post] in E; set (l := map pi_pulse _) in E.
  assert (Es : s = sequence_of 16 None l) by congruence; subst s.
  assert (H : forall e, In e l -> e_rabi e <= 0 \/ e_det e = 0).
  { intros e I; apply in_map_iff in I; destruct I as [[[] t] [<- I]]; cbn; auto; left; lra. }
  assert (R := C102_detuning_partial 16 None l 8 8 0 None CS H); rewrite B in R.
  destruct (conversion_result _ _ _ _ _ _ _ _ CS B) as [_ [_ [_ [D _]]]].
  destruct (convert_dds_to_driven_control (sequence_of 16 None (map conjugate l)) 8 8 0 None) as [c'|] eqn:B'; [|destruct R].
  destruct R as [R _]; apply R in D as D'; exists l, c, c'; split; [exact A|].
  split; [unfold l; cbn; eexists; split; [left; reflexivity|reflexivity]|]; split; [exact B|]; split; [first [exact B' | reflexivity]|].
  destruct D as [D1 [D2 [D3 D4]]], D' as [E1 [E2 [E3 E4]]]; rewrite D1, D3, E1, E3, !map_map; auto.
Qed.

(** one pulse, in milliseconds instead of seconds *)
Example C102_case_units : exists c c', let l := [Event (1 / 2) (1 / 4) 0 0] in
  convert_dds_to_driven_control (sequence_of 1 None l) 1 1 0 None = Ok c /\
  convert_dds_to_driven_control (sequence_of (1000 * 1) None (map (rescale 1000) l)) (1 / 1000) (1 / 1000) (1000 * 0) None = Ok c' /\
  durations c' = map (Rmult 1000) (durations c).
Proof.
  assert (S0 := small_pos); set (l := [Event (1 / 2) (1 / 4) 0 0]); cbv zeta.
  assert (CS : constructible_sequence (sequence_of 1 None l)) by (apply constructible_events; split; [lra|]; intros e [<-|[]]; cbn [e_time]; lra).
  assert (G : forall g, In g (idle_times 1 1 0 1 l) -> 0 < g).
  { assert (W : pulse_width 1 1 0 (Event (1 / 2) (1 / 4) 0 0) = 1 / 4).
    { unfold pulse_width; cbn [e_rabi]; rewrite Rabs_pos_eq by lra; destruct (Rle_dec (1 / 4) (/ 10 ^ 8)); [lra|].
      rewrite Rmax_left by lra; field. }
    intros g I; unfold idle_times, with_ends, l in I; cbn [last e_time] in I; destruct (Req_EM_T (1 / 2) 0); [lra|]; destruct (Req_EM_T (1 / 2) 1); [lra|].
    cbn [app map] in I; rewrite W, !idle_width0 in I; cbn [e_time idle] in I; unfold window, centre in I.
    destruct (Req_EM_T 0 0); [|lra]; destruct (Req_EM_T (1 / 2) 0); [lra|]; destruct (Req_EM_T (1 / 2) 1); [lra|]; destruct (Req_EM_T 1 0); [lra|]; destruct (Req_EM_T 1 1); [|lra].
    cbn [gaps In fst snd] in I; destruct I as [<-|[<-|[]]]; lra. }
  destruct (proj1 (proj1 (conversion_acceptance 1 None l 1 1 0 None CS))) as [c B].
  { repeat (split; [lra|]); split; [intros e [<-|[]]; cbn; lra|]; split; [intros e [<-|[]]; cbn; lra|]; split; [cbn; auto|].
    intros g I; left; apply G; auto. }
  assert (R := C102_units_partial 1 None l 1 1 0 None 1000 CS ltac:(lra) ltac:(lra) ltac:(lra) (fun g I => Rlt_le _ _ (G g I))); rewrite B in R.
  destruct (conversion_result _ _ _ _ _ _ _ _ CS B) as [_ [_ [_ [D _]]]].
  destruct (convert_dds_to_driven_control (sequence_of (1000 * 1) None (map (rescale 1000) l)) (1 / 1000) (1 / 1000) (1000 * 0) None) as [c'|] eqn:B'; [|destruct R].
  destruct R as [R _]; apply R in D as D'; exists c, c'; split; [exact B|]; split; [first [exact B' | reflexivity]|].
  destruct D as [_ [_ [_ D4]]], D' as [_ [_ [_ E4]]]; rewrite D4, E4, !map_map; auto.
Qed.

(** the control of a CPMG sequence *)
Example C103_case : exists s c, build_sequence (CPMG 4) 8 false None = Ok s /\
  convert_dds_to_driven_control s 8 8 0 None = Ok c /\ durations c = rev (durations c).
Proof.
  assert (P := PI_4).
  destruct (converts (CPMG 4) 8 8) as [s [c [A [B CS]]]]; try lra; try (cbn [spacing valid_request separated]; auto; lra).
  exists s, c; repeat (split; [assumption|]); eapply (C103_controls (CPMG 4)); eauto; [lra|cbn; auto].
Qed.
