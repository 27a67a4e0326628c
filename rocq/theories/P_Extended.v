(** * Properties on NaN and infinite numbers *)

From Verif Require Import L_ExtendedConvert.
Import ListNotations.
Open Scope string_scope.
Open Scope list_scope.
Open Scope R_scope.

(** C68: a driven control is accepted exactly when its durations are positive (not NaN), its Rabi rates nonnegative (not NaN) and the lengths match; azimuthal angles and detunings are unrestricted *)
Theorem C68_control :
  forall ts r a d name,
  (valid_xinputs ts r a d ->
     exists c, xDrivenControl ts r a d name = Ok c /\ x_durations c = ts /\ x_dc_name c = name /\
       supplied_or_xzeros (List.length ts) r (x_rabi_rates c) /\
       supplied_or_xzeros (List.length ts) a (x_azimuthal_angles c) /\
       supplied_or_xzeros (List.length ts) d (x_detunings c)) /\
  (~ valid_xinputs ts r a d -> argument_error (xDrivenControl ts r a d name)).
Proof. exact xcontrol_accepts. Qed.
Print Assumptions C68_control.

(** C68: a sequence is accepted exactly when its duration is positive, its offsets lie between 0 and the duration (none is NaN) and the lengths match *)
Theorem C68_sequence :
  forall T ts r a d name,
  (positive T /\ (forall t, In t ts -> nonnegative t /\ at_most t T) /\
   List.length r = List.length ts /\ List.length a = List.length ts /\ List.length d = List.length ts ->
   xDynamicDecouplingSequence T ts r a d name = Ok (MkXDDS T ts r a d name)) /\
  (~ (positive T /\ (forall t, In t ts -> nonnegative t /\ at_most t T) /\
      List.length r = List.length ts /\ List.length a = List.length ts /\ List.length d = List.length ts) ->
   argument_error (xDynamicDecouplingSequence T ts r a d name)).
Proof. exact xsequence_accepts. Qed.
Print Assumptions C68_sequence.

(** C68: on finite numbers the constructor is the one of M_DrivenControl.v *)
Theorem C68_control_finite :
  forall ts r a d name,
  xDrivenControl (map Fin ts) (option_map (map Fin) r) (option_map (map Fin) a) (option_map (map Fin) d) name =
  map_result fin_control (DrivenControl ts r a d name).
Proof. exact xcontrol_finite. Qed.
Print Assumptions C68_control_finite.

(** C68: on finite numbers the constructor is the one of M_DDS.v *)
Theorem C68_sequence_finite :
  forall T ts r a d name,
  xDynamicDecouplingSequence (Fin T) (map Fin ts) (map Fin r) (map Fin a) (map Fin d) name =
  map_result fin_sequence (DynamicDecouplingSequence T ts r a d name).
Proof. exact xsequence_finite. Qed.
Print Assumptions C68_sequence_finite.

Example C68_case :
  (exists c, xDrivenControl [Fin 1; Inf false] (Some [Inf false; Fin 0]) None (Some [NaN; Inf true]) None = Ok c) /\
  argument_error (xDrivenControl [Fin 1; NaN] None None None None) /\
  argument_error (xDrivenControl [Fin 1] (Some [NaN]) None None None) /\
  argument_error (xDrivenControl [Fin 1] (Some [Inf true]) None None None) /\
  argument_error (xDynamicDecouplingSequence (Inf false) [NaN] [Fin 1] [Fin 0] [Fin 0] None) /\
  xDynamicDecouplingSequence (Inf false) [Inf false] [NaN] [Fin 0] [Fin 0] None =
    Ok (MkXDDS (Inf false) [Inf false] [NaN] [Fin 0] [Fin 0] None).
Proof.
  split; [|split; [|split; [|split; [|split]]]].
  - destruct (xcontrol_accepts [Fin 1; Inf false] (Some [Inf false; Fin 0]) None (Some [NaN; Inf true]) None) as [A _].
    destruct A as [c [E _]]; [|exists c; exact E].
    split; [intros t [<-|[<-|[]]]; cbn; auto; lra|].
    split; [intros l E; injection E as <-; split; auto; intros x [<-|[<-|[]]]; cbn; auto; lra|].
    split; [discriminate|intros l E; injection E as <-; auto].
  - apply xcontrol_accepts; intros [P _]; apply (P NaN); cbn; auto.
  - apply xcontrol_accepts; intros [_ [P _]]; destruct (P _ eq_refl) as [_ Q]; apply (Q NaN); cbn; auto.
  - apply xcontrol_accepts; intros [_ [P _]]; destruct (P _ eq_refl) as [_ Q]; specialize (Q (Inf true)); cbn in Q; discriminate Q; auto.
  - apply xsequence_accepts; intros [_ [P _]]; destruct (P NaN) as [Q _]; cbn in *; auto.
  - apply xsequence_accepts; split; [reflexivity|split; [intros t [<-|[]]; cbn; auto|auto]].
Qed.

(** C69: on finite numbers the conversion is the one of M_DDS.v *)
Theorem C69_finite :
  forall s maxr maxd mn name,
  xconvert (fin_sequence s) (Fin maxr) (Fin maxd) (Fin mn) name =
  map_result fin_control (convert_dds_to_driven_control s maxr maxd mn name).
Proof. exact xconvert_finite. Qed.
Print Assumptions C69_finite.

(** C69: whatever the sequence and the limits, a successful conversion yields a valid control with finite Rabi rates and detunings, and finite durations if the sequence is finite; NaN and infinite angles only survive as azimuthal angles *)
Theorem C69_values :
  forall s maxr maxd mn name c,
  xconstructible_sequence s -> xconvert s maxr maxd mn name = Ok c ->
  xconstructible c /\ x_dc_name c = name /\
  (forall x, In x (x_rabi_rates c) -> finite x) /\ (forall x, In x (x_detunings c) -> finite x) /\
  (forall x, In x (x_azimuthal_angles c) -> x = Fin 0 \/ In x (x_seq_azimuthal_angles s)) /\
  (forall x, In x (x_durations c) -> positive x) /\
  (finite (x_seq_duration s) -> forall x, In x (x_durations c) -> finite x).
Proof. exact xconvert_values. Qed.
Print Assumptions C69_values.

(** C69: every failure is an ArgumentsValueError *)
Theorem C69_total :
  forall s maxr maxd mn name,
  (exists c, xconvert s maxr maxd mn name = Ok c) \/ argument_error (xconvert s maxr maxd mn name).
Proof. exact xconvert_total. Qed.
Print Assumptions C69_total.

(** C69: a free evolution without end is converted to one idle segment without end, whatever the limits, even if the minimum segment duration is infinite *)
Theorem C69_endless :
  forall maxr maxd mn n0 name,
  positive maxr -> positive maxd -> nonnegative mn ->
  xconvert (MkXDDS (Inf false) [] [] [] [] n0) maxr maxd mn name =
  Ok (MkXControl [Fin 0] [Fin 0] [Fin 0] [Inf false] name).
Proof. exact xconvert_endless. Qed.
Print Assumptions C69_endless.

(** an infinite rotation is refused, a NaN azimuthal angle kept, an infinite sequence converted *)
Lemma isclose0 x : np_isclose x 0 = leb (Rabs x) (/ 100000000).
Proof. unfold np_isclose, np_isclose_tol; rewrite Rminus_0_r, Rabs_R0; f_equal; ring. Qed.
Ltac decide_reals := repeat (
  cbv -[ltb leb eqb np_isclose Rplus Rminus Rmult Rdiv Ropp Rinv IZR Rabs xdiv]; rewrite ?isclose0; unfold xdiv;
  match goal with
  | |- context [Rabs ?a] => first [rewrite (Rabs_pos_eq a) by lra | rewrite (Rabs_left a) by lra]
  | |- context [ltb ?a ?b] => first [rewrite (proj2 (ltb_true a b)) by lra | rewrite (proj2 (ltb_false a b)) by lra]
  | |- context [leb ?a ?b] => first [rewrite (proj2 (leb_true a b)) by lra | rewrite (proj2 (leb_false a b)) by lra]
  | |- context [eqb ?a ?b] => first [rewrite (proj2 (eqb_true a b)) by lra | rewrite (proj2 (eqb_false a b)) by lra]
  end).
Ltac same_numbers := repeat (match goal with
  | |- cons _ _ = cons _ _ => f_equal
  | |- (_, _) = (_, _) => f_equal
  | |- MkXSeg _ _ _ _ = MkXSeg _ _ _ _ => f_equal
  | |- Fin _ = Fin _ => apply f_equal
  end); try reflexivity; field.
Example C69_case :
  argument_error (xconvert (MkXDDS (Fin 4) [Fin 2] [Inf false] [Fin 0] [Fin 0] None) (Fin 4) (Fin 4) (Fin 0) None) /\
  xconvert (MkXDDS (Inf false) [Fin 2] [Fin 4] [NaN] [Fin 0] None) (Fin 4) (Fin 4) (Fin 0) None =
    Ok (MkXControl [Fin 0; Fin 4; Fin 0] [Fin 0; NaN; Fin 0] [Fin 0; Fin 0; Fin 0] [Fin (15 / 10); Fin 1; Inf false] None).
Proof.
  set (half := xhalf_pulse_duration (Fin 4) (Fin 4) (Fin 0)).
  split; unfold xconvert; cbn [x_seq_duration x_rabi_rotations x_detuning_rotations]; cbv zeta.
  - rewrite (check_true (xlt _ _)) by (decide_reals; reflexivity); cbn [bind]; rewrite (check_true (xlt _ _)) by (decide_reals; reflexivity); cbn [bind].
    rewrite (check_true (xle _ _)) by (decide_reals; reflexivity); cbn [bind]; rewrite check_true by (decide_reals; reflexivity); cbn [bind].
    rewrite check_true by (decide_reals; reflexivity); cbn [bind].
    assert (O : xpad_operations (Fin 4) (xdds_operations (MkXDDS (Fin 4) [Fin 2] [Inf false] [Fin 0] [Fin 0] None)) =
      [xnull_operation (Fin 0); MkXOp (Fin 2) (Inf false) (Fin 0) (Fin 0); xnull_operation (Fin 4)]) by (decide_reals; reflexivity).
    rewrite O; rewrite check_true by (decide_reals; reflexivity); cbn [bind].
    rewrite check_false; [do 3 eexists; reflexivity|decide_reals; reflexivity].
  - rewrite (check_true (xlt _ _)) by (decide_reals; reflexivity); cbn [bind]; rewrite (check_true (xlt _ _)) by (decide_reals; reflexivity); cbn [bind].
    rewrite (check_true (xle _ _)) by (decide_reals; reflexivity); cbn [bind]; rewrite check_true by (decide_reals; reflexivity); cbn [bind].
    rewrite check_true by (decide_reals; reflexivity); cbn [bind].
    assert (O : xpad_operations (Inf false) (xdds_operations (MkXDDS (Inf false) [Fin 2] [Fin 4] [NaN] [Fin 0] None)) =
      [xnull_operation (Fin 0); MkXOp (Fin 2) (Fin 4) NaN (Fin 0); xnull_operation (Inf false)]) by (decide_reals; reflexivity).
    rewrite O; rewrite check_true by (decide_reals; reflexivity); cbn [bind].
    fold half; set (W := xpulse_start_ends _ _ _).
    assert (EW : W = [(Fin 0, Fin 0); (Fin (15 / 10), Fin (25 / 10)); (Inf false, Inf false)]).
    { unfold W, half; decide_reals; same_numbers. }
    rewrite EW; rewrite check_true by (decide_reals; reflexivity); cbn [bind].
    set (b := xallclose0 _); assert (B : b = false) by (unfold b; decide_reals; reflexivity); rewrite B.
    set (segs := filter _ _); assert (SG : segs = [MkXSeg (Fin 0) (Fin 0) (Fin 0) (Fin (15 / 10)); MkXSeg (Fin 4) NaN (Fin 0) (Fin 1); MkXSeg (Fin 0) (Fin 0) (Fin 0) (Inf false)]).
    { unfold segs; decide_reals; same_numbers. }
    rewrite SG; unfold xcontrol_of_segments, xDrivenControl.
    rewrite check_true by (decide_reals; reflexivity); cbn [bind].
    rewrite check_true by reflexivity; cbn [bind]; cbv zeta.
    rewrite check_true by (decide_reals; reflexivity); reflexivity.
Qed.

(** C70: with infinite maximum rates and a positive minimum segment duration the conversion is that at any finite rate at which every pulse takes at most that minimum (full statement: whatever the minimum, the control performs the pulses) *)
Theorem C70_infinite_partial :
  forall T n0 l mn M name,
  0 < mn -> 0 < M ->
  (forall e, In e l -> e_rabi e / M <= mn /\ Rabs (e_det e) / M <= mn) ->
  xconvert (fin_sequence (sequence_of T n0 l)) (Inf false) (Inf false) (Fin mn) name =
  map_result fin_control (convert_dds_to_driven_control (sequence_of T n0 l) M M mn name).
Proof. exact xconvert_infinite. Qed.
Print Assumptions C70_infinite_partial.

(** C70 refuted without a minimum: with infinite maximum rates and no minimum segment duration every pulse is silently dropped *)
Theorem C70_infinite_refuted :
  forall T n0 l name,
  constructible_sequence (sequence_of T n0 l) ->
  (forall e, In e l -> 0 <= e_rabi e) -> (forall e, In e l -> ~ (0 < e_rabi e /\ 0 < e_det e)) ->
  strictly_increasing (map e_time l) ->
  exists c segs, xconvert (fin_sequence (sequence_of T n0 l)) (Inf false) (Inf false) (Fin 0) name = Ok (fin_control c) /\
    describes segs c /\ duration c = T /\ forall g, In g segs -> g_rabi g = 0 /\ g_det g = 0.
Proof. exact infinite_rates_drop. Qed.
Print Assumptions C70_infinite_refuted.

(** a spin echo without its pulse *)
Example C70_case : exists c segs,
  xconvert (fin_sequence (sequence_of 4 None [Event 2 PI 0 0])) (Inf false) (Inf false) (Fin 0) None = Ok (fin_control c) /\
  describes segs c /\ duration c = 4 /\ forall g, In g segs -> g_rabi g = 0 /\ g_det g = 0.
Proof.
  assert (P := PI_RGT_0); apply infinite_rates_drop.
  - apply constructible_well_formed; split; [cbn; lra|split; [cbn; intros t [<-|[]]; lra|cbn; auto]].
  - intros e [<-|[]]; cbn; lra.
  - intros e [<-|[]]; cbn; lra.
  - cbn; constructor; constructor.
Qed.
(** with a minimum segment duration of 1 the pulse takes 1 *)
Example C70_minimum : xconvert (fin_sequence (sequence_of 4 None [Event 2 PI 0 0])) (Inf false) (Inf false) (Fin 1) None =
  map_result fin_control (convert_dds_to_driven_control (sequence_of 4 None [Event 2 PI 0 0]) 4 4 1 None).
Proof.
  assert (P := PI_4); assert (P' := PI_RGT_0); apply xconvert_infinite; try lra.
  intros e [<-|[]]; cbn; rewrite Rabs_R0; lra.
Qed.

