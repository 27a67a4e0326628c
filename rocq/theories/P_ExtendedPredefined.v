(** * Properties of requests with NaN and infinities *)

From Coq Require Import Reals Lia Lra.
From Verif Require Import Spec_Qubit L_DDS L_Predefined L_Gaussian L_Requests L_Extended L_ExtendedPredefined L_ExtendedDriven.
Import ListNotations.
Open Scope string_scope.
Open Scope list_scope.
Open Scope R_scope.

(** C84: on finite numbers the ten sequence builders are those of M_DDSPredefined.v *)
Theorem C84_finite :
  forall e r T pre name,
  xbuild_sequence e (fin_request r) (Fin T) pre name = map_result fin_sequence (build_sequence r T pre name).
Proof. exact xsequences_finite. Qed.
Print Assumptions C84_finite.

(** C84: a duration that is not positive (NaN and -inf included) is rejected, then a count or order out of range (NaN included); an infinite count or order raises OverflowError *)
Theorem C84_rejected :
  forall e r T pre name,
  (~ Spec_Extended.positive T -> xbuild_sequence e r T pre name =
     Raise (ArgumentsValueError "Sequence duration must be greater than zero." ["duration"] [])) /\
  (Spec_Extended.positive T -> ~ xvalid_request r -> argument_error (xbuild_sequence e r T pre name)) /\
  (Spec_Extended.positive T -> xvalid_request r -> infinite_count r -> overflow_error (xbuild_sequence e r T pre name)).
Proof. exact xsequences_rejected. Qed.
Print Assumptions C84_rejected.

(** C84: an infinite duration is accepted, and every pulse that is not at the start is put at infinity *)
Theorem C84_stretched :
  forall e r pre name,
  valid_request r ->
  match r with SpinEcho | CarrPurcell _ | CPMG _ | Uhrig _ | Periodic _ | Walsh _ => True | _ => False end ->
  exists s, build_sequence r 1 pre name = Ok s /\ xbuild_sequence e (fin_request r) (Inf false) pre name = Ok (endless s).
Proof. exact xsequences_stretched. Qed.
Print Assumptions C84_stretched.

(** C84: a Ramsey sequence of infinite duration is accepted without, but not with pre and post rotations *)
Theorem C84_ramsey :
  forall e name,
  argument_error (xbuild_sequence e XRamsey (Inf false) true name) /\
  xbuild_sequence e XRamsey (Inf false) false name = Ok (MkXDDS (Inf false) [] [] [] [] name).
Proof. exact xramsey_endless. Qed.
Print Assumptions C84_ramsey.

(** C84: a quadratic sequence of infinite duration is rejected *)
Theorem C84_quadratic :
  forall e n1 n2 pre name,
  1 <= n1 -> 1 <= n2 ->
  argument_error (xbuild_sequence e (XQuadratic (Fin n1) (Fin n2)) (Inf false) pre name).
Proof. exact xquadratic_endless. Qed.
Print Assumptions C84_quadratic.

(** C84: an X concatenated sequence of infinite duration has no pulses left: it is the Ramsey sequence *)
Theorem C84_x_concatenated :
  forall e x pre name,
  1 <= x ->
  exists s, build_sequence Ramsey 1 pre name = Ok s /\ xbuild_sequence e (XXConcatenated (Fin x)) (Inf false) pre name = Ok (endless s).
Proof. exact xx_endless. Qed.
Print Assumptions C84_x_concatenated.

(** C84: an XY concatenated sequence of infinite duration is rejected, or, where np.unique keeps NaN apart, has a Y pulse at infinity and an identity at the start *)
Theorem C84_xy_concatenated :
  forall e x pre name,
  1 <= x ->
  (e = true \/ pre = true -> argument_error (xbuild_sequence e (XXYConcatenated (Fin x)) (Inf false) pre name)) /\
  (e = false -> pre = false -> xbuild_sequence e (XXYConcatenated (Fin x)) (Inf false) pre name =
     Ok (MkXDDS (Inf false) [Inf false; Fin 0] (map Fin [PI; 0]) (map Fin [PI / 2; 0]) (map Fin [0; 0]) name)).
Proof. exact xxy_endless. Qed.
Print Assumptions C84_xy_concatenated.

Example C84_case : exists s,
  xbuild_sequence true (XCPMG (Fin 2)) (Inf false) true None = Ok s /\
  M_Extended.x_offsets s = [Fin 0; Inf false; Inf false; Inf false] /\ x_rabi_rotations s = map Fin [PI / 2; PI; PI; PI / 2].
Proof.
  destruct (C84_stretched true (CPMG 2) true None) as [s [B E]]; [cbn; lra|exact I|].
  exists (endless s); split; [exact E|].
  cbn [build_sequence] in B; rewrite (cpmg_timing 1 2 2 true None) in B; [|lra|unfold truncates_to; cbn; lra|lia].
  injection B as <-; unfold endless, endless_time; cbn.
  split; [|reflexivity].
  repeat (let H := fresh in destruct Req_EM_T as [H|H]; [try (exfalso; lra)|try (exfalso; lra)]); reflexivity.
Qed.
Example C84_rejects : argument_error (xbuild_sequence true XSpinEcho NaN false None) /\
  argument_error (xbuild_sequence true (XUhrig NaN) (Fin 1) false None) /\
  overflow_error (xbuild_sequence true (XUhrig (Inf false)) (Fin 1) false None) /\
  overflow_error (xbuild_sequence true (XQuadratic (Fin 2) (Inf false)) (Inf false) false None) /\
  argument_error (xbuild_sequence true (XWalsh (Inf false)) (Fin 1) false None).
Proof.
  split; [|split; [|split; [|split]]].
  - rewrite (proj1 (C84_rejected true XSpinEcho NaN false None)) by (intros []); eexists _, _, _; reflexivity.
  - apply (C84_rejected true (XUhrig NaN) (Fin 1) false None); cbn; [lra|tauto].
  - apply (C84_rejected true (XUhrig (Inf false)) (Fin 1) false None); cbn; auto; lra.
  - apply (C84_rejected true (XQuadratic (Fin 2) (Inf false)) (Inf false) false None); cbn; auto; split; auto; lra.
  - apply (C84_rejected true (XWalsh (Inf false)) (Fin 1) false None); cbn; [lra|intros [k [H _]]; discriminate].
Qed.

(** C85: on finite numbers the nine composite pulses are those of M_DrivenPredefined.v *)
Theorem C85_finite :
  forall s t w a name,
  xbuild s (Fin t) (Fin w) (Fin a) name = map_result fin_control (build s t w a name).
Proof. exact xcontrols_finite. Qed.
Print Assumptions C85_finite.

(** C85: what the nine schemes accept; NaN and infinities are rejected, except an infinite primitive rotation; WAMF1 fails with ZeroDivisionError for an infinite rate *)
Theorem C85_total :
  forall s theta omega a name,
  (xaccepts s theta omega -> exists c, xbuild s theta omega a name = Ok c) /\
  (~ xaccepts s theta omega ->
   ~ (s = WAMF1 /\ omega = Inf false /\ exists t, theta = Fin t /\ supported t) -> argument_error (xbuild s theta omega a name)) /\
  (s = WAMF1 -> omega = Inf false -> (exists t, theta = Fin t /\ supported t) -> zero_division_error (xbuild s theta omega a name)).
Proof. exact xcontrols_total. Qed.
Print Assumptions C85_total.

(** C85: an infinite primitive rotation gives a segment of infinite duration *)
Theorem C85_primitive :
  forall w a name,
  0 < w ->
  xbuild Primitive (Inf false) (Fin w) a name = Ok (MkXControl [Fin w] [a] [Fin 0] [Inf false] name).
Proof. exact xprimitive_endless. Qed.
Print Assumptions C85_primitive.

(** C85: the azimuthal angle is not validated: a NaN or infinite angle ends up in every segment *)
Theorem C85_angle :
  forall s t w a b name,
  ~ finite a -> xbuild s (Fin t) (Fin w) a name = map_result (with_angles a) (build s t w b name).
Proof. exact xcontrols_angle. Qed.
Print Assumptions C85_angle.

(** C85: on finite numbers the modulated Gaussian is that of M_DrivenPredefined.v *)
Theorem C85_gaussian_finite :
  forall M m T f,
  xnew_modulated_gaussian_control (Fin M) (Fin m) (Fin T) (Fin f) = map_result fin_control (new_modulated_gaussian_control M m T f).
Proof. exact xgaussian_finite. Qed.
Print Assumptions C85_gaussian_finite.

(** C85: a modulated Gaussian with special values is rejected, raises OverflowError for an infinite duration, or, with an infinite rate and a modulation without zeros at the samples, has infinite rates *)
Theorem C85_gaussian :
  forall M m T f,
  (~ Spec_Extended.positive M \/ ~ Spec_Extended.positive m \/ ~ strictly_below m T -> argument_error (xnew_modulated_gaussian_control M m T f)) /\
  (Spec_Extended.positive M -> Spec_Extended.positive m -> strictly_below m T -> T = Inf false ->
     overflow_error (xnew_modulated_gaussian_control M m T f)) /\
  (forall m0 T0, m = Fin m0 -> T = Fin T0 ->
      (~ finite f -> argument_error (xnew_modulated_gaussian_control M m T f)) /\
      (M = Inf false -> f = Fin 0 -> argument_error (xnew_modulated_gaussian_control M m T f)) /\
    (forall f0 n, M = Inf false -> f = Fin f0 -> f0 <> 0 -> 0 < m0 < T0 -> is_ceiling (T0 / m0) n ->
      ((forall i, (i < n)%nat -> signal f0 T0 (midpoint T0 n i) <> 0) ->
        xnew_modulated_gaussian_control M m T f =
          Ok (MkXControl (repeat (Inf false) n) (map (fun v => if Rle_dec 0 v then Fin 0 else Fin PI) (samples (signal f0 T0) T0 n))
                (repeat (Fin 0) n) (repeat (Fin (T0 / INR n)) n) None)) /\
      ((exists i, (i < n)%nat /\ signal f0 T0 (midpoint T0 n i) = 0) -> argument_error (xnew_modulated_gaussian_control M m T f)))).
Proof. exact xgaussian_special. Qed.
Print Assumptions C85_gaussian.

Example C85_case :
  xbuild BB1 (Fin PI) (Fin 1) NaN None = map_result (with_angles NaN) (build BB1 PI 1 0 None) /\
  (exists c, xbuild BB1 (Fin PI) (Fin 1) NaN None = Ok c) /\
  argument_error (xbuild BB1 (Inf false) (Fin 1) (Fin 0) None) /\
  argument_error (xbuild BB1 (Fin PI) (Inf false) (Fin 0) None) /\
  zero_division_error (xbuild WAMF1 (Fin PI) (Inf false) (Fin 0) None) /\
  argument_error (xbuild Primitive NaN (Fin 1) (Fin 0) None) /\
  xbuild Primitive (Inf false) (Fin 1) (Fin 0) None = Ok (MkXControl [Fin 1] [Fin 0] [Fin 0] [Inf false] None).
Proof.
  assert (NP := PI_RGT_0).
  split; [apply C85_angle; intros [r H]; discriminate|].
  split; [apply C85_total; left; exists PI, 1; repeat split; cbn; try lra|].
  split; [apply (proj1 (proj2 (C85_total BB1 _ _ _ _))); [intros [[t [w [H _]]]|[H _]]; discriminate|intros [H _]; discriminate]|].
  split; [apply (proj1 (proj2 (C85_total BB1 _ _ _ _))); [intros [[t [w [_ [H _]]]]|[H _]]; discriminate|intros [H _]; discriminate]|].
  split; [apply C85_total; auto; exists PI; split; auto|].
  2: split; [apply (proj1 (proj2 (C85_total Primitive _ _ _ _))); [intros [[t [w [H _]]]|[_ [H _]]]; discriminate|intros [H _]; discriminate]|apply C85_primitive; lra].
  left; unfold Spec_Predefined.near; rewrite Rminus_diag_eq, Rabs_R0 by auto; assert (Q := Rabs_pos PI); lra.
Qed.
Example C85_gaussian_case :
  overflow_error (xnew_modulated_gaussian_control (Fin 1) (Fin 1) (Inf false) (Fin 0)) /\
  argument_error (xnew_modulated_gaussian_control (Fin 1) (Fin 1) (Fin 2) NaN) /\
  argument_error (xnew_modulated_gaussian_control (Fin 1) NaN (Fin 2) (Fin 1)).
Proof.
  split; [|split].
  - apply C85_gaussian; cbn; auto; lra.
  - apply (proj1 (proj2 (proj2 (C85_gaussian (Fin 1) (Fin 1) (Fin 2) NaN)) 1 2 eq_refl eq_refl)); intros [r H]; discriminate.
  - apply (proj1 (C85_gaussian (Fin 1) NaN (Fin 2) (Fin 1))); cbn; auto.
Qed.
(** two segments, frequency 1 over duration 1: the modulation is -1 and 1 at their middles *)
Example C85_gaussian_infinite : exists c,
  xnew_modulated_gaussian_control (Inf false) (Fin (2 / 3)) (Fin 1) (Fin 1) = Ok c /\ x_rabi_rates c = [Inf false; Inf false].
Proof.
  assert (NP := PI_RGT_0).
  destruct (proj2 (proj2 (proj2 (proj2 (C85_gaussian (Inf false) (Fin (2 / 3)) (Fin 1) (Fin 1))) (2 / 3) 1 eq_refl eq_refl)) 1 2%nat eq_refl eq_refl) as [A _]; [lra|lra|unfold is_ceiling; cbn; lra|].
  rewrite A; [eexists; split; reflexivity|].
  intros i I; unfold signal, midpoint, envelope.
  assert (E := exp_pos (-50 * ((INR i + 1 / 2) * (1 / INR 2) / 1 - 1 / 2) ^ 2)).
  destruct i as [|[|i]]; [| |lia]; cbn [INR] in *.
  - replace (2 * PI * 1 * ((0 + 1 / 2) * (1 / (1 + 1)) - 1 / 2)) with (- (PI / 2)) by lra; rewrite sin_neg, sin_PI2.
    apply Rmult_integral_contrapositive_currified; lra.
  - replace (2 * PI * 1 * ((1 + 1 / 2) * (1 / (1 + 1)) - 1 / 2)) with (PI / 2) by lra; rewrite sin_PI2.
    apply Rmult_integral_contrapositive_currified; lra.
Qed.

