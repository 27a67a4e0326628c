(** * Properties of the composite pulses in floating point *)

From Verif Require Import L_FloatSchemes.
Import ListNotations.
Open Scope string_scope.
Open Scope list_scope.
Open Scope R_scope.

(** C80: in binary64 arithmetic every scheme gives the control of its table up to rounding, and so does its evolution under noise *)
Theorem C80_float_controls :
  forall fsin fcos facos fasin s th w phi name,
  accurate_trigonometry fsin fcos facos fasin -> ordinary_inputs s th w phi ->
  exists c l, fl_build binary64 fsin fcos facos fasin float_pi s th w phi name = Ok c /\ describes l c /\ dc_name c = name /\
    forall l0, design s th w phi l0 ->
      Forall2 (near_segment (axis_error s th) rotation_error w) l l0 /\
      forall e delta, close_to (float_cost s th w e delta (List.length l0)) (noisy_evolution e delta l) (noisy_evolution e delta l0).
Proof. exact float_controls. Qed.
Print Assumptions C80_float_controls.

(** C80: the rotation performed *)
Theorem C80_float_rotation :
  forall fsin fcos facos fasin s th w phi name,
  accurate_trigonometry fsin fcos facos fasin -> ordinary_inputs s th w phi -> exact_scheme s ->
  exists c l, fl_build binary64 fsin fcos facos fasin float_pi s th w phi name = Ok c /\ describes l c /\
    close_to (rotation_accuracy th) (evolution l) (rotation th phi).
Proof. exact float_rotation. Qed.
Print Assumptions C80_float_rotation.

(** C80: correctly rounded functions are accurate enough *)
Theorem C80_trigonometry :
  accurate_trigonometry (fun x => binary64 (sin x)) (fun x => binary64 (cos x)) (fun x => binary64 (acos x)) (fun x => binary64 (asin x)).
Proof. exact rounded_trigonometry. Qed.
Print Assumptions C80_trigonometry.

(** C80: without rounding the program is the one of C12-C26 *)
Theorem C80_unrounded :
  forall s th w phi name,
  fl_build (fun x => x) sin cos acos asin PI s th w phi name = build s th w phi name.
Proof. exact controls_unrounded. Qed.
Print Assumptions C80_unrounded.

(** BB1 for the float next to pi *)
Example C80_case : exists c l,
  fl_bb1 binary64 (fun x => binary64 (acos x)) float_pi float_pi 1 0 None = Ok c /\ describes l c /\
  close_to (/ 2 ^ 40) (evolution l) (rotation float_pi 0) /\ List.length l = 4%nat.
Proof.
  assert (O : ordinary_inputs BB1 float_pi 1 0).
  { destruct ordinary_61 as [A [B [_ [_ [D [E _]]]]]]; repeat split; auto; try apply B.
    - apply format_1.
    - rewrite <- Rinv_1; apply Rinv_le_contravar; [lra|apply pow_R1_Rle; lra].
    - apply pow_R1_Rle; lra. }
  destruct (float_rotation _ _ _ _ BB1 float_pi 1 0 None rounded_trigonometry O I) as [c [l [E [D C]]]].
  exists c, l; split; [exact E|split; [exact D|split]].
  - assert (P := PI_bounds); assert (FPB := float_pi_bound); replace (10 ^ 16) with 10000000000000000 in FPB by ring.
    replace (/ 2 ^ 40) with (rotation_accuracy float_pi); [exact C|].
    unfold rotation_accuracy; destruct (Rle_dec _ _); [reflexivity|lra].
  - destruct (float_controls _ _ _ _ BB1 float_pi 1 0 None rounded_trigonometry O) as [c' [l' [E' [D' [_ M]]]]].
    rewrite E in E'; injection E' as <-; assert (l' = l) as -> by (eapply describes_unique; eauto).
    destruct (build_accepts BB1 float_pi 1 0 None (ordinary_accepts _ _ _ _ O)) as [_ [l0 [_ [_ [DS _]]]]].
    destruct (M l0 DS) as [F _]; destruct DS as [p [_ ->]]; revert F; generalize l; intros l1 F; repeat (inversion F as [|? ? ? ? _ F' EL ER]; clear F; subst; rename F' into F); inversion F; reflexivity.
Qed.

(** C81, partial.  Full statement: in binary64 arithmetic no segment of a scheme exceeds the maximum Rabi rate.  Missing: WAMF1, whose excess is below 3 / 2^53; it does occur, see the next theorem *)
Theorem C81_float_rates_partial :
  forall fsin fcos facos fasin s th w phi name c l,
  accurate_trigonometry fsin fcos facos fasin -> ordinary_inputs s th w phi ->
  fl_build binary64 fsin fcos facos fasin float_pi s th w phi name = Ok c -> describes l c ->
  forall g, In g l ->
    0 < g_dur g /\ g_det g = 0 /\ (s <> WAMF1 -> g_rabi g = w) /\ 0 <= g_rabi g <= w * (1 + 3 / 2 ^ 53).
Proof. exact float_scheme_rates. Qed.
Print Assumptions C81_float_rates_partial.

(** C81 is false: WAMF1 for pi with the maximum rate 61 *)
Theorem C81_float_rates_refuted :
  ~ forall fsin fcos facos fasin s th w phi name c l,
    accurate_trigonometry fsin fcos facos fasin -> ordinary_inputs s th w phi ->
    fl_build binary64 fsin fcos facos fasin float_pi s th w phi name = Ok c -> describes l c ->
    forall g, In g l -> g_rabi g <= w.
Proof.
  intros H; destruct (wamf1_rate_exceeded (fun x => binary64 (sin x)) (fun x => binary64 (cos x))
    (fun x => binary64 (acos x)) (fun x => binary64 (asin x))) as [c [l [g [E [D [G X]]]]]].
  assert (K := H _ _ _ _ WAMF1 float_pi 61 0 None c l rounded_trigonometry ordinary_61 E D g G); lra.
Qed.
Print Assumptions C81_float_rates_refuted.

Example C81_case : exists c l, fl_build binary64 (fun x => binary64 (sin x)) (fun x => binary64 (cos x))
    (fun x => binary64 (acos x)) (fun x => binary64 (asin x)) float_pi WAMF1 float_pi 61 0 None = Ok c /\ describes l c /\
  forall g, In g l -> g_rabi g <= 61 * (1 + 3 / 2 ^ 53).
Proof.
  destruct (wamf1_rate_exceeded (fun x => binary64 (sin x)) (fun x => binary64 (cos x))
    (fun x => binary64 (acos x)) (fun x => binary64 (asin x))) as [c [l [_ [E [D _]]]]].
  exists c, l; split; [auto|split; [auto|]]; intros g G.
  apply (float_scheme_rates _ _ _ _ WAMF1 float_pi 61 0 None c l rounded_trigonometry ordinary_61 E D g G).
Qed.

