(** * Properties C12-C26: predefined driven controls *)

From Verif Require Import L_Symmetry.
Import ListNotations.
Open Scope string_scope.
Open Scope list_scope.
Open Scope R_scope.

(** C12: one segment, the requested rotation *)
Theorem C12_primitive :
  forall th w phi name c l,
  new_primitive_control th w phi name = Ok c -> describes l c ->
  l = [Seg w phi 0 (th / w)] /\ evolution l = rotation th phi.
Proof. exact primitive_spec. Qed.
Print Assumptions C12_primitive.

Example C12_case : exists c l, build Primitive PI 1 0 None = Ok c /\ describes l c /\ l <> [].
Proof. exact (demo_build Primitive). Qed.

(** C13: BB1 implements the requested rotation *)
Theorem C13_bb1 :
  forall th w phi name c l,
  new_bb1_control th w phi name = Ok c -> describes l c ->
  evolution l = rotation th phi.
Proof. exact bb1_spec. Qed.
Print Assumptions C13_bb1.

Example C13_case : exists c l, build BB1 PI 1 0 None = Ok c /\ describes l c /\ l <> [].
Proof. exact (demo_build BB1). Qed.

(** C14: BB1 is insensitive to amplitude errors to second order *)
Theorem C14_bb1_robust :
  forall th w phi name c l,
  new_bb1_control th w phi name = Ok c -> describes l c -> amplitude_robust 2 l.
Proof. exact bb1_robust. Qed.
Print Assumptions C14_bb1_robust.

Example C14_case : exists c l, build BB1 PI 1 0 None = Ok c /\ describes l c /\ amplitude_robust 2 l /\ evolution l = rotation PI 0.
Proof.
  destruct (demo_build BB1) as [c [l [B [D _]]]]; exists c, l; split; [exact B|split; [exact D|]].
  split; [exact (C14_bb1_robust _ _ _ _ _ _ B D)|exact (C13_bb1 _ _ _ _ _ _ B D)].
Qed.

(** C15: SK1 implements the rotation, insensitive to amplitude errors to first order *)
Theorem C15_sk1 :
  forall th w phi name c l,
  new_sk1_control th w phi name = Ok c -> describes l c ->
  evolution l = rotation th phi /\ amplitude_robust 1 l.
Proof. exact sk1_spec. Qed.
Print Assumptions C15_sk1.

Example C15_case : exists c l, build SK1 PI 1 0 None = Ok c /\ describes l c /\ l <> [].
Proof. exact (demo_build SK1). Qed.

(** C16: CORPSE implements the rotation; an amplitude error scales the angle *)
Theorem C16_corpse :
  forall th w phi name c l,
  new_corpse_control th w phi name = Ok c -> describes l c ->
  evolution l = rotation th phi /\
  (forall e, -1 < e -> noisy_evolution e 0 l = rotation (th * (1 + e)) phi).
Proof. exact corpse_spec. Qed.
Print Assumptions C16_corpse.

Example C16_case : exists c l, build CORPSE PI 1 0 None = Ok c /\ describes l c /\ l <> [].
Proof. exact (demo_build CORPSE). Qed.

(** C17: CORPSE is insensitive to detuning to first order *)
Theorem C17_corpse_robust :
  forall th w phi name c l,
  new_corpse_control th w phi name = Ok c -> describes l c -> dephasing_robust 1 l.
Proof. exact corpse_robust. Qed.
Print Assumptions C17_corpse_robust.

Example C17_case : exists c l, build CORPSE PI 1 0 None = Ok c /\ describes l c /\ dephasing_robust 1 l /\ evolution l = rotation PI 0.
Proof.
  destruct (demo_build CORPSE) as [c [l [B [D _]]]]; exists c, l; split; [exact B|split; [exact D|]].
  split; [exact (C17_corpse_robust _ _ _ _ _ _ B D)|exact (proj1 (C16_corpse _ _ _ _ _ _ B D))].
Qed.

(** C18: CORPSE in BB1 *)
Theorem C18_corpse_in_bb1 :
  forall th w phi name c l,
  new_corpse_in_bb1_control th w phi name = Ok c -> describes l c ->
  evolution l = rotation th phi /\ amplitude_robust 2 l /\ dephasing_robust 1 l.
Proof. exact corpse_in_bb1_spec. Qed.
Print Assumptions C18_corpse_in_bb1.

Example C18_case : exists c l, build CORPSE_in_BB1 PI 1 0 None = Ok c /\ describes l c /\ l <> [].
Proof. exact (demo_build CORPSE_in_BB1). Qed.

(** C19: CORPSE in SK1 *)
Theorem C19_corpse_in_sk1 :
  forall th w phi name c l,
  new_corpse_in_sk1_control th w phi name = Ok c -> describes l c ->
  evolution l = rotation th phi /\ amplitude_robust 1 l /\ dephasing_robust 1 l.
Proof. exact corpse_in_sk1_spec. Qed.
Print Assumptions C19_corpse_in_sk1.

Example C19_case : exists c l, build CORPSE_in_SK1 PI 1 0 None = Ok c /\ describes l c /\ l <> [].
Proof. exact (demo_build CORPSE_in_SK1). Qed.

(** C20, partial.  Full statement: evolution l = rotation th phi for
    th = PI, PI/2 and PI/4.  Missing: PI/2 and PI/4, where the three-decimal table makes it
    false (C20_scrofulous_refuted); the error is bounded instead.  The robustness to amplitude
    errors holds for every accepted rotation *)
Theorem C20_scrofulous_partial :
  forall th w phi name c l,
  new_scrofulous_control th w phi name = Ok c -> describes l c ->
  amplitude_robust 1 l /\
  (th = PI -> evolution l = rotation th phi) /\
  (near th PI -> close_to (1 / 10000) (evolution l) (rotation th phi)) /\
  (near th (PI / 2) -> close_to (1 / 1000) (evolution l) (rotation th phi)) /\
  close_to (3 / 1000) (evolution l) (rotation th phi) /\
  (phase_equiv (evolution l) (rotation th phi) -> th = PI).
Proof. exact scrofulous_spec. Qed.
Print Assumptions C20_scrofulous_partial.

(** C20, refuted at full strength: for PI/2 and PI/4 the gate is not the requested one, even up to a phase *)
Theorem C20_scrofulous_refuted :
  forall th w phi name,
  th = PI / 2 \/ th = PI / 4 -> 0 < w ->
  exists c l, new_scrofulous_control th w phi name = Ok c /\ describes l c /\
    ~ phase_equiv (evolution l) (rotation th phi).
Proof. exact scrofulous_refuted. Qed.
Print Assumptions C20_scrofulous_refuted.

Example C20_case : exists c l, build SCROFULOUS PI 1 0 None = Ok c /\ describes l c /\ l <> [].
Proof. exact (demo_build SCROFULOUS). Qed.

(** C21: CORPSE in SCROFULOUS *)
Theorem C21_corpse_in_scrofulous :
  forall th w phi name c l,
  new_corpse_in_scrofulous_control th w phi name = Ok c -> describes l c ->
  amplitude_robust 1 l /\ dephasing_robust 1 l /\
  (th = PI -> evolution l = rotation th phi) /\
  (near th PI -> close_to (1 / 10000) (evolution l) (rotation th phi)) /\
  (near th (PI / 2) -> close_to (1 / 1000) (evolution l) (rotation th phi)) /\
  close_to (3 / 1000) (evolution l) (rotation th phi) /\
  (phase_equiv (evolution l) (rotation th phi) -> th = PI).
Proof. exact corpse_in_scrofulous_spec. Qed.
Print Assumptions C21_corpse_in_scrofulous.

(** C21: same evolution as SCROFULOUS under any amplitude error *)
Theorem C21_same_as_scrofulous :
  forall th w phi name name' c l c' l',
  new_corpse_in_scrofulous_control th w phi name = Ok c -> describes l c ->
  new_scrofulous_control th w phi name' = Ok c' -> describes l' c' ->
  forall e, -1 < e -> noisy_evolution e 0 l = noisy_evolution e 0 l'.
Proof. exact corpse_in_scrofulous_same. Qed.
Print Assumptions C21_same_as_scrofulous.

Example C21_case : exists c l, build CORPSE_in_SCROFULOUS PI 1 0 None = Ok c /\ describes l c /\ l <> [].
Proof. exact (demo_build CORPSE_in_SCROFULOUS). Qed.

(** C22: WAMF1 implements the rotation by theta + 2 pi *)
Theorem C22_wamf1 :
  forall th w phi name c l,
  new_wamf1_control th w phi name = Ok c -> describes l c ->
  (forall th0, nominal th th0 -> evolution l = mscale (RtoC (-1)) (rotation th0 phi)) /\
  (th = PI \/ th = PI / 2 \/ th = PI / 4 -> evolution l = mscale (RtoC (-1)) (rotation th phi)) /\
  close_to (1 / 10 ^ 4) (evolution l) (mscale (RtoC (-1)) (rotation th phi)).
Proof. exact wamf1_spec. Qed.
Print Assumptions C22_wamf1.

(** C22, partial.  Full statement: dephasing_robust 1 l for every
    supported rotation.  Missing: PI/2 and PI/4, where the eight-decimal table makes it false
    (C22_wamf1_dephasing_refuted); the derivative is at most 1e-8/w there *)
Theorem C22_wamf1_dephasing_partial :
  forall th w phi name c l,
  new_wamf1_control th w phi name = Ok c -> describes l c ->
  (dephasing_robust 1 l <-> near th PI) /\
  exists D, m_derive (fun d => noisy_evolution 0 d l) 0 D /\ close_to (1 / 10 ^ 8 / w) D mzero.
Proof. exact wamf1_dephasing. Qed.
Print Assumptions C22_wamf1_dephasing_partial.

(** C22, refuted at full strength *)
Theorem C22_wamf1_dephasing_refuted :
  forall th w phi name,
  th = PI / 2 \/ th = PI / 4 -> 0 < w ->
  exists c l, new_wamf1_control th w phi name = Ok c /\ describes l c /\ ~ dephasing_robust 1 l.
Proof. exact wamf1_refuted. Qed.
Print Assumptions C22_wamf1_dephasing_refuted.

Example C22_case : exists c l, build WAMF1 PI 1 0 None = Ok c /\ describes l c /\ l <> [].
Proof. exact (demo_build WAMF1). Qed.

(** C23: acceptance domain, segment table and error of every scheme *)
Theorem C23_acceptance :
  forall s th w phi name,
  (accepts s th w <-> exists c, build s th w phi name = Ok c) /\
  (accepts s th w -> exists c l, build s th w phi name = Ok c /\ describes l c /\
     design s th w phi l /\ dc_name c = name) /\
  (~ accepts s th w ->
     exists d args, build s th w phi name = Raise (ArgumentsValueError d args []) /\
       (w <= 0 -> args = ["maximum_rabi_rate"]) /\
       (0 < w -> th = 0 -> args = ["rabi_rotation"]) /\
       (args = ["maximum_rabi_rate"] \/ args = ["rabi_rotation"] \/ args = ["durations"])).
Proof. exact build_iff. Qed.
Print Assumptions C23_acceptance.

Example C23_accepted : accepts BB1 PI 1 /\ ~ accepts BB1 (5 * PI) 1 /\ ~ accepts CORPSE (-1) 1.
Proof.
  assert (P := PI_pos); split; [split; [lra|split; lra]|split]; intros [A [B C]]; lra.
Qed.

(** C24: maximum Rabi rate, positive rates, no detuning, total duration *)
Theorem C24_rates_and_duration :
  forall s th w phi name c l,
  build s th w phi name = Ok c -> describes l c ->
  maximum_rabi_rate c = Ok w /\
  (forall g, In g l -> 0 < g_rabi g <= w /\ g_det g = 0 /\ 0 < g_dur g) /\
  duration c = total (map g_dur l) /\
  scheme_duration s th w (duration c).
Proof. exact rates_and_duration. Qed.
Print Assumptions C24_rates_and_duration.

Example C24_case : exists c l, build CORPSE_in_BB1 PI 1 0 None = Ok c /\ describes l c /\ l <> [].
Proof. exact (demo_build CORPSE_in_BB1). Qed.

(** C25: azimuthal covariance *)
Theorem C25_azimuthal :
  forall s th w phi a name name' c l c' l',
  build s th w phi name = Ok c -> describes l c ->
  build s th w (phi + a) name' = Ok c' -> describes l' c' ->
  l' = rotate_axes a l /\
  forall e d, noisy_evolution e d l' =
              mmul (z_rotation a) (mmul (noisy_evolution e d l) (z_rotation (- a))).
Proof. exact azimuthal_covariance. Qed.
Print Assumptions C25_azimuthal.

(** C25: acceptance does not depend on the azimuthal angle *)
Theorem C25_azimuthal_exists :
  forall s th w phi a name name' c,
  build s th w phi name = Ok c -> exists c', build s th w (phi + a) name' = Ok c'.
Proof. exact azimuthal_exists. Qed.
Print Assumptions C25_azimuthal_exists.

Example C25_case : exists c l, build WAMF1 PI 1 0 None = Ok c /\ describes l c /\ l <> [].
Proof. exact (demo_build WAMF1). Qed.

(** C26: rate/time scaling *)
Theorem C26_scaling :
  forall s th w k phi name name' c l,
  0 < k ->
  build s th w phi name = Ok c -> describes l c ->
  exists c', build s th (k * w) phi name' = Ok c' /\ describes (speed_up k l) c' /\
    (forall e d, noisy_evolution e (k * d) (speed_up k l) = noisy_evolution e d l) /\
    evolution (speed_up k l) = evolution l.
Proof. exact rate_scaling. Qed.
Print Assumptions C26_scaling.

Example C26_case : exists c l, build SK1 PI 1 0 None = Ok c /\ describes l c /\ l <> [].
Proof. exact (demo_build SK1). Qed.

