(** * Theorems: C104-C105, the order to which each composite pulse cancels an error *)

From Verif Require Import L_Orders L_Predefined L_Symmetry.
From Coq Require Import Lia.
Import ListNotations.
Set Bullet Behavior "Strict Subproofs".
Open Scope string_scope.
Open Scope list_scope.
Open Scope R_scope.

(** C104: for every accepted request, exactly the stated number of orders in the amplitude error cancel; two turns with BB1 or SK1 cancel all *)
Theorem C104_amplitude_order :
  forall s th w phi name c l,
  build s th w phi name = Ok c -> describes l c ->
  forall m, amplitude_robust m l <-> (m <= amplitude_order s)%nat \/ error_free s th.
Proof. exact scheme_amplitude_order. Qed.
Print Assumptions C104_amplitude_order.

(** C104, for the schemes one by one *)
Theorem C104_next_order_remains :
  forall s th w phi name c l,
  build s th w phi name = Ok c -> describes l c -> ~ error_free s th ->
  match s with
  | Primitive | CORPSE | WAMF1 => ~ amplitude_robust 1 l
  | SK1 | CORPSE_in_SK1 | SCROFULOUS | CORPSE_in_SCROFULOUS => amplitude_robust 1 l /\ ~ amplitude_robust 2 l
  | BB1 | CORPSE_in_BB1 => amplitude_robust 2 l /\ ~ amplitude_robust 3 l
  end.
Proof.
  intros s th w phi name c l B D N; assert (H := scheme_amplitude_order s th w phi name c l B D).
  assert (H1 := H 1%nat); assert (H2 := H 2%nat); assert (H3 := H 3%nat).
  destruct s; cbn [amplitude_order] in *; try split; try (apply H1; left; lia); try (apply H2; left; lia);
    intros R; first [apply H1 in R | apply H2 in R | apply H3 in R]; destruct R as [R|R]; try lia; tauto.
Qed.
Print Assumptions C104_next_order_remains.

Example C104_case : exists c l, build BB1 PI 1 0 None = Ok c /\ describes l c /\ amplitude_robust 2 l /\ ~ amplitude_robust 3 l.
Proof.
  destruct (demo_build BB1) as [c [l [B [D _]]]]; exists c, l; split; [exact B|split; [exact D|]].
  apply (C104_next_order_remains BB1 PI 1 0 None c l B D); cbn; assert (P := PI_pos); lra.
Qed.

Example C104_case_two_turns : exists c l, build SK1 (4 * PI) 1 0 None = Ok c /\ describes l c /\ forall m, amplitude_robust m l.
Proof.
  assert (P := PI_pos).
  destruct (build_accepts SK1 (4 * PI) 1 0 None) as [c [l [B [D _]]]]; [repeat split; cbn; lra|].
  exists c, l; split; [exact B|split; [exact D|]]; intros m; apply (C104_amplitude_order SK1 _ _ _ _ c l B D); right; reflexivity.
Qed.

(** C105: the requests for which a constant detuning cancels to first order *)
Theorem C105_detuning_first_order :
  forall s th w phi name c l,
  build s th w phi name = Ok c -> describes l c -> dephasing_robust 1 l <-> detuning_cancels s th.
Proof. exact scheme_detuning_order. Qed.
Print Assumptions C105_detuning_first_order.

Example C105_case : (exists c l, build BB1 PI 1 0 None = Ok c /\ describes l c /\ ~ dephasing_robust 1 l) /\
  (exists c l, build BB1 (2 * PI) 1 0 None = Ok c /\ describes l c /\ dephasing_robust 1 l).
Proof.
  assert (P := PI_pos); split.
  - destruct (demo_build BB1) as [c [l [B [D _]]]]; exists c, l; split; [exact B|split; [exact D|]].
    intros H; apply (C105_detuning_first_order BB1 PI 1 0 None c l B D) in H; cbn [detuning_cancels] in H; rewrite sin_PI2 in H; lra.
  - destruct (build_accepts BB1 (2 * PI) 1 0 None) as [c [l [B [D _]]]]; [repeat split; cbn; lra|].
    exists c, l; split; [exact B|split; [exact D|]]; apply (C105_detuning_first_order BB1 _ _ _ _ c l B D); cbn [detuning_cancels].
    replace (2 * PI / 2) with PI by field; apply sin_PI.
Qed.
