(** * C92: every rejected call names the first requirement that fails *)

From Coq Require Import Lra.
From Verif Require Import L_Diagnosis.
Import ListNotations.
Open Scope string_scope.
Open Scope list_scope.
Open Scope R_scope.
Set Bullet Behavior "Strict Subproofs".

(** what [diagnoses] says: the error is determined, and calls succeed exactly
    where every requirement holds *)
Theorem C92_determined :
  forall (A : Type) rules (r r' : result A),
  diagnoses rules r -> diagnoses rules r' ->
  (forall e, r = Raise e <-> r' = Raise e) /\
  ((exists a, r = Ok a) <-> Forall (fun p : rule => fst p) rules).
Proof. intros A rules r r' H H'; split; [apply (diag_unique rules); auto|apply diag_accepts; auto]. Qed.
Print Assumptions C92_determined.

Theorem C92_control :
  forall ts r a d name, diagnoses (control_rules ts r a d) (DrivenControl ts r a d name).
Proof. exact control_diagnosis. Qed.
Print Assumptions C92_control.

Theorem C92_sequence :
  forall T o r a d name,
  diagnoses (sequence_rules T o r a d) (DynamicDecouplingSequence T o r a d name).
Proof. exact sequence_diagnosis. Qed.
Print Assumptions C92_sequence.

Theorem C92_schemes :
  forall s th w phi name, diagnoses (scheme_rules s th w) (build s th w phi name).
Proof. exact scheme_diagnosis. Qed.
Print Assumptions C92_schemes.

Theorem C92_gaussian :
  forall omega m T f,
  diagnoses (gaussian_rules omega m T f) (new_modulated_gaussian_control omega m T f).
Proof. exact gaussian_diagnosis. Qed.
Print Assumptions C92_gaussian.

Theorem C92_requests :
  forall r T pre name, diagnoses (request_rules r T) (build_sequence r T pre name).
Proof. exact request_diagnosis. Qed.
Print Assumptions C92_requests.

Theorem C92_conversion :
  forall T n0 l maxr maxd mn name, constructible_sequence (sequence_of T n0 l) ->
  diagnoses (conversion_rules maxr maxd mn T l)
    (convert_dds_to_driven_control (sequence_of T n0 l) maxr maxd mn name).
Proof. exact conversion_diagnosis. Qed.
Print Assumptions C92_conversion.

Theorem C92_files :
  forall d c f fmt ty coords, constructible c ->
  diagnoses (file_rules c fmt ty coords) (outcome (export_to_file d c f fmt ty coords)).
Proof. exact file_diagnosis. Qed.
Print Assumptions C92_files.

Theorem C92_sequence_files :
  forall d T n0 l f fmt ty coords maxr maxd, constructible_sequence (sequence_of T n0 l) ->
  diagnoses (conversion_rules maxr maxd 0 T l ++ sequence_file_rules n0 fmt ty coords)
    (outcome (dds_export_to_file d (sequence_of T n0 l) f fmt ty coords maxr maxd)).
Proof. exact sequence_file_diagnosis. Qed.
Print Assumptions C92_sequence_files.

Theorem C92_plots :
  forall c coords dimensionless,
  diagnoses (plot_rules c coords dimensionless) (export c coords dimensionless).
Proof. exact plot_diagnosis. Qed.
Print Assumptions C92_plots.

(** two requirements fail, the first is reported *)
Example C92_case_order :
  DrivenControl [1; 0] (Some [-1]) None None None =
    Raise (bad "Duration of driven control segments must all be greater than zero." ["durations"]) /\
  DrivenControl [1; 1] (Some [-1]) None None None =
    Raise (bad "If set, rabi rates, azimuthal angles, detunings and durations must be of same length"
             ["rabi_rates"; "azimuthal_angles"; "detunings"; "durations"]) /\
  DrivenControl [1] (Some [-1]) None None None =
    Raise (bad "All rabi rates must be greater than zero." ["rabi_rates"]).
Proof.
  assert (P : all_positive [1; 1]) by (intros x [<-|[<-|[]]]; lra).
  assert (P' : all_positive [1]) by (intros x [<-|[]]; lra).
  split; [|split].
  - apply (C92_control [1; 0] (Some [-1]) None None None).
    intros H; assert (0 < 0) by (apply H; right; left; auto); lra.
  - apply (C92_control [1; 1] (Some [-1]) None None None); auto.
    intros [H _]; specialize (H _ eq_refl); discriminate.
  - apply (C92_control [1] (Some [-1]) None None None); auto.
    + repeat split; intros l E; inversion E; reflexivity.
    + intros H; assert (0 <= -1) by (apply (H _ eq_refl); left; auto); lra.
Qed.

(** a negative rotation passes the checks of the polar angle and is reported
    by the constructor of the control *)
Example C92_case_negative :
  build BB1 (-1) 1 0 None =
    Raise (bad "Duration of driven control segments must all be greater than zero." ["durations"]) /\
  build BB1 (-20) 1 0 None =
    Raise (bad "The polar angle must be between -4 pi and 4 pi (inclusive)." ["rabi_rotation"]).
Proof.
  assert (P3 := PI_RGT_0); assert (P4 := PI_4); assert (P2 : 3 / 2 < PI / 2) by (assert (Q := PI2_3_2); lra).
  destruct (C92_schemes BB1 (-1) 1 0 None) as [_ A]; destruct (A ltac:(lra)) as [_ B]; destruct (B ltac:(lra)) as [_ D].
  destruct (C92_schemes BB1 (-20) 1 0 None) as [_ A']; destruct (A' ltac:(lra)) as [_ B']; destruct (B' ltac:(lra)) as [D' _].
  split.
  - destruct (D ltac:(lra)) as [F _]; apply F; lra.
  - apply D'; lra.
Qed.
