(** * Noise along every direction: C112 *)

From Verif Require Import L_NoiseExact L_VectorNoise.
From Coq Require Import Lia.
Import ListNotations.
Open Scope string_scope.
Open Scope list_scope.
Open Scope R_scope.

(** C112: under a noise of strength at most M that may point along every direction and vary in time, the
    evolution of a predefined sequence is the ideal one up to (M T)^2 / 8 plus, for every axis, the
    residue of the orders suppressed along that axis *)
Theorem C112_smooth :
  forall r T pre name nx ny nz,
  0 < T -> valid_request r -> vector_orders r nx ny nz ->
  exists l, build_sequence r T pre name = Ok (sequence_of T name l) /\
  forall x y z M Kx Ky Kz V,
  smooth_detuning x nx Kx T -> smooth_detuning y ny Ky T -> smooth_detuning z nz Kz T ->
  0 <= M -> strength_below x y z M T -> vector_sequence x y z 0 T l V ->
  close_to ((M * T) ^ 2 / 8 + (residue nx Kx T + residue ny Ky T + residue nz Kz T)) V (pulse_product l).
Proof. exact request_vector. Qed.
Print Assumptions C112_smooth.

(** C112: quadratic sequences, and XY concatenated sequences of order one and two, remove a static noise along any direction to first order *)
Theorem C112_static :
  forall r T pre name,
  0 < T -> valid_request r ->
  match r with Quadratic _ _ => True | XYConcatenated x => x < 3 | _ => False end ->
  exists l, build_sequence r T pre name = Ok (sequence_of T name l) /\
  forall x y z V, vector_sequence (fun _ => x) (fun _ => y) (fun _ => z) 0 T l V ->
  close_to ((x ^ 2 + y ^ 2 + z ^ 2) * T ^ 2 / 8) V (pulse_product l).
Proof.
  intros r T pre name HT HV HR; destruct r as [| |x|x|x|x|x|x y|x|x]; try contradiction; cbn [valid_request] in HV.
  - destruct HV as [V1 V2]; destruct (trunc x V1) as [n1 [P1 [T1 _]]]; destruct (trunc y V2) as [n2 [P2 [T2 _]]].
    apply (request_static _ T pre name n1 n1 n2); cbn [valid_request vector_orders]; auto; lia.
  - destruct (Rlt_dec x 2) as [L|L].
    + apply (request_static _ T pre name 1 2 1); cbn [valid_request vector_orders]; auto; try lia.
      left; unfold truncates_to; cbn; repeat split; lra.
    + apply (request_static _ T pre name 2 4 2); cbn [valid_request vector_orders]; auto; try lia.
      right; unfold truncates_to; cbn; repeat split; lra.
Qed.
Print Assumptions C112_static.

(** C112: the sequences whose pulses share an axis do not protect against a static noise along it *)
Theorem C112_exposed :
  forall r T pre name a n,
  0 < T -> valid_request r -> pulse_axis r = Some a -> suppressed_order r n ->
  exists l, build_sequence r T pre name = Ok (sequence_of T name l) /\
  forall b V d,
  vector_sequence (fun _ => component a AX b) (fun _ => component a AY b) (fun _ => component a AZ b) 0 T l V ->
  close_to d V (pulse_product l) -> Rabs (sin (b * T / 4)) <= d.
Proof. exact request_exposed. Qed.
Print Assumptions C112_exposed.

(** C112: the evolution exists and is unique *)
Theorem C112_solution :
  forall x y z t0 T l,
  (forall t, continuous x t) -> (forall t, continuous y t) -> (forall t, continuous z t) ->
  t0 <= T -> nondecreasing (t0 :: map e_time l) -> (forall e, In e l -> e_time e <= T) ->
  exists! V, vector_sequence x y z t0 T l V.
Proof.
  intros x y z t0 T l CX CY CZ LT ND B; destruct (vector_exists x y z T l CX CY CZ t0) as [V E]; exists V; split; auto.
  intros W F; apply (vector_unique x y z T l B t0 V W LT ND E F).
Qed.
Print Assumptions C112_solution.

(** C112: a noise along Z alone is the dephasing noise of C78 *)
Theorem C112_dephasing :
  forall beta t0 T l V,
  vector_sequence (fun _ => 0) (fun _ => 0) beta t0 T l V <-> noisy_sequence beta t0 T l V.
Proof. intros beta t0 T l V; apply vector_dephasing. Qed.
Print Assumptions C112_dephasing.

(** the XY sequence of order one and duration 2 under the static noise (1/10, 1/10, 1/10) *)
Example C112_case : exists l, new_xy_concatenated_sequence 2 1 false None = Ok (sequence_of 2 None l) /\
  forall V, vector_sequence (fun _ => / 10) (fun _ => / 10) (fun _ => / 10) 0 2 l V -> close_to (3 / 200) V (pulse_product l).
Proof.
  destruct (C112_static (XYConcatenated 1) 2 false None) as [l [E H]]; [lra|cbn; lra|cbn; lra|].
  cbn [build_sequence] in E; exists l; split; auto; intros V VS; apply H in VS.
  replace (3 / 200) with (((/ 10) ^ 2 + (/ 10) ^ 2 + (/ 10) ^ 2) * 2 ^ 2 / 8) by field; exact VS.
Qed.

(** a spin echo of duration 1 turns by 2 pi under the static noise 2 pi along X; its pulse does not notice *)
Example C112_echo_case : exists l, new_spin_echo_sequence 1 false None = Ok (sequence_of 1 None l) /\
  (exists V, vector_sequence (fun _ => 2 * PI) (fun _ => 0) (fun _ => 0) 0 1 l V) /\
  forall V d, vector_sequence (fun _ => 2 * PI) (fun _ => 0) (fun _ => 0) 0 1 l V -> close_to d V (pulse_product l) -> 1 <= d.
Proof.
  destruct (C112_exposed SpinEcho 1 false None AX 1) as [l [E H]]; [lra|exact I|reflexivity|reflexivity|].
  cbn [build_sequence] in E; exists l; split; auto; split.
  - apply vector_exists; intros; apply continuous_const.
  - intros V d VS CL; specialize (H (2 * PI) V d VS CL).
    replace (2 * PI * 1 / 4) with (PI / 2) in H by field; rewrite sin_PI2, Rabs_R1 in H; exact H.
Qed.
