(** * The helper that derives segments from angles *)

From Coq Require Import Reals Lia Lra.
From Verif Require Import Spec_Qubit L_Symmetry L_DrivenControl Spec_Segments P_DrivenPredefined.
Import ListNotations.
Open Scope string_scope.
Open Scope list_scope.
Open Scope R_scope.

Lemma derived_row A theta phi : A <> 0 ->
  segment_unitary (A * cos phi) (A * sin phi) 0 (theta / A) = rotation theta phi.
Proof.
  intros N; unfold segment_unitary, rotation.
  assert (T := sin2_cos2 phi); unfold Rsqr in T.
  assert (W : sqrt ((A * cos phi) ^ 2 + (A * sin phi) ^ 2 + 0 ^ 2) = Rabs A).
  { rewrite <- sqrt_Rsqr_abs; f_equal; unfold Rsqr; nra. }
  rewrite W; destruct (Rcase_abs A) as [L|L].
  - rewrite (Rabs_left A L).
    replace (- A * (theta / A)) with (- theta) by (field; auto).
    replace (A * cos phi / - A) with (- cos phi) by (field; lra).
    replace (A * sin phi / - A) with (- sin phi) by (field; lra).
    unfold bloch_rotation; replace (- theta / 2) with (- (theta / 2)) by field; rewrite cos_neg, sin_neg.
    f_equal; unfold pauli_vector, mscale, madd, pauli_x, pauli_y, pauli_z; cbn.
    f_equal; unfold Cmult, Cplus, RtoC; cbn; f_equal; field; lra.
  - rewrite (Rabs_right A L).
    replace (A * (theta / A)) with theta by (field; auto).
    replace (A * cos phi / A) with (cos phi) by (field; auto).
    replace (A * sin phi / A) with (sin phi) by (field; auto).
    replace (0 / A) with 0 by (field; auto); reflexivity.
Qed.

(** C91: under the derived rows the qubit undergoes the given rotations, whatever the amplitude *)
Theorem C91_rotations :
  forall l A V, A <> 0 -> rows_evolve (derive_segments l A) V <-> V = rotations l.
Proof.
  intros l A V N; revert V; induction l as [|[theta phi] l IH]; intros V; [cbn; tauto|].
  cbn [derive_segments map rows_evolve rotations fst snd]; split.
  - intros [V1 [V2 [E [F ->]]]]; apply evolves_iff in E; rewrite derived_row in E by auto; apply IH in F; subst; auto.
  - intros ->; exists (rotation theta phi), (rotations l); split; [|split; [apply IH|]; reflexivity].
    apply evolves_iff; rewrite derived_row; auto.
Qed.
Print Assumptions C91_rotations.

(** C91: every scheme with a constant rate is the one derived from its rotation and azimuthal angles, with the rate as amplitude *)
Theorem C91_schemes :
  forall s theta omega phi name c,
  s <> WAMF1 -> build s theta omega phi name = Ok c ->
  cartesian_rows c = derive_segments (combine (angles c) (azimuthal_angles c)) omega.
Proof.
  intros s theta omega phi name c S B.
  destruct (C23_acceptance s theta omega phi name) as [I [D _]].
  assert (A : accepts s theta omega) by (apply I; eauto).
  destruct (D A) as [c' [l [B' [DE [G _]]]]]; rewrite B in B'; injection B' as <-.
  assert (W : 0 < omega) by apply A.
  assert (X : exists ps, l = pulses omega ps).
  { destruct s; cbn [design] in G; try (now destruct S);
      repeat match type of G with ex _ => destruct G as [? G] | _ /\ _ => destruct G as [_ G] end; eauto. }
  destruct X as [ps ->]; destruct DE as [E1 [E2 [E3 E4]]]; clear - W E1 E2 E3 E4.
  unfold cartesian_rows, angles, amplitudes, amplitude_x, amplitude_y; rewrite E1, E2, E3, E4; clear E1 E2 E3 E4.
  unfold pulses; rewrite !map_map; cbn [g_rabi g_phi g_det g_dur].
  induction ps as [|[t p] ps IH]; [reflexivity|].
  cbn [map zip_with combine List.length seq fst snd derive_segments nth]; rewrite <- seq_shift, map_map; cbn [nth].
  unfold derive_segments in IH; cbn [snd] in IH; unfold zip_with in *; rewrite <- IH; f_equal.
  f_equal; f_equal; f_equal; f_equal; cbn [fst snd].
  replace (sqrt ((omega * cos p) ^ 2 + (omega * sin p) ^ 2 + 0 ^ 2)) with omega; [field; lra|].
  assert (T := sin2_cos2 p); unfold Rsqr in T.
  rewrite <- (sqrt_Rsqr omega) at 1 by lra; f_equal; unfold Rsqr; nra.
Qed.
Print Assumptions C91_schemes.

Example C91_case : derive_segments [(PI, 0); (PI / 2, PI / 2)] 2 = [[2; 0; 0; PI / 2]; [0; 2; 0; PI / 4]] /\
  rows_evolve [[2; 0; 0; PI / 2]; [0; 2; 0; PI / 4]] (mmul (rotation (PI / 2) (PI / 2)) (rotation PI 0)).
Proof.
  assert (E : derive_segments [(PI, 0); (PI / 2, PI / 2)] 2 = [[2; 0; 0; PI / 2]; [0; 2; 0; PI / 4]]).
  { assert (L : forall a b c d a' b' c' d' : R, a = a' -> b = b' -> c = c' -> d = d' -> [a; b; c; d] = [a'; b'; c'; d']) by congruence.
    cbn; rewrite cos_0, sin_0, cos_PI2, sin_PI2; f_equal; [apply L; field|f_equal; apply L; field]. }
  split; auto; rewrite <- E; apply C91_rotations; [lra|]; cbn [rotations]; rewrite mmul_1_l; reflexivity.
Qed.
Example C91_case_scheme : exists c, build BB1 PI 1 0 None = Ok c /\
  cartesian_rows c = derive_segments (combine (angles c) (azimuthal_angles c)) 1.
Proof.
  destruct (demo_build BB1) as [c [l [B _]]]; exists c; split; auto; apply (C91_schemes BB1 PI 1 0 None); auto; discriminate.
Qed.
