(** * Controls under noise that varies in time *)

From Coq Require Import Lia.
From Verif Require Export L_Drive L_FinitePulse L_NoiseExact.
Import ListNotations.
Open Scope string_scope.
Open Scope list_scope.
Open Scope R_scope.

Lemma driven_quat eps beta g t0 t1 V : driven eps beta g t0 t1 V -> exists q,
  qsolves (fun t => (1 + eps t) * g_rabi g * cos (g_phi g)) (fun t => (1 + eps t) * g_rabi g * sin (g_phi g))
    (fun t => g_det g + beta t) t0 q /\ V = qmat (q t1).
Proof.
  intros [U [U0 [UD <-]]].
  destruct (solution_quat (fun t => (1 + eps t) * g_rabi g * cos (g_phi g)) (fun t => (1 + eps t) * g_rabi g * sin (g_phi g))
    (fun t => g_det g + beta t) t0 U U0 UD) as [q [S E]].
  exists q; auto.
Qed.

Lemma quat_driven eps beta g t0 t1 q :
  qsolves (fun t => (1 + eps t) * g_rabi g * cos (g_phi g)) (fun t => (1 + eps t) * g_rabi g * sin (g_phi g))
    (fun t => g_det g + beta t) t0 q -> driven eps beta g t0 t1 (qmat (q t1)).
Proof. intros S; apply qsolves_mat in S; destruct S as [S0 SD]; exists (fun t => qmat (q t)); auto. Qed.

(** two evolutions of one segment are equal *)
Lemma driven_unique eps beta g t0 t1 V1 V2 : t0 <= t1 -> driven eps beta g t0 t1 V1 -> driven eps beta g t0 t1 V2 -> V1 = V2.
Proof.
  intros L A B; apply driven_quat in A, B; destruct A as [q [Sq ->]], B as [p [Sp ->]].
  assert (N : qnear (0 * (t1 - t0) / 2) (q t1) (p t1)).
  { eapply qsolves_near; eauto; [lra|]; intros t _; apply Req_le; ring. }
  f_equal; destruct N as [_ N]; replace ((0 * (t1 - t0) / 2) ^ 2) with 0 in N by field.
  unfold qnorm2, qsub in N; cbn [qa qb qc qd] in N.
  destruct (sumsq8 (qa (q t1) - qa (p t1)) (qb (q t1) - qb (p t1)) (qc (q t1) - qc (p t1)) (qd (q t1) - qd (p t1)) 0 0 0 0)
    as [A1 [A2 [A3 [A4 _]]]].
  { assert (K := fun u => Rle_0_sqr u); unfold Rsqr in K.
    assert (K1 := K (qa (q t1) - qa (p t1))); assert (K2 := K (qb (q t1) - qb (p t1)));
      assert (K3 := K (qc (q t1) - qc (p t1))); assert (K4 := K (qd (q t1) - qd (p t1))); lra. }
  apply q_eq; lra.
Qed.

Lemma control_unique eps beta l : (forall g, In g l -> 0 <= g_dur g) -> forall t0 V1 V2,
  noisy_control eps beta t0 l V1 -> noisy_control eps beta t0 l V2 -> V1 = V2.
Proof.
  induction l as [|g l IH]; intros P t0 V1 V2; cbn [noisy_control]; [congruence|].
  intros [A [B [D [N ->]]]] [A' [B' [D' [N' ->]]]].
  assert (P0 : 0 <= g_dur g) by (apply P; left; auto).
  f_equal; [eapply IH; eauto; intros; apply P; right; auto|apply (driven_unique eps beta g t0 (t0 + g_dur g)); auto; lra].
Qed.

(** ** Constant drive *)

Lemma constant_solves x y z t0 : qsolves (fun _ => x) (fun _ => y) (fun _ => z) t0 (fun t => qseg x y z (t - t0)).
Proof.
  split; [rewrite Rminus_eq_0; apply qseg_0|].
  intros t; destruct (flow_derive' x y z (t - t0)) as [A [B [C0 D]]]; set (q := qseg x y z) in *; clearbody q.
  assert (SH : forall (f : R -> R) d, is_derive f (t - t0) d -> is_derive (fun t => f (t - t0)) t d).
  { intros f d H; eapply is_derive_eq; [apply (is_derive_comp f (fun t => t - t0) t d 1 H)|].
    - auto_derive; auto; ring.
    - unfold scal; simpl; unfold mult; simpl; ring. }
  split; [|split; [|split]].
  - eapply is_derive_eq; [exact (SH _ _ A)|unfold qham; simpl; field].
  - eapply is_derive_eq; [exact (SH _ _ B)|unfold qham; simpl; field].
  - eapply is_derive_eq; [exact (SH _ _ C0)|unfold qham; simpl; field].
  - eapply is_derive_eq; [exact (SH _ _ D)|unfold qham; simpl; field].
Qed.

Lemma driven_constant eps delta g t0 t1 : driven (fun _ => eps) (fun _ => delta) g t0 t1
  (segment_unitary ((1 + eps) * g_rabi g * cos (g_phi g)) ((1 + eps) * g_rabi g * sin (g_phi g)) (g_det g + delta) (t1 - t0)).
Proof.
  assert (S := constant_solves ((1 + eps) * g_rabi g * cos (g_phi g)) ((1 + eps) * g_rabi g * sin (g_phi g)) (g_det g + delta) t0).
  rewrite segment_unitary_qmat; exact (quat_driven (fun _ => eps) (fun _ => delta) g t0 t1 _ S).
Qed.

Lemma control_constant eps delta l : forall t0, noisy_control (fun _ => eps) (fun _ => delta) t0 l (noisy_evolution eps delta l).
Proof.
  induction l as [|g l IH]; intros t0; cbn [noisy_control noisy_evolution]; auto.
  exists (noisy_segment eps delta g); eexists; split; [|split; [apply IH|reflexivity]].
  assert (D := driven_constant eps delta g t0 (t0 + g_dur g)); replace (t0 + g_dur g - t0) with (g_dur g) in D by ring; exact D.
Qed.

(** ** One segment *)

Lemma driven_near eps beta g t0 w V E M : 0 <= w -> 0 <= g_rabi g -> driven eps beta g t0 (t0 + w) V ->
  bounded_by eps E t0 (t0 + w) -> bounded_by beta M t0 (t0 + w) ->
  exists v, V = qmat v /\ unit_quat v /\
    qnear ((M * w + E * (g_rabi g * w)) / 2) v (qseg (g_rabi g * cos (g_phi g)) (g_rabi g * sin (g_phi g)) (g_det g) w).
Proof.
  intros W R D BE BM; apply driven_quat in D; destruct D as [q [S ->]].
  assert (E0 : 0 <= E) by (assert (H := BE t0); eapply Rle_trans; [apply Rabs_pos|apply H; lra]).
  assert (M0 : 0 <= M) by (assert (H := BM t0); eapply Rle_trans; [apply Rabs_pos|apply H; lra]).
  exists (q (t0 + w)); split; auto; split; [eapply qsolves_unit; eauto|].
  assert (K := constant_solves (g_rabi g * cos (g_phi g)) (g_rabi g * sin (g_phi g)) (g_det g) t0).
  assert (ER : 0 <= E * g_rabi g) by (apply Rmult_le_pos; auto).
  assert (N := qsolves_near _ _ _ _ _ _ t0 _ _ (M + E * g_rabi g) (t0 + w) S K ltac:(lra) ltac:(lra)).
  cbv beta in N; replace (t0 + w - t0) with w in N by ring.
  replace ((M * w + E * (g_rabi g * w)) / 2) with ((M + E * g_rabi g) * w / 2) by field; apply N.
  intros t I; assert (BE' := BE t I); assert (BM' := BM t I); set (r := g_rabi g) in *; set (ph := g_phi g).
  replace (((1 + eps t) * r * cos ph - r * cos ph) ^ 2 + ((1 + eps t) * r * sin ph - r * sin ph) ^ 2 + (g_det g + beta t - g_det g) ^ 2)
    with ((eps t * r) ^ 2 * ((sin ph)² + (cos ph)²) + (beta t) ^ 2) by (unfold Rsqr; ring).
  rewrite sin2_cos2, Rmult_1_r, <- (pow2_abs (eps t * r)), <- (pow2_abs (beta t)), Rabs_mult, (Rabs_right r) by lra.
  assert (A0 := Rabs_pos (eps t)); assert (B0 := Rabs_pos (beta t)).
  assert (A1 : Rabs (eps t) * r <= E * r) by (apply Rmult_le_compat_r; auto).
  assert (A2 : 0 <= Rabs (eps t) * r) by (apply Rmult_le_pos; auto).
  nra.
Qed.

Lemma driven_idle eps beta t0 w V : (forall t, continuous beta t) -> driven eps beta (Seg 0 0 0 w) t0 (t0 + w) V ->
  V = qmat (qz (RInt beta 0 (t0 + w) - RInt beta 0 t0)).
Proof.
  intros C [U [U0 [UD E]]]; rewrite <- z_rotation_qmat; apply drifts_iff; auto.
  exists U; split; auto; split; auto; intros t; assert (D := UD t); cbn [g_rabi g_phi g_det] in D.
  rewrite !Rmult_0_r, !Rmult_0_l, Rplus_0_l in D; exact D.
Qed.

(** ** Any control *)

Theorem control_near eps beta E M l : (forall g, In g l -> 0 <= g_rabi g /\ 0 <= g_dur g) -> forall t0 V,
  bounded_by eps E t0 (t0 + total (map g_dur l)) -> bounded_by beta M t0 (t0 + total (map g_dur l)) ->
  noisy_control eps beta t0 l V ->
  close_to ((M * total (map g_dur l) + E * total (map (fun g => g_rabi g * g_dur g) l)) / 2) V (evolution l).
Proof.
  intros P t0 V BE BM N.
  assert (H : exists v, V = qmat v /\ unit_quat v /\
    qnear ((M * total (map g_dur l) + E * total (map (fun g => g_rabi g * g_dur g) l)) / 2) v (qevolution 0 0 l)).
  { revert t0 V BE BM N; induction l as [|g l IH]; intros t0 V BE BM N; cbn [noisy_control] in N; cbn [map total qevolution].
    - subst V; exists qone; split; [symmetry; apply qmat_one|split; [apply unit_one|]].
      replace ((M * 0 + E * 0) / 2) with 0 by field; apply qnear_refl.
    - destruct N as [V1 [V2 [D [N ->]]]]; destruct (P g (or_introl eq_refl)) as [R W].
      cbn [map total] in BE, BM.
      assert (TP : 0 <= total (map g_dur l)).
      { clear - P; induction l as [|h l IH]; cbn [map total]; [lra|].
        assert (0 <= g_dur h) by (apply P; right; left; auto).
        assert (0 <= total (map g_dur l)) by (apply IH; intros k [->|K]; apply P; [left|right; right]; auto); lra. }
      destruct (driven_near eps beta g t0 (g_dur g) V1 E M W R D) as [v1 [-> [U1 N1]]];
        [intros t I; apply BE; lra|intros t I; apply BM; lra|].
      destruct (IH (fun h H => P h (or_intror H)) (t0 + g_dur g) V2) as [v2 [-> [U2 N2]]]; auto;
        [intros t I; apply BE; lra|intros t I; apply BM; lra|].
      exists (qmul v2 v1); split; [rewrite qmat_mul; auto|]; split; [apply unit_mul; auto|].
      eapply qnear_mono; [|apply qnear_mul; [| |exact N2|]].
      + apply Req_le; instantiate (1 := (M * g_dur g + E * (g_rabi g * g_dur g)) / 2); field.
      + clear; induction l as [|g l IH]; cbn [qevolution]; [apply unit_one|apply unit_mul; auto; apply unit_qseg].
      + auto.
      + unfold qnoisy; rewrite !Rplus_0_r, !Rmult_1_l; auto. }
  destruct H as [v [-> [_ H]]]; unfold evolution; rewrite noisy_evolution_qmat; apply qnear_close; auto.
Qed.
