(** * Moments of the switching functions *)

From Verif Require Export L_Toggle.
From Coq Require Import Lia.
Import ListNotations.
Open Scope string_scope.
Open Scope list_scope.
Open Scope R_scope.

(** ** Polynomial detunings *)

Fixpoint pint (i : nat) (c : list R) (t : R) : R :=
  match c with [] => 0 | a :: c' => a / INR (S i) * t ^ S i + pint (S i) c' t end.

Lemma pint_derive c : forall i t, is_derive (pint i c) t (t ^ i * polynomial c t).
Proof.
  induction c as [|a c IH]; intros i t; cbn [pint polynomial].
  - rewrite Rmult_0_r; apply @is_derive_const.
  - replace (t ^ i * (a + t * polynomial c t)) with (a / INR (S i) * (INR (S i) * 1 * t ^ i) + t ^ S i * polynomial c t).
    + apply @is_derive_plus; [|apply IH].
      apply is_derive_scal; replace i with (pred (S i)) at 2 by auto.
      apply (is_derive_pow (fun t => t) (S i) t 1), @is_derive_id.
    + cbn [pow]; field; apply not_0_INR; lia.
Qed.

Lemma polynomial_continuous c t : continuous (polynomial c) t.
Proof.
  revert t; induction c as [|a c IH]; intros t; cbn [polynomial]; [apply continuous_const|].
  apply (continuous_plus (fun _ => a) (fun t => t * polynomial c t)); [apply continuous_const|].
  apply (continuous_mult (fun t => t) (polynomial c)); [apply continuous_id|apply IH].
Qed.

Lemma is_RInt_polynomial c a b : is_RInt (polynomial c) a b (pint 0 c b - pint 0 c a).
Proof.
  apply (is_RInt_derive (pint 0 c) (polynomial c)).
  - intros x _; generalize (pint_derive c 0 x); cbn [pow]; rewrite Rmult_1_l; auto.
  - intros x _; apply polynomial_continuous.
Qed.
Lemma RInt_polynomial c a b : RInt (polynomial c) a b = pint 0 c b - pint 0 c a.
Proof. apply is_RInt_unique, is_RInt_polynomial. Qed.

Lemma switched_from_ext B B' T ts : forall s t0,
  (forall x y, B x - B y = B' x - B' y) -> switched_from B s t0 T ts = switched_from B' s t0 T ts.
Proof. induction ts; intros s t0 H; cbn [switched_from]; rewrite H, ?(IHts _ _ H); auto. Qed.

Lemma switched_integral_polynomial c T ts :
  switched_integral (polynomial c) T ts = switched (fun t => RInt (polynomial c) 0 t) T ts.
Proof.
  unfold switched_integral, switched.
  assert (E : forall ts s t0, switched_integral_from (polynomial c) s t0 T ts =
    switched_from (fun t => RInt (polynomial c) 0 t) s t0 T ts); [|apply E].
  clear ts.
  induction ts as [|t ts IH]; intros s t0; cbn [switched_integral_from switched_from];
    rewrite ?IH, !RInt_polynomial; ring.
Qed.

Lemma switched_plus A B T ts : switched (fun t => A t + B t) T ts = switched A T ts + switched B T ts.
Proof.
  unfold switched; generalize 1 0; induction ts as [|t ts IH]; intros s t0; cbn [switched_from]; rewrite ?IH; ring.
Qed.
Lemma switched_scale k B T ts : switched (fun t => k * B t) T ts = k * switched B T ts.
Proof.
  unfold switched; generalize 1 0; induction ts as [|t ts IH]; intros s t0; cbn [switched_from]; rewrite ?IH; ring.
Qed.
Lemma switched_zero T ts : switched (fun _ => 0) T ts = 0.
Proof.
  unfold switched.
  assert (E : forall s t0, switched_from (fun _ => 0) s t0 T ts = 0); [|apply E].
  induction ts as [|t ts IH]; intros s t0; cbn [switched_from]; rewrite ?IH; ring.
Qed.

Lemma switched_pint T ts c : forall i,
  (forall m, (i < m <= i + List.length c)%nat -> switched (fun t => t ^ m) T ts = 0) ->
  switched (pint i c) T ts = 0.
Proof.
  induction c as [|a c IH]; intros i H; cbn [pint]; [apply switched_zero|].
  rewrite switched_plus, switched_scale, H, IH; [ring| |cbn; lia].
  intros m M; apply H; cbn; lia.
Qed.

(** all polynomials of degree < n are cancelled when the moments 1..n vanish *)
Lemma switched_polynomial n T ts c :
  (forall m, (1 <= m <= n)%nat -> switched (fun t => t ^ m) T ts = 0) -> (List.length c <= n)%nat ->
  switched (fun t => RInt (polynomial c) 0 t) T ts = 0.
Proof.
  intros H L.
  transitivity (switched (pint 0 c) T ts); [|apply switched_pint; intros m M; apply H; lia].
  apply switched_from_ext; intros x y; rewrite !RInt_polynomial; ring.
Qed.

Lemma cancels_intro n T name pre l c :
  (forall m, (1 <= m <= n)%nat -> switched (fun t => t ^ m) T (flip_times l) = 0) ->
  (List.length c <= n)%nat -> cancels c (sequence_of T name (with_pre_post pre T l)).
Proof.
  intros H L l' E; cbn [sequence_of seq_duration seq_name] in *.
  apply sequence_of_inj in E; subst l'; apply no_effect; apply (switched_polynomial n); auto.
Qed.

(** ** Uhrig *)

Lemma alternating_cos a n :
  sin (a / 2) <> 0 -> sin (INR n * a) = 0 ->
  alternating n (fun j => (-1) ^ j * (cos (INR (S j) * a) + cos (INR j * a))) = 0.
Proof.
  intros S0 SN.
  assert (E : forall n, sin (a / 2) * alternating n (fun j => (-1) ^ j * (cos (INR (S j) * a) + cos (INR j * a)))
                  = cos (a / 2) * sin (INR n * a)).
  { clear; induction n; [simpl; rewrite Rmult_0_l, sin_0; ring|].
    cbn [alternating]; rewrite Rmult_plus_distr_l, IHn.
    assert (P : (-1) ^ n * (-1) ^ n = 1) by (rewrite <- Rpow_mult_distr; replace (-1 * -1) with 1 by ring; apply pow1).
    replace (sin (a / 2) * ((-1) ^ n * ((-1) ^ n * (cos (INR (S n) * a) + cos (INR n * a)))))
      with ((-1) ^ n * (-1) ^ n * (sin (a / 2) * (cos (INR (S n) * a) + cos (INR n * a)))) by ring.
    rewrite P, S_INR.
    set (h := a / 2); set (u := (INR n + 1 / 2) * a).
    replace ((INR n + 1) * a) with (u + h) by (unfold u, h; field).
    replace (INR n * a) with (u - h) by (unfold u, h; field).
    rewrite cos_plus, cos_minus, sin_plus, sin_minus; ring. }
  specialize (E n); rewrite SN, Rmult_0_r in E; apply Rmult_integral in E; tauto.
Qed.

Section Uhrig.
  Variable n : nat.
  Let theta (j : nat) : R := INR j * PI / (INR n + 1).
  Definition uhrig_functional (f : nat -> R) : R := alternating (S n) (fun j => f (S j) - f j).

  Lemma uhrig_cos k : (k <= n)%nat -> uhrig_functional (fun j => cos (INR k * theta j)) = 0.
  Proof.
    intros K; unfold uhrig_functional.
    assert (P := PI_RGT_0); assert (N := pos_INR n).
    set (a := PI + INR k * PI / (INR n + 1)).
    assert (C : forall j, cos (INR j * a) = (-1) ^ j * cos (INR k * theta j)).
    { intros j; unfold a.
      replace (INR j * (PI + INR k * PI / (INR n + 1))) with (INR j * PI + INR k * theta j)
        by (unfold theta; field; lra).
      assert (X : cos (INR j * PI) = (-1) ^ j /\ sin (INR j * PI) = 0).
      { clear; induction j as [|j [A B]]; [simpl; rewrite Rmult_0_l, cos_0, sin_0; auto|].
        rewrite S_INR, Rmult_plus_distr_r, Rmult_1_l, neg_cos, neg_sin, A, B; simpl; split; ring. }
      destruct X as [X Y]; rewrite cos_plus, X, Y; ring. }
    transitivity (-1 * alternating (S n) (fun j => (-1) ^ j * (cos (INR (S j) * a) + cos (INR j * a)))).
    - rewrite <- alternating_scale; apply alternating_ext; intros j _; rewrite !C.
      assert (Q : (-1) ^ j * (-1) ^ j = 1) by (rewrite <- Rpow_mult_distr; replace (-1 * -1) with 1 by ring; apply pow1).
      simpl pow.
      replace (-1 * ((-1) ^ j * (-1 * (-1) ^ j * cos (INR k * theta (S j)) + (-1) ^ j * cos (INR k * theta j))))
        with ((-1) ^ j * (-1) ^ j * (cos (INR k * theta (S j)) - cos (INR k * theta j))) by ring.
      rewrite Q; ring.
    - rewrite alternating_cos; [ring| |].
      + apply Rgt_not_eq, sin_gt_0; unfold a; rewrite Rmult_comm in *.
        * assert (0 <= INR k * PI / (INR n + 1)) by (apply Rle_mult_inv_pos; [generalize (pos_INR k); nra|lra]); lra.
        * assert (INR k * PI / (INR n + 1) < PI); [|lra].
          apply le_INR in K; apply (Rmult_lt_reg_r (INR n + 1)); [lra|].
          unfold Rdiv; rewrite Rmult_assoc, Rinv_l by lra; nra.
      + rewrite S_INR.
        replace ((INR n + 1) * a) with (INR (n + 1 + k) * PI)
          by (unfold a; rewrite !plus_INR; simpl; field; lra).
        generalize (n + 1 + k)%nat as i; intros i; clear.
        induction i; [simpl; rewrite Rmult_0_l, sin_0; auto|].
        rewrite S_INR, Rmult_plus_distr_r, Rmult_1_l, neg_sin, IHi; ring.
  Qed.

  Lemma functional_ext f g : (forall j, f j = g j) -> uhrig_functional f = uhrig_functional g.
  Proof. intros H; apply alternating_ext; intros; rewrite !H; auto. Qed.
  Lemma functional_plus f g : uhrig_functional (fun j => f j + g j) = uhrig_functional f + uhrig_functional g.
  Proof. unfold uhrig_functional; rewrite <- alternating_plus; apply alternating_ext; intros; ring. Qed.
  Lemma functional_scale k f : uhrig_functional (fun j => k * f j) = k * uhrig_functional f.
  Proof. unfold uhrig_functional; rewrite <- alternating_scale; apply alternating_ext; intros; ring. Qed.

  Lemma uhrig_cos_pow m : forall k, (m + k <= n)%nat ->
    uhrig_functional (fun j => cos (theta j) ^ m * cos (INR k * theta j)) = 0.
  Proof.
    induction m; intros k H.
    - rewrite <- (uhrig_cos k) by lia; apply functional_ext; intros; simpl; ring.
    - destruct k as [|k].
      + transitivity (uhrig_functional (fun j => cos (theta j) ^ m * cos (INR 1 * theta j))); [|apply IHm; lia].
        apply functional_ext; intros j; cbn [INR pow]; rewrite Rmult_0_l, cos_0, Rmult_1_l; ring.
      + transitivity (uhrig_functional (fun j => 1 / 2 * (cos (theta j) ^ m * cos (INR (S (S k)) * theta j)) +
                                         1 / 2 * (cos (theta j) ^ m * cos (INR k * theta j)))).
        * apply functional_ext; intros j; cbn [pow]; rewrite !S_INR.
          replace ((INR k + 1 + 1) * theta j) with ((INR k + 1) * theta j + theta j) by ring.
          replace (INR k * theta j) with ((INR k + 1) * theta j - theta j) by ring.
          rewrite cos_plus, cos_minus; field.
        * rewrite functional_plus, !functional_scale, !IHm by lia; ring.
  Qed.

  Lemma uhrig_mixed a : forall b, (a + b <= n)%nat ->
    uhrig_functional (fun j => (1 - cos (theta j)) ^ a * cos (theta j) ^ b) = 0.
  Proof.
    induction a; intros b H.
    - rewrite <- (uhrig_cos_pow b 0) by lia; apply functional_ext; intros j.
      cbn [pow INR]; rewrite Rmult_0_l, cos_0; ring.
    - transitivity (uhrig_functional (fun j => (1 - cos (theta j)) ^ a * cos (theta j) ^ b +
                                       -1 * ((1 - cos (theta j)) ^ a * cos (theta j) ^ S b))).
      + apply functional_ext; intros j; simpl; ring.
      + rewrite functional_plus, functional_scale, !IHa by lia; ring.
  Qed.

  Lemma uhrig_moments T m : (m <= n)%nat ->
    switched (fun t => t ^ m) T (map (uhrig_time T n) (seq 1 n)) = 0.
  Proof.
    intros M; rewrite switched_seq by (apply uhrig_time_0 || apply uhrig_time_end).
    transitivity (uhrig_functional (fun j => (T / 2) ^ m * ((1 - cos (theta j)) ^ m * cos (theta j) ^ 0))).
    - change (uhrig_functional (fun j => uhrig_time T n j ^ m) =
        uhrig_functional (fun j => (T / 2) ^ m * ((1 - cos (theta j)) ^ m * cos (theta j) ^ 0))).
      apply functional_ext; intros j; unfold uhrig_time.
      assert (N := pos_INR n).
      replace (theta j) with (2 * (INR j * PI / (2 * (INR n + 1)))) by (unfold theta; field; lra).
      rewrite cos_2a_sin; rewrite pow_O, Rmult_1_r, <- Rpow_mult_distr; f_equal; field.
    - rewrite functional_scale, uhrig_mixed by lia; ring.
  Qed.
End Uhrig.

(** C43 *)
Theorem uhrig_cancels T x n pre name c :
  0 < T -> truncates_to x n -> (1 <= n)%nat -> (List.length c <= n)%nat ->
  switched_integral (polynomial c) T (map (fun i => T * sin (INR i * PI / (2 * (INR n + 1))) ^ 2) (seq 1 n)) = 0 /\
  exists s, new_uhrig_sequence T x pre name = Ok s /\ cancels c s.
Proof.
  intros HT HX HN L.
  assert (M : forall m, (1 <= m <= n)%nat -> switched (fun t => t ^ m) T (map (uhrig_time T n) (seq 1 n)) = 0)
    by (intros; apply uhrig_moments; lia).
  split; [rewrite switched_integral_polynomial; apply (switched_polynomial n); auto|].
  eexists; split; [apply (uhrig_timing T x n); auto|].
  apply (cancels_intro n); auto; intros m Hm.
  rewrite <- (M m Hm); f_equal.
  replace (map _ (seq 1 n)) with (map (fun t => (AY, t)) (map (uhrig_time T n) (seq 1 n)))
    by (rewrite map_map; reflexivity).
  apply flip_times_uniform; discriminate.
Qed.

(** ** Equidistant sequences *)

Lemma cpmg_first_moment T n : (1 <= n)%nat -> switched (fun t => t) T (cpmg_times T n) = 0.
Proof.
  intros H; unfold cpmg_times; destruct n as [|n]; [lia|].
  set (tau := fun i => T / INR (S n) * (INR i - 1 / 2)).
  assert (N := pos_INR n).
  assert (NZ : INR (S n) <> 0) by (rewrite S_INR; lra).
  cbn [seq map]; unfold switched; cbn [switched_from]; rewrite switched_from_seq.
  rewrite (alternating_ext _ _ (fun _ => T / INR (S n))).
  2:{ intros i _; unfold tau; rewrite !S_INR; field; rewrite S_INR in NZ; auto. }
  rewrite alternating_const; unfold tau.
  replace (1 + n)%nat with (S n) by lia. change (INR 1) with 1.
  assert (Q : (-1) ^ n = 1 \/ (-1) ^ n = -1).
  { clear; induction n; [left; auto|simpl; destruct IHn as [-> | ->]; [right|left]; ring]. }
  destruct Q as [-> | ->]; field; auto.
Qed.

Lemma periodic_first_moment T n :
  switched (fun t => t) T (map (fun i => INR i * T / (INR n + 1)) (seq 1 n)) =
  if Nat.even n then T / (INR n + 1) else 0.
Proof.
  assert (N := pos_INR n).
  rewrite switched_seq.
  - rewrite (alternating_ext _ _ (fun _ => T / (INR n + 1))).
    2:{ intros i _; rewrite S_INR; field; lra. }
    rewrite alternating_const; simpl pow.
    assert (Q : (-1) ^ n = if Nat.even n then 1 else -1).
    { clear; induction n; [auto|]. rewrite Nat.even_succ, <- Nat.negb_even; simpl pow; rewrite IHn.
      destruct (Nat.even n); simpl; ring. }
    rewrite Q; destruct (Nat.even n); field; lra.
  - cbn [INR]; field; lra.
  - rewrite plus_INR; cbn [INR]; field; lra.
Qed.

(** C42 for the sequences of this file *)
Theorem refocusing T x n pre name :
  0 < T -> truncates_to x n -> (1 <= n)%nat ->
  (exists s, new_spin_echo_sequence T pre name = Ok s /\ refocuses s) /\
  (exists s, new_carr_purcell_sequence T x pre name = Ok s /\ refocuses s) /\
  (exists s, new_cpmg_sequence T x pre name = Ok s /\ refocuses s) /\
  (exists s, new_uhrig_sequence T x pre name = Ok s /\ refocuses s) /\
  (exists s, new_periodic_sequence T x pre name = Ok s /\
     (Nat.Odd n -> refocuses s) /\ (Nat.Even n -> dephases s)) /\
  (exists s, new_ramsey_sequence T pre name = Ok s /\ dephases s).
Proof.
  intros HT HX HN.
  split; [|split; [|split; [|split; [|split]]]].
  - eexists; split; [apply spin_echo_timing; auto|].
    apply refocuses_intro; cbn [flip_times]; unfold switched; cbn [switched_from]; field.
  - eexists; split; [apply (carr_purcell_timing T x n); auto|].
    apply refocuses_intro; rewrite <- (cpmg_first_moment T n HN) at 1; f_equal.
    rewrite <- (flip_times_uniform AX (cpmg_times T n)) by discriminate; unfold cpmg_times; rewrite map_map; auto.
  - eexists; split; [apply (cpmg_timing T x n); auto|].
    apply refocuses_intro; rewrite <- (cpmg_first_moment T n HN) at 1; f_equal.
    rewrite <- (flip_times_uniform AY (cpmg_times T n)) by discriminate; unfold cpmg_times; rewrite map_map; auto.
  - eexists; split; [apply (uhrig_timing T x n); auto|].
    apply refocuses_intro.
    transitivity (switched (fun t => t ^ 1) T (map (uhrig_time T n) (seq 1 n))); [|apply uhrig_moments; auto].
    replace (map _ (seq 1 n)) with (map (fun t => (AY, t)) (map (uhrig_time T n) (seq 1 n)))
      by (rewrite map_map; reflexivity).
    rewrite flip_times_uniform by discriminate.
    apply switched_from_ext; intros; simpl; ring.
  - eexists; split; [apply (periodic_timing T x n); auto|].
    assert (F : flip_times (map (fun i => (AX, INR i * T / (INR n + 1))) (seq 1 n)) =
                map (fun i => INR i * T / (INR n + 1)) (seq 1 n)).
    { rewrite <- (flip_times_uniform AX) by discriminate; rewrite map_map; auto. }
    split; intros P.
    + apply refocuses_intro; rewrite F, periodic_first_moment.
      apply Nat.odd_spec in P; rewrite <- Nat.negb_odd, P; auto.
    + apply dephases_intro; rewrite F, periodic_first_moment.
      apply Nat.even_spec in P; rewrite P.
      apply Rgt_not_eq, Rdiv_lt_0_compat; auto; generalize (pos_INR n); lra.
  - eexists; split; [apply ramsey_timing; auto|].
    apply dephases_intro; cbn [flip_times]; unfold switched; cbn [switched_from]; lra.
Qed.
