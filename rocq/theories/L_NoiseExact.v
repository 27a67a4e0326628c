(** * The suppressed orders are exact *)

From Coq Require Import Lia ZArith.
From Verif Require Export L_NoiseOrders.
Import ListNotations.
Open Scope string_scope.
Open Scope list_scope.
Open Scope R_scope.

(** ** A non-zero moment is visible *)

Lemma polynomial_monomial k n t : polynomial (repeat 0 n ++ [k]) t = k * t ^ n.
Proof. induction n; cbn [repeat app polynomial pow]; [ring|rewrite IHn; ring]. Qed.

Lemma sensitive_intro n T name pre ps : switched (fun t => t ^ S n) T (flip_times ps) <> 0 ->
  sensitive n (sequence_of T name (with_pre_post pre T ps)).
Proof.
  intros NZ l E; cbn [sequence_of seq_duration seq_name] in *; apply sequence_of_inj in E; subst l.
  set (I := switched (fun t => t ^ S n) T (flip_times ps)) in *.
  assert (N := pos_INR n); assert (SN : INR (S n) <> 0) by (rewrite S_INR; lra).
  set (k := PI / I * INR (S n)); set (c := repeat 0 n ++ [k]).
  exists c, (dephased_evolution (fun t => RInt (polynomial c) 0 t) T (with_pre_post pre T ps)).
  split; [unfold c; rewrite app_length, repeat_length; cbn; lia|].
  split; [apply schroedinger_dephasing; auto; intros; apply polynomial_continuous|].
  apply has_effect.
  transitivity (PI / I * switched (fun t => t ^ S n) T (flip_times ps)).
  - rewrite <- switched_scale; apply switched_from_ext; intros a b.
    assert (K : forall u, RInt (polynomial c) 0 u = PI / I * u ^ S n).
    { intros u; transitivity (RInt (fun t => k * t ^ n) 0 u); [apply RInt_ext; intros; apply polynomial_monomial|].
      apply is_RInt_unique.
      assert (R := is_RInt_scal (fun t => t ^ n) 0 u k _ (is_RInt_power 0 u n)).
      unfold scal in R; cbn in R; unfold mult in R; cbn in R.
      replace (PI / I * u ^ S n) with (k * (u * u ^ n / INR (S n) - 0 * 0 ^ n / INR (S n))); [exact R|].
      unfold k; cbn [pow]; field; auto. }
    rewrite !K; ring.
  - fold I; field; auto.
Qed.

(** ** Equidistant sequences *)

Lemma alternating_square n : alternating n (fun i => INR i ^ 2) = - (-1) ^ n * (INR n * (INR n - 1)) / 2.
Proof. induction n; cbn [alternating]; [simpl; field|]; rewrite IHn, S_INR; simpl pow; field. Qed.

Lemma cpmg_next_moment T n : 0 < T -> (1 <= n)%nat ->
  switched (fun t => t ^ S (if Nat.even n then 2 else 1)) T (cpmg_times T n) <> 0.
Proof.
  intros HT H; unfold cpmg_times; destruct n as [|n]; [lia|].
  set (tau := fun i => T / INR (S n) * (INR i - 1 / 2)).
  assert (N := pos_INR n).
  assert (NZ : INR (S n) <> 0) by (rewrite S_INR; lra).
  cbn [seq map]; unfold switched; cbn [switched_from]; rewrite switched_from_seq.
  replace (1 + n)%nat with (S n) by lia.
  set (u := T / INR (S n)) in *.
  assert (U : 0 < u) by (apply Rdiv_lt_0_compat; auto; rewrite S_INR; lra).
  assert (TU : T = u * INR (S n)) by (unfold u; field; auto).
  destruct (Nat.even (S n)) eqn:EV; rewrite Nat.even_succ in EV.
  - rewrite (alternating_ext _ _ (fun j => u ^ 3 * (13 / 4) + (u ^ 3 * 6 * INR j + u ^ 3 * 3 * INR j ^ 2))).
    2:{ intros i _; unfold tau; cbn [Nat.add]; rewrite !(S_INR i), !(S_INR (S i)), !(S_INR i); fold u; field. }
    rewrite !alternating_plus, alternating_const, !alternating_scale, alternating_linear, alternating_square; unfold tau.
    rewrite pow_minus_one; rewrite <- Nat.negb_odd, EV; cbn [negb]; change (INR 1) with 1.
    rewrite TU, !S_INR.
    assert (P : 0 < u ^ 3) by (apply pow_lt; auto).
    assert (M : 1 <= INR n) by (apply (le_INR 1); destruct n; [discriminate|lia]).
    match goal with |- ?x <> 0 => replace x with (u ^ 3 * (3 / 4 * (INR n + 1))) end.
    + apply Rmult_integral_contrapositive; split; lra.
    + field.
  - rewrite (alternating_ext _ _ (fun j => u ^ 2 * 2 + u ^ 2 * 2 * INR j)).
    2:{ intros i _; unfold tau; cbn [Nat.add]; rewrite !(S_INR i), !(S_INR (S i)), !(S_INR i); fold u; field. }
    rewrite alternating_plus, alternating_const, alternating_scale, alternating_linear; unfold tau.
    rewrite pow_minus_one; rewrite <- Nat.negb_odd, EV; cbn [negb]; change (INR 1) with 1.
    rewrite TU, !S_INR.
    assert (P : 0 < u ^ 2) by (apply pow_lt; auto).
    match goal with |- ?x <> 0 => replace x with (u ^ 2 * (- (1 / 2))) end.
    + apply Rmult_integral_contrapositive; split; lra.
    + field.
Qed.

Lemma periodic_next_moment T n : 0 < T ->
  switched (fun t => t ^ S (if Nat.even n then 0 else 1)) T (map (fun i => INR i * T / (INR n + 1)) (seq 1 n)) <> 0.
Proof.
  intros HT; assert (N := pos_INR n).
  assert (U : 0 < T / (INR n + 1)) by (apply Rdiv_lt_0_compat; lra).
  destruct (Nat.even n) eqn:EV.
  - unfold switched; rewrite (switched_from_ext _ (fun t => t)) by (intros; simpl; ring).
    change (switched (fun t => t) T (map (fun i => INR i * T / (INR n + 1)) (seq 1 n)) <> 0).
    rewrite periodic_first_moment, EV; lra.
  - rewrite switched_seq.
    + rewrite (alternating_ext _ _ (fun j => (T / (INR n + 1)) ^ 2 + (T / (INR n + 1)) ^ 2 * 2 * INR j)).
      2:{ intros i _; rewrite S_INR; field; lra. }
      rewrite alternating_plus, alternating_const, alternating_scale, alternating_linear, pow_minus_one.
      rewrite Nat.even_succ, <- Nat.negb_even, EV; cbn [negb]; rewrite S_INR.
      assert (P : 0 < (T / (INR n + 1)) ^ 2) by (apply pow_lt; auto).
      match goal with |- ?x <> 0 => replace x with ((T / (INR n + 1)) ^ 2 * (- (INR n + 1))) end.
      * apply Rmult_integral_contrapositive; split; lra.
      * field; lra.
    + cbn [INR]; field; lra.
    + rewrite plus_INR; cbn [INR]; field; lra.
Qed.

(** ** Dyadic sequences *)

(** [lead d a B]: the differences of order d+1 with steps c0 .. cd are a c0 .. cd *)
Fixpoint lead (d : nat) (a : R) (B : R -> R) : Prop :=
  match d with
  | O => forall x c, B (x + c) - B x = a * c
  | S d' => forall c, lead d' (a * c) (fun t => B (t + c) - B t)
  end.
Lemma lead_ext d : forall a B B', (forall t, B t = B' t) -> lead d a B -> lead d a B'.
Proof.
  induction d; cbn [lead]; intros a B B' E H; [intros; rewrite <- !E; auto|].
  intros c; apply (IHd _ _ _ (fun t => f_equal2 Rminus (E (t + c)) (E t))), H.
Qed.
Lemma lead_coef d a a' B : a = a' -> lead d a B -> lead d a' B.
Proof. intros ->; auto. Qed.
Lemma lead_plus d : forall a b A B, lead d a A -> lead d b B -> lead d (a + b) (fun t => A t + B t).
Proof.
  induction d; cbn [lead]; intros a b A B HA HB.
  - intros x c; replace (A (x + c) + B (x + c) - (A x + B x)) with (A (x + c) - A x + (B (x + c) - B x)) by ring.
    rewrite HA, HB; ring.
  - intros c; apply (lead_ext d _ (fun t => (A (t + c) - A t) + (B (t + c) - B t))); [intros; ring|].
    apply (lead_coef d (a * c + b * c)); [ring|apply IHd; auto].
Qed.
Lemma lead_scale d k : forall a A, lead d a A -> lead d (k * a) (fun t => k * A t).
Proof.
  induction d; cbn [lead]; intros a A HA.
  - intros x c; rewrite Rmult_assoc, <- (HA x c); ring.
  - intros c; apply (lead_ext d _ (fun t => k * (A (t + c) - A t))); [intros; ring|].
    apply (lead_coef d (k * (a * c))); [ring|]; apply (IHd (a * c) (fun t => A (t + c) - A t)), HA.
Qed.
Lemma lead_shift d e : forall a A, lead d a A -> lead d a (fun t => A (t + e)).
Proof.
  induction d; cbn [lead]; intros a A HA.
  - intros x c; rewrite <- (HA (x + e) c); do 2 f_equal; ring.
  - intros c; apply (lead_ext d _ (fun t => A ((t + e) + c) - A (t + e))); [intros; do 2 f_equal; ring|].
    apply (IHd (a * c) (fun t => A (t + c) - A t)); auto.
Qed.
Lemma lead_times d : forall a A, lead d a A -> lead (S d) ((INR d + 2) * a) (fun t => t * A t).
Proof.
  induction d; intros a A HA.
  - cbn [lead INR] in *; intros c x e.
    assert (F : forall t, A t = A 0 + a * t) by (intros t; rewrite <- (HA 0 t), Rplus_0_l; ring).
    rewrite (F (x + e + c)), (F (x + e)), (F (x + c)), (F x); ring.
  - change (forall c, lead (S d) ((INR (S d) + 2) * a * c) (fun t => (t + c) * A (t + c) - t * A t)); intros c.
    apply (lead_ext (S d) _ (fun t => t * (A (t + c) - A t) + c * A (t + c))); [intros; ring|].
    apply (lead_coef (S d) ((INR d + 2) * (a * c) + c * a)); [rewrite S_INR; ring|].
    apply lead_plus; [apply (IHd (a * c) (fun t => A (t + c) - A t)), HA|].
    apply (lead_scale (S d) c a (fun t => A (t + c))), lead_shift; auto.
Qed.
Lemma lead_pow d : exists a, 0 < a /\ lead d a (fun t => t ^ S d).
Proof.
  induction d.
  - exists 1; split; [lra|]; cbn [lead]; intros x c; simpl; ring.
  - destruct IHd as [a [P L]]; exists ((INR d + 2) * a); split.
    + apply Rmult_lt_0_compat; auto; generalize (pos_INR d); lra.
    + apply (lead_times d a (fun t => t ^ S d)); auto.
Qed.

Lemma dyadic_lead bits : forall a B x h, h <> 0 -> a <> 0 ->
  lead (List.length (filter (fun b => b) bits)) a B ->
  weighted (dyadic bits) (fun i => B (x + INR (S i) * h) - B (x + INR i * h)) (2 ^ List.length bits) <> 0.
Proof.
  induction bits as [|b bits IH]; intros a B x h Hh Ha H.
  - cbn in *; replace (0 + 1 * (B (x + 1 * h) - B (x + 0 * h))) with (a * h).
    + apply Rmult_integral_contrapositive; auto.
    + rewrite <- (H x h); replace (x + 1 * h) with (x + h) by ring; replace (x + 0 * h) with x by ring; ring.
  - cbn [List.length Nat.pow]; replace (2 * 2 ^ List.length bits)%nat
      with (2 ^ List.length bits + 2 ^ List.length bits)%nat by lia.
    rewrite weighted_app.
    assert (PM := pow2_pos (List.length bits)).
    set (M := (2 ^ List.length bits)%nat) in *; set (c := INR M * h).
    assert (Hc : c <> 0) by (apply Rmult_integral_contrapositive; split; auto; apply not_0_INR; lia).
    rewrite (weighted_ext (dyadic (b :: bits)) (dyadic bits) _ (fun i => B (x + INR (S i) * h) - B (x + INR i * h)) M)
      by (intros i I; rewrite dyadic_first; auto).
    rewrite (weighted_ext (fun i => dyadic (b :: bits) (M + i)) (dyadic bits) _
      (fun i => (if b then -1 else 1) * (B (x + INR (S i) * h + c) - B (x + INR i * h + c))) M).
    2:{ intros i I; rewrite Nat.add_comm; unfold M; rewrite dyadic_second by auto; fold M.
        replace (S (i + M)) with (S i + M)%nat by lia; rewrite (plus_INR (S i) M), (plus_INR i M).
        unfold c; replace (x + (INR (S i) + INR M) * h) with (x + INR (S i) * h + INR M * h) by ring.
        replace (x + (INR i + INR M) * h) with (x + INR i * h + INR M * h) by ring; ring. }
    rewrite <- weighted_plus.
    destruct b.
    + cbn [filter List.length lead] in H.
      rewrite (weighted_ext _ (dyadic bits) _ (fun i => (fun t => -1 * (B (t + c) - B t)) (x + INR (S i) * h) -
        (fun t => -1 * (B (t + c) - B t)) (x + INR i * h))) by (intros; ring).
      apply (IH (-1 * (a * c)) (fun t => -1 * (B (t + c) - B t))); auto.
      * apply Rmult_integral_contrapositive; split; [lra|apply Rmult_integral_contrapositive; auto].
      * apply (lead_scale _ (-1) (a * c) (fun t => B (t + c) - B t)), H.
    + cbn [filter] in H.
      rewrite (weighted_ext _ (dyadic bits) _ (fun i => (fun t => B t + B (t + c)) (x + INR (S i) * h) -
        (fun t => B t + B (t + c)) (x + INR i * h))) by (intros; ring).
      apply (IH (a + a) (fun t => B t + B (t + c))); auto; [lra|].
      apply lead_plus; auto; apply lead_shift; auto.
Qed.

Lemma walsh_next_moment T k : 0 < T -> switched (fun t => t ^ S (ones k)) T (walsh_times T k) <> 0.
Proof.
  intros HT; unfold walsh_times, switched.
  assert (PN : (0 < samples_count k)%nat) by apply pow2_pos.
  assert (PR : 0 < INR (samples_count k)) by (apply lt_0_INR; auto).
  set (tau := fun i => T * INR i / INR (samples_count k)).
  assert (T0 : tau O = 0) by (unfold tau; cbn [INR]; field; lra).
  assert (T1 : tau (S (0 + (samples_count k - 1))) = T).
  { unfold tau; replace (S (0 + (samples_count k - 1))) with (samples_count k) by lia; field; lra. }
  rewrite <- (dyadic_0 (binary_digits k)) at 1; rewrite <- T0 at 1; rewrite <- T1 at 1.
  set (m := S (ones k)).
  rewrite (switched_changes (fun t => t ^ m) (dyadic (binary_digits k)) tau)
    by (intros; apply dyadic_cases).
  replace (S (samples_count k - 1)) with (samples_count k) by lia.
  rewrite (weighted_ext _ (dyadic (binary_digits k)) _
    (fun i => (fun t => t ^ m) (0 + INR (S i) * (T / INR (samples_count k))) -
              (fun t => t ^ m) (0 + INR i * (T / INR (samples_count k))))).
  - destruct (lead_pow (ones k)) as [a [P L]].
    unfold samples_count; rewrite <- (binary_digits_length k).
    apply (dyadic_lead (binary_digits k) a (fun t => t ^ m)); [| |exact L]; [|lra].
    apply Rgt_not_eq, Rdiv_lt_0_compat; auto; apply lt_0_INR, pow2_pos.
  - intros i _; cbn [Nat.add]; f_equal; unfold tau; do 2 f_equal; field; lra.
Qed.

Lemma x_next_moment T l : 0 < T -> switched (fun t => t ^ S l) T (x_times T l) <> 0.
Proof.
  intros HT; unfold x_times, switched.
  assert (PN := pow2_pos l). assert (PR : 0 < INR (2 ^ l)) by (apply lt_0_INR; auto).
  set (tau := fun i => T * INR i / INR (2 ^ l)).
  assert (T0 : tau O = 0) by (unfold tau; cbn [INR]; field; lra).
  assert (T1 : tau (S (0 + (2 ^ l - 1))) = T).
  { unfold tau; replace (S (0 + (2 ^ l - 1))) with (2 ^ l)%nat by lia; field; lra. }
  rewrite <- (dyadic_0 (repeat true l)) at 1; rewrite <- T0 at 1; rewrite <- T1 at 1.
  set (m := S l).
  rewrite (switched_changes (fun t => t ^ m) (dyadic (repeat true l)) tau)
    by (intros; apply dyadic_cases).
  replace (S (2 ^ l - 1)) with (2 ^ l)%nat by lia.
  rewrite (weighted_ext _ (dyadic (repeat true l)) _
    (fun i => (fun t => t ^ m) (0 + INR (S i) * (T / INR (2 ^ l))) -
              (fun t => t ^ m) (0 + INR i * (T / INR (2 ^ l))))).
  - assert (F : List.length (filter (fun b : bool => b) (repeat true l)) = l).
    { clear; induction l; cbn; auto. }
    destruct (lead_pow l) as [a [P L]].
    assert (D := dyadic_lead (repeat true l) a (fun t => t ^ m) 0 (T / INR (2 ^ l))).
    rewrite F, repeat_length in D; apply D; [|lra|exact L].
    apply Rgt_not_eq, Rdiv_lt_0_compat; auto.
  - intros i _; cbn [Nat.add]; f_equal; unfold tau; do 2 f_equal; field; lra.
Qed.

(** ** XY concatenation *)

Fixpoint zswitched3 (s t0 T : Z) (l : list Z) : Z :=
  match l with [] => s * (T * T * T - t0 * t0 * t0) | t :: l' => s * (t * t * t - t0 * t0 * t0) + zswitched3 (- s) t T l' end%Z.
Lemma zswitched3_real u l : forall s t0 T,
  switched_from (fun t => t ^ 3) (IZR s) (IZR t0 * u) (IZR T * u) (map (fun z => IZR z * u) l) =
  IZR (zswitched3 s t0 T l) * u ^ 3.
Proof.
  induction l as [|t l IH]; intros s t0 T; cbn [map switched_from zswitched3].
  - rewrite mult_IZR, minus_IZR, !mult_IZR; ring.
  - rewrite <- opp_IZR, IH, plus_IZR, mult_IZR, minus_IZR, !mult_IZR; ring.
Qed.
Lemma xy_switched3 T l ps : switched (fun t => t ^ 3) T (flip_times (map (scale_z (T / 2 ^ (l * 2))) ps)) =
  IZR (zswitched3 1 0 (4 ^ Z.of_nat l) (zflips ps)) * (T / 2 ^ (l * 2)) ^ 3.
Proof. unfold switched; rewrite flips_scale, <- zswitched3_real, <- unit_total; f_equal; ring. Qed.

Lemma xy_sensitive T x n pre name : 0 < T -> truncates_to x n -> (1 <= n <= 2)%nat ->
  exists s, new_xy_concatenated_sequence T x pre name = Ok s /\ sensitive n s.
Proof.
  intros HT HX HN; assert (SM : small n) by (unfold small; lia).
  exists (sequence_of T name (with_pre_post pre T (map (scale_z (T / 2 ^ (n * 2))) (xy_small n)))); split.
  - apply (xy_model T x n pre name (xy_small n) HT HX); [lia|apply xy_small_slots; auto|intros; apply xy_small_bounds; auto].
  - apply sensitive_intro; assert (U := unit_pos T n HT).
    assert (n = 1 \/ n = 2)%nat as [-> | ->] by lia.
    + rewrite xy_switched2; apply Rmult_integral_contrapositive; split; [|apply pow_nonzero; lra].
      apply (not_0_IZR); vm_compute; discriminate.
    + rewrite xy_switched3; apply Rmult_integral_contrapositive; split; [|apply pow_nonzero; lra].
      apply (not_0_IZR); vm_compute; discriminate.
Qed.

(** ** All requests *)

Lemma increasing_map_seq (f : nat -> R) n : forall a, (forall i, (a <= i < a + n)%nat -> f i < f (S i)) ->
  strictly_increasing (map f (seq a (S n))).
Proof.
  induction n; intros a H; [cbn; auto|].
  change (seq a (S (S n))) with (a :: seq (S a) (S n)); cbn [map]; split.
  - cbn; apply H; lia.
  - apply IHn; intros i I; apply H; lia.
Qed.

Lemma uhrig_sensitive T name pre ps n : 0 < T -> flip_times ps = map (uhrig_time T n) (seq 1 n) ->
  sensitive n (sequence_of T name (with_pre_post pre T ps)).
Proof.
  intros HT F; replace n with (List.length (flip_times ps)) by (rewrite F, map_length, seq_length; auto).
  apply pulse_count_bound; auto; rewrite F.
  - rewrite <- (uhrig_time_0 T n).
    change (strictly_increasing (map (uhrig_time T n) (seq 0 (S n)))).
    apply increasing_map_seq; intros i I; apply uhrig_increasing; auto; lia.
  - intros t I; apply in_map_iff in I; destruct I as [i [<- I]]; apply in_seq in I; apply uhrig_within; auto; lia.
Qed.

Theorem request_sensitivity r T pre name n : 0 < T -> valid_request r -> suppressed_order r n ->
  exists s, build_sequence r T pre name = Ok s /\ sensitive n s.
Proof.
  intros HT HV HO; destruct r as [| |x|x|x|x|x|x y|x|x]; cbn [valid_request suppressed_order build_sequence] in *.
  - subst n; eexists; split; [apply ramsey_timing; auto|].
    apply sensitive_intro; cbn [flip_times]; unfold switched; cbn [switched_from]; simpl; lra.
  - subst n; eexists; split; [apply spin_echo_timing; auto|].
    apply sensitive_intro; cbn [flip_times]; unfold switched; cbn [switched_from].
    match goal with |- ?x <> 0 => replace x with (- (T ^ 2 / 2)) by field end.
    assert (0 < T ^ 2) by (apply pow_lt; auto); lra.
  - destruct HO as [k [K ->]]; assert (P := truncates_pos _ _ HV K).
    eexists; split; [apply (carr_purcell_timing T x k); auto|].
    apply sensitive_intro; rewrite cpmg_flips by discriminate; apply cpmg_next_moment; auto.
  - destruct HO as [k [K ->]]; assert (P := truncates_pos _ _ HV K).
    eexists; split; [apply (cpmg_timing T x k); auto|].
    apply sensitive_intro; rewrite cpmg_flips by discriminate; apply cpmg_next_moment; auto.
  - assert (P := truncates_pos _ _ HV HO).
    eexists; split; [apply (uhrig_timing T x n); auto|].
    apply uhrig_sensitive; auto.
    rewrite <- (flip_times_uniform AY) by discriminate; rewrite map_map; reflexivity.
  - destruct HO as [k [K ->]]; assert (P := truncates_pos _ _ HV K).
    eexists; split; [apply (periodic_timing T x k); auto|].
    assert (F : flip_times (map (fun i => (AX, INR i * T / (INR k + 1))) (seq 1 k)) =
                map (fun i => INR i * T / (INR k + 1)) (seq 1 k)).
    { rewrite <- (flip_times_uniform AX) by discriminate; rewrite map_map; auto. }
    apply sensitive_intro; rewrite F; apply periodic_next_moment; auto.
  - destruct HO as [k [K ->]].
    eexists; split; [apply (walsh_model T x k); auto|].
    apply sensitive_intro; rewrite flip_times_uniform by discriminate; apply walsh_next_moment; auto.
  - destruct HV as [V1 V2]; assert (P := truncates_pos _ _ V2 HO).
    destruct (trunc x V1) as [n1 [P1 [T1 _]]].
    eexists; split; [apply (quadratic_timing T x y n1 n); auto|].
    apply uhrig_sensitive; auto; apply quadratic_flips.
  - assert (P := truncates_pos _ _ HV HO).
    eexists; split; [apply (x_model T x n); auto|].
    apply sensitive_intro; rewrite flip_times_uniform by discriminate; apply x_next_moment; auto.
  - destruct HO as [HO L2]; assert (P := truncates_pos _ _ HV HO); apply xy_sensitive; auto.
Qed.
