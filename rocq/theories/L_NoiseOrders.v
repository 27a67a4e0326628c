(** * Orders of dephasing noise suppressed by the predefined sequences *)

From Coq Require Import Lia ZArith.
From Verif Require Export L_Noise.
Import ListNotations.
Open Scope string_scope.
Open Scope list_scope.
Open Scope R_scope.

(** ** Even Carr-Purcell sequences *)

Lemma alternating_linear n : alternating n INR = - (-1) ^ n * (2 * INR n - 1) / 4 - 1 / 4.
Proof. induction n; cbn [alternating]; [simpl; field|]; rewrite IHn, S_INR; simpl pow; field. Qed.

Lemma pow_minus_one n : (-1) ^ n = if Nat.even n then 1 else -1.
Proof.
  induction n; [auto|]. rewrite Nat.even_succ, <- Nat.negb_even; simpl pow; rewrite IHn.
  destruct (Nat.even n); simpl; ring.
Qed.

Lemma cpmg_second_moment T n : (1 <= n)%nat -> Nat.even n = true -> switched (fun t => t ^ 2) T (cpmg_times T n) = 0.
Proof.
  intros H EV; unfold cpmg_times; destruct n as [|n]; [lia|].
  set (tau := fun i => T / INR (S n) * (INR i - 1 / 2)).
  assert (N := pos_INR n).
  assert (NZ : INR (S n) <> 0) by (rewrite S_INR; lra).
  cbn [seq map]; unfold switched; cbn [switched_from]; rewrite switched_from_seq.
  rewrite (alternating_ext _ _ (fun j => (T / INR (S n)) ^ 2 * 2 + (T / INR (S n)) ^ 2 * 2 * INR j)).
  2:{ intros i _; unfold tau; cbn [Nat.add]; rewrite !(S_INR i), !(S_INR (S i)), !(S_INR i); field; auto. }
  rewrite alternating_plus, alternating_const, alternating_scale, alternating_linear; unfold tau.
  replace (1 + n)%nat with (S n) by lia; change (INR 1) with 1.
  rewrite Nat.even_succ in EV; rewrite pow_minus_one; rewrite <- Nat.negb_odd, EV; cbn [negb].
  rewrite S_INR in *; field; auto.
Qed.

(** ** XY concatenation of order two *)

Fixpoint zswitched2 (s t0 T : Z) (l : list Z) : Z :=
  match l with [] => s * (T * T - t0 * t0) | t :: l' => s * (t * t - t0 * t0) + zswitched2 (- s) t T l' end%Z.
Lemma zswitched2_real u l : forall s t0 T,
  switched_from (fun t => t ^ 2) (IZR s) (IZR t0 * u) (IZR T * u) (map (fun z => IZR z * u) l) =
  IZR (zswitched2 s t0 T l) * u ^ 2.
Proof.
  induction l as [|t l IH]; intros s t0 T; cbn [map switched_from zswitched2].
  - rewrite mult_IZR, minus_IZR, !mult_IZR; ring.
  - rewrite <- opp_IZR, IH, plus_IZR, mult_IZR, minus_IZR, !mult_IZR; ring.
Qed.
Lemma xy_switched2 T l ps : switched (fun t => t ^ 2) T (flip_times (map (scale_z (T / 2 ^ (l * 2))) ps)) =
  IZR (zswitched2 1 0 (4 ^ Z.of_nat l) (zflips ps)) * (T / 2 ^ (l * 2)) ^ 2.
Proof. unfold switched; rewrite flips_scale, <- zswitched2_real, <- unit_total; f_equal; ring. Qed.
Lemma xy_two_switched2 : zswitched2 1 0 (4 ^ Z.of_nat 2) (zflips (xy_small 2)) = 0%Z.
Proof. vm_compute; reflexivity. Qed.

Lemma xy_orders T x n pre name : 0 < T -> truncates_to x n -> (1 <= n <= 2)%nat ->
  exists s, new_xy_concatenated_sequence T x pre name = Ok s /\ forall c, (List.length c <= n)%nat -> cancels c s.
Proof.
  intros HT HX HN; assert (SM : small n) by (unfold small; lia).
  exists (sequence_of T name (with_pre_post pre T (map (scale_z (T / 2 ^ (n * 2))) (xy_small n)))); split.
  - apply (xy_model T x n pre name (xy_small n) HT HX); [lia|apply xy_small_slots; auto|intros; apply xy_small_bounds; auto].
  - intros c L; apply (cancels_intro n); auto; intros m M.
    assert (m = 1 \/ m = 2)%nat as [-> | ->] by lia.
    + transitivity (switched (fun t => t) T (flip_times (map (scale_z (T / 2 ^ (n * 2))) (xy_small n)))).
      * apply switched_from_ext; intros; simpl; ring.
      * rewrite xy_switched, xy_small_switched by auto; ring.
    + assert (n = 2)%nat as -> by lia; rewrite xy_switched2, xy_two_switched2; ring.
Qed.

(** ** All requests *)

Lemma first_moment_power T ts : switched (fun t => t) T ts = 0 -> switched (fun t => t ^ 1) T ts = 0.
Proof. intros <-; apply switched_from_ext; intros; simpl; ring. Qed.

Lemma cpmg_moments T k m : (1 <= k)%nat -> (1 <= m <= if Nat.even k then 2 else 1)%nat ->
  switched (fun t => t ^ m) T (cpmg_times T k) = 0.
Proof.
  intros K M; destruct (Nat.even k) eqn:EV.
  - assert (m = 1 \/ m = 2)%nat as [-> | ->] by lia;
      [apply first_moment_power, cpmg_first_moment; auto|apply cpmg_second_moment; auto].
  - assert (m = 1)%nat as -> by lia; apply first_moment_power, cpmg_first_moment; auto.
Qed.

Lemma truncates_pos x n : 1 <= x -> truncates_to x n -> (1 <= n)%nat.
Proof. intros A [B C]; destruct n; [cbn in C; lra|lia]. Qed.

Lemma cpmg_flips a T k : a <> AZ -> flip_times (map (fun i => (a, T / INR k * (INR i - 1 / 2))) (seq 1 k)) = cpmg_times T k.
Proof.
  intros H; rewrite <- (flip_times_uniform a (cpmg_times T k)) by auto; unfold cpmg_times; rewrite map_map; auto.
Qed.

Lemma request_orders r T pre name n : 0 < T -> valid_request r -> suppressed_order r n ->
  exists s, build_sequence r T pre name = Ok s /\ forall c, (List.length c <= n)%nat -> cancels c s.
Proof.
  intros HT HV HO; destruct r as [| |x|x|x|x|x|x y|x|x]; cbn [valid_request suppressed_order build_sequence] in *.
  - subst n; eexists; split; [apply ramsey_timing; auto|].
    intros c L; apply (cancels_intro 0); auto; lia.
  - subst n; eexists; split; [apply spin_echo_timing; auto|].
    intros c L; apply (cancels_intro 1); auto; intros m M; assert (m = 1)%nat as -> by lia.
    cbn [flip_times]; unfold switched; cbn [switched_from]; field.
  - destruct HO as [k [K ->]]; assert (P := truncates_pos _ _ HV K).
    eexists; split; [apply (carr_purcell_timing T x k); auto|].
    intros c L; eapply cancels_intro; [|exact L]; intros m M; rewrite cpmg_flips by discriminate; apply cpmg_moments; auto.
  - destruct HO as [k [K ->]]; assert (P := truncates_pos _ _ HV K).
    eexists; split; [apply (cpmg_timing T x k); auto|].
    intros c L; eapply cancels_intro; [|exact L]; intros m M; rewrite cpmg_flips by discriminate; apply cpmg_moments; auto.
  - assert (P := truncates_pos _ _ HV HO).
    destruct (proj2 (uhrig_cancels T x n pre name [] HT HO P ltac:(cbn; lia))) as [s [E _]]; exists s; split; auto.
    intros c L; destruct (proj2 (uhrig_cancels T x n pre name c HT HO P L)) as [s' [E' X]]; rewrite E in E'; injection E' as <-; auto.
  - destruct HO as [k [K ->]]; assert (P := truncates_pos _ _ HV K).
    eexists; split; [apply (periodic_timing T x k); auto|].
    intros c L; eapply cancels_intro; [|exact L]; intros m M.
    assert (F : flip_times (map (fun i => (AX, INR i * T / (INR k + 1))) (seq 1 k)) =
                map (fun i => INR i * T / (INR k + 1)) (seq 1 k)).
    { rewrite <- (flip_times_uniform AX) by discriminate; rewrite map_map; auto. }
    rewrite F.
    destruct (Nat.even k) eqn:EV; [lia|]; assert (m = 1)%nat as -> by lia.
    apply first_moment_power; rewrite periodic_first_moment, EV; auto.
  - destruct HO as [k [K ->]].
    destruct (walsh_cancels T x k pre name HT HV K) as [ts [E [_ X]]]; eexists; split; [exact E|].
    intros c L; apply X; auto.
  - destruct HV as [V1 V2]; assert (P := truncates_pos _ _ V2 HO).
    destruct (trunc x V1) as [n1 [P1 [T1 _]]].
    destruct (quadratic_cancels T x y n1 n pre name HT T1 HO P1 P) as [s [E [_ X]]]; exists s; auto.
  - assert (P := truncates_pos _ _ HV HO).
    destruct (x_cancels T x n pre name HT HO P) as [ts [E [_ [X _]]]]; eexists; split; [exact E|].
    intros c L; apply X; auto.
  - destruct HO as [HO L2]; assert (P := truncates_pos _ _ HV HO); apply xy_orders; auto.
Qed.

Theorem request_suppression r T pre name n : 0 < T -> valid_request r -> suppressed_order r n ->
  exists s, build_sequence r T pre name = Ok s /\ suppresses n s.
Proof.
  intros HT HV HO; destruct (request_orders r T pre name n HT HV HO) as [s [E X]]; exists s; split; auto.
  destruct (proj1 (request_validity r T pre name) (conj HT HV)) as [s' [E' [CS [_ [_ [ND _]]]]]].
  rewrite E in E'; injection E' as <-; apply suppression; auto.
Qed.

(** ** No sequence of n pulses cancels more than n orders *)

(** coefficients of  c(t) (a - t) *)
Fixpoint times_root (a : R) (c : list R) : list R :=
  match c with
  | [] => []
  | x :: c' => a * x :: (match times_root a c' with [] => [- x] | y :: d => (y - x) :: d end)
  end.
Lemma times_root_nonempty a x c : exists y d, times_root a (x :: c) = y :: d.
Proof. cbn; destruct (times_root a c); eauto. Qed.
Lemma times_root_length a c : c <> [] -> List.length (times_root a c) = S (List.length c).
Proof.
  induction c as [|x c IH]; intros H; [congruence|]; cbn [times_root List.length].
  destruct c as [|x' c]; [reflexivity|].
  destruct (times_root_nonempty a x' c) as [y [d E]]; rewrite E in *; cbn [List.length] in *; rewrite IH; auto; discriminate.
Qed.
Lemma times_root_value a c t : polynomial (times_root a c) t = polynomial c t * (a - t).
Proof.
  induction c as [|x c IH]; cbn [times_root polynomial]; [ring|].
  destruct (times_root a c) as [|y d] eqn:E.
  - destruct c as [|x' c]; [cbn; ring|]; destruct (times_root_nonempty a x' c) as [? [? X]]; congruence.
  - cbn [polynomial] in *.
    replace (a * x + t * (y - x + t * polynomial d t)) with (a * x - t * x + t * (y + t * polynomial d t)) by ring.
    rewrite IH; ring.
Qed.

Definition node_polynomial (c : list R) (ts : list R) : list R := fold_right times_root c ts.

Lemma node_length c ts : c <> [] -> List.length (node_polynomial c ts) = (List.length ts + List.length c)%nat.
Proof.
  intros H; induction ts as [|t ts IH]; cbn [node_polynomial fold_right]; auto.
  change (fold_right times_root c ts) with (node_polynomial c ts).
  rewrite times_root_length, IH; [cbn; lia|].
  intros E; rewrite E in IH; cbn in IH; destruct c; [congruence|cbn in IH; lia].
Qed.

Lemma RInt_positive (f : R -> R) a b : a < b -> (forall t, continuous f t) -> (forall t, a < t < b -> 0 < f t) -> 0 < RInt f a b.
Proof. intros H C P; apply RInt_gt_0; auto. Qed.

Fixpoint nodes (ts : list R) (t : R) : R := match ts with [] => 1 | a :: ts' => (a - t) * nodes ts' t end.
Lemma node_value c ts t : polynomial (node_polynomial c ts) t = polynomial c t * nodes ts t.
Proof.
  induction ts as [|a ts IH]; cbn [node_polynomial fold_right nodes]; [ring|].
  rewrite times_root_value; change (fold_right times_root c ts) with (node_polynomial c ts); rewrite IH; ring.
Qed.

Lemma nodes_positive ts t : (forall a, In a ts -> t < a) -> 0 < nodes ts t.
Proof.
  induction ts as [|a ts IH]; intros H; cbn [nodes]; [lra|].
  apply Rmult_lt_0_compat; [assert (t < a) by (apply H; left; auto); lra|apply IH; intros; apply H; right; auto].
Qed.

Lemma increasing_above t l a : strictly_increasing (t :: l) -> In a l -> t < a.
Proof.
  revert t; induction l as [|b l IH]; intros t H I; [destruct I|].
  destruct H as [H1 H2]; destruct I as [<-|I]; auto; apply Rlt_trans with b; auto.
Qed.

Lemma switched_scale_from k f T ts : forall s t0,
  switched_integral_from f (k * s) t0 T ts = k * switched_integral_from f s t0 T ts.
Proof.
  induction ts as [|t ts IH]; intros s t0; cbn [switched_integral_from]; [ring|].
  replace (- (k * s)) with (k * - s) by ring; rewrite IH; ring.
Qed.

Lemma switched_positive T ts : forall (g : R -> R) (t0 : R) (f : R -> R), (forall t, continuous f t) -> t0 < T -> strictly_increasing (t0 :: ts) ->
  (forall t, In t ts -> t < T) -> (forall t, t0 < t < T -> 0 < g t) -> (forall t, f t = g t * nodes ts t) ->
  0 < switched_integral_from f 1 t0 T ts.
Proof.
  induction ts as [|a ts IH]; intros g t0 f C HT SI BT PG E; cbn [switched_integral_from].
  - rewrite Rmult_1_l; apply RInt_positive; auto; intros t Ht; rewrite E; cbn [nodes]; rewrite Rmult_1_r; auto.
  - destruct SI as [S1 S2]; assert (a < T) by (apply BT; left; auto).
    replace (- (1)) with (-1 * 1) by ring; rewrite switched_scale_from.
    assert (P1 : 0 < RInt f t0 a).
    { apply RInt_positive; auto; intros t Ht; rewrite E; apply Rmult_lt_0_compat; [apply PG; lra|].
      apply nodes_positive; intros b [<-|I]; [lra|]; assert (a < b) by (apply (increasing_above a ts); auto); lra. }
    assert (P2 : 0 < switched_integral_from (fun t => - f t) 1 a T ts).
    { apply (IH (fun t => g t * (t - a))); auto.
      - intros t; apply (continuous_opp f); auto.
      - intros; apply BT; right; auto.
      - intros t Ht; apply Rmult_lt_0_compat; [apply PG; lra|lra].
      - intros t; rewrite E; cbn [nodes]; ring. }
    assert (NEG : forall s t0', switched_integral_from (fun t => - f t) s t0' T ts = - switched_integral_from f s t0' T ts).
    { assert (RO : forall u v, RInt (fun t => - f t) u v = - RInt f u v)
        by (intros; apply (RInt_opp f); apply (ex_RInt_continuous f); auto).
      clear - RO; induction ts as [|b ts IH]; intros s t0'; cbn [switched_integral_from]; rewrite ?IH, RO; ring. }
    rewrite NEG in P2; lra.
Qed.

Lemma polynomial_scale k c t : polynomial (map (Rmult k) c) t = k * polynomial c t.
Proof. induction c as [|a c IH]; cbn; [ring|rewrite IH; ring]. Qed.

Theorem pulse_count_bound T name pre ps : 0 < T -> strictly_increasing (0 :: flip_times ps) ->
  (forall t, In t (flip_times ps) -> t < T) ->
  sensitive (List.length (flip_times ps)) (sequence_of T name (with_pre_post pre T ps)).
Proof.
  intros HT SI BT l E; cbn [sequence_of seq_duration seq_name] in *; apply sequence_of_inj in E; subst l.
  set (ts := flip_times ps) in *; set (c0 := node_polynomial [1] ts).
  set (I := switched_integral (polynomial c0) T ts).
  assert (P : 0 < I).
  { apply (switched_positive T ts (fun _ => 1) 0); auto; [intros; apply polynomial_continuous|intros; lra|].
    intros t; unfold c0; rewrite node_value; cbn; ring. }
  exists (map (Rmult (PI / I)) c0), (dephased_evolution (fun t => RInt (polynomial (map (Rmult (PI / I)) c0)) 0 t) T (with_pre_post pre T ps)).
  split; [unfold c0; rewrite map_length, node_length by discriminate; cbn; lia|].
  split; [apply schroedinger_dephasing; auto; intros; apply polynomial_continuous|].
  apply has_effect; fold ts; rewrite <- switched_integral_polynomial, switched_integral_polynomial.
  transitivity (PI / I * switched (fun t => RInt (polynomial c0) 0 t) T ts).
  - rewrite <- switched_scale; apply switched_from_ext; intros a b.
    assert (K : forall u, RInt (polynomial (map (Rmult (PI / I)) c0)) 0 u = PI / I * RInt (polynomial c0) 0 u).
    { intros u; rewrite <- (RInt_scal (polynomial c0)).
      - apply RInt_ext; intros; apply polynomial_scale.
      - eexists; apply is_RInt_polynomial. }
    rewrite !K; ring.
  - rewrite <- switched_integral_polynomial; fold I; field; lra.
Qed.
