(** * Walsh sequences *)

From Verif Require Export L_Moments.
From Coq Require Import Lia.
Import ListNotations.
Open Scope string_scope.
Open Scope list_scope.
Open Scope R_scope.

(** ** The Walsh function on dyadic intervals *)

Lemma pow_m1_cases n : (-1) ^ n = 1 \/ (-1) ^ n = -1.
Proof. induction n; simpl; [auto|destruct IHn as [-> | ->]; [right|left]; ring]. Qed.

Lemma sin_shift_nat q y : sin (INR q * PI + y) = (-1) ^ q * sin y.
Proof.
  induction q; [simpl; rewrite Rmult_0_l, Rplus_0_l; ring|].
  rewrite S_INR; replace ((INR q + 1) * PI + y) with (INR q * PI + y + PI) by ring.
  rewrite neg_sin, IHq; simpl; ring.
Qed.

Lemma sgn_sin q y : INR q < y < INR q + 1 -> sgn (sin (PI * y)) = (-1) ^ q.
Proof.
  intros [A B]; assert (P := PI_RGT_0).
  replace (PI * y) with (INR q * PI + (y - INR q) * PI) by ring; rewrite sin_shift_nat.
  assert (0 < sin ((y - INR q) * PI)) by (apply sin_gt_0; nra).
  unfold sgn; destruct (pow_m1_cases q) as [-> | ->].
  - destruct (Rlt_dec 0 (1 * sin ((y - INR q) * PI))); [auto|lra].
  - destruct (Rlt_dec 0 (-1 * sin ((y - INR q) * PI))); [lra|].
    destruct (Rlt_dec (-1 * sin ((y - INR q) * PI)) 0); lra.
Qed.

(** value on the i-th of 2^|bits| intervals *)
Fixpoint dyadic (bits : list bool) (i : nat) : R :=
  match bits with
  | [] => 1
  | b :: bits' => (if b then (-1) ^ (i / 2 ^ List.length bits') else 1) * dyadic bits' i
  end.

Lemma pow2_pos n : (0 < 2 ^ n)%nat.
Proof. apply Nat.neq_0_lt_0, Nat.pow_nonzero; lia. Qed.

Lemma dyadic_cases bits i : dyadic bits i = 1 \/ dyadic bits i = -1.
Proof.
  induction bits as [|b bits IH]; simpl; [auto|].
  destruct b; [|rewrite Rmult_1_l; auto].
  destruct (pow_m1_cases (i / 2 ^ List.length bits)) as [-> | ->], IH as [-> | ->]; lra.
Qed.

Lemma dyadic_0 bits : dyadic bits 0 = 1.
Proof.
  induction bits as [|b bits IH]; simpl; auto.
  rewrite IH, Nat.div_0_l by (apply Nat.pow_nonzero; lia); destruct b; simpl; ring.
Qed.

Lemma pow_m1_even n : (-1) ^ (2 * n) = 1.
Proof. rewrite pow_mult; replace ((-1) ^ 2) with 1 by ring; apply pow1. Qed.

Lemma dyadic_period bits : forall i c, dyadic bits (i + c * 2 ^ List.length bits) = dyadic bits i.
Proof.
  induction bits as [|b bits IH]; intros i c; simpl; auto.
  assert (NZ : (2 ^ List.length bits)%nat <> O) by (apply Nat.pow_nonzero; lia).
  replace (i + c * (2 ^ List.length bits + (2 ^ List.length bits + 0)))%nat
    with (i + (2 * c) * 2 ^ List.length bits)%nat by lia.
  rewrite IH, Nat.div_add by auto; destruct b; auto.
  rewrite pow_add, pow_m1_even; ring.
Qed.

(** first and second half *)
Lemma dyadic_first b bits i : (i < 2 ^ List.length bits)%nat -> dyadic (b :: bits) i = dyadic bits i.
Proof. intros H; simpl; rewrite Nat.div_small by auto; destruct b; simpl; ring. Qed.
Lemma dyadic_second b bits i : (i < 2 ^ List.length bits)%nat ->
  dyadic (b :: bits) (i + 2 ^ List.length bits) = (if b then -1 else 1) * dyadic bits i.
Proof.
  intros H; simpl; replace (i + 2 ^ List.length bits)%nat with (i + 1 * 2 ^ List.length bits)%nat by lia.
  rewrite dyadic_period, Nat.div_add by (apply Nat.pow_nonzero; lia).
  rewrite Nat.div_small by auto; destruct b; simpl; ring.
Qed.

Lemma pow2_INR n : INR (2 ^ n) = 2 ^ n.
Proof. rewrite pow_INR; reflexivity. Qed.

(** floor of 2^j x on the i-th interval *)
Lemma interval_floor d j i x :
  INR i < 2 ^ (j + d) * x < INR i + 1 ->
  INR (i / 2 ^ d) < 2 ^ j * x < INR (i / 2 ^ d) + 1.
Proof.
  intros [A B]; rewrite pow_add in A, B.
  assert (NZ : (2 ^ d)%nat <> O) by (apply Nat.pow_nonzero; lia).
  assert (D := Nat.div_mod i (2 ^ d) NZ); assert (M := Nat.mod_upper_bound i (2 ^ d) NZ).
  assert (P : 0 < 2 ^ d) by (apply pow_lt; lra).
  set (q := (i / 2 ^ d)%nat) in *; clearbody q; set (r := (i mod 2 ^ d)%nat) in *; clearbody r.
  apply (f_equal INR) in D; rewrite plus_INR, mult_INR, pow2_INR in D.
  assert (R0 := pos_INR r). assert (R1 : INR r + 1 <= 2 ^ d).
  { rewrite <- pow2_INR, <- S_INR; apply le_INR; lia. }
  split; apply (Rmult_lt_reg_r (2 ^ d)); auto; nra.
Qed.

Lemma rademacher_product_dyadic bits : forall j i x,
  INR i < 2 ^ (j + List.length bits) * x < INR i + 1 ->
  rademacher_product (S j) bits x = dyadic bits i.
Proof.
  induction bits as [|b bits IH]; intros j i x H; cbn [rademacher_product dyadic]; auto.
  cbn [List.length] in H.
  rewrite (IH (S j) i x); [|replace (S j + List.length bits)%nat with (j + S (List.length bits))%nat by lia; auto].
  destruct b; auto; f_equal.
  unfold rademacher; replace (2 ^ S j * PI * x) with (PI * (2 ^ S j * x)) by ring.
  apply sgn_sin, interval_floor.
  replace (S j + List.length bits)%nat with (j + S (List.length bits))%nat by lia; auto.
Qed.

Lemma binary_digits_length k : List.length (binary_digits k) = S (Nat.log2 k).
Proof. unfold binary_digits; rewrite map_length, seq_length; auto. Qed.

Definition samples_count (k : nat) : nat := 2 ^ S (Nat.log2 k).

Lemma paley_dyadic k i x :
  INR i < INR (samples_count k) * x < INR i + 1 -> paley k x = dyadic (binary_digits k) i.
Proof.
  intros H; apply rademacher_product_dyadic; rewrite binary_digits_length; cbn [Nat.add].
  rewrite <- pow2_INR; exact H.
Qed.

(** ** The model *)

Lemma np_sign_sgn x : np_sign x = sgn x.
Proof. unfold np_sign, sgn, ltb; destruct (Rlt_dec 0 x); auto; destruct (Rlt_dec x 0); auto. Qed.

Lemma fold_left_product {A} (f : A -> R) l : forall a,
  fold_left (fun acc i => acc * f i) l a = a * fold_right (fun i acc => f i * acc) 1 l.
Proof. induction l; simpl; intros; [ring|rewrite IHl; ring]. Qed.

Lemma nth_binary_repr k m i : (i < m)%nat ->
  nth (m - 1 - i) (binary_repr k m) 0%nat = Nat.b2n (Nat.testbit k i).
Proof.
  intros H; unfold binary_repr.
  rewrite (nth_indep _ 0%nat ((fun i => Nat.b2n (Nat.testbit k (m - 1 - i))) 0%nat))
    by (rewrite map_length; unfold range; rewrite seq_length; lia).
  rewrite (map_nth (fun i => Nat.b2n (Nat.testbit k (m - 1 - i)))).
  unfold range; rewrite seq_nth by lia; do 2 f_equal; lia.
Qed.

Lemma rademacher_product_fold k x m j :
  rademacher_product (S j) (map (Nat.testbit k) (seq j m)) x =
  fold_right (fun i acc => np_sign (sin (2 ^ (i + 1) * PI * x)) ^ (Nat.b2n (Nat.testbit k i)) * acc) 1 (seq j m).
Proof.
  revert j; induction m; intros j; cbn [seq map rademacher_product fold_right]; auto.
  rewrite IHm; f_equal; rewrite np_sign_sgn, Nat.add_1_r; unfold rademacher.
  destruct (Nat.testbit k j); simpl; ring.
Qed.

Lemma walsh_value_paley k x :
  walsh_value (walsh_hamming_weight k) (binary_repr k (walsh_hamming_weight k)) x = paley k x.
Proof.
  unfold walsh_value, paley, binary_digits, walsh_hamming_weight.
  set (m := S (Nat.log2 k)); clearbody m.
  rewrite (fold_left_product (fun i => np_sign (sin (2 ^ (i + 1) * PI * x)) ^ nth (m - 1 - i) (binary_repr k m) 0%nat)).
  rewrite Rmult_1_l, rademacher_product_fold; unfold range.
  assert (E : forall l, (forall i, In i l -> (i < m)%nat) ->
    fold_right (fun i acc => np_sign (sin (2 ^ (i + 1) * PI * x)) ^ nth (m - 1 - i) (binary_repr k m) 0%nat * acc) 1 l =
    fold_right (fun i acc => np_sign (sin (2 ^ (i + 1) * PI * x)) ^ (Nat.b2n (Nat.testbit k i)) * acc) 1 l).
  { induction l as [|i l IH]; intros H; cbn [fold_right]; auto.
    rewrite IH by (intros; apply H; right; auto); rewrite nth_binary_repr; auto; apply H; left; auto. }
  apply E; intros i I; apply in_seq in I; lia.
Qed.

Lemma Int_part_neg_half n : (1 <= n)%nat -> Z.to_nat (np_ceil (INR n - 1 / 2)) = n.
Proof.
  intros H; unfold np_ceil; rewrite (Int_part_unique _ (- Z.of_nat n)).
  - rewrite Z.opp_involutive; apply Nat2Z.id.
  - rewrite opp_IZR, <- INR_IZR_INZ; lra.
Qed.

Lemma walsh_array_dyadic k : walsh_array k = map (dyadic (binary_digits k)) (seq 0 (samples_count k)).
Proof.
  unfold walsh_array, np_arange, range; cbv zeta; rewrite map_map.
  fold (samples_count k); change (2 ^ walsh_hamming_weight k)%nat with (samples_count k).
  assert (P : (0 < samples_count k)%nat) by apply pow2_pos.
  assert (PR : 0 < INR (samples_count k)) by (apply lt_0_INR; auto).
  replace ((1 - 1 / (2 * INR (samples_count k))) / (1 / INR (samples_count k))) with (INR (samples_count k) - 1 / 2)
    by (field; lra).
  rewrite Int_part_neg_half by lia.
  apply map_ext; intros i; rewrite walsh_value_paley; apply paley_dyadic.
  replace (INR (samples_count k) * (1 / (2 * INR (samples_count k)) + INR i * (1 / INR (samples_count k))))
    with (INR i + 1 / 2) by (field; lra); lra.
Qed.

Definition change_times (w : nat -> R) (tau : nat -> R) (a n : nat) : list R :=
  map (fun i => tau (S i)) (filter (fun i => neqb (w i) (w (S i))) (seq a n)).

Lemma filter_ext_in' {A} (f g : A -> bool) l : (forall x, In x l -> f x = g x) -> filter f l = filter g l.
Proof. apply filter_ext_in. Qed.

Lemma walsh_offsets_model T k :
  map (Rmult T) (walsh_relative_offsets k) =
  change_times (dyadic (binary_digits k)) (fun i => T * INR i / INR (samples_count k)) 0 (samples_count k - 1).
Proof.
  unfold walsh_relative_offsets, change_times, range; cbv zeta; rewrite map_map.
  change (2 ^ walsh_hamming_weight k)%nat with (samples_count k); rewrite walsh_array_dyadic.
  assert (PR : 0 < INR (samples_count k)) by (apply lt_0_INR, pow2_pos).
  rewrite (filter_ext_in _ (fun i => neqb (dyadic (binary_digits k) i) (dyadic (binary_digits k) (S i)))).
  - apply map_ext; intros i; rewrite S_INR; field; lra.
  - intros i I; apply in_seq in I.
    assert (N : forall j, (j < samples_count k)%nat ->
      nth j (map (dyadic (binary_digits k)) (seq 0 (samples_count k))) 0 = dyadic (binary_digits k) j).
    { intros j J; rewrite (nth_indep _ 0 (dyadic (binary_digits k) 0)) by (rewrite map_length, seq_length; auto).
      rewrite map_nth, seq_nth by auto; auto. }
    rewrite !N by lia; rewrite Nat.add_1_r; auto.
Qed.

(** ** Times at which a sampled function changes *)

Lemma in_change_times w tau a n t :
  In t (change_times w tau a n) <-> exists i, (a <= i < a + n)%nat /\ w i <> w (S i) /\ t = tau (S i).
Proof.
  unfold change_times; rewrite in_map_iff; split.
  - intros [i [<- H]]; apply filter_In in H; destruct H as [A B]; apply in_seq in A; apply neqb_true in B; eauto.
  - intros [i [A [B ->]]]; exists i; split; auto; apply filter_In; split; [apply in_seq; auto|apply neqb_true; auto].
Qed.

Lemma change_times_increasing w tau n : forall a,
  (forall i j, (i < j)%nat -> tau i < tau j) -> strictly_increasing (change_times w tau a n).
Proof.
  induction n; intros a H; [simpl; auto|].
  unfold change_times; cbn [seq filter]; destruct (neqb (w a) (w (S a))); [|apply IHn; auto].
  cbn [map strictly_increasing]; split; [|apply IHn; auto].
  destruct (map _ _) as [|t l] eqn:E; auto.
  assert (I : In t (change_times w tau (S a) n)) by (unfold change_times; rewrite E; left; auto).
  apply in_change_times in I; destruct I as [i [B [_ ->]]]; apply H; lia.
Qed.

Fixpoint weighted (w : nat -> R) (g : nat -> R) (n : nat) : R :=
  match n with O => 0 | S m => weighted w g m + w m * g m end.

Lemma weighted_front w g n :
  weighted w g (S n) = w O * g O + weighted (fun i => w (S i)) (fun i => g (S i)) n.
Proof. induction n; [simpl; ring|]. cbn [weighted] in *; rewrite IHn; ring. Qed.
Lemma weighted_ext w w' g g' n :
  (forall i, (i < n)%nat -> w i * g i = w' i * g' i) -> weighted w g n = weighted w' g' n.
Proof. induction n; simpl; intros H; auto; rewrite IHn, (H n); auto. Qed.

Lemma switched_changes B w tau n : forall a,
  (forall i, w i = 1 \/ w i = -1) ->
  switched_from B (w a) (tau a) (tau (S (a + n))) (change_times w tau a n) =
  weighted (fun i => w (a + i)%nat) (fun i => B (tau (S (a + i))) - B (tau (a + i)%nat)) (S n).
Proof.
  induction n; intros a H.
  - simpl; rewrite Nat.add_0_r; ring.
  - rewrite weighted_front, Nat.add_0_r.
    rewrite (weighted_ext _ (fun i => w (S a + i)%nat) _ (fun i => B (tau (S (S a + i))) - B (tau (S a + i)%nat)))
      by (intros i _; rewrite !Nat.add_succ_r; reflexivity).
    rewrite <- (IHn (S a) H).
    unfold change_times; cbn [seq filter].
    replace (S (a + S n)) with (S (S a + n)) by lia.
    destruct (neqb (w a) (w (S a))) eqn:E.
    + apply neqb_true in E; cbn [map switched_from].
      assert (- w a = w (S a)) by (destruct (H a) as [E1|E1], (H (S a)) as [E2|E2]; rewrite E1, E2 in *; lra).
      rewrite H0; reflexivity.
    + apply neqb_false in E; rewrite (switched_from_start B _ (tau a) (tau (S a))), <- E; reflexivity.
Qed.

(** ** C37 *)

Definition walsh_times (T : R) (k : nat) : list R :=
  change_times (dyadic (binary_digits k)) (fun i => T * INR i / INR (samples_count k)) 0 (samples_count k - 1).

Lemma grid_increasing T k i j : 0 < T -> (i < j)%nat ->
  T * INR i / INR (samples_count k) < T * INR j / INR (samples_count k).
Proof.
  intros HT H; assert (PR : 0 < INR (samples_count k)) by (apply lt_0_INR, pow2_pos).
  apply lt_INR in H; unfold Rdiv; apply Rmult_lt_compat_r; [apply Rinv_0_lt_compat; auto|].
  apply Rmult_lt_compat_l; auto.
Qed.

Lemma walsh_times_spec T k t : 0 < T ->
  In t (walsh_times T k) <-> 0 < t < T /\ changes_sign (fun u => paley k (u / T)) t.
Proof.
  intros HT; unfold walsh_times; rewrite in_change_times.
  assert (PN : (0 < samples_count k)%nat) by apply pow2_pos.
  assert (PR : 0 < INR (samples_count k)) by (apply lt_0_INR; auto).
  set (N := samples_count k) in *.
  assert (V : forall i u, T * INR i / INR N < u < T * INR (S i) / INR N -> paley k (u / T) = dyadic (binary_digits k) i).
  { intros i u [A B]; apply paley_dyadic; fold N; rewrite S_INR in B.
    assert (E1 : T * INR i / INR N * INR N = T * INR i) by (field; lra).
    assert (E2 : T * (INR i + 1) / INR N * INR N = T * (INR i + 1)) by (field; lra).
    assert (E3 : INR N * (u / T) * T = INR N * u) by (field; lra).
    assert (T * INR i < INR N * u) by nra. assert (INR N * u < T * (INR i + 1)) by nra.
    split; apply (Rmult_lt_reg_r T); auto; rewrite E3; lra. }
  split.
  - intros [i [I [D ->]]].
    assert (STEP : 0 < T / INR N) by (apply Rdiv_lt_0_compat; auto).
    split.
    + split; [apply Rdiv_lt_0_compat; auto; apply Rmult_lt_0_compat; auto; apply lt_0_INR; lia|].
      replace T with (T * INR N / INR N) at 2 by (field; lra); apply grid_increasing; auto; lia.
    + exists (T / INR N); split; auto; intros s s1 HS HS1.
      rewrite (V i), (V (S i)).
      * destruct (dyadic_cases (binary_digits k) i) as [E1|E1], (dyadic_cases (binary_digits k) (S i)) as [E2|E2];
          rewrite E1, E2 in *; lra.
      * rewrite (S_INR (S i)); replace (T * (INR (S i) + 1) / INR N) with (T * INR (S i) / INR N + T / INR N) by (field; lra); lra.
      * rewrite (S_INR i) in *.
        replace (T * INR i / INR N) with (T * (INR i + 1) / INR N - T / INR N) by (field; lra); lra.
  - intros [[T0 T1] [eps [E H]]].
    assert (STEP : 0 < T / INR N) by (apply Rdiv_lt_0_compat; auto).
    (* the interval containing t *)
    destruct (trunc_exists (t * INR N / T + 1)) as [j [J1 [J2 J3]]].
    { assert (0 < t * INR N / T) by (apply Rdiv_lt_0_compat; auto; nra); lra. }
    destruct j as [|i]; [lia|]. rewrite S_INR in J2, J3.
    assert (Q : t * INR N / T * T = t * INR N) by (field; lra).
    assert (L1 : T * INR i <= t * INR N) by nra.
    assert (L2 : t * INR N < T * INR (S i)) by (rewrite S_INR; nra).
    assert (G : forall j, T * INR j / INR N * INR N = T * INR j) by (intros; field; lra).
    destruct (Req_dec (T * INR i) (t * INR N)) as [EQ|NE].
    + (* on the grid *)
      assert (TT : t = T * INR i / INR N) by (rewrite EQ; field; lra).
      destruct i as [|i]; [simpl in TT; unfold Rdiv in TT; rewrite Rmult_0_r, Rmult_0_l in TT; lra|].
      exists i; split; [|split; auto].
      * split; [lia|].
        assert (T * INR (S i) < T * INR N) by nra. assert (INR (S i) < INR N) by nra.
        apply INR_lt in H1; lia.
      * intros D.
        set (e := Rmin eps (T / INR N) / 2).
        assert (EE : 0 < e < eps /\ e < T / INR N).
        { unfold e; assert (0 < Rmin eps (T / INR N)) by (apply Rmin_pos; auto).
          generalize (Rmin_l eps (T / INR N)) (Rmin_r eps (T / INR N)); lra. }
        assert (X := H (t - e) (t + e) ltac:(lra) ltac:(lra)).
        rewrite (V i), (V (S i)), D in X.
        -- destruct (dyadic_cases (binary_digits k) (S i)) as [Y|Y]; rewrite Y in X; lra.
        -- rewrite (S_INR (S i)); replace (T * (INR (S i) + 1) / INR N) with (T * INR (S i) / INR N + T / INR N) by (field; lra); lra.
        -- rewrite (S_INR i) in *.
           replace (T * INR i / INR N) with (T * (INR i + 1) / INR N - T / INR N) by (field; lra); lra.
    + (* inside an interval *)
      exfalso.
      assert (A : T * INR i / INR N < t) by (apply (Rmult_lt_reg_r (INR N)); auto; rewrite G; lra).
      assert (B : t < T * INR (S i) / INR N) by (apply (Rmult_lt_reg_r (INR N)); auto; rewrite G; lra).
      set (e := Rmin eps (Rmin (t - T * INR i / INR N) (T * INR (S i) / INR N - t)) / 2).
      assert (EE : 0 < e < eps /\ e < t - T * INR i / INR N /\ e < T * INR (S i) / INR N - t).
      { unfold e; set (x := t - T * INR i / INR N) in *; set (y := T * INR (S i) / INR N - t) in *.
        assert (0 < x) by (unfold x; lra). assert (0 < y) by (unfold y; lra).
        assert (0 < Rmin x y) by (apply Rmin_pos; auto).
        assert (0 < Rmin eps (Rmin x y)) by (apply Rmin_pos; auto).
        generalize (Rmin_l eps (Rmin x y)) (Rmin_r eps (Rmin x y)) (Rmin_l x y) (Rmin_r x y); lra. }
      assert (X := H (t - e) (t + e) ltac:(lra) ltac:(lra)).
      rewrite (V i), (V i) in X by lra.
      destruct (dyadic_cases (binary_digits k) i) as [Y|Y]; rewrite Y in X; lra.
Qed.

Lemma walsh_model T x k pre name :
  0 < T -> 1 <= x <= 2000 -> truncates_to x k ->
  new_walsh_sequence T x pre name =
  Ok (sequence_of T name (with_pre_post pre T (map (fun t => (AX, t)) (walsh_times T k)))).
Proof.
  intros HT HX TR.
  unfold new_walsh_sequence; rewrite check_duration_ok by auto; cbn [bind].
  rewrite check_true by (apply andb_true_intro; split; apply leb_true; lra); cbn [bind].
  rewrite (int_count_truncates x k TR), walsh_offsets_model.
  apply (uniform_finish AX); auto; intros t I; apply walsh_times_spec in I; auto; lra.
Qed.

Theorem walsh_timing T x k pre name :
  (0 < T -> 1 <= x <= 2000 -> truncates_to x k ->
   exists ts, new_walsh_sequence T x pre name =
                Ok (sequence_of T name (with_pre_post pre T (map (fun t => (AX, t)) ts))) /\
     strictly_increasing ts /\
     forall t, In t ts <-> 0 < t < T /\ changes_sign (fun u => paley k (u / T)) t) /\
  (~ (0 < T /\ 1 <= x <= 2000) -> argument_error (new_walsh_sequence T x pre name)).
Proof.
  split.
  - intros HT HX TR; exists (walsh_times T k).
    split; [|split; [apply change_times_increasing; intros; apply grid_increasing; auto|intros; apply walsh_times_spec; auto]].
    apply walsh_model; auto.
  - intros H; unfold new_walsh_sequence; destruct (Rlt_dec 0 T) as [HT|HT].
    + rewrite check_duration_ok by auto; cbn [bind].
      rewrite check_false; [do 3 eexists; reflexivity|].
      apply andb_false_iff; destruct (Rle_dec 1 x); [right|left]; apply leb_false; lra.
    + destruct (check_duration_bad T HT) as [s [a [b ->]]]; do 3 eexists; reflexivity.
Qed.

(** ** C60: moments *)

(** [poly d B]: all differences of order d+1 vanish; polynomials of degree at
    most d have this property *)
Fixpoint poly (d : nat) (B : R -> R) : Prop :=
  match d with
  | O => forall x y, B x = B y
  | S d' => forall c, poly d' (fun t => B (t + c) - B t)
  end.

Lemma poly_ext d : forall B B', (forall t, B t = B' t) -> poly d B -> poly d B'.
Proof.
  induction d; simpl; intros B B' E H; [intros; rewrite <- !E; auto|].
  intros c; apply (IHd _ _ (fun t => f_equal2 Rminus (E (t + c)) (E t))), H.
Qed.
Lemma poly_up d : forall B, poly d B -> poly (S d) B.
Proof.
  induction d; intros B H; cbn [poly] in *.
  - intros c x y; rewrite (H (x + c) x), (H (y + c) y); ring.
  - intros c; apply (IHd (fun t => B (t + c) - B t) (H c)).
Qed.
Lemma poly_plus d : forall A B, poly d A -> poly d B -> poly d (fun t => A t + B t).
Proof.
  induction d; cbn [poly]; intros A B HA HB; [intros; rewrite (HA x y), (HB x y); auto|].
  intros c; apply (poly_ext d (fun t => (A (t + c) - A t) + (B (t + c) - B t))); [intros; ring|]; apply IHd; auto.
Qed.
Lemma poly_scale d k : forall A, poly d A -> poly d (fun t => k * A t).
Proof.
  induction d; cbn [poly]; intros A HA; [intros; rewrite (HA x y); auto|].
  intros c; apply (poly_ext d (fun t => k * (A (t + c) - A t))); [intros; ring|]; apply IHd; auto.
Qed.
Lemma poly_shift d c : forall A, poly d A -> poly d (fun t => A (t + c)).
Proof.
  induction d; cbn [poly]; intros A HA; [intros; apply HA|].
  intros e; apply (poly_ext d (fun t => A ((t + c) + e) - A (t + c))).
  - intros; do 2 f_equal; ring.
  - apply (IHd (fun t => A (t + e) - A t)); auto.
Qed.
Lemma poly_times d : forall A, poly d A -> poly (S d) (fun t => t * A t).
Proof.
  induction d; intros A HA.
  - cbn [poly] in *; intros c x y; rewrite (HA (x + c) 0), (HA x 0), (HA (y + c) 0), (HA y 0); ring.
  - change (forall c, poly (S d) (fun t => (t + c) * A (t + c) - t * A t)); intros c.
    apply (poly_ext (S d) (fun t => t * (A (t + c) - A t) + c * A (t + c))); [intros; ring|].
    apply poly_plus; [apply (IHd (fun t => A (t + c) - A t)), HA|].
    apply (poly_scale (S d) c (fun t => A (t + c))), poly_shift; auto.
Qed.
Lemma poly_pow m : poly m (fun t => t ^ m).
Proof. induction m; [simpl; auto|]. apply (poly_times m (fun t => t ^ m)); auto. Qed.
Lemma poly_le d d' B : (d <= d')%nat -> poly d B -> poly d' B.
Proof. induction 1; auto; intros; apply poly_up; auto. Qed.

Lemma poly_opp_diff d c A : poly (S d) A -> poly d (fun t => A t - A (t + c)).
Proof.
  intros H; apply (poly_ext d (fun t => -1 * (A (t + c) - A t))); [intros; ring|apply poly_scale, H].
Qed.

Lemma weighted_app w g n m :
  weighted w g (n + m) = weighted w g n + weighted (fun i => w (n + i)%nat) (fun i => g (n + i)%nat) m.
Proof.
  induction m; [simpl; rewrite Nat.add_0_r; ring|].
  rewrite Nat.add_succ_r; cbn [weighted]; rewrite IHm; ring.
Qed.
Lemma weighted_plus w g h n : weighted w (fun i => g i + h i) n = weighted w g n + weighted w h n.
Proof. induction n; simpl; [ring|rewrite IHn; ring]. Qed.

Lemma dyadic_moments bits : forall B x h,
  poly (List.length (filter (fun b => b) bits)) B ->
  weighted (dyadic bits) (fun i => B (x + INR (S i) * h) - B (x + INR i * h)) (2 ^ List.length bits) = 0.
Proof.
  induction bits as [|b bits IH]; intros B x h H.
  - cbn in *; rewrite (H (x + 1 * h) (x + 0 * h)); ring.
  - cbn [List.length Nat.pow]; replace (2 * 2 ^ List.length bits)%nat
      with (2 ^ List.length bits + 2 ^ List.length bits)%nat by lia.
    rewrite weighted_app.
    set (M := (2 ^ List.length bits)%nat) in *; set (c := INR M * h).
    rewrite (weighted_ext (dyadic (b :: bits)) (dyadic bits) _ (fun i => B (x + INR (S i) * h) - B (x + INR i * h)) M)
      by (intros i I; rewrite dyadic_first; auto).
    rewrite (weighted_ext (fun i => dyadic (b :: bits) (M + i)) (dyadic bits) _
      (fun i => (if b then -1 else 1) * (B (x + INR (S i) * h + c) - B (x + INR i * h + c))) M).
    2:{ intros i I; rewrite Nat.add_comm; unfold M; rewrite dyadic_second by auto; fold M.
        replace (S (i + M)) with (S i + M)%nat by lia; rewrite (plus_INR (S i) M), (plus_INR i M).
        unfold c; replace (x + (INR (S i) + INR M) * h) with (x + INR (S i) * h + INR M * h) by ring.
        replace (x + (INR i + INR M) * h) with (x + INR i * h + INR M * h) by ring; ring. }
    rewrite <- weighted_plus.
    destruct b.
    + cbn [filter List.length] in H.
      rewrite (weighted_ext _ (dyadic bits) _ (fun i => (fun t => B t - B (t + c)) (x + INR (S i) * h) -
        (fun t => B t - B (t + c)) (x + INR i * h))) by (intros; ring).
      apply (IH (fun t => B t - B (t + c))), poly_opp_diff; auto.
    + cbn [filter] in H.
      rewrite (weighted_ext _ (dyadic bits) _ (fun i => (fun t => B t + B (t + c)) (x + INR (S i) * h) -
        (fun t => B t + B (t + c)) (x + INR i * h))) by (intros; ring).
      apply (IH (fun t => B t + B (t + c))), poly_plus; auto; apply poly_shift; auto.
Qed.

Lemma walsh_moments T k m : (m <= ones k)%nat ->
  switched (fun t => t ^ m) T (walsh_times T k) = 0.
Proof.
  intros H; unfold walsh_times, switched.
  assert (PN : (0 < samples_count k)%nat) by apply pow2_pos.
  assert (PR : 0 < INR (samples_count k)) by (apply lt_0_INR; auto).
  set (tau := fun i => T * INR i / INR (samples_count k)).
  assert (T0 : tau O = 0) by (unfold tau; cbn [INR]; field; lra).
  assert (T1 : tau (S (0 + (samples_count k - 1))) = T).
  { unfold tau; replace (S (0 + (samples_count k - 1))) with (samples_count k) by lia; field; lra. }
  rewrite <- (dyadic_0 (binary_digits k)) at 1; rewrite <- T0 at 1; rewrite <- T1 at 1.
  rewrite (switched_changes (fun t => t ^ m) (dyadic (binary_digits k)) tau)
    by (intros; apply dyadic_cases).
  replace (S (samples_count k - 1)) with (samples_count k) by lia.
  rewrite (weighted_ext _ (dyadic (binary_digits k)) _
    (fun i => (fun t => t ^ m) (0 + INR (S i) * (T / INR (samples_count k))) -
              (fun t => t ^ m) (0 + INR i * (T / INR (samples_count k))))).
  - unfold samples_count; rewrite <- (binary_digits_length k).
    apply (dyadic_moments (binary_digits k) (fun t => t ^ m)), (poly_le m); [exact H|apply poly_pow].
  - intros i _; cbn [Nat.add]; f_equal; unfold tau; do 2 f_equal; field; lra.
Qed.

Lemma ones_pos k : (1 <= k)%nat -> (1 <= ones k)%nat.
Proof.
  intros H; unfold ones, binary_digits.
  assert (I : In true (filter (fun b => b) (map (Nat.testbit k) (seq 0 (S (Nat.log2 k)))))).
  { apply filter_In; split; auto; apply in_map_iff; exists (Nat.log2 k); split; [apply Nat.bit_log2; lia|apply in_seq; lia]. }
  destruct (filter _ _); [destruct I|cbn; lia].
Qed.

Theorem walsh_cancels T x k pre name :
  0 < T -> 1 <= x <= 2000 -> truncates_to x k ->
  exists ts, let s := sequence_of T name (with_pre_post pre T (map (fun t => (AX, t)) ts)) in
    new_walsh_sequence T x pre name = Ok s /\ refocuses s /\
    forall c, (List.length c <= ones k)%nat ->
      cancels c s /\ switched_integral (polynomial c) T ts = 0.
Proof.
  intros HT HX TR.
  assert (K : (1 <= k)%nat).
  { destruct TR as [A B]; destruct k; [simpl in B; lra|lia]. }
  exists (walsh_times T k); cbv zeta; split; [apply walsh_model; auto|].
  assert (F : flip_times (map (fun t => (AX, t)) (walsh_times T k)) = walsh_times T k)
    by (apply flip_times_uniform; discriminate).
  assert (M : forall m, (1 <= m <= ones k)%nat -> switched (fun t => t ^ m) T (walsh_times T k) = 0)
    by (intros; apply walsh_moments; lia).
  split; [|intros c L; split].
  - apply refocuses_intro; rewrite F.
    transitivity (switched (fun t => t ^ 1) T (walsh_times T k)); [|apply M; generalize (ones_pos k K); lia].
    apply switched_from_ext; intros; simpl; ring.
  - apply (cancels_intro (ones k)); auto; rewrite F; auto.
  - rewrite switched_integral_polynomial; apply (switched_polynomial (ones k)); auto.
Qed.
