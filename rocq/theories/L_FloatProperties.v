(** * Derived quantities of a control in floating point *)

From Coq Require Import Lia Permutation.
From Flocq Require Import Core Relative Plus_error.
From Verif Require Import L_Float L_FloatLimits L_DrivenControl L_DrivenExport L_FloatExport.
From Verif Require Export Spec_FloatProperties.
Import ListNotations.
Set Bullet Behavior "Strict Subproofs".
Open Scope string_scope.
Open Scope list_scope.
Open Scope R_scope.

(** ** Sums *)

Lemma rnd_zero : binary64 0 = 0. Proof. apply rnd_format, format_0. Qed.
Lemma rnd_nonneg x : 0 <= x -> 0 <= binary64 x.
Proof. intros H; rewrite <- rnd_zero; apply rnd_mono; auto. Qed.

Lemma eps_small : eps <= / 1000000000. Proof. unfold eps; lra. Qed.

Lemma plus_error a b : binary64_format a -> binary64_format b -> 0 <= a -> 0 <= b ->
  (1 - eps) * (a + b) <= binary64 (a + b) <= (1 + eps) * (a + b).
Proof.
  intros A B PA PB.
  destruct (@FLT_plus_error_N_ex radix2 (-1074) 53 eq_refl (fun z => negb (Z.even z)) a b A B) as [e [E Q]].
  unfold binary64; rewrite Q.
  assert (H : Rabs e <= eps).
  { eapply Rle_trans; [apply E|]; unfold u_ro; change (- (53) + 1)%Z with (1 + -53)%Z; rewrite bpow_plus, bpow_53.
    change (bpow radix2 1) with 2; assert (P := eps_pos).
    apply (Rmult_le_reg_r (1 + / 2 * (2 * eps))); [lra|].
    replace (/ 2 * (2 * eps) / (1 + / 2 * (2 * eps)) * (1 + / 2 * (2 * eps))) with eps by (field; lra). nra. }
  apply Rabs_le_inv in H; split; nra.
Qed.

(** [s] is a rounded sum of numbers of total [t] after [k] additions *)
Definition sum_of (k : nat) (t s : R) : Prop :=
  binary64_format s /\ 0 <= s /\ 0 <= t /\ (1 - eps) ^ k * t <= s <= (1 + eps) ^ k * t.

Lemma down_pow k : 0 <= (1 - eps) ^ k.
Proof. apply pow_le; assert (H := eps_small); lra. Qed.
Lemma up_pow k : 0 <= (1 + eps) ^ k.
Proof. apply pow_le; assert (H := eps_pos); lra. Qed.

Lemma sum_of_weaken j k t s : (j <= k)%nat -> sum_of j t s -> sum_of k t s.
Proof.
  intros L [F [P [T [A B]]]]; assert (E := eps_pos); assert (E' := eps_small).
  split; [auto|]; split; [auto|]; split; [auto|]; split.
  - eapply Rle_trans; [|apply A]; apply Rmult_le_compat_r; auto.
    replace ((1 - eps) ^ k) with ((1 - eps) ^ j * (1 - eps) ^ (k - j)) by (rewrite <- pow_add; f_equal; lia).
    rewrite <- (Rmult_1_r ((1 - eps) ^ j)) at 2; apply Rmult_le_compat_l; [apply down_pow|].
    apply Rle_trans with (1 ^ (k - j)); [apply pow_incr; lra|rewrite pow1; lra].
  - eapply Rle_trans; [apply B|]; apply Rmult_le_compat_r; auto; apply Rle_pow; auto; lra.
Qed.

Lemma sum_of_zero k : sum_of k 0 0.
Proof. split; [apply format_0|]; rewrite !Rmult_0_r; lra. Qed.
Lemma sum_of_one k x : binary64_format x -> 0 <= x -> sum_of k x x.
Proof.
  intros F P; apply (sum_of_weaken 0 k); [lia|].
  split; [auto|]; cbn [pow]; lra.
Qed.

Lemma sum_of_add k t s t' s' : sum_of k t s -> sum_of k t' s' -> sum_of (S k) (t + t') (binary64 (s + s')).
Proof.
  intros [F [P [T [A B]]]] [F' [P' [T' [A' B']]]].
  destruct (plus_error s s' F F' P P') as [L U]; assert (E := eps_pos); assert (E' := eps_small).
  split; [apply format_rnd|]; split; [apply rnd_nonneg; lra|]; split; [lra|]; cbn [pow]; split.
  - eapply Rle_trans; [|apply L]; rewrite Rmult_assoc; apply Rmult_le_compat_l; lra.
  - eapply Rle_trans; [apply U|]; rewrite (Rmult_assoc (1 + eps)); apply Rmult_le_compat_l; lra.
Qed.

Lemma bernoulli_down k : 1 - INR k * eps <= (1 - eps) ^ k.
Proof.
  assert (E := eps_pos); assert (E' := eps_small); induction k; [cbn; lra|].
  rewrite S_INR; cbn [pow]; assert (K := pos_INR k).
  apply Rle_trans with ((1 - eps) * (1 - INR k * eps)); [nra|apply Rmult_le_compat_l; lra].
Qed.

Lemma two_26 : 2 ^ 26 = 67108864. Proof. lra. Qed.
Lemma nat_bound k m : (k <= 2 ^ m)%nat -> INR k <= 2 ^ m.
Proof. intros H; apply le_INR in H; rewrite pow_INR in H; exact H. Qed.

Lemma bernoulli_up k : (k <= 2 ^ 26)%nat -> (1 + eps) ^ k <= 1 + (INR k + 1) * eps.
Proof.
  intros H; assert (E := eps_pos); assert (E' := eps_small); assert (D := bernoulli_down k); assert (K := pos_INR k).
  assert (N := nat_bound k 26 H); rewrite two_26 in N.
  assert (M : (1 + eps) ^ k * (1 - eps) ^ k <= 1).
  { rewrite <- Rpow_mult_distr; apply Rle_trans with (1 ^ k); [apply pow_incr; nra|rewrite pow1; lra]. }
  assert (Q : INR k * eps <= / 100) by (unfold eps; lra).
  apply (Rmult_le_reg_r (1 - INR k * eps)); [lra|].
  apply Rle_trans with 1.
  - eapply Rle_trans; [|apply M]; apply Rmult_le_compat_l; [apply up_pow|auto].
  - assert (W : INR k * (INR k + 1) * eps <= 1).
    { apply Rle_trans with (67108864 * (67108864 + 1) * eps); [|unfold eps; lra].
      apply Rmult_le_compat_r; [lra|]; nra. }
    assert (V : (1 + (INR k + 1) * eps) * (1 - INR k * eps) = 1 + eps * (1 - INR k * (INR k + 1) * eps)) by ring.
    rewrite V; assert (0 <= eps * (1 - INR k * (INR k + 1) * eps)) by (apply Rmult_le_pos; lra). lra.
Qed.

Lemma sum_of_error k t s : (k <= 2 ^ 26)%nat -> sum_of k t s -> Rabs (s - t) <= (INR k + 1) / 2 ^ 53 * t.
Proof.
  intros H [_ [_ [T [A B]]]]; assert (D := bernoulli_down k); assert (U := bernoulli_up k H).
  replace ((INR k + 1) / 2 ^ 53) with ((INR k + 1) * eps) by (unfold eps; replace (2 ^ 53) with 9007199254740992 by lra; reflexivity).
  assert (E := eps_pos).
  apply (Rmult_le_compat_r t) in D; auto; apply (Rmult_le_compat_r t) in U; auto.
  assert (0 <= eps * t) by (apply Rmult_le_pos; lra).
  apply Rabs_le; split; lra.
Qed.

Lemma total_app a b : total (a ++ b) = total a + total b.
Proof. induction a; cbn; [ring|rewrite IHa; ring]. Qed.
Lemma total_perm a b : Permutation a b -> total a = total b.
Proof. induction 1; cbn; lra. Qed.

Definition addends (l : list R) : Prop := forall x, In x l -> binary64_format x /\ 0 <= x.
Lemma addends_cons x l : addends (x :: l) -> (binary64_format x /\ 0 <= x) /\ addends l.
Proof. intros H; split; [apply H; left; auto|intros y I; apply H; right; auto]. Qed.

Lemma summed_sum_of k l s : summed binary64 k l s -> addends l -> sum_of k (total l) s.
Proof.
  induction 1 as [k|k x|k l1 l2 l a b H1 I1 H2 I2 P]; intros A.
  - apply sum_of_zero.
  - cbn; rewrite Rplus_0_r; destruct (addends_cons _ _ A) as [[F N] _]; apply sum_of_one; auto.
  - rewrite <- (total_perm _ _ P), total_app; apply sum_of_add.
    + apply I1; intros x I; apply A; eapply Permutation_in; [exact P|apply in_or_app; auto].
    + apply I2; intros x I; apply A; eapply Permutation_in; [exact P|apply in_or_app; auto].
Qed.

Theorem any_order k l s : (k <= 2 ^ 26)%nat -> summed binary64 k l s -> addends l ->
  Rabs (s - total l) <= (INR k + 1) / 2 ^ 53 * total l.
Proof. intros H S A; apply sum_of_error; auto; apply summed_sum_of; auto. Qed.

(** numpy's order *)
Lemma add_all_sum l : forall k t s, sum_of k t s -> addends l -> sum_of (k + List.length l) (t + total l) (fl_add_all binary64 s l).
Proof.
  induction l as [|x l IH]; intros k t s S A; cbn [fl_add_all List.length total].
  - rewrite Nat.add_0_r, Rplus_0_r; auto.
  - destruct (addends_cons _ _ A) as [[F N] A'].
    replace (k + Datatypes.S (List.length l))%nat with (Datatypes.S k + List.length l)%nat by lia.
    replace (t + (x + total l)) with ((t + x) + total l) by ring.
    apply IH; auto; apply sum_of_add; auto; apply sum_of_one; auto.
Qed.

Lemma lanes_sum n : forall l k r0 r1 r2 r3 r4 r5 r6 r7 t0 t1 t2 t3 t4 t5 t6 t7, (List.length l <= n)%nat ->
  sum_of k t0 r0 -> sum_of k t1 r1 -> sum_of k t2 r2 -> sum_of k t3 r3 ->
  sum_of k t4 r4 -> sum_of k t5 r5 -> sum_of k t6 r6 -> sum_of k t7 r7 -> addends l ->
  sum_of (k + List.length l / 8 + 10) (t0 + t1 + t2 + t3 + t4 + t5 + t6 + t7 + total l)
    (fl_lanes binary64 r0 r1 r2 r3 r4 r5 r6 r7 l).
Proof.
  induction n as [n IH] using lt_wf_ind; intros l k r0 r1 r2 r3 r4 r5 r6 r7 t0 t1 t2 t3 t4 t5 t6 t7 L S0 S1 S2 S3 S4 S5 S6 S7 A.
  assert (END : (List.length l < 8)%nat ->
    sum_of (k + List.length l / 8 + 10) (t0 + t1 + t2 + t3 + t4 + t5 + t6 + t7 + total l)
      (fl_add_all binary64 (binary64 (binary64 (binary64 (r0 + r1) + binary64 (r2 + r3)) + binary64 (binary64 (r4 + r5) + binary64 (r6 + r7)))) l)).
  { intros B; apply (sum_of_weaken (k + 3 + List.length l)); [lia|].
    apply add_all_sum; auto.
    replace (k + 3)%nat with (Datatypes.S (Datatypes.S (Datatypes.S k))) by lia.
    replace (t0 + t1 + t2 + t3 + t4 + t5 + t6 + t7) with (((t0 + t1) + (t2 + t3)) + ((t4 + t5) + (t6 + t7))) by ring.
    repeat apply sum_of_add; auto. }
  destruct l as [|a0 [|a1 [|a2 [|a3 [|a4 [|a5 [|a6 [|a7 l]]]]]]]]; try (apply END; cbn; lia).
  clear END; cbn [fl_lanes].
  assert (LE : List.length (a0 :: a1 :: a2 :: a3 :: a4 :: a5 :: a6 :: a7 :: l) = (8 + List.length l)%nat) by reflexivity.
  assert (Q : (List.length (a0 :: a1 :: a2 :: a3 :: a4 :: a5 :: a6 :: a7 :: l) / 8 = Datatypes.S (List.length l / 8))%nat).
  { rewrite LE; replace (8 + List.length l)%nat with (List.length l + 1 * 8)%nat by lia; rewrite Nat.div_add by lia; lia. }
  rewrite Q; replace (k + Datatypes.S (List.length l / 8) + 10)%nat with (Datatypes.S k + List.length l / 8 + 10)%nat by lia.
  replace (t0 + t1 + t2 + t3 + t4 + t5 + t6 + t7 + total (a0 :: a1 :: a2 :: a3 :: a4 :: a5 :: a6 :: a7 :: l)) with
    ((t0 + a0) + (t1 + a1) + (t2 + a2) + (t3 + a3) + (t4 + a4) + (t5 + a5) + (t6 + a6) + (t7 + a7) + total l) by (cbn [total]; ring).
  assert (B : forall x, In x [a0; a1; a2; a3; a4; a5; a6; a7] -> sum_of k x x).
  { intros x I; destruct (A x) as [F N]; [cbn in *; tauto|apply sum_of_one; auto]. }
  apply (IH (List.length l)); [rewrite LE in L; lia|lia|..]; try (apply sum_of_add; auto; apply B; cbn; tauto).
  intros x I; apply A; cbn; tauto.
Qed.

Lemma block_sum l : (List.length l <= 128)%nat -> addends l -> sum_of 25 (total l) (fl_block binary64 l).
Proof.
  intros L A.
  assert (END : (List.length l < 8)%nat -> sum_of 25 (total l) (fl_add_all binary64 0 l)).
  { intros B; rewrite <- (Rplus_0_l (total l)); apply (sum_of_weaken (0 + List.length l)); [lia|]; apply add_all_sum; auto; apply sum_of_zero. }
  destruct l as [|a0 [|a1 [|a2 [|a3 [|a4 [|a5 [|a6 [|a7 l]]]]]]]]; try (apply END; cbn; lia).
  clear END; cbn [fl_block].
  assert (LE : List.length (a0 :: a1 :: a2 :: a3 :: a4 :: a5 :: a6 :: a7 :: l) = (8 + List.length l)%nat) by reflexivity.
  assert (B : forall x, In x [a0; a1; a2; a3; a4; a5; a6; a7] -> sum_of 0 x x).
  { intros x I; destruct (A x) as [F N]; [cbn in *; tauto|apply sum_of_one; auto]. }
  replace (total (a0 :: a1 :: a2 :: a3 :: a4 :: a5 :: a6 :: a7 :: l)) with (a0 + a1 + a2 + a3 + a4 + a5 + a6 + a7 + total l) by (cbn [total]; ring).
  apply (sum_of_weaken (0 + List.length l / 8 + 10)).
  { assert (List.length l / 8 <= 15)%nat; [|lia].
    change 15%nat with (120 / 8)%nat; apply Nat.div_le_mono; lia. }
  apply (lanes_sum (List.length l)); auto; try (apply B; cbn; tauto).
  intros x I; apply A; cbn; tauto.
Qed.

Lemma addends_part n l : addends l -> addends (firstn n l) /\ addends (skipn n l).
Proof.
  intros A; rewrite <- (firstn_skipn n l) in A; split; intros x I; apply A; apply in_or_app; auto.
Qed.

Lemma pairwise_sum m : forall fuel l, (List.length l <= fuel)%nat -> (List.length l <= 112 * 2 ^ m + 16)%nat ->
  addends l -> sum_of (25 + m) (total l) (fl_pairwise binary64 fuel l).
Proof.
  induction m as [|m IH]; intros fuel l F L A.
  - destruct fuel as [|fuel]; cbn [fl_pairwise].
    + apply block_sum; auto; cbn in L; lia.
    + replace (List.length l <=? 128)%nat with true by (symmetry; apply Nat.leb_le; cbn in L; lia).
      apply block_sum; auto; cbn in L; lia.
  - destruct fuel as [|fuel]; cbn [fl_pairwise].
    + apply (sum_of_weaken 25); [lia|]; apply block_sum; auto; lia.
    + destruct (Nat.leb_spec (List.length l) 128) as [S|S].
      { apply (sum_of_weaken 25); [lia|]; apply block_sum; auto. }
      cbv zeta; set (n := List.length l) in *; set (n2 := (n / 2 - (n / 2) mod 8)%nat).
      assert (D := Nat.div_mod_eq n 2); assert (M := Nat.mod_upper_bound n 2 ltac:(lia)).
      assert (M8 := Nat.mod_upper_bound (n / 2) 8 ltac:(lia)).
      assert (P2 : (2 ^ Datatypes.S m = 2 * 2 ^ m)%nat) by reflexivity.
      assert (N2 : (n2 <= n / 2 /\ n / 2 <= n2 + 7)%nat) by (unfold n2; lia).
      replace (25 + Datatypes.S m)%nat with (Datatypes.S (25 + m)) by lia.
      destruct (addends_part n2 l A) as [A1 A2].
      rewrite <- (firstn_skipn n2 l) at 1; rewrite total_app; apply sum_of_add; apply IH; auto;
        rewrite ?firstn_length, ?skipn_length; fold n; lia.
Qed.

Lemma fl_sum_of m l : (List.length l <= 2 ^ m)%nat -> addends l -> sum_of (26 + m) (total l) (fl_sum binary64 l).
Proof.
  intros L A; unfold fl_sum; rewrite <- (Rplus_0_l (total l)).
  replace (26 + m)%nat with (S (25 + m)) by lia; apply sum_of_add; [apply sum_of_zero|].
  apply pairwise_sum; auto; lia.
Qed.

Lemma fl_sum_short l : (List.length l < 8)%nat -> addends l -> fl_sum binary64 l = fl_add_all binary64 0 l.
Proof.
  intros L A; unfold fl_sum; rewrite Rplus_0_l.
  assert (Q : fl_pairwise binary64 (List.length l) l = fl_add_all binary64 0 l).
  { destruct l as [|a0 l]; [reflexivity|]; set (f := List.length (a0 :: l)); cbn [List.length] in f; unfold f; cbn [fl_pairwise].
    replace (List.length (a0 :: l) <=? 128)%nat with true by (symmetry; apply Nat.leb_le; lia).
    clear f; destruct l as [|a1 [|a2 [|a3 [|a4 [|a5 [|a6 [|a7 l]]]]]]]; try reflexivity; cbn in L; lia. }
  rewrite Q; apply rnd_format.
  apply (add_all_sum l 0 0 0 (sum_of_zero 0) A).
Qed.

(** ** Times *)

Lemma accumulate_length rnd l : forall s, List.length (fl_accumulate rnd s l) = List.length l.
Proof. induction l; intros s; cbn; auto. Qed.
Lemma cumsum_length rnd l : List.length (fl_cumsum rnd l) = List.length l.
Proof. destruct l; cbn; auto; rewrite accumulate_length; auto. Qed.

Lemma accumulate_nth l : forall s i t, nth_error (fl_accumulate binary64 s l) i = Some t -> t = fl_add_all binary64 s (firstn (S i) l).
Proof.
  induction l as [|x l IH]; intros s [|i] t; cbn; try discriminate.
  - intros E; injection E as <-; destruct l; reflexivity.
  - intros E; apply IH in E; rewrite E; reflexivity.
Qed.
Lemma firstn_in {A} n (l : list A) x : In x (firstn n l) -> In x l.
Proof. revert l; induction n; intros [|y l]; cbn; try tauto; intros [->|I]; auto. Qed.

Lemma cumsum_nth l i t : addends l -> nth_error (fl_cumsum binary64 l) i = Some t -> sum_of i (total (firstn (S i) l)) t.
Proof.
  destruct l as [|x l]; [destruct i; discriminate|]; intros A; cbn [fl_cumsum].
  destruct (addends_cons _ _ A) as [[F N] A']; destruct i as [|i]; cbn [nth_error].
  - intros E; injection E as <-; cbn; rewrite Rplus_0_r; apply sum_of_one; auto.
  - intros E; assert (L : (S i <= List.length l)%nat).
    { assert (H : nth_error (fl_accumulate binary64 x l) i <> None) by congruence; apply nth_error_Some in H.
      rewrite accumulate_length in H; lia. }
    apply accumulate_nth in E; rewrite E.
    change (total (firstn (S (S i)) (x :: l))) with (x + total (firstn (S i) l)).
    assert (K := add_all_sum (firstn (S i) l) 0 x x (sum_of_one 0 x F N)).
    rewrite firstn_length_le in K by auto; apply K; intros y I; apply A'; apply firstn_in in I; auto.
Qed.

Lemma accumulate_order l : forall s, binary64_format s -> addends l -> non_decreasing (s :: fl_accumulate binary64 s l).
Proof.
  induction l as [|x l IH]; intros s F A; cbn [fl_accumulate]; [cbn; auto|].
  destruct (addends_cons _ _ A) as [[G N] A']; cbn [non_decreasing]; split.
  - rewrite <- (rnd_format s F) at 1; apply rnd_mono; lra.
  - apply IH; auto; apply format_rnd.
Qed.
Lemma times_order l : addends l -> non_decreasing (0 :: fl_cumsum binary64 l).
Proof.
  destruct l as [|x l]; intros A; [cbn; auto|]; destruct (addends_cons _ _ A) as [[G N] A']; cbn [fl_cumsum].
  assert (H := accumulate_order l x G A'); cbn [non_decreasing] in *; split; auto.
Qed.

Lemma accumulate_step l : forall s i a b d, binary64_format s -> 0 <= s -> addends l ->
  nth_error (s :: fl_accumulate binary64 s l) i = Some a -> nth_error (s :: fl_accumulate binary64 s l) (S i) = Some b ->
  nth_error l i = Some d -> b = binary64 (a + d) /\ binary64_format a /\ 0 <= a.
Proof.
  induction l as [|x l IH]; intros s i a b d F P A; [destruct i; discriminate|].
  destruct (addends_cons _ _ A) as [[G N] A'].
  destruct i as [|i].
  - cbn; intros E1 E2 E3; injection E1 as <-; injection E2 as <-; injection E3 as <-; auto.
  - cbn [fl_accumulate]; intros E1 E2 E3.
    apply (IH (binary64 (s + x)) i a b d); auto; [apply format_rnd|apply rnd_nonneg; lra].
Qed.
Lemma times_step l i a b d : addends l -> nth_error (0 :: fl_cumsum binary64 l) i = Some a ->
  nth_error (0 :: fl_cumsum binary64 l) (S i) = Some b -> nth_error l i = Some d ->
  b = binary64 (a + d) /\ binary64_format a /\ 0 <= a.
Proof.
  destruct l as [|x l]; [destruct i; discriminate|]; intros A; destruct (addends_cons _ _ A) as [[G N] A'].
  destruct i as [|i].
  - cbn; intros E1 E2 E3; injection E1 as <-; injection E2 as <-; injection E3 as <-.
    split; [rewrite Rplus_0_l, rnd_format; auto|split; [apply format_0|lra]].
  - cbn [fl_cumsum]; intros E1 E2 E3; apply (accumulate_step l x i); auto.
Qed.

Lemma durations_addends c : constructible c -> (forall t, In t (durations c) -> binary64_format t) -> addends (durations c).
Proof.
  intros K F x I; split; auto.
  apply constructible_wf in K; destruct K as [_ [_ [_ [P _]]]]; apply P in I; lra.
Qed.

Theorem float_times c : constructible c -> (forall t, In t (durations c) -> binary64_format t) ->
  List.length (fl_times binary64 c) = S (number_of_segments c) /\
  nth_error (fl_times binary64 c) 0 = Some 0 /\
  non_decreasing (fl_times binary64 c) /\
  (forall i a b d, nth_error (fl_times binary64 c) i = Some a -> nth_error (fl_times binary64 c) (S i) = Some b ->
     nth_error (durations c) i = Some d -> Rabs (b - a - d) <= (a + d) / 2 ^ 53) /\
  (forall i t, (i <= 2 ^ 26)%nat -> nth_error (fl_times binary64 c) i = Some t ->
     Rabs (t - total (firstn i (durations c))) <= INR i / 2 ^ 53 * total (firstn i (durations c))).
Proof.
  intros K F; assert (A := durations_addends c K F); unfold fl_times.
  split; [|split; [reflexivity|split; [apply times_order; auto|split]]].
  - cbn [List.length]; rewrite cumsum_length; unfold number_of_segments.
    apply constructible_wf in K; destruct K as [H _]; rewrite H; reflexivity.
  - intros i a b d E1 E2 E3; destruct (times_step _ i a b d A E1 E2 E3) as [-> [G N]].
    destruct (A d (nth_error_In _ _ E3)) as [GD ND].
    destruct (plus_error a d G GD N ND) as [L U].
    replace ((a + d) / 2 ^ 53) with (eps * (a + d)) by (unfold eps; replace (2 ^ 53) with 9007199254740992 by lra; field).
    apply Rabs_le; split; lra.
  - intros [|i] t B E.
    + injection E as <-; cbn; rewrite Rminus_0_r, Rabs_R0; lra.
    + cbn [nth_error] in E; apply cumsum_nth in E; auto; rewrite S_INR; apply sum_of_error; auto; lia.
Qed.

Theorem float_duration c m : constructible c -> (forall t, In t (durations c) -> binary64_format t) ->
  (number_of_segments c <= 2 ^ m)%nat -> (m <= 2 ^ 20)%nat ->
  Rabs (fl_duration binary64 c - total (durations c)) <= (INR m + 27) / 2 ^ 53 * total (durations c).
Proof.
  intros K F L B; assert (A := durations_addends c K F).
  assert (N : number_of_segments c = List.length (durations c)).
  { unfold number_of_segments; apply constructible_wf in K; destruct K as [H _]; rewrite H; reflexivity. }
  rewrite N in L; assert (S := fl_sum_of m (durations c) L A); apply sum_of_error in S.
  - rewrite plus_INR in S; replace (INR 26) with 26 in S by (cbn; lra); unfold fl_duration.
    replace (INR m + 27) with (26 + INR m + 1) by ring; auto.
  - apply Nat.le_trans with (26 + 2 ^ 20)%nat; [lia|].
    replace 26%nat with (20 + 6)%nat at 2 by reflexivity; rewrite Nat.pow_add_r.
    assert (H : (26 <= 2 ^ 20)%nat) by (apply Nat.le_trans with (2 ^ 5)%nat; [cbn; lia|apply Nat.pow_le_mono_r; lia]).
    change (2 ^ 6)%nat with 64%nat; lia.
Qed.

Lemma last_accumulate l : forall s d, last (s :: fl_accumulate binary64 s l) d = fl_add_all binary64 s l.
Proof. induction l as [|x l IH]; intros s d; [reflexivity|]; cbn [fl_accumulate fl_add_all]; rewrite <- (IH _ d); reflexivity. Qed.

Theorem float_last_time c : constructible c -> (forall t, In t (durations c) -> binary64_format t) ->
  (number_of_segments c < 8)%nat ->
  nth_error (fl_times binary64 c) (number_of_segments c) = Some (fl_duration binary64 c).
Proof.
  intros K F L; assert (A := durations_addends c K F).
  assert (N : number_of_segments c = List.length (durations c)).
  { unfold number_of_segments; apply constructible_wf in K; destruct K as [H _]; rewrite H; reflexivity. }
  unfold fl_duration; rewrite N in *; rewrite fl_sum_short by auto; unfold fl_times.
  destruct (durations c) as [|x l]; [reflexivity|]; cbn [List.length fl_cumsum nth_error fl_add_all].
  destruct (addends_cons _ _ A) as [[G _] _]; rewrite Rplus_0_l, (rnd_format x G), <- (last_accumulate l x 0).
  rewrite <- (accumulate_length binary64 l x) at 1.
  generalize (fl_accumulate binary64 x l) as q; intros q; clear; revert x.
  induction q as [|y q IH]; intros x; [reflexivity|]; cbn [List.length nth_error]; rewrite IH; reflexivity.
Qed.

(** ** Amplitudes and angles *)

(** zero, or far above the smallest numbers *)
Definition floor (m : R) : Prop := m = 0 \/ / 2 ^ 900 <= m.

Lemma eta_floor : eta <= / 1000 * eps * / 2 ^ 900.
Proof.
  assert (Q : / 2 ^ 963 = / 1024 * eps * / 2 ^ 900).
  { replace 963%nat with (63 + 900)%nat by reflexivity; rewrite pow_add, Rinv_mult; f_equal; unfold eps; lra. }
  assert (H := inv_pow_le 963 1075 ltac:(lia)); unfold eta; eapply Rle_trans; [exact H|]; rewrite Q.
  apply Rmult_le_compat_r; [left; apply inv_pow_pos|]; apply Rmult_le_compat_r; [left; apply eps_pos|lra].
Qed.

Lemma errm m c x : floor m -> Rabs x <= c * m -> Rabs (binary64 x - x) <= (c + / 1000) * eps * m.
Proof.
  assert (E := eps_pos); intros [->|F] B.
  - rewrite Rmult_0_r in *; assert (x = 0) as ->.
    { assert (P := Rabs_pos x); destruct (Req_dec x 0) as [?|N]; auto; apply Rabs_pos_lt in N; lra. }
    rewrite rnd_zero, Rminus_0_r, Rabs_R0; lra.
  - eapply Rle_trans; [apply rnd_error|].
    apply (Rmult_le_compat_l eps) in B; [|lra].
    assert (H := eta_floor); assert (G : / 1000 * eps * / 2 ^ 900 <= / 1000 * eps * m) by (apply Rmult_le_compat_l; lra).
    lra.
Qed.

Lemma floor_400 x : 0 <= x -> sized x -> floor x.
Proof.
  intros P [->|H]; [left; auto|right]; rewrite Rabs_pos_eq in H by auto; eapply Rle_trans; [|exact H]; apply inv_pow_le; lia.
Qed.
Lemma square_floor x : sized x -> floor (x * x).
Proof.
  intros [->|H]; [left; ring|right].
  replace (x * x) with (Rabs x * Rabs x) by (rewrite <- Rabs_mult; apply Rabs_pos_eq; nra).
  apply Rle_trans with (/ 2 ^ 400 * / 2 ^ 400).
  - rewrite <- Rinv_mult, <- pow_add; apply inv_pow_le; lia.
  - assert (P := inv_pow_pos 400); apply Rmult_le_compat; lra.
Qed.
Lemma floor_plus a b : 0 <= a -> 0 <= b -> floor a -> floor b -> floor (a + b).
Proof. intros A B [->|FA] [->|FB]; unfold floor; rewrite ?Rplus_0_l, ?Rplus_0_r; try tauto; right; lra. Qed.

Lemma eps_value : eps = / 9007199254740992. Proof. reflexivity. Qed.
Lemma inv_50 : / 2 ^ 50 = 8 * eps.
Proof. unfold eps; replace (2 ^ 50) with 1125899906842624 by lra; lra. Qed.

(** one component of the amplitude *)
Lemma component r u u0 : 0 <= r -> sized r -> Rabs u0 <= 1 -> Rabs (u - u0) <= / 2 ^ 50 ->
  Rabs (binary64 (r * u) - r * u0) <= 92 / 10 * eps * r.
Proof.
  intros P S U0 U; rewrite inv_50 in U; assert (E := eps_pos); assert (E' := eps_small).
  assert (B : Rabs (r * u) <= 1001 / 1000 * r).
  { rewrite Rabs_mult, (Rabs_pos_eq r) by auto; rewrite (Rmult_comm _ r); apply Rmult_le_compat_l; auto.
    replace u with ((u - u0) + u0) by ring; eapply Rle_trans; [apply Rabs_triang|]; lra. }
  assert (Q := errm r _ _ (floor_400 r P S) B).
  assert (D : Rabs (r * u - r * u0) <= r * (8 * eps)).
  { rewrite <- Rmult_minus_distr_l, Rabs_mult, (Rabs_pos_eq r) by auto; apply Rmult_le_compat_l; auto. }
  replace (binary64 (r * u) - r * u0) with ((binary64 (r * u) - r * u) + (r * u - r * u0)) by ring.
  eapply Rle_trans; [apply Rabs_triang|]; assert (0 <= eps * r) by (apply Rmult_le_pos; lra). lra.
Qed.

Lemma component_square r u0 x : 0 <= r -> sized r -> Rabs u0 <= 1 -> Rabs (x - r * u0) <= 92 / 10 * eps * r ->
  Rabs (binary64 (x ^ 2) - (r * u0) ^ 2) <= 196 / 10 * eps * (r * r).
Proof.
  intros P S U0 X; assert (E := eps_pos); assert (E' := eps_small).
  assert (ER : eps * r <= / 1000000000 * r) by (apply Rmult_le_compat_r; lra).
  assert (RR : 0 <= r * r) by nra.
  assert (Y : Rabs (r * u0) <= r) by (rewrite Rabs_mult, (Rabs_pos_eq r) by auto; rewrite <- (Rmult_1_r r) at 2; apply Rmult_le_compat_l; auto).
  assert (XB : Rabs x <= 10001 / 10000 * r).
  { replace x with ((x - r * u0) + r * u0) by ring; eapply Rle_trans; [apply Rabs_triang|]; lra. }
  assert (X2 : Rabs (x ^ 2) <= 1001 / 1000 * (r * r)).
  { replace (x ^ 2) with (x * x) by ring; rewrite Rabs_mult.
    apply Rle_trans with ((10001 / 10000 * r) * (10001 / 10000 * r)); [|lra].
    assert (0 <= Rabs x) by apply Rabs_pos; apply Rmult_le_compat; auto. }
  assert (Q := errm (r * r) _ _ (square_floor r S) X2).
  assert (D : Rabs (x ^ 2 - (r * u0) ^ 2) <= 185 / 10 * eps * (r * r)).
  { replace (x ^ 2 - (r * u0) ^ 2) with ((x - r * u0) * (x + r * u0)) by ring; rewrite Rabs_mult.
    assert (Z : Rabs (x + r * u0) <= 20001 / 10000 * r) by (eapply Rle_trans; [apply Rabs_triang|]; lra).
    apply Rle_trans with ((92 / 10 * eps * r) * (20001 / 10000 * r)).
    - apply Rmult_le_compat; auto; apply Rabs_pos.
    - assert (0 <= eps * (r * r)) by (apply Rmult_le_pos; lra). lra. }
  replace (binary64 (x ^ 2) - (r * u0) ^ 2) with ((binary64 (x ^ 2) - x ^ 2) + (x ^ 2 - (r * u0) ^ 2)) by ring.
  eapply Rle_trans; [apply Rabs_triang|]; assert (0 <= eps * (r * r)) by (apply Rmult_le_pos; lra). lra.
Qed.

Lemma sqrt_close k a b : 0 <= a -> 0 <= b -> 0 <= k -> Rabs (a - b) <= k * b -> Rabs (sqrt a - sqrt b) <= k * sqrt b.
Proof.
  intros A B K H; destruct (Req_dec b 0) as [->|N].
  - rewrite Rmult_0_r in H; assert (a = 0) as ->.
    { rewrite Rminus_0_r, Rabs_pos_eq in H by auto; lra. }
    rewrite sqrt_0, Rminus_0_r, Rabs_R0; lra.
  - assert (P : 0 < sqrt b) by (apply sqrt_lt_R0; lra); assert (SA := sqrt_pos a).
    apply (Rmult_le_reg_r (sqrt b)); auto.
    apply Rle_trans with (Rabs (sqrt a - sqrt b) * (sqrt a + sqrt b)).
    { apply Rmult_le_compat_l; [apply Rabs_pos|lra]. }
    rewrite <- (Rabs_pos_eq (sqrt a + sqrt b)) at 1 by lra; rewrite <- Rabs_mult.
    replace ((sqrt a - sqrt b) * (sqrt a + sqrt b)) with (sqrt a * sqrt a - sqrt b * sqrt b) by ring.
    rewrite Rmult_assoc, !sqrt_sqrt by auto; auto.
Qed.

Lemma sqrt_floor r d : sized r -> sized d -> floor (sqrt (r * r + d * d)).
Proof.
  assert (G : forall x y, / 2 ^ 400 <= Rabs x -> / 2 ^ 900 <= sqrt (x * x + y * y)).
  { intros x y H; apply Rle_trans with (Rabs x).
    - eapply Rle_trans; [|exact H]; apply inv_pow_le; lia.
    - rewrite <- sqrt_Rsqr_abs; apply sqrt_le_1_alt; unfold Rsqr; nra. }
  intros [->|R] [->|D].
  - left; rewrite Rmult_0_l, Rplus_0_l, sqrt_0; auto.
  - right; rewrite Rplus_comm; apply G; auto.
  - right; apply G; auto.
  - right; apply G; auto.
Qed.

Definition fl_norm (x y z : R) : R :=
  binary64 (sqrt (binary64 (binary64 (binary64 (x ^ 2) + binary64 (y ^ 2)) + binary64 (z ^ 2)))).

Lemma norm_error r c s d x y : 0 <= r -> sized r -> sized d -> c * c + s * s = 1 ->
  Rabs (x - r * c) <= 92 / 10 * eps * r -> Rabs (y - r * s) <= 92 / 10 * eps * r ->
  Rabs (fl_norm x y d - sqrt (r * r + d * d)) <= 43 * eps * sqrt (r * r + d * d).
Proof.
  intros P SR SD CS X Y; assert (E := eps_pos); assert (E' := eps_small).
  assert (C1 : Rabs c <= 1) by (apply Rabs_le; nra); assert (S1 : Rabs s <= 1) by (apply Rabs_le; nra).
  assert (X2 := component_square r c x P SR C1 X); assert (Y2 := component_square r s y P SR S1 Y).
  unfold fl_norm; set (p := binary64 (x ^ 2)) in *; set (q := binary64 (y ^ 2)) in *.
  assert (RR : 0 <= r * r) by nra; assert (DD : 0 <= d * d) by nra.
  assert (ER : eps * (r * r) <= / 1000000000 * (r * r)) by (apply Rmult_le_compat_r; lra).
  assert (ED : eps * (d * d) <= / 1000000000 * (d * d)) by (apply Rmult_le_compat_r; lra).
  assert (ER0 : 0 <= eps * (r * r)) by (apply Rmult_le_pos; lra); assert (ED0 : 0 <= eps * (d * d)) by (apply Rmult_le_pos; lra).
  assert (I : (r * c) ^ 2 + (r * s) ^ 2 = r * r) by (transitivity (r * r * (c * c + s * s)); [ring|rewrite CS; ring]).
  assert (PQ : Rabs (p + q - r * r) <= 392 / 10 * eps * (r * r)).
  { rewrite <- I at 1; replace (p + q - ((r * c) ^ 2 + (r * s) ^ 2)) with ((p - (r * c) ^ 2) + (q - (r * s) ^ 2)) by ring.
    eapply Rle_trans; [apply Rabs_triang|]; lra. }
  assert (PB : Rabs (p + q) <= 1001 / 1000 * (r * r)).
  { replace (p + q) with ((p + q - r * r) + r * r) by ring; eapply Rle_trans; [apply Rabs_triang|]; rewrite (Rabs_pos_eq (r * r)) by auto; lra. }
  assert (Q1 := errm (r * r) _ _ (square_floor r SR) PB); set (pq := binary64 (p + q)) in *.
  assert (DB : Rabs (d ^ 2) <= 1 * (d * d)) by (replace (d ^ 2) with (d * d) by ring; rewrite Rabs_pos_eq by auto; lra).
  assert (Q2 := errm (d * d) _ _ (square_floor d SD) DB); set (dd := binary64 (d ^ 2)) in *.
  replace (d ^ 2) with (d * d) in Q2 by ring.
  set (S0 := r * r + d * d) in *; assert (SS : 0 <= S0) by (unfold S0; lra).
  assert (ES0 : 0 <= eps * S0) by (apply Rmult_le_pos; lra).
  assert (T1 : Rabs (pq + dd - S0) <= 404 / 10 * eps * S0).
  { apply Rabs_le_inv in Q1; apply Rabs_le_inv in Q2; apply Rabs_le_inv in PQ; unfold S0; apply Rabs_le; split; lra. }
  assert (TB : Rabs (pq + dd) <= 1001 / 1000 * S0).
  { assert (eps * S0 <= / 1000000000 * S0) by (apply Rmult_le_compat_r; lra).
    replace (pq + dd) with ((pq + dd - S0) + S0) by ring; eapply Rle_trans; [apply Rabs_triang|]; rewrite (Rabs_pos_eq S0) by auto; lra. }
  assert (FS : floor S0) by (apply floor_plus; auto; apply square_floor; auto).
  assert (Q3 := errm S0 _ _ FS TB); set (t := binary64 (pq + dd)) in *.
  assert (T2 : Rabs (t - S0) <= 415 / 10 * eps * S0).
  { replace (t - S0) with ((t - (pq + dd)) + (pq + dd - S0)) by ring; eapply Rle_trans; [apply Rabs_triang|]; lra. }
  assert (PT : 0 <= t).
  { unfold t, pq, dd, p, q; repeat (apply rnd_nonneg || apply Rplus_le_le_0_compat || apply pow2_ge_0). }
  assert (T3 := sqrt_close (415 / 10 * eps) t S0 PT SS ltac:(lra) T2).
  set (A := sqrt S0) in *; assert (PA : 0 <= A) by apply sqrt_pos.
  assert (EA : 0 <= eps * A) by (apply Rmult_le_pos; lra); assert (EA' : eps * A <= / 1000000000 * A) by (apply Rmult_le_compat_r; lra).
  assert (RB : Rabs (sqrt t) <= 1001 / 1000 * A).
  { replace (sqrt t) with ((sqrt t - A) + A) by ring; eapply Rle_trans; [apply Rabs_triang|]; rewrite (Rabs_pos_eq A) by auto; lra. }
  assert (Q4 := errm A _ _ (sqrt_floor r d SR SD) RB).
  replace (binary64 (sqrt t) - A) with ((binary64 (sqrt t) - sqrt t) + (sqrt t - A)) by ring.
  eapply Rle_trans; [apply Rabs_triang|]; lra.
Qed.

(** ** The quantities of a list of segments *)

Section Segments.
  Variables (fsin fcos : R -> R).
  Definition hat_x (g : seg) : R := binary64 (g_rabi g * fcos (g_phi g)).
  Definition hat_y (g : seg) : R := binary64 (g_rabi g * fsin (g_phi g)).
  Definition hat_norm (g : seg) : R := fl_norm (hat_x g) (hat_y g) (g_det g).

  Lemma hat_x_desc l c : describes l c -> fl_amplitude_x binary64 fcos c = map hat_x l.
  Proof. intros [E1 [E2 _]]; unfold fl_amplitude_x; rewrite E1, E2, zip_with_map; reflexivity. Qed.
  Lemma hat_y_desc l c : describes l c -> fl_amplitude_y binary64 fsin c = map hat_y l.
  Proof. intros [E1 [E2 _]]; unfold fl_amplitude_y; rewrite E1, E2, zip_with_map; reflexivity. Qed.
  Lemma hat_norm_desc l c : describes l c -> fl_amplitudes binary64 fsin fcos c = map hat_norm l.
  Proof.
    intros D; unfold fl_amplitudes; rewrite (hat_x_desc l c D), (hat_y_desc l c D).
    destruct D as [_ [_ [E3 _]]]; rewrite E3, combine_map, zip_with_map; reflexivity.
  Qed.
  Lemma hat_angles_desc l c : describes l c -> fl_angles binary64 fsin fcos c = map (fun g => binary64 (hat_norm g * g_dur g)) l.
  Proof.
    intros D; unfold fl_angles; rewrite (hat_norm_desc l c D).
    destruct D as [_ [_ [_ E4]]]; rewrite E4, zip_with_map; reflexivity.
  Qed.

  Hypothesis HT : accurate_sine_cosine fsin fcos.
  Variable g : seg.
  Hypothesis HM : measurable g.
  Hypothesis HR : 0 <= g_rabi g.

  Lemma hat_x_error : Rabs (hat_x g - seg_x g) <= 92 / 10 * eps * g_rabi g.
  Proof.
    destruct HM as [_ [F [_ [B [S _]]]]]; apply component; auto; [|apply HT; auto].
    apply Rabs_le; apply COS_bound.
  Qed.
  Lemma hat_y_error : Rabs (hat_y g - seg_y g) <= 92 / 10 * eps * g_rabi g.
  Proof.
    destruct HM as [_ [F [_ [B [S _]]]]]; apply component; auto; [|apply HT; auto].
    apply Rabs_le; apply SIN_bound.
  Qed.
  Lemma hat_norm_error : Rabs (hat_norm g - seg_norm g) <= 43 * eps * seg_norm g.
  Proof.
    destruct HM as [_ [F [_ [B [S S']]]]]; unfold hat_norm; rewrite seg_norm_rabi.
    apply (norm_error (g_rabi g) (cos (g_phi g)) (sin (g_phi g))); auto.
    - rewrite cos2_sin2; reflexivity.
    - apply hat_x_error.
    - apply hat_y_error.
  Qed.
  Lemma norm_floor : floor (seg_norm g).
  Proof. destruct HM as [_ [F [_ [B [S S']]]]]; rewrite seg_norm_rabi; apply sqrt_floor; auto. Qed.
  Lemma norm_nonneg : 0 <= seg_norm g. Proof. apply sqrt_pos. Qed.
  Lemma norm_rabi_det : g_rabi g <= seg_norm g /\ Rabs (g_det g) <= seg_norm g.
  Proof.
    rewrite seg_norm_rabi; split.
    - rewrite <- (sqrt_square (g_rabi g)) at 1 by auto; apply sqrt_le_1_alt; nra.
    - rewrite <- sqrt_Rsqr_abs; apply sqrt_le_1_alt; unfold Rsqr; nra.
  Qed.
  Lemma norm_xy : Rabs (seg_x g) <= seg_norm g /\ Rabs (seg_y g) <= seg_norm g.
  Proof.
    assert (Q : seg_norm g * seg_norm g = seg_x g * seg_x g + seg_y g * seg_y g + g_det g * g_det g) by apply norm3_sq.
    assert (P := norm_nonneg); split; apply Rabs_le; nra.
  Qed.

  Lemma angle_error : 0 <= g_dur g ->
    Rabs (binary64 (hat_norm g * g_dur g) - seg_norm g * g_dur g) <= seg_norm g * g_dur g / 2 ^ 47 + / 2 ^ 1075.
  Proof.
    intros T; assert (E := eps_pos); assert (E' := eps_small); assert (N := hat_norm_error); assert (P := norm_nonneg).
    assert (Q := rnd_error (hat_norm g * g_dur g)); fold eta.
    assert (D : Rabs (hat_norm g * g_dur g - seg_norm g * g_dur g) <= 43 * eps * seg_norm g * g_dur g).
    { rewrite <- Rmult_minus_distr_r, Rabs_mult, (Rabs_pos_eq (g_dur g)) by auto; apply Rmult_le_compat_r; auto. }
    assert (W : 0 <= seg_norm g * g_dur g) by (apply Rmult_le_pos; auto).
    assert (V : 0 <= eps * (seg_norm g * g_dur g)) by (apply Rmult_le_pos; lra).
    assert (V' : eps * (seg_norm g * g_dur g) <= / 1000000000 * (seg_norm g * g_dur g)) by (apply Rmult_le_compat_r; lra).
    assert (B : Rabs (hat_norm g * g_dur g) <= 2 * (seg_norm g * g_dur g)).
    { replace (hat_norm g * g_dur g) with ((hat_norm g * g_dur g - seg_norm g * g_dur g) + seg_norm g * g_dur g) by ring.
      eapply Rle_trans; [apply Rabs_triang|]; rewrite (Rabs_pos_eq (seg_norm g * g_dur g)) by auto; lra. }
    apply (Rmult_le_compat_l eps) in B; [|lra].
    replace (seg_norm g * g_dur g / 2 ^ 47) with (64 * (eps * (seg_norm g * g_dur g))).
    2:{ unfold eps; replace (2 ^ 47) with 140737488355328 by lra; lra. }
    replace (binary64 (hat_norm g * g_dur g) - seg_norm g * g_dur g) with
      ((binary64 (hat_norm g * g_dur g) - hat_norm g * g_dur g) + (hat_norm g * g_dur g - seg_norm g * g_dur g)) by ring.
    eapply Rle_trans; [apply Rabs_triang|]; lra.
  Qed.

  (** a normalised component *)
  Lemma quotient_error x x0 : 0 < seg_norm g -> Rabs x0 <= seg_norm g -> Rabs (x - x0) <= 92 / 10 * eps * seg_norm g ->
    Rabs (binary64 (x / hat_norm g) - x0 / seg_norm g) <= / 2 ^ 47.
  Proof.
    intros P B X; assert (E := eps_pos); assert (E' := eps_small); assert (N := hat_norm_error).
    set (A := seg_norm g) in *; set (a := hat_norm g) in *.
    assert (EA : 0 <= eps * A) by (apply Rmult_le_pos; lra); assert (EA' : eps * A <= / 1000000000 * A) by (apply Rmult_le_compat_r; lra).
    assert (LA : 999 / 1000 * A <= a) by (apply Rabs_le_inv in N; lra); assert (PA : 0 < a) by lra.
    assert (D : Rabs (x / a - x0 / A) <= 53 * eps).
    { replace (x / a - x0 / A) with (((x - x0) * A + x0 * (A - a)) / (a * A)) by (field; lra).
      rewrite Rabs_div by (apply Rgt_not_eq, Rmult_lt_0_compat; lra).
      rewrite (Rabs_pos_eq (a * A)) by (apply Rmult_le_pos; lra).
      apply (Rmult_le_reg_r (a * A)); [apply Rmult_lt_0_compat; lra|].
      replace (Rabs ((x - x0) * A + x0 * (A - a)) / (a * A) * (a * A)) with (Rabs ((x - x0) * A + x0 * (A - a))) by (field; lra).
      apply Rle_trans with ((92 / 10 * eps * A) * A + A * (43 * eps * A)).
      - eapply Rle_trans; [apply Rabs_triang|]; rewrite !Rabs_mult, (Rabs_pos_eq A) by lra; apply Rplus_le_compat.
        + apply Rmult_le_compat_r; lra.
        + apply Rmult_le_compat; try apply Rabs_pos; auto; rewrite Rabs_minus_sym; auto.
      - assert (Q : 999 / 1000 * A * (eps * A) <= a * (eps * A)) by (apply Rmult_le_compat_r; auto).
        assert (0 <= A * (eps * A)) by (apply Rmult_le_pos; lra). lra. }
    assert (U : Rabs (x0 / A) <= 1).
    { rewrite Rabs_div, (Rabs_pos_eq A) by lra; apply (Rmult_le_reg_r A); auto; replace (Rabs x0 / A * A) with (Rabs x0) by (field; lra); lra. }
    assert (UB : Rabs (x / a) <= 11 / 10).
    { replace (x / a) with ((x / a - x0 / A) + x0 / A) by ring; eapply Rle_trans; [apply Rabs_triang|]; lra. }
    assert (Q := errm 1 (11 / 10) (x / a) ltac:(right; apply Rle_trans with (/ 2 ^ 0); [apply inv_pow_le; lia|cbn; lra]) ltac:(lra)).
    replace (/ 2 ^ 47) with (64 * eps) by (unfold eps; replace (2 ^ 47) with 140737488355328 by lra; lra).
    replace (binary64 (x / a) - x0 / A) with ((binary64 (x / a) - x / a) + (x / a - x0 / A)) by ring.
    eapply Rle_trans; [apply Rabs_triang|]; lra.
  Qed.
End Segments.

(** ** Directions *)

Lemma hat_directions_desc fsin fcos l c : describes l c ->
  fl_directions binary64 fsin fcos c =
  (let* m := np_amax (map (hat_norm fsin fcos) l) in
   let s := fun g => fl_safe_amplitude binary64 (fl_direction_tolerance binary64 m) (hat_norm fsin fcos g) in
   Ok (map (fun g => (binary64 (hat_x fcos g / s g), binary64 (hat_y fsin g / s g), binary64 (g_det g / s g))) l)).
Proof.
  intros D; unfold fl_directions; rewrite (hat_norm_desc fsin fcos l c D), (hat_x_desc fcos l c D), (hat_y_desc fsin l c D).
  destruct D as [_ [_ [E3 _]]]; rewrite E3.
  destruct (np_amax (map (hat_norm fsin fcos) l)) as [m|e]; cbn [bind]; [|reflexivity].
  cbv zeta; rewrite map_map, !zip_with_map, !combine_map; reflexivity.
Qed.

Lemma safe_test t a : binary64_format t -> binary64_format a -> 0 <= a ->
  fl_safe_amplitude binary64 t a = if leb a t then 1 else a.
Proof.
  intros T A P; unfold fl_safe_amplitude, fl_isclose_tol.
  rewrite Rabs_R0, Rmult_0_r, rnd_zero, Rplus_0_r, Rminus_0_r, !rnd_format, Rabs_pos_eq; auto.
Qed.

Lemma tolerance_format m : binary64_format (fl_direction_tolerance binary64 m).
Proof. unfold fl_direction_tolerance, py_min; destruct (ltb _ _); apply format_rnd. Qed.

Lemma min_close k a b a' b' : 0 <= a -> 0 <= b -> 0 <= k <= 1 -> Rabs (a' - a) <= k * a -> Rabs (b' - b) <= k * b ->
  Rabs (Rmin a' b' - Rmin a b) <= k * Rmin a b.
Proof.
  intros A B K HA HB; apply Rabs_le_inv in HA; apply Rabs_le_inv in HB.
  unfold Rmin; destruct (Rle_dec a b), (Rle_dec a' b'); apply Rabs_le; try lra; split; nra.
Qed.

Lemma tolerance_error m m' : 0 <= m -> (m = 0 \/ / 2 ^ 400 <= m) -> Rabs (m' - m) <= 43 * eps * m ->
  Rabs (fl_direction_tolerance binary64 m' - threshold m) <= 50 * eps * threshold m.
Proof.
  intros P F N; assert (E := eps_pos); assert (E' := eps_small).
  unfold fl_direction_tolerance, threshold; rewrite py_min_Rmin.
  assert (one : forall x, / 2 ^ 900 <= x -> Rabs (binary64 x - x) <= 1001 / 1000 * eps * x).
  { intros x L; assert (PX : 0 < x) by (eapply Rlt_le_trans; [apply inv_pow_pos|exact L]).
    replace (1001 / 1000) with (1 + / 1000) by lra; apply errm; [right; auto|rewrite Rabs_pos_eq; lra]. }
  assert (A8 : / 2 ^ 900 <= 1 / 10 ^ 8).
  { apply Rle_trans with (/ 2 ^ 27); [apply inv_pow_le; lia|].
    replace (2 ^ 27) with 134217728 by ring; replace (10 ^ 8) with 100000000 by ring; lra. }
  assert (A20 : / 2 ^ 900 <= 1 / 10 ^ 20).
  { apply Rle_trans with (/ 2 ^ 67); [apply inv_pow_le; lia|].
    replace (2 ^ 67) with 147573952589676412928 by ring; replace (10 ^ 20) with 100000000000000000000 by ring; lra. }
  apply one in A8; apply one in A20.
  assert (N20 : 1 / 10 ^ 20 = / 100000000000000000000) by (replace (10 ^ 20) with 100000000000000000000 by ring; lra).
  apply min_close; try (apply Rmult_le_pos; [lra|]; left; apply Rinv_0_lt_compat, pow_lt; lra); try lra.
  - replace (m / 10 ^ 20) with (m * (1 / 10 ^ 20)) by (field; apply pow_nonzero; lra).
    set (w := binary64 (1 / 10 ^ 20)) in *; rewrite N20 in *; set (v := / 100000000000000000000) in *.
    assert (PV : 0 < v) by (unfold v; lra).
    assert (EV : 0 <= eps * v) by (apply Rmult_le_pos; lra); assert (EV' : eps * v <= / 1000000000 * v) by (apply Rmult_le_compat_r; lra).
    assert (EM : 0 <= eps * m) by (apply Rmult_le_pos; lra); assert (EM' : eps * m <= / 1000000000 * m) by (apply Rmult_le_compat_r; lra).
    assert (MV : 0 <= m * v) by (apply Rmult_le_pos; lra).
    assert (EMV : 0 <= eps * (m * v)) by (apply Rmult_le_pos; lra); assert (EMV' : eps * (m * v) <= / 1000000000 * (m * v)) by (apply Rmult_le_compat_r; lra).
    assert (WV : Rabs w <= 1001 / 1000 * v) by (apply Rabs_le_inv in A20; apply Rabs_le; split; lra).
    assert (D : Rabs (w * m' - m * v) <= 45 * eps * (m * v)).
    { replace (w * m' - m * v) with (w * (m' - m) + (w - v) * m) by ring; eapply Rle_trans; [apply Rabs_triang|].
      rewrite !Rabs_mult, (Rabs_pos_eq m) by auto.
      assert (Q1 : Rabs w * Rabs (m' - m) <= (1001 / 1000 * v) * (43 * eps * m)) by (apply Rmult_le_compat; auto; apply Rabs_pos).
      assert (Q2 : Rabs (w - v) * m <= (1001 / 1000 * eps * v) * m) by (apply Rmult_le_compat_r; auto).
      lra. }
    assert (B : Rabs (w * m') <= 1001 / 1000 * (m * v)).
    { replace (w * m') with ((w * m' - m * v) + m * v) by ring; eapply Rle_trans; [apply Rabs_triang|]; rewrite (Rabs_pos_eq (m * v)) by auto; lra. }
    assert (FL : floor (m * v)).
    { destruct F as [->|F]; [left; ring|right].
      apply Rle_trans with (/ 2 ^ 400 * / 2 ^ 67).
      - rewrite <- Rinv_mult, <- pow_add; apply inv_pow_le; lia.
      - apply Rmult_le_compat; auto; try (left; apply inv_pow_pos).
        unfold v; replace (2 ^ 67) with 147573952589676412928 by ring; lra. }
    assert (Q := errm _ _ _ FL B).
    replace (binary64 (w * m') - m * v) with ((binary64 (w * m') - w * m') + (w * m' - m * v)) by ring.
    eapply Rle_trans; [apply Rabs_triang|]; lra.
  - replace (/ 10 ^ 8) with (1 / 10 ^ 8) by lra; eapply Rle_trans; [apply A8|].
    assert (0 < 1 / 10 ^ 8) by (apply Rmult_lt_0_compat; [lra|]; apply Rinv_0_lt_compat, pow_lt; lra).
    assert (0 <= eps * (1 / 10 ^ 8)) by (apply Rmult_le_pos; lra). lra.
Qed.

Theorem float_angles fsin fcos c l i g : accurate_sine_cosine fsin fcos -> constructible c -> describes l c ->
  (forall g, In g l -> measurable g) -> nth_error l i = Some g ->
  exists x y a,
    nth_error (fl_amplitude_x binary64 fcos c) i = Some x /\ nth_error (fl_amplitude_y binary64 fsin c) i = Some y /\
    nth_error (fl_angles binary64 fsin fcos c) i = Some a /\
    Rabs (x - g_rabi g * cos (g_phi g)) <= g_rabi g / 2 ^ 49 /\
    Rabs (y - g_rabi g * sin (g_phi g)) <= g_rabi g / 2 ^ 49 /\
    Rabs (a - sqrt (g_rabi g * g_rabi g + g_det g * g_det g) * g_dur g) <=
      sqrt (g_rabi g * g_rabi g + g_det g * g_det g) * g_dur g / 2 ^ 47 + / 2 ^ 1075.
Proof.
  intros T K D M I.
  rewrite (hat_x_desc fcos l c D), (hat_y_desc fsin l c D), (hat_angles_desc fsin fcos l c D).
  assert (IN := nth_error_In _ _ I).
  destruct (constructible_segments c K) as [l' [D' [U B]]]; rewrite (U l D) in *; destruct (B g IN) as [PT PR].
  exists (hat_x fcos g), (hat_y fsin g), (binary64 (hat_norm fsin fcos g * g_dur g)).
  rewrite (map_nth_error (hat_x fcos) _ _ I), (map_nth_error (hat_y fsin) _ _ I), (map_nth_error (fun g => binary64 (hat_norm fsin fcos g * g_dur g)) _ _ I).
  assert (W : 92 / 10 * eps * g_rabi g <= g_rabi g / 2 ^ 49).
  { replace (g_rabi g / 2 ^ 49) with (16 * eps * g_rabi g) by (unfold eps; replace (2 ^ 49) with 562949953421312 by lra; lra).
    apply Rmult_le_compat_r; auto; assert (E := eps_pos); lra. }
  split; [auto|]; split; [auto|]; split; [auto|]; split; [|split].
  - eapply Rle_trans; [apply (hat_x_error fsin fcos T g (M g IN) PR)|auto].
  - eapply Rle_trans; [apply (hat_y_error fsin fcos T g (M g IN) PR)|auto].
  - rewrite <- seg_norm_rabi; apply angle_error; auto; lra.
Qed.

Lemma unit_square e a b c a0 b0 c0 : 0 <= e <= 1 -> Rabs (a - a0) <= e -> Rabs (b - b0) <= e -> Rabs (c - c0) <= e ->
  a0 * a0 + b0 * b0 + c0 * c0 = 1 -> Rabs (a * a + b * b + c * c - 1) <= 9 * e.
Proof.
  intros E A B C U.
  assert (S : forall x x0, Rabs (x - x0) <= e -> -1 <= x0 <= 1 -> Rabs (x * x - x0 * x0) <= 3 * e).
  { intros x x0 X B0; replace (x * x - x0 * x0) with ((x - x0) * (x + x0)) by ring; rewrite Rabs_mult.
    rewrite (Rmult_comm 3); apply Rmult_le_compat; auto; try apply Rabs_pos.
    apply Rabs_le_inv in X; apply Rabs_le; lra. }
  assert (SA := S a a0 A ltac:(nra)); assert (SB := S b b0 B ltac:(nra)); assert (SC := S c c0 C ltac:(nra)).
  rewrite <- U; replace (a * a + b * b + c * c - (a0 * a0 + b0 * b0 + c0 * c0)) with
    ((a * a - a0 * a0) + (b * b - b0 * b0) + (c * c - c0 * c0)) by ring.
  eapply Rle_trans; [apply Rabs_triang|]; assert (H := Rabs_triang (a * a - a0 * a0) (b * b - b0 * b0)); lra.
Qed.

Theorem float_directions fsin fcos c l : accurate_sine_cosine fsin fcos -> constructible c -> describes l c -> l <> [] ->
  (forall g, In g l -> measurable g) ->
  exists m ds,
    is_maximum m (map seg_norm l) /\ fl_directions binary64 fsin fcos c = Ok ds /\
    List.length ds = number_of_segments c /\
    forall i g, nth_error l i = Some g ->
      exists dx dy dz, nth_error ds i = Some (dx, dy, dz) /\
        (threshold m * (1 + / 2 ^ 40) < seg_norm g ->
           Rabs (dx - seg_x g / seg_norm g) <= / 2 ^ 47 /\ Rabs (dy - seg_y g / seg_norm g) <= / 2 ^ 47 /\
           Rabs (dz - g_det g / seg_norm g) <= / 2 ^ 47 /\ Rabs (dx * dx + dy * dy + dz * dz - 1) <= / 2 ^ 43) /\
        (seg_norm g <= threshold m * (1 - / 2 ^ 40) ->
           Rabs (dx - seg_x g) <= g_rabi g / 2 ^ 49 /\ Rabs (dy - seg_y g) <= g_rabi g / 2 ^ 49 /\ dz = g_det g).
Proof.
  intros T K D NE M; assert (E := eps_pos); assert (E' := eps_small).
  destruct (constructible_segments c K) as [l' [D' [U B]]]; assert (l = l') as <- by (apply U; auto).
  assert (HN : forall g, In g l -> Rabs (hat_norm fsin fcos g - seg_norm g) <= 43 * eps * seg_norm g).
  { intros g I; apply hat_norm_error; auto; apply B; auto. }
  rewrite (hat_directions_desc fsin fcos l c D).
  destruct (np_amax_ok (map seg_norm l)) as [m Hm]; [intros Q; apply map_eq_nil in Q; auto|].
  destruct (np_amax_ok (map (hat_norm fsin fcos) l)) as [m' Hm']; [intros Q; apply map_eq_nil in Q; auto|].
  apply np_amax_spec in Hm; rewrite Hm'; apply np_amax_spec in Hm'; cbn [bind]; cbv zeta.
  assert (MM : Rabs (m' - m) <= 43 * eps * m).
  { destruct Hm as [I1 L1], Hm' as [I2 L2]; apply in_map_iff in I1; destruct I1 as [g1 [Q1 I1]].
    apply in_map_iff in I2; destruct I2 as [g2 [Q2 I2]].
    assert (A1 := HN g1 I1); assert (A2 := HN g2 I2); rewrite Q1 in A1; rewrite Q2 in A2.
    assert (C1 := L1 (seg_norm g2) (in_map _ _ _ I2)); assert (C2 := L2 (hat_norm fsin fcos g1) (in_map _ _ _ I1)).
    assert (P2 := norm_nonneg g2); apply Rabs_le_inv in A1; apply Rabs_le_inv in A2.
    assert (eps * seg_norm g2 <= eps * m) by (apply Rmult_le_compat_l; lra).
    apply Rabs_le; split; lra. }
  assert (PM : 0 <= m /\ (m = 0 \/ / 2 ^ 400 <= m)).
  { destruct Hm as [I1 _]; apply in_map_iff in I1; destruct I1 as [g1 [<- I1]]; split; [apply norm_nonneg|].
    destruct (M g1 I1) as [_ [_ [_ [_ [SR SD]]]]]; destruct (norm_rabi_det g1) as [W1 W2]; [apply B; auto|].
    assert (PR : 0 <= g_rabi g1) by (apply B; auto).
    destruct SR as [SR|SR]; [|right; rewrite Rabs_pos_eq in SR by auto; lra].
    destruct SD as [SD|SD]; [|right; lra].
    left; rewrite seg_norm_rabi, SR, SD, Rmult_0_l, Rplus_0_l, sqrt_0; auto. }
  destruct PM as [PM FM].
  assert (TE := tolerance_error m m' PM FM MM); set (t := fl_direction_tolerance binary64 m') in *.
  assert (PT : 0 <= threshold m).
  { unfold threshold; apply Rmin_glb; [apply Rmult_le_pos; auto|]; left; apply Rinv_0_lt_compat, pow_lt; lra. }
  assert (I40 : / 2 ^ 40 = 8192 * eps) by (unfold eps; replace (2 ^ 40) with 1099511627776 by ring; lra).
  assert (ET : 0 <= eps * threshold m) by (apply Rmult_le_pos; lra).
  exists m; eexists; split; [auto|]; split; [reflexivity|]; split.
  { unfold number_of_segments; destruct D as [E1 _]; rewrite E1, !map_length; auto. }
  intros i g Hi; assert (IN := nth_error_In _ _ Hi); destruct (B g IN) as [_ PR].
  do 3 eexists; split; [apply (map_nth_error (fun g => (binary64 (hat_x fcos g / fl_safe_amplitude binary64 t (hat_norm fsin fcos g)),
      binary64 (hat_y fsin g / fl_safe_amplitude binary64 t (hat_norm fsin fcos g)),
      binary64 (g_det g / fl_safe_amplitude binary64 t (hat_norm fsin fcos g)))) _ _ Hi)|].
  rewrite safe_test; [|apply tolerance_format|apply format_rnd|apply rnd_nonneg, sqrt_pos].
  assert (A := HN g IN); apply Rabs_le_inv in A; apply Rabs_le_inv in TE; assert (P := norm_nonneg g).
  assert (EN : 0 <= eps * seg_norm g) by (apply Rmult_le_pos; lra).
  assert (EN' : eps * seg_norm g <= / 1000000000 * seg_norm g) by (apply Rmult_le_compat_r; lra).
  assert (ET' : eps * threshold m <= / 1000000000 * threshold m) by (apply Rmult_le_compat_r; lra).
  destruct (norm_rabi_det g PR) as [NR ND]; destruct (norm_xy g) as [NX NY].
  assert (HX := hat_x_error fsin fcos T g (M g IN) PR); assert (HY := hat_y_error fsin fcos T g (M g IN) PR).
  rewrite I40; split; intros H.
  - replace (leb (hat_norm fsin fcos g) t) with false.
    2:{ symmetry; apply leb_false.
        assert (8 * (eps * threshold m) <= 8 * (eps * seg_norm g)) by (apply Rmult_le_compat_l; [lra|]; apply Rmult_le_compat_l; lra).
        assert (EE : eps * (eps * threshold m) <= / 1000000000 * (eps * threshold m)) by (apply Rmult_le_compat_r; lra).
        assert (K1 : threshold m * (1 + 8192 * eps) * (1 - 43 * eps) < seg_norm g * (1 - 43 * eps)) by (apply Rmult_lt_compat_r; lra).
        lra. }
    assert (PN : 0 < seg_norm g).
    { assert (0 <= threshold m * (1 + 8192 * eps)) by (apply Rmult_le_pos; lra). lra. }
    assert (W : 92 / 10 * eps * g_rabi g <= 92 / 10 * eps * seg_norm g) by (apply Rmult_le_compat_l; lra).
    assert (QX := quotient_error fsin fcos T g (M g IN) PR (hat_x fcos g) (seg_x g) PN NX ltac:(lra)).
    assert (QY := quotient_error fsin fcos T g (M g IN) PR (hat_y fsin g) (seg_y g) PN NY ltac:(lra)).
    assert (QZ := quotient_error fsin fcos T g (M g IN) PR (g_det g) (g_det g) PN ND ltac:(rewrite Rminus_diag_eq, Rabs_R0 by auto; lra)).
    split; [auto|]; split; [auto|]; split; [auto|].
    apply Rle_trans with (9 * / 2 ^ 47).
    + apply (unit_square _ _ _ _ (seg_x g / seg_norm g) (seg_y g / seg_norm g) (g_det g / seg_norm g)); auto.
      * split; [left; apply inv_pow_pos|]; apply Rle_trans with (/ 2 ^ 0); [apply inv_pow_le; lia|cbn; lra].
      * assert (S : seg_norm g * seg_norm g = seg_x g * seg_x g + seg_y g * seg_y g + g_det g * g_det g) by apply norm3_sq.
        transitivity ((seg_x g * seg_x g + seg_y g * seg_y g + g_det g * g_det g) / (seg_norm g * seg_norm g)); [field; lra|].
        rewrite <- S; field; lra.
    + replace (2 ^ 47) with 140737488355328 by ring; replace (2 ^ 43) with 8796093022208 by ring; lra.
  - replace (leb (hat_norm fsin fcos g) t) with true.
    2:{ symmetry; apply leb_true.
        assert (EE : eps * (eps * threshold m) <= / 1000000000 * (eps * threshold m)) by (apply Rmult_le_compat_r; lra).
        assert (0 <= eps * (eps * threshold m)) by (apply Rmult_le_pos; lra).
        assert (K1 : seg_norm g * (1 + 43 * eps) <= threshold m * (1 - 8192 * eps) * (1 + 43 * eps)) by (apply Rmult_le_compat_r; lra).
        lra. }
    unfold Rdiv; rewrite !Rinv_1, !Rmult_1_r.
    unfold hat_x, hat_y in *; rewrite !(rnd_format (binary64 _)) by apply format_rnd.
    assert (W : 92 / 10 * eps * g_rabi g <= g_rabi g * / 2 ^ 49).
    { replace (/ 2 ^ 49) with (16 * eps) by (unfold eps; replace (2 ^ 49) with 562949953421312 by lra; lra).
      rewrite (Rmult_comm (g_rabi g)); apply Rmult_le_compat_r; auto; lra. }
    split; [lra|]; split; [lra|]; apply rnd_format; apply M; auto.
Qed.

(** ** Plots *)

Lemma fl_export_raw fsin fcos c l (k : R) dim :
  describes l c -> k <> 0 -> (if dim : bool then maximum_rabi_rate c else Ok 1) = Ok k ->
  fl_export binary64 fsin fcos c CARTESIAN dim =
    Ok [("X amplitude", track (fun g => PReal (Fin (binary64 (hat_x fcos g / k)))) l);
        ("Y amplitude", track (fun g => PReal (Fin (binary64 (hat_y fsin g / k)))) l);
        ("Detuning", track (fun g => PReal (Fin (g_det g))) l)] /\
  fl_export binary64 fsin fcos c CYLINDRICAL dim =
    Ok [("Rabi rate", track (fun g => PComplex (Fin (binary64 (binary64 (g_rabi g / k) * fcos (g_phi g))))
                                               (Fin (binary64 (binary64 (g_rabi g / k) * fsin (g_phi g))))) l);
        ("Detuning", track (fun g => PReal (Fin (g_det g))) l)].
Proof.
  intros D K E; unfold fl_export.
  rewrite E, (hat_x_desc fcos l c D), (hat_y_desc fsin l c D).
  destruct D as [E1 [E2 [E3 E4]]]; rewrite E1, E2, E3, E4.
  assert (F : forall f : seg -> R, map (fun x => fl_xdiv binary64 x k) (map f l) = map (fun g => Fin (binary64 (f g / k))) l).
  { intros f; rewrite map_map; apply map_ext; intros g; apply fl_xdiv_fin; auto. }
  split; cbn [check_arguments str_in existsb coordinate_systems String.eqb CARTESIAN CYLINDRICAL
              Ascii.eqb Bool.eqb orb bind app]; rewrite !F.
  - rewrite !map_map, !plot_points_map; reflexivity.
  - rewrite zip_with_map, !map_map, !plot_points_map; reflexivity.
Qed.

Section Plotted.
  Variables (k r u u0 : R).
  Hypotheses (HK : 0 < k) (HR : 0 <= r) (HU0 : Rabs u0 <= 1) (HU : Rabs (u - u0) <= / 2 ^ 50).

  Lemma ratio_nonneg : 0 <= r / k.
  Proof. apply Rmult_le_pos; auto; left; apply Rinv_0_lt_compat; auto. Qed.
  Lemma plot_goal v : Rabs (v - r * u0 / k) <= 15 * eps * (r / k) + 3 * eta -> plotted (r / k) v (r * u0 / k).
  Proof.
    intros H; unfold plotted; eapply Rle_trans; [apply H|]; assert (P := ratio_nonneg); assert (E := eps_pos); assert (T := eta_pos).
    replace (r / k / 2 ^ 49) with (16 * eps * (r / k)) by (unfold eps; replace (2 ^ 49) with 562949953421312 by lra; lra).
    replace (/ 2 ^ 1073) with (4 * eta).
    2:{ unfold eta; change (2 ^ 1075) with (2 * (2 * 2 ^ 1073)); field; apply pow_nonzero; lra. }
    assert (0 <= eps * (r / k)) by (apply Rmult_le_pos; lra). lra.
  Qed.

  Lemma cartesian_plotted : sized r -> plotted (r / k) (binary64 (binary64 (r * u) / k)) (r * u0 / k).
  Proof.
    intros S; apply plot_goal; assert (X := component r u u0 HR S HU0 HU); set (x := binary64 (r * u)) in *.
    assert (P := ratio_nonneg); assert (E := eps_pos); assert (E' := eps_small); assert (T := eta_pos).
    assert (D : Rabs (x / k - r * u0 / k) <= 92 / 10 * eps * (r / k)).
    { replace (x / k - r * u0 / k) with ((x - r * u0) / k) by (field; lra); rewrite Rabs_div, (Rabs_pos_eq k) by lra.
      replace (92 / 10 * eps * (r / k)) with ((92 / 10 * eps * r) / k) by (field; lra).
      apply Rmult_le_compat_r; auto; left; apply Rinv_0_lt_compat; auto. }
    assert (Q := rnd_error (x / k)).
    assert (EP : 0 <= eps * (r / k)) by (apply Rmult_le_pos; lra); assert (EP' : eps * (r / k) <= / 1000000000 * (r / k)) by (apply Rmult_le_compat_r; lra).
    assert (B : Rabs (x / k) <= 2 * (r / k)).
    { replace (x / k) with ((x / k - r * u0 / k) + r * u0 / k) by ring; eapply Rle_trans; [apply Rabs_triang|].
      replace (r * u0 / k) with (r / k * u0) at 2 by (field; lra); rewrite Rabs_mult, (Rabs_pos_eq (r / k)) by auto.
      assert (r / k * Rabs u0 <= r / k * 1) by (apply Rmult_le_compat_l; auto). lra. }
    apply (Rmult_le_compat_l eps) in B; [|lra].
    replace (binary64 (x / k) - r * u0 / k) with ((binary64 (x / k) - x / k) + (x / k - r * u0 / k)) by ring.
    eapply Rle_trans; [apply Rabs_triang|]; lra.
  Qed.

  Lemma cylindrical_plotted : plotted (r / k) (binary64 (binary64 (r / k) * u)) (r * u0 / k).
  Proof.
    apply plot_goal; replace (r * u0 / k) with (r / k * u0) by (field; lra); rewrite inv_50 in HU.
    assert (P := ratio_nonneg); assert (E := eps_pos); assert (E' := eps_small); assert (T := eta_pos).
    set (q := r / k) in *; assert (Q := rnd_error q); rewrite (Rabs_pos_eq q) in Q by auto; set (w := binary64 q) in *.
    assert (EP : 0 <= eps * q) by (apply Rmult_le_pos; lra); assert (EP' : eps * q <= / 1000000000 * q) by (apply Rmult_le_compat_r; lra).
    assert (ET : 0 <= eps * eta) by (apply Rmult_le_pos; lra); assert (ET' : eps * eta <= / 1000000000 * eta) by (apply Rmult_le_compat_r; lra).
    assert (U1 : Rabs u <= 1 + 8 * eps) by (replace u with ((u - u0) + u0) by ring; eapply Rle_trans; [apply Rabs_triang|]; lra).
    assert (D : Rabs (w * u - q * u0) <= 101 / 10 * eps * q + 11 / 10 * eta).
    { replace (w * u - q * u0) with ((w - q) * u + q * (u - u0)) by ring; eapply Rle_trans; [apply Rabs_triang|].
      rewrite !Rabs_mult, (Rabs_pos_eq q) by auto.
      assert (A1 : Rabs (w - q) * Rabs u <= (eps * q + eta) * (11 / 10)) by (apply Rmult_le_compat; try apply Rabs_pos; lra).
      assert (A2 : q * Rabs (u - u0) <= q * (8 * eps)) by (apply Rmult_le_compat_l; auto).
      lra. }
    assert (B : Rabs (w * u) <= 2 * q + 2 * eta).
    { replace (w * u) with ((w * u - q * u0) + q * u0) by ring; eapply Rle_trans; [apply Rabs_triang|].
      rewrite (Rabs_mult q), (Rabs_pos_eq q) by auto; assert (q * Rabs u0 <= q * 1) by (apply Rmult_le_compat_l; auto). lra. }
    assert (Q2 := rnd_error (w * u)); apply (Rmult_le_compat_l eps) in B; [|lra].
    replace (binary64 (w * u) - q * u0) with ((binary64 (w * u) - w * u) + (w * u - q * u0)) by ring.
    eapply Rle_trans; [apply Rabs_triang|]; lra.
  Qed.
End Plotted.

Theorem float_plot fsin fcos c l dim k : accurate_sine_cosine fsin fcos -> constructible c -> describes l c ->
  (forall g, In g l -> measurable g) ->
  (if dim : bool then is_maximum k (map g_rabi l) /\ 0 < k else k = 1) ->
  exists x y x' y' : seg -> R,
    fl_export binary64 fsin fcos c CARTESIAN dim =
      Ok [("X amplitude", track (fun g => PReal (Fin (x g))) l); ("Y amplitude", track (fun g => PReal (Fin (y g))) l);
          ("Detuning", track (fun g => PReal (Fin (g_det g))) l)] /\
    fl_export binary64 fsin fcos c CYLINDRICAL dim =
      Ok [("Rabi rate", track (fun g => PComplex (Fin (x' g)) (Fin (y' g))) l);
          ("Detuning", track (fun g => PReal (Fin (g_det g))) l)] /\
    forall g, In g l ->
      plotted (g_rabi g / k) (x g) (seg_x g / k) /\ plotted (g_rabi g / k) (y g) (seg_y g / k) /\
      plotted (g_rabi g / k) (x' g) (seg_x g / k) /\ plotted (g_rabi g / k) (y' g) (seg_y g / k).
Proof.
  intros T K D M H.
  destruct (constructible_segments c K) as [l' [D' [U B]]]; assert (l = l') as <- by (apply U; auto).
  assert (PK : 0 < k) by (destruct dim; [apply H|subst; lra]).
  assert (N : (if dim then maximum_rabi_rate c else Ok 1) = Ok k).
  { destruct dim; [apply (desc_max l c k D), H|subst; reflexivity]. }
  destruct (fl_export_raw fsin fcos c l k dim D ltac:(lra) N) as [E1 E2].
  do 4 eexists; split; [exact E1|split; [exact E2|]].
  intros g I; destruct (B g I) as [_ PR]; destruct (M g I) as [_ [F [_ [PH [S _]]]]]; destruct T as [TS TC].
  specialize (TS _ F PH); specialize (TC _ F PH).
  assert (C1 : Rabs (cos (g_phi g)) <= 1) by (apply Rabs_le, COS_bound).
  assert (S1 : Rabs (sin (g_phi g)) <= 1) by (apply Rabs_le, SIN_bound).
  unfold seg_x, seg_y, hat_x, hat_y; split; [|split; [|split]].
  - apply cartesian_plotted; auto.
  - apply cartesian_plotted; auto.
  - apply cylindrical_plotted; auto.
  - apply cylindrical_plotted; auto.
Qed.

(** ** Without rounding *)

Lemma exact_add_all l : forall s, fl_add_all (fun x => x) s l = s + total l.
Proof. induction l as [|x l IH]; intros s; cbn; [ring|rewrite IH; ring]. Qed.
Lemma exact_lanes n : forall l r0 r1 r2 r3 r4 r5 r6 r7, (List.length l <= n)%nat ->
  fl_lanes (fun x => x) r0 r1 r2 r3 r4 r5 r6 r7 l = r0 + r1 + r2 + r3 + r4 + r5 + r6 + r7 + total l.
Proof.
  induction n as [n IH] using lt_wf_ind; intros l r0 r1 r2 r3 r4 r5 r6 r7 L.
  destruct l as [|a0 [|a1 [|a2 [|a3 [|a4 [|a5 [|a6 [|a7 l]]]]]]]]; try (cbn [fl_lanes]; rewrite exact_add_all; ring).
  cbn [fl_lanes]; rewrite (IH (List.length l)); [cbn [total]; ring|cbn in L; lia|lia].
Qed.
Lemma exact_block l : fl_block (fun x => x) l = total l.
Proof.
  destruct l as [|a0 [|a1 [|a2 [|a3 [|a4 [|a5 [|a6 [|a7 l]]]]]]]]; try (cbn [fl_block]; rewrite exact_add_all; ring).
  cbn [fl_block]; rewrite (exact_lanes (List.length l)) by auto; cbn [total]; ring.
Qed.
Lemma exact_pairwise fuel : forall l, fl_pairwise (fun x => x) fuel l = total l.
Proof.
  induction fuel as [|fuel IH]; intros l; cbn [fl_pairwise]; [apply exact_block|].
  destruct (List.length l <=? 128)%nat; [apply exact_block|]; cbv zeta; rewrite !IH, <- total_app, firstn_skipn; reflexivity.
Qed.
Lemma exact_accumulate l : forall s, fl_accumulate (fun x => x) s l = cumsum_from s l.
Proof. induction l as [|x l IH]; intros s; cbn; [auto|rewrite IH; auto]. Qed.

Theorem float_properties_exact c :
  fl_times (fun x => x) c = times c /\ fl_duration (fun x => x) c = duration c /\
  fl_angles (fun x => x) sin cos c = angles c /\ fl_directions (fun x => x) sin cos c = directions c /\
  forall coordinates dim, fl_export (fun x => x) sin cos c coordinates dim = export c coordinates dim.
Proof.
  split; [|split; [|split; [|split]]].
  - unfold fl_times, times, fl_cumsum, np_cumsum; destruct (durations c) as [|x l]; [reflexivity|].
    cbn; rewrite exact_accumulate, Rplus_0_l; reflexivity.
  - unfold fl_duration, fl_sum, duration; rewrite exact_pairwise, Rplus_0_l.
    induction (durations c) as [|x l IH]; cbn; [auto|rewrite IH; auto].
  - reflexivity.
  - unfold fl_directions, directions, fl_safe_amplitude, fl_isclose_tol.
    change (fl_amplitudes (fun x => x) sin cos c) with (amplitudes c).
    destruct (np_amax (amplitudes c)); reflexivity.
  - intros coordinates dim; unfold fl_export, export.
    destruct (check_arguments _ _ _ _); cbn [bind]; [|reflexivity].
    destruct (if dim then maximum_rabi_rate c else Ok 1) as [k|e]; cbn [bind]; [|reflexivity].
    assert (S : forall x y, fl_xscale (fun x => x) x y = xscale x y) by (intros x y; unfold fl_xscale; destruct (xscale x y); auto).
    rewrite !map_xdiv_exact.
    assert (Z : forall a b, zip_with (fun r theta => PComplex (fl_xscale (fun x => x) r (cos theta)) (fl_xscale (fun x => x) r (sin theta))) a b =
                zip_with (fun r theta => PComplex (xscale r (cos theta)) (xscale r (sin theta))) a b).
    { intros v w; unfold zip_with; apply map_ext; intros p; rewrite !S; reflexivity. }
    rewrite Z; reflexivity.
Qed.

(** ** Times that coincide *)

Definition step_control (n : nat) : list seg := Seg 1 0 0 1 :: repeat (Seg 1 0 0 (/ 2 ^ 55)) n.
Lemma step_made n : exists c, constructible c /\ describes (step_control n) c /\ (forall t, In t (durations c) -> binary64_format t).
Proof.
  destruct (segments_constructible (step_control n) None) as [c [E [D _]]].
  - intros g [<-|I]; cbn; [lra|]; apply repeat_spec in I; subst g; cbn [g_dur g_rabi]; split; [apply inv_pow_pos|lra].
  - exists c; split; [do 5 eexists; exact E|split; [exact D|]].
    destruct D as [_ [_ [_ ->]]]; intros t I; apply in_map_iff in I; destruct I as [g [<- [<-|I]]]; [apply format_1|].
    apply repeat_spec in I; subst g; cbn [g_dur]; rewrite <- bpow_inv; apply generic_format_bpow; unfold FLT_exp; cbn; lia.
Qed.
Lemma one_step : binary64 (1 + / 2 ^ 55) = 1.
Proof. apply absorb; [apply format_1|lra|]; assert (P := inv_pow_pos 55); lra. Qed.

Theorem times_coincide : exists c, constructible c /\ (forall t, In t (durations c) -> binary64_format t) /\
  fl_times binary64 c = [0; 1; 1].
Proof.
  destruct (step_made 1) as [c [K [D F]]]; exists c; split; [auto|split; [auto|]].
  destruct D as [_ [_ [_ E]]]; unfold fl_times; rewrite E; cbn [step_control map repeat g_dur fl_cumsum fl_accumulate].
  rewrite one_step; reflexivity.
Qed.

Lemma add_steps n : fl_add_all binary64 1 (repeat (/ 2 ^ 55) n) = 1.
Proof. induction n as [|n IH]; [reflexivity|]; cbn [repeat fl_add_all]; rewrite one_step; auto. Qed.
Lemma map_repeat {A B} (f : A -> B) x n : map f (repeat x n) = repeat (f x) n.
Proof. induction n; cbn; [auto|rewrite IHn; auto]. Qed.
Lemma total_repeat x n : total (repeat x n) = INR n * x.
Proof. induction n as [|n IH]; [cbn; ring|]; rewrite S_INR; cbn [repeat total]; rewrite IH; ring. Qed.
Lemma nth_last l : forall s, nth_error (s :: fl_accumulate binary64 s l) (List.length l) = Some (fl_add_all binary64 s l).
Proof.
  induction l as [|x l IH]; intros s; [reflexivity|]; cbn [fl_accumulate fl_add_all List.length]; rewrite <- IH; reflexivity.
Qed.

Lemma pairwise_small fuel l : (List.length l <= 128)%nat -> fl_pairwise binary64 fuel l = fl_block binary64 l.
Proof. intros L; destruct fuel as [|fuel]; cbn [fl_pairwise]; auto; apply Nat.leb_le in L; rewrite L; auto. Qed.

Theorem last_time_differs : exists c T, constructible c /\ (forall t, In t (durations c) -> binary64_format t) /\
  nth_error (fl_times binary64 c) (number_of_segments c) = Some T /\ T < fl_duration binary64 c.
Proof.
  destruct (step_made 127) as [c [K [D F]]]; exists c, 1; split; [auto|split; [auto|]].
  assert (A := durations_addends c K F).
  assert (DU : durations c = 1 :: repeat (/ 2 ^ 55) 127).
  { destruct D as [_ [_ [_ E]]]; rewrite E; unfold step_control; cbn [map]; rewrite map_repeat; reflexivity. }
  split.
  - unfold number_of_segments; destruct D as [E _]; rewrite E, map_length; unfold step_control; cbn [List.length]; rewrite repeat_length.
    unfold fl_times; rewrite DU; cbn [fl_cumsum].
    change (nth_error (1 :: fl_accumulate binary64 1 (repeat (/ 2 ^ 55) 127)) 127 = Some 1).
    replace 127%nat with (List.length (repeat (/ 2 ^ 55) 127)) at 2 by apply repeat_length.
    rewrite nth_last, add_steps; reflexivity.
  - unfold fl_duration; assert (S := block_sum (durations c)).
    assert (L : List.length (durations c) = 128%nat) by (rewrite DU; cbn [List.length]; rewrite repeat_length; reflexivity).
    specialize (S ltac:(lia) A); unfold fl_sum; rewrite pairwise_small by lia.
    destruct S as [FS [PS [_ [LO _]]]]; rewrite Rplus_0_l, rnd_format by auto.
    eapply Rlt_le_trans; [|exact LO]; assert (B := bernoulli_down 25).
    rewrite DU; cbn [total]; rewrite total_repeat.
    replace (INR 127) with 127 by (cbn; lra); replace (INR 25) with 25 in B by (cbn; lra).
    assert (Q : / 2 ^ 55 = eps / 4) by (unfold eps; replace (2 ^ 55) with 36028797018963968 by ring; lra).
    assert (E := eps_pos); rewrite Q; apply Rlt_le_trans with ((1 - 25 * eps) * (1 + 127 * (eps / 4))).
    + unfold eps; lra.
    + apply Rmult_le_compat_r; lra.
Qed.
