(** * Concatenated sequences in floating point *)

From Coq Require Import ZArith.
From Flocq Require Import Core Mult_error.
From Verif Require Export L_FloatWalsh.
Import ListNotations.
Open Scope string_scope.
Open Scope list_scope.
Open Scope R_scope.

(** ** Division of the duration by a power of two is exact *)

Lemma ordinary_mag T : / 2 ^ 900 <= T -> (-899 <= mag radix2 T)%Z.
Proof.
  intros H; apply mag_ge_bpow; change (-899 - 1)%Z with (- Z.of_nat 900)%Z; rewrite bpow_inv.
  assert (P := inv_pow_pos 900); rewrite Rabs_right; lra.
Qed.

Lemma unit_exact T l : binary64_format T -> / 2 ^ 900 <= T -> (l <= 100)%nat -> binary64 (T / 2 ^ l) = T / 2 ^ l.
Proof.
  intros F H L; apply rnd_format; unfold Rdiv; rewrite <- bpow_inv.
  apply mult_bpow_exact_FLT; auto; assert (M := ordinary_mag T H); lia.
Qed.

(** ** Repeated addition of the unit *)

Section Sums.
  Variables (u : R) (N : nat).
  Hypothesis U : 2 * tiny <= u.
  Hypothesis HN : INR N <= 2 ^ 26.

  Fixpoint sums (k : nat) : R :=
    match k with O => 0 | S k' => if (k' <? N)%nat then binary64 (sums k' + u) else sums k' + u end.

  Lemma u_pos : 0 < u. Proof. assert (0 < tiny) by apply inv_pow_pos; lra. Qed.

  Lemma sums_spec k : (k <= N)%nat ->
    Rabs (sums k - INR k * u) <= INR k ^ 2 * eps * u /\ 0 <= sums k /\ binary64_format (sums k).
  Proof.
    assert (UP := u_pos); assert (E := eps_pos).
    induction k as [|k IH]; intros K.
    - cbn [sums INR]; split; [rewrite Rmult_0_l, Rminus_0_r, Rabs_R0; cbn; lra|split; [lra|apply format_0]].
    - destruct IH as [A [P _]]; [lia|]; cbn [sums]; rewrite (proj2 (Nat.ltb_lt k N)) by lia.
      assert (KN : INR k <= 2 ^ 26) by (apply le_INR in K; rewrite S_INR in K; lra).
      assert (K0 := pos_INR k); rewrite S_INR; set (n := INR k) in *.
      assert (R : acc 1 (binary64 (sums k + u)) (sums k + u)) by (apply acc_rnd; assert (0 < tiny) by apply inv_pow_pos; lra).
      apply acc_abs in R; split; [|split; [|apply format_rnd]].
      + apply Rabs_le_inv in A.
        assert (NE : n * eps <= 1) by (unfold eps; lra).
        assert (NE2 : n ^ 2 * eps <= n) by (replace (n ^ 2 * eps) with (n * (n * eps)) by ring; nra).
        assert (NU : n ^ 2 * eps * u <= n * u) by (apply Rmult_le_compat_r; lra).
        assert (B : 1 * eps * (sums k + u) <= eps * ((2 * n + 1) * u)) by (rewrite Rmult_1_l; apply Rmult_le_compat_l; nra).
        replace ((n + 1) ^ 2 * eps * u) with (n ^ 2 * eps * u + eps * ((2 * n + 1) * u)) by ring.
        apply Rabs_le; split; lra.
      + assert (1 * eps * (sums k + u) <= 1 * (sums k + u)) by (apply Rmult_le_compat_r; [lra|num]); lra.
  Qed.

  Lemma sums_lt k : sums k < sums (S k).
  Proof.
    assert (UP := u_pos); assert (E := eps_pos).
    cbn [sums]; destruct (Nat.ltb_spec k N) as [K|K]; [|lra].
    destruct (sums_spec k ltac:(lia)) as [A [P _]]; apply Rabs_le_inv in A.
    assert (KN : INR k <= 2 ^ 26) by (apply Nat.lt_le_incl, le_INR in K; lra).
    assert (K0 := pos_INR k); set (n := INR k) in *.
    assert (R : acc 1 (binary64 (sums k + u)) (sums k + u)) by (apply acc_rnd; assert (0 < tiny) by apply inv_pow_pos; lra).
    apply acc_abs in R.
    assert (NE : n * eps <= 1) by (unfold eps; lra).
    assert (NE2 : n ^ 2 * eps <= n) by (replace (n ^ 2 * eps) with (n * (n * eps)) by ring; nra).
    assert (NU : n ^ 2 * eps * u <= n * u) by (apply Rmult_le_compat_r; lra).
    assert (B : 1 * eps * (sums k + u) <= / 2 * u).
    { apply (Rle_trans _ (1 * eps * ((2 * n + 1) * u))); [apply Rmult_le_compat_l; nra|].
      rewrite <- Rmult_assoc; apply Rmult_le_compat_r; [lra|]; unfold eps; lra. }
    lra.
  Qed.

  Lemma sums_mono i j : (i < j)%nat -> sums i < sums j.
  Proof.
    induction j as [|j IH]; intros H; [lia|].
    destruct (Nat.eq_dec i j) as [->|NE]; [apply sums_lt|].
    eapply Rlt_trans; [apply IH; lia|apply sums_lt].
  Qed.

  Lemma sums_zero k : (k <= N)%nat -> binary64 (sums k + 0) = sums k.
  Proof. intros K; rewrite Rplus_0_r; apply rnd_format, sums_spec; auto. Qed.

  (** ** X concatenated *)

  Notation add64 := (fun a b => binary64 (a + b)).

  Lemma running_sums cs : forall k, (k + List.length cs <= N)%nat ->
    running add64 (sums k) (map (fun c => if Z.eqb c 0 then 0 else u) (codes cs)) =
    spread sums (S k) (map S cs).
  Proof.
    induction cs as [|c cs IH]; intros k K; [reflexivity|]; cbn [List.length] in K.
    unfold codes; cbn [map List.concat]; fold (codes cs).
    rewrite <- app_comm_cons; cbn [map Z.eqb running spread repeat]; rewrite <- app_comm_cons.
    assert (E : binary64 (sums k + u) = sums (S k)) by (cbn [sums]; rewrite (proj2 (Nat.ltb_lt k N)) by lia; auto).
    rewrite !E; f_equal.
    rewrite <- (IH (S k)) by lia; assert (Z := sums_zero (S k) ltac:(lia)); revert Z; generalize (sums (S k)); intros x Z; clear - Z.
    induction c; cbn [repeat app map Z.eqb running]; auto.
    rewrite Z, IHc; auto.
  Qed.

  (** ** XY concatenated *)

  Definition sums_z (z : Z) : R := if (z <? 0)%Z then IZR z else sums (Z.to_nat z).

  Lemma sums_z_lt x y : (x < y)%Z -> sums_z x < sums_z y.
  Proof.
    intros H; unfold sums_z; destruct (Z.ltb_spec x 0), (Z.ltb_spec y 0); try lia.
    - apply IZR_lt; auto.
    - assert (IZR x < 0) by (apply IZR_lt; auto).
      destruct (Z.to_nat y) as [|k]; [cbn; auto|].
      assert (Q := sums_mono 0 (S k) ltac:(lia)); change (sums 0) with 0 in Q; lra.
    - apply sums_mono; lia.
  Qed.
  Lemma sums_z_lt_iff x y : sums_z x < sums_z y <-> (x < y)%Z.
  Proof.
    split; [|apply sums_z_lt]; intros H; destruct (Z.lt_trichotomy x y) as [L|[->|L]]; auto; [lra|].
    apply sums_z_lt in L; lra.
  Qed.

  Lemma running_sums_z (m : Z) ops : forall a, (0 <= a)%Z ->
    (a + total_z (map (fun c => if Z.eqb c m then 0%Z else 1%Z) ops) <= Z.of_nat N)%Z ->
    running add64 (sums_z a) (map (fun c => if Z.eqb c m then 0 else u) ops) =
    map sums_z (running Z.add a (map (fun c => if Z.eqb c m then 0%Z else 1%Z) ops)).
  Proof.
    induction ops as [|c ops IH]; intros a A0 A1; [reflexivity|].
    cbn [map running]; unfold total_z in *; cbn [map fold_right] in A1.
    assert (NN : (0 <= fold_right Z.add 0 (map (fun c => if (c =? m)%Z then 0 else 1) ops))%Z).
    { clear; induction ops; cbn; [lia|]; destruct (a =? m)%Z; lia. }
    assert (E : binary64 (sums_z a + (if (c =? m)%Z then 0 else u)) = sums_z (a + (if (c =? m)%Z then 0 else 1))).
    { unfold sums_z; destruct (Z.ltb_spec a 0); [lia|].
      destruct (c =? m)%Z.
      - rewrite Z.add_0_r; destruct (Z.ltb_spec a 0); [lia|]; apply sums_zero; lia.
      - destruct (Z.ltb_spec (a + 1) 0); [lia|].
        replace (Z.to_nat (a + 1)) with (S (Z.to_nat a)) by lia; cbn [sums].
        rewrite (proj2 (Nat.ltb_lt (Z.to_nat a) N)) by lia; reflexivity. }
    rewrite E, IH; auto; destruct (c =? m)%Z; lia.
  Qed.

  Lemma xy_positions_sums m o1 o2 cum : markers m o1 o2 -> (units cum <= Z.of_nat N)%Z ->
    xy_positions 0 u add64 m o1 o2 cum = map sums_z (xy_positions 0%Z 1%Z Z.add m o1 o2 cum).
  Proof.
    intros M K; unfold xy_positions; cbv zeta.
    change 0 with (sums_z 0%Z) at 1; apply running_sums_z; [lia|].
    rewrite <- (steps_total m o1 o2) in K by auto; exact K.
  Qed.

  Lemma xy_slots_sums l : (units (concatenation_xy l) <= Z.of_nat N)%Z ->
    xy_slots 0 u add64 leb eqb ltb l = map (slot_map sums_z) (xy_slots 0%Z 1%Z Z.add Z.leb Z.eqb Z.ltb l).
  Proof.
    intros K.
    assert (hle : forall x y, leb (sums_z x) (sums_z y) = Z.leb x y).
    { intros x y; destruct (Z.leb_spec x y) as [L|L].
      - apply leb_true; destruct (Z.eq_dec x y) as [->|NE]; [lra|]; apply Rlt_le, sums_z_lt; lia.
      - apply leb_false, sums_z_lt; auto. }
    assert (heq : forall x y, PyBase.eqb (sums_z x) (sums_z y) = Z.eqb x y).
    { intros x y; destruct (Z.eqb_spec x y) as [->|NE]; [apply eqb_true; auto|].
      apply eqb_false; intros C; destruct (Z.lt_total x y) as [L|[L|L]]; [|lia|]; apply sums_z_lt in L; lra. }
    assert (hlt : forall x y, ltb (sums_z x) (sums_z y) = Z.ltb x y).
    { intros x y; destruct (Z.ltb_spec x y) as [L|L].
      - apply ltb_true, sums_z_lt; auto.
      - apply ltb_false; destruct (Z.eq_dec x y) as [->|NE]; [lra|]; apply Rlt_le, sums_z_lt; lia. }
    unfold xy_slots, rabi_offsets, azimuthal_offsets, detuning_offsets; cbv zeta.
    rewrite !xy_positions_sums by (unfold markers; tauto).
    rewrite !(even_map Z.leb Z.eqb leb PyBase.eqb sums_z hle heq), !map_length, (merge_map Z.ltb ltb sums_z hlt).
    assert (E : forall m n, map (slot_map sums_z) m ++ repeat (blank 0) n = map (slot_map sums_z) (m ++ repeat (blank 0%Z) n)).
    { intros m k; rewrite map_app; f_equal; induction k; cbn; auto; rewrite IHk; reflexivity. }
    rewrite E, map_length, (z_loop_map 0%Z 0 Z.ltb ltb sums_z eq_refl hlt); auto.
  Qed.
End Sums.

(** ** Four quarters of the duration *)

Lemma pow_2_Z k : (0 <= k)%Z -> IZR (2 ^ k) = bpow radix2 k.
Proof. intros K; rewrite <- (IZR_Zpower radix2 k K); reflexivity. Qed.

Lemma round_at (n e k : Z) : (0 <= k)%Z -> (-1074 <= e + k)%Z -> (2 ^ (52 + k) <= n < 2 ^ (53 + k))%Z ->
  binary64 (IZR n * bpow radix2 e) = IZR (ZnearestE (IZR n * bpow radix2 (- k))) * bpow radix2 (e + k).
Proof.
  intros K E [N1 N2]; apply IZR_le in N1; apply IZR_lt in N2.
  rewrite pow_2_Z in N1 by lia; rewrite pow_2_Z in N2 by lia.
  assert (B := bpow_gt_0 radix2 e).
  assert (N0 : 0 < IZR n) by (eapply Rlt_le_trans; [apply bpow_gt_0|exact N1]).
  assert (M : mag radix2 (IZR n * bpow radix2 e) = (53 + k + e)%Z :> Z).
  { apply mag_unique; rewrite Rabs_right by (apply Rle_ge, Rmult_le_pos; lra); split.
    - replace (53 + k + e - 1)%Z with (52 + k + e)%Z by lia; rewrite bpow_plus; apply Rmult_le_compat_r; lra.
    - rewrite bpow_plus; apply Rmult_lt_compat_r; lra. }
  unfold binary64, round, scaled_mantissa, cexp, F2R; cbn [Fnum Fexp]; rewrite M.
  replace (FLT_exp (-1074) 53 (53 + k + e)) with (e + k)%Z by (unfold FLT_exp; lia).
  do 3 f_equal; rewrite Rmult_assoc, <- bpow_plus; do 2 f_equal; lia.
Qed.

Lemma nearest_tie (m d : Z) : (-2 <= d <= 2)%Z -> (Z.even m = true \/ (-1 <= d <= 1)%Z) ->
  ZnearestE (IZR (4 * m + d) * / 4) = m.
Proof.
  intros D H; rewrite plus_IZR, mult_IZR; replace ((4 * IZR m + IZR d) * / 4) with (IZR m + IZR d / 4) by field.
  destruct (Z.eq_dec d 2) as [->|N2]; [|destruct (Z.eq_dec d (-2)) as [->|N2']].
  - destruct H as [H|H]; [|lia]; unfold Znearest.
    rewrite (Zfloor_imp m) by (rewrite plus_IZR; lra).
    replace (IZR m + 2 / 4 - IZR m) with (/ 2) by field; rewrite Rcompare_Eq by auto; rewrite H; reflexivity.
  - destruct H as [H|H]; [|lia]; unfold Znearest.
    rewrite (Zfloor_imp (m - 1)) by (rewrite plus_IZR, minus_IZR; lra).
    replace (IZR m + -2 / 4 - IZR (m - 1)) with (/ 2) by (rewrite minus_IZR; field); rewrite Rcompare_Eq by auto.
    replace (Z.even (m - 1)) with false by (rewrite Z.even_sub, H; reflexivity); cbn [negb].
    apply Zceil_imp; rewrite minus_IZR; lra.
  - apply Znearest_imp; replace (IZR m + IZR d / 4 - IZR m) with (IZR d / 4) by ring.
    assert (L : (-1 <= d)%Z) by lia; assert (L' : (d <= 1)%Z) by lia.
    apply IZR_le in L; apply IZR_le in L'; apply Rabs_lt; lra.
Qed.

Lemma four_quarters T : binary64_format T -> / 2 ^ 900 <= T ->
  let u := T / 4 in
  binary64 (0 + u) = u /\ binary64 (u + u) = 2 * u /\ binary64 (binary64 (2 * u + u) + u) = T.
Proof.
  intros F HT u; assert (MG := ordinary_mag T HT); assert (P := inv_pow_pos 900).
  assert (FS : forall e, (-4 <= e <= 4)%Z -> binary64_format (T * bpow radix2 e)).
  { intros e E; apply mult_bpow_exact_FLT; auto; lia. }
  split; [|split].
  - rewrite Rplus_0_l; apply rnd_format.
    replace u with (T * bpow radix2 (-2)) by (unfold u; cbn; lra); apply FS; lia.
  - replace (u + u) with (2 * u) by ring; apply rnd_format.
    replace (2 * u) with (T * bpow radix2 (-1)) by (unfold u; cbn; lra); apply FS; lia.
  - set (e := (mag radix2 T - 55)%Z).
    assert (FE : exists m, T = IZR m * bpow radix2 (e + 2)).
    { unfold binary64_format, generic_format, F2R, cexp in F; cbn [Fnum Fexp] in F.
      exists (Ztrunc (scaled_mantissa radix2 fexp T)); rewrite F at 1; f_equal; f_equal.
      unfold FLT_exp, e; lia. }
    destruct FE as [m TM].
    assert (B := bpow_gt_0 radix2 (e + 2)).
    assert (MB : (2 ^ 52 <= m < 2 ^ 53)%Z).
    { assert (G : T <> 0) by lra; assert (Q := mag radix2 T); clear Q.
      destruct (mag radix2 T) as [p HP]; cbn [mag_val] in *; specialize (HP G).
      rewrite Rabs_right in HP by lra; rewrite TM in HP.
      replace (p - 1)%Z with (52 + (e + 2))%Z in HP by (unfold e; lia).
      replace (bpow radix2 p) with (bpow radix2 (53 + (e + 2))) in HP by (f_equal; unfold e; lia).
      rewrite !bpow_plus in HP; destruct HP as [H1 H2]; split.
      - apply le_IZR; rewrite pow_2_Z by lia; apply (Rmult_le_reg_r (bpow radix2 (e + 2))); auto.
        rewrite (bpow_plus radix2 e 2); lra.
      - apply lt_IZR; rewrite pow_2_Z by lia; apply (Rmult_lt_reg_r (bpow radix2 (e + 2))); auto.
        rewrite (bpow_plus radix2 e 2); lra. }
    assert (E0 : (-1074 <= e)%Z) by (unfold e; lia).
    set (w := bpow radix2 e).
    assert (B2 : bpow radix2 (e + 2) = 4 * w) by (unfold w; rewrite bpow_plus; change (bpow radix2 2) with 4; ring).
    assert (UM : u = IZR m * w) by (unfold u; rewrite TM, B2; field).
    replace (2 * u + u) with (IZR (3 * m) * w) by (rewrite UM, mult_IZR; ring).
    assert (V54 : (2 ^ 54 = 2 * 2 ^ 53)%Z) by reflexivity.
    assert (V53 : (2 ^ 53 = 2 * 2 ^ 52)%Z) by reflexivity.
    assert (V55 : (2 ^ 55 = 8 * 2 ^ 52)%Z) by reflexivity.
    destruct (Z_lt_le_dec (3 * m) (2 ^ 54)) as [C|C].
    + unfold w; rewrite (round_at (3 * m) e 1) by lia.
      set (n := ZnearestE (IZR (3 * m) * bpow radix2 (- (1)))).
      assert (D : (-1 <= 2 * n - 3 * m <= 1)%Z).
      { assert (H := Znearest_half (fun x => negb (Z.even x)) (IZR (3 * m) * bpow radix2 (- (1)))); fold n in H.
        change (bpow radix2 (- (1))) with (/ 2) in H; apply Rabs_le_inv in H.
        split; apply le_IZR; rewrite minus_IZR, (mult_IZR 2 n); lra. }
      replace (IZR n * bpow radix2 (e + 1) + u) with (IZR (4 * m + (2 * n - 3 * m)) * bpow radix2 e).
      * set (d := (2 * n - 3 * m)%Z) in *.
        assert (DM : (2 ^ 54 <= 4 * m + d)%Z).
        { destruct (Z.eq_dec m (2 ^ 52)) as [E|NE]; [|lia].
          assert (d = 2 * n - 3 * 2 ^ 52)%Z by (unfold d; rewrite E; auto); assert (3 * 2 ^ 52 = 2 * (3 * 2 ^ 51))%Z by reflexivity; lia. }
        rewrite (round_at (4 * m + d) e 2) by lia.
        change (bpow radix2 (- (2))) with (/ 4); rewrite nearest_tie by lia; symmetry; exact TM.
      * rewrite UM, bpow_plus; change (bpow radix2 1) with 2; fold w; rewrite plus_IZR, minus_IZR, !mult_IZR; ring.
    + unfold w; rewrite (round_at (3 * m) e 2) by lia.
      set (n := ZnearestE (IZR (3 * m) * bpow radix2 (- (2)))).
      assert (D : (-2 <= 4 * n - 3 * m <= 2)%Z).
      { assert (H := Znearest_half (fun x => negb (Z.even x)) (IZR (3 * m) * bpow radix2 (- (2)))); fold n in H.
        change (bpow radix2 (- (2))) with (/ 4) in H; apply Rabs_le_inv in H.
        split; apply le_IZR; rewrite minus_IZR, (mult_IZR 4 n); lra. }
      replace (IZR n * bpow radix2 (e + 2) + u) with (IZR (4 * m + (4 * n - 3 * m)) * bpow radix2 e).
      * set (d := (4 * n - 3 * m)%Z) in *.
        rewrite (round_at (4 * m + d) e 2) by lia.
        change (bpow radix2 (- (2))) with (/ 4); rewrite nearest_tie; [symmetry; exact TM|lia|].
        destruct (Z.eq_dec d 2) as [E|N2]; [left|destruct (Z.eq_dec d (-2)) as [E|N2']; [left|right; unfold d in *; lia]];
          apply Z.even_spec; [exists (2 * n - m - 1)%Z|exists (2 * n - m + 1)%Z]; unfold d in E; lia.
      * rewrite UM, bpow_plus; change (bpow radix2 2) with 4; fold w; rewrite plus_IZR, minus_IZR, !mult_IZR; ring.
Qed.
