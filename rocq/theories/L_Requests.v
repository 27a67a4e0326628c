(** * Uniform treatment of the predefined sequences: C44, C45, C59 *)

From Verif Require Export L_XYRec L_ConvertThms L_Quadratic.
Import ListNotations.
Open Scope string_scope.
Open Scope list_scope.
Open Scope R_scope.

(** ** Spacing *)

Lemma spaced_weaken d d' l : d' <= d -> spaced d l -> spaced d' l.
Proof.
  intros H; induction l as [|x l IH]; [auto|]; destruct l as [|y l]; [auto|].
  intros [A B]; split; [lra|apply IH; exact B].
Qed.

Lemma spaced_scale T d l : 0 < T -> spaced d l -> spaced (T * d) (map (Rmult T) l).
Proof.
  intros HT; induction l as [|x l IH]; [auto|]; destruct l as [|y l]; [auto|].
  intros [A B]; split; [|apply IH; exact B].
  rewrite <- Rmult_minus_distr_l; apply Rmult_le_compat_l; lra.
Qed.

Lemma spaced_increasing d l : 0 < d -> spaced d l -> strictly_increasing l.
Proof.
  intros D; induction l as [|x l IH]; [cbn; auto|]; destruct l as [|y l]; [cbn; auto|].
  intros [A B]; split; [lra|apply IH; exact B].
Qed.

Lemma spaced_app d l1 : forall x y l2, spaced d (x :: l1 ++ [y]) -> spaced d (y :: l2) -> spaced d (x :: (l1 ++ [y]) ++ l2).
Proof.
  induction l1 as [|z l1 IH]; intros x y l2 [A B] H.
  - split; auto.
  - split; auto; apply IH; auto.
Qed.

Lemma spaced_grid d l : 0 < d -> (forall x, In x l -> exists k, x = IZR k * d) -> strictly_increasing l -> spaced d l.
Proof.
  intros D; induction l as [|x l IH]; [cbn; auto|]; destruct l as [|y l]; [cbn; auto|].
  intros G [A B]; split; [|apply IH; auto; intros; apply G; right; auto].
  destruct (G x) as [i X]; [left; auto|]; destruct (G y) as [j Y]; [right; left; auto|]; subst.
  assert (L : (i < j)%Z) by (apply lt_IZR; nra).
  assert (M : IZR (i + 1) <= IZR j) by (apply IZR_le; lia); rewrite plus_IZR in M; nra.
Qed.

Lemma spaced_seq d (f : nat -> R) n : forall a,
  (forall i, (a <= i)%nat -> (S i < a + n)%nat -> d <= f (S i) - f i) -> spaced d (map f (seq a n)).
Proof.
  induction n as [|n IH]; intros a H; [cbn; auto|].
  destruct n as [|n]; [cbn; auto|].
  change (map f (seq a (S (S n)))) with (f a :: map f (seq (S a) (S n))).
  change (spaced d (f a :: f (S a) :: map f (seq (S (S a)) n))); split; [apply H; lia|].
  apply (IH (S a)); intros; apply H; lia.
Qed.

Lemma ends_increasing l : strictly_increasing l -> (forall t, In t l -> 0 < t < 1) -> strictly_increasing (0 :: l ++ [1]).
Proof.
  intros I B; split.
  - destruct l as [|x l]; cbn [app]; [lra|apply B; left; auto].
  - apply increasing_snoc; auto; intros y Y; apply B; auto.
Qed.

(** ** Relative times *)

Definition scale (T : R) (p : axis * R) : axis * R := (fst p, T * snd p).

Lemma map_scale T (a : axis) (ts : list R) : map (scale T) (map (fun t => (a, t)) ts) = map (fun t => (a, t)) (map (Rmult T) ts).
Proof. rewrite !map_map; reflexivity. Qed.

(** [rel] describes the request: pulses of the sequence of unit duration *)
Definition describes_request (r : request) (rel : list (axis * R)) : Prop :=
  forall T pre name, 0 < T ->
    build_sequence r T pre name = Ok (sequence_of T name (with_pre_post pre T (map (scale T) rel))).

Definition good_times (d : R) (ts : list R) : Prop :=
  0 < d /\ strictly_increasing ts /\ (forall t, In t ts -> 0 < t < 1) /\ spaced d (0 :: ts ++ [1]).

Lemma grid_good (n : nat) d ts : (1 <= n)%nat -> 0 < d <= / INR n -> strictly_increasing ts ->
  (forall t, In t ts -> exists i, (1 <= i)%nat /\ (i < n)%nat /\ t = INR i / INR n) -> good_times d ts.
Proof.
  intros HN [D0 D1] I G; assert (N1 : 1 <= INR n) by (apply (le_INR 1); auto).
  assert (B : forall t, In t ts -> 0 < t < 1).
  { intros t H; apply G in H; destruct H as [i [A [B ->]]].
    assert (1 <= INR i) by (apply (le_INR 1); auto); apply lt_INR in B.
    split; [apply Rdiv_lt_0_compat; lra|].
    apply (Rmult_lt_reg_r (INR n)); [lra|]; unfold Rdiv; rewrite Rmult_assoc, Rinv_l; lra. }
  split; auto; split; auto; split; auto.
  apply (spaced_weaken (/ INR n)); auto; apply spaced_grid; [apply Rinv_0_lt_compat; lra| |apply ends_increasing; auto].
  intros x [<-|X]; [exists 0%Z; lra|]; apply in_app_or in X; destruct X as [X|[<-|[]]].
  - apply G in X; destruct X as [i [_ [_ ->]]]; exists (Z.of_nat i); rewrite <- INR_IZR_INZ; reflexivity.
  - exists (Z.of_nat n); rewrite <- INR_IZR_INZ; field; lra.
Qed.

Lemma trunc x : 1 <= x -> exists n, (1 <= n)%nat /\ truncates_to x n /\ 1 <= INR n <= x.
Proof.
  intros H; destruct (trunc_exists x H) as [n [A B]]; exists n; split; auto; split; auto.
  split; [apply (le_INR 1); auto|apply B].
Qed.

(** ** Uhrig *)

Lemma uhrig_scale T n i : uhrig_time T n i = T * uhrig_time 1 n i.
Proof. unfold uhrig_time; ring. Qed.

Lemma uhrig_gap T n i : 0 <= T -> (i <= n)%nat ->
  T * sin (PI / (2 * (INR n + 1))) ^ 2 <= uhrig_time T n (S i) - uhrig_time T n i.
Proof.
  intros HT H; rewrite (uhrig_scale T n (S i)), (uhrig_scale T n i), <- Rmult_minus_distr_l.
  apply Rmult_le_compat_l; auto; unfold uhrig_time; rewrite !Rmult_1_l, S_INR.
  assert (N := pos_INR n); assert (I := pos_INR i); assert (P := PI_RGT_0); apply le_INR in H.
  set (th := PI / (2 * (INR n + 1))).
  assert (T0 : 0 < th) by (apply Rdiv_lt_0_compat; lra).
  assert (TE : (2 * INR n + 2) * th = PI) by (unfold th; field; lra).
  replace ((INR i + 1) * PI / (2 * (INR n + 1))) with (INR i * th + th) by (unfold th; field; lra).
  replace (INR i * PI / (2 * (INR n + 1))) with (INR i * th) by (unfold th; field; lra).
  set (a := INR i * th).
  assert (A0 : 0 <= a) by (apply Rmult_le_pos; lra).
  assert (A1 : a <= INR n * th) by (apply Rmult_le_compat_r; lra).
  replace (sin (a + th) ^ 2 - sin a ^ 2) with (sin (2 * a + th) * sin th).
  - assert (S0 : 0 <= sin th) by (apply sin_ge_0; nra).
    assert (K : sin th <= sin (2 * a + th)).
    { destruct (Rle_dec (2 * a + th) (PI / 2)).
      - apply sin_incr_1; nra.
      - rewrite <- (sin_PI_x (2 * a + th)); apply sin_incr_1; nra. }
    nra.
  - replace (2 * a + th) with (a + (a + th)) by ring; rewrite (sin_plus a (a + th)), sin_plus, cos_plus.
    assert (Ca := sin2_cos2 a); assert (Ct := sin2_cos2 th); unfold Rsqr in *; cbn [pow]; rewrite !Rmult_1_r.
    set (s := sin a) in *; set (c := cos a) in *; set (p := sin th) in *; set (q := cos th) in *.
    replace (q * q) with (1 - p * p) by lra.
    transitivity (2 * s * c * p * q + (c * c - s * s) * (p * p)); [ring|].
    replace ((s * q + c * p) * (s * q + c * p) - s * s)
      with (s * s * (q * q) + 2 * s * c * p * q + c * c * (p * p) - s * s) by ring.
    replace (q * q) with (1 - p * p) by lra; ring.
Qed.

Lemma uhrig_chain n : 0 :: map (uhrig_time 1 n) (seq 1 n) ++ [1] = map (uhrig_time 1 n) (seq 0 (n + 2)).
Proof.
  replace (n + 2)%nat with (S (n + 1)) by lia; cbn [seq map]; rewrite uhrig_time_0; f_equal.
  rewrite seq_app, map_app; cbn [seq map]; rewrite Nat.add_comm, uhrig_time_end; reflexivity.
Qed.

Lemma sin_small x n : 1 <= INR n <= x ->
  0 < sin (PI / (2 * (x + 1))) ^ 2 <= sin (PI / (2 * (INR n + 1))) ^ 2.
Proof.
  intros H; assert (P := PI_RGT_0).
  assert (B : forall y, 1 <= y -> 0 < PI / (2 * (y + 1)) <= PI / 2).
  { intros y Y; split; [apply Rdiv_lt_0_compat; lra|].
    apply Rmult_le_compat_l; [lra|]; apply Rinv_le_contravar; lra. }
  assert (L : PI / (2 * (x + 1)) <= PI / (2 * (INR n + 1))).
  { apply Rmult_le_compat_l; [lra|]; apply Rinv_le_contravar; lra. }
  assert (Bx := B x ltac:(lra)); assert (Bn := B (INR n) ltac:(lra)).
  assert (S0 : 0 < sin (PI / (2 * (x + 1)))) by (apply sin_gt_0; lra).
  assert (S1 : sin (PI / (2 * (x + 1))) <= sin (PI / (2 * (INR n + 1)))) by (apply sin_incr_1; lra).
  split; [apply pow_lt; auto|apply pow_incr; lra].
Qed.

(** ** Quadratic *)

Lemma quadratic_block_scale T n1 n2 j : quadratic_block T n1 n2 j = map (scale T) (quadratic_block 1 n1 n2 j).
Proof.
  unfold quadratic_block; cbv zeta; rewrite map_app, map_map; f_equal.
  - apply map_ext; intros i; unfold scale; cbn [fst snd]; f_equal.
    rewrite (uhrig_scale T n2 j), (uhrig_scale T n2 (j + 1)).
    rewrite (uhrig_scale (_ - _) n1 i), (uhrig_scale (uhrig_time 1 n2 (j + 1) - uhrig_time 1 n2 j) n1 i); ring.
  - destruct (j <? n2)%nat; auto; cbn [map]; unfold scale; cbn [fst snd]; rewrite (uhrig_scale T); reflexivity.
Qed.
Lemma quadratic_scale T n1 n2 : quadratic_pulses T n1 n2 = map (scale T) (quadratic_pulses 1 n1 n2).
Proof.
  unfold quadratic_pulses; rewrite concat_map, map_map; f_equal; apply map_ext; intros; apply quadratic_block_scale.
Qed.

Lemma quadratic_spaced n1 n2 d : 0 < d ->
  d <= sin (PI / (2 * (INR n1 + 1))) ^ 2 * sin (PI / (2 * (INR n2 + 1))) ^ 2 ->
  spaced d (0 :: map snd (quadratic_pulses 1 n1 n2) ++ [1]).
Proof.
  intros D0 D.
  replace (map snd (quadratic_pulses 1 n1 n2) ++ [1])
    with (map snd (List.concat (map (full_block 1 n1 n2) (seq 0 (n2 + 1)))))
    by (rewrite quadratic_full, map_app; reflexivity).
  assert (G : forall m j, (j + m <= n2 + 1)%nat ->
    spaced d (uhrig_time 1 n2 j :: map snd (List.concat (map (full_block 1 n1 n2) (seq j m))))).
  { induction m as [|m IH]; intros j J; [cbn; auto|].
    cbn [seq map List.concat]; rewrite map_app.
    unfold full_block at 1; rewrite map_app, map_map; cbn [map snd].
    apply spaced_app; [|rewrite Nat.add_1_r; apply IH; lia].
    set (t0 := uhrig_time 1 n2 j); set (t1 := uhrig_time 1 n2 (j + 1)).
    assert (LG : sin (PI / (2 * (INR n2 + 1))) ^ 2 <= t1 - t0).
    { assert (U := uhrig_gap 1 n2 j ltac:(lra) ltac:(lia)); unfold t1; rewrite Nat.add_1_r; fold t0 in U; lra. }
    assert (S2 : 0 <= sin (PI / (2 * (INR n2 + 1))) ^ 2) by apply pow2_ge_0.
    assert (S1 : 0 <= sin (PI / (2 * (INR n1 + 1))) ^ 2) by apply pow2_ge_0.
    replace (t0 :: map (fun x => t0 + uhrig_time (t1 - t0) n1 x) (seq 1 n1) ++ [t1])
      with (map (fun x => t0 + uhrig_time (t1 - t0) n1 x) (seq 0 (n1 + 2))).
    - apply spaced_seq; intros i _ I.
      assert (U := uhrig_gap (t1 - t0) n1 i ltac:(lra) ltac:(lia)).
      assert (K : sin (PI / (2 * (INR n1 + 1))) ^ 2 * sin (PI / (2 * (INR n2 + 1))) ^ 2 <=
                  (t1 - t0) * sin (PI / (2 * (INR n1 + 1))) ^ 2) by (rewrite Rmult_comm; apply Rmult_le_compat_r; auto).
      lra.
    - replace (n1 + 2)%nat with (S (n1 + 1)) by lia; cbn [seq map]; rewrite uhrig_time_0, Rplus_0_r; f_equal.
      rewrite seq_app, map_app; cbn [seq map]; rewrite Nat.add_comm, uhrig_time_end; do 2 f_equal; ring. }
  assert (Q := G (n2 + 1)%nat 0%nat ltac:(lia)); rewrite uhrig_time_0 in Q; exact Q.
Qed.

(** ** Every request *)

Lemma in_pair (a : axis) (ts : list R) : map snd (map (fun t => (a, t)) ts) = ts.
Proof. rewrite map_map; apply map_id. Qed.

Lemma log2_bound x k : truncates_to x k -> 1 <= INR k -> INR (samples_count k) <= 2 * x.
Proof.
  intros [A _] K; unfold samples_count; cbn [Nat.pow]; rewrite mult_INR; cbn [INR].
  assert (L : (2 ^ Nat.log2 k <= k)%nat) by (apply Nat.log2_spec; apply INR_lt; cbn [INR]; lra).
  apply le_INR in L; lra.
Qed.

Lemma cpmg_good x n : (1 <= n)%nat -> 1 <= INR n <= x ->
  good_times (1 / (2 * x)) (map (fun i => 1 / INR n * (INR i - 1 / 2)) (seq 1 n)).
Proof.
  intros N NX; assert (DN : INR (2 * n) = 2 * INR n) by (rewrite mult_INR; cbn [INR]; ring).
  apply (grid_good (2 * n)); [lia| | |].
  - rewrite DN; split; [apply Rdiv_lt_0_compat; lra|]; unfold Rdiv; rewrite Rmult_1_l; apply Rinv_le_contravar; lra.
  - apply increasing_seq; intros; rewrite S_INR; apply Rmult_lt_compat_l; [apply Rdiv_lt_0_compat; lra|lra].
  - intros t I; apply in_map_iff in I; destruct I as [i [<- I]]; apply in_seq in I; exists (2 * i - 1)%nat.
    split; [lia|]; split; [lia|]; rewrite DN, minus_INR, mult_INR by lia; cbn [INR]; field; lra.
Qed.

Lemma request_single r : valid_request r -> is_xy r = false ->
  exists rel, describes_request r rel /\ good_times (spacing r) (map snd rel).
Proof.
  destruct r as [| |x|x|x|x|x|x y|x|x]; intros V X; try discriminate; cbn [valid_request spacing] in *.
  - exists []; split.
    + intros T pre name HT; cbn [build_sequence map]; apply ramsey_timing; auto.
    + cbn [map]; split; [lra|]; split; [cbn; auto|]; split; [intros t []|cbn; lra].
  - exists [(AX, 1 / 2)]; split.
    + intros T pre name HT; cbn [build_sequence map]; unfold scale; cbn [fst snd].
      replace (T * (1 / 2)) with (T / 2) by field; apply spin_echo_timing; auto.
    + cbn [map snd]; split; [lra|]; split; [cbn; auto|]; split; [intros t [<-|[]]; lra|cbn; lra].
  - destruct (trunc x V) as [n [N [TR NX]]]; exists (map (fun i => (AX, 1 / INR n * (INR i - 1 / 2))) (seq 1 n)); split.
    + intros T pre name HT; cbn [build_sequence]; rewrite (carr_purcell_timing T x n pre name) by auto.
      rewrite map_map; do 3 f_equal; apply map_ext; intros i; unfold scale; cbn [fst snd]; f_equal; unfold Rdiv; ring.
    + rewrite map_map; apply cpmg_good; auto.
  - destruct (trunc x V) as [n [N [TR NX]]]; exists (map (fun i => (AY, 1 / INR n * (INR i - 1 / 2))) (seq 1 n)); split.
    + intros T pre name HT; cbn [build_sequence]; rewrite (cpmg_timing T x n pre name) by auto.
      rewrite map_map; do 3 f_equal; apply map_ext; intros i; unfold scale; cbn [fst snd]; f_equal; unfold Rdiv; ring.
    + rewrite map_map; apply cpmg_good; auto.
  - destruct (trunc x V) as [n [N [TR NX]]]; exists (map (fun i => (AY, uhrig_time 1 n i)) (seq 1 n)); split.
    + intros T pre name HT; cbn [build_sequence]; rewrite (uhrig_timing T x n pre name) by auto.
      rewrite map_map; do 3 f_equal; apply map_ext; intros i; unfold scale; cbn [fst snd]; f_equal; unfold uhrig_time; ring.
    + rewrite map_map; cbn [snd]; destruct (sin_small x n NX) as [D0 D1]; split; auto; split; [|split].
      * apply increasing_seq; intros; apply uhrig_increasing; [lra|lia|lia].
      * intros t I; apply in_map_iff in I; destruct I as [i [<- I]]; apply in_seq in I; apply uhrig_within; [lra|lia].
      * rewrite uhrig_chain; apply spaced_seq; intros i _ I.
        assert (U := uhrig_gap 1 n i ltac:(lra) ltac:(lia)); lra.
  - destruct (trunc x V) as [n [N [TR NX]]]; exists (map (fun i => (AX, INR i / (INR n + 1))) (seq 1 n)); split.
    + intros T pre name HT; cbn [build_sequence]; rewrite (periodic_timing T x n pre name) by auto.
      rewrite map_map; do 3 f_equal; apply map_ext; intros i; unfold scale; cbn [fst snd]; f_equal; unfold Rdiv; ring.
    + rewrite map_map; cbn [snd]; assert (SN : INR n + 1 = INR (n + 1)) by (rewrite plus_INR; reflexivity).
      apply (grid_good (n + 1)); [lia| | |].
      * rewrite <- SN; split; [apply Rdiv_lt_0_compat; lra|]; unfold Rdiv; rewrite Rmult_1_l; apply Rinv_le_contravar; lra.
      * apply increasing_seq; intros; rewrite S_INR; unfold Rdiv; apply Rmult_lt_compat_r; [apply Rinv_0_lt_compat; lra|lra].
      * intros t I; apply in_map_iff in I; destruct I as [i [<- I]]; apply in_seq in I; exists i; rewrite SN; repeat split; auto; lia.
  - destruct (trunc x ltac:(lra)) as [k [N [TR NX]]]; exists (map (fun t => (AX, t)) (walsh_times 1 k)); split.
    + intros T pre name HT; cbn [build_sequence]; rewrite (walsh_model T x k pre name) by auto.
      rewrite map_scale; do 4 f_equal; unfold walsh_times, change_times; rewrite map_map; apply map_ext; intros i; unfold Rdiv; ring.
    + rewrite in_pair; assert (PR : 0 < INR (samples_count k)) by (apply lt_0_INR, pow2_pos).
      apply (grid_good (samples_count k)); [apply pow2_pos| | |].
      * split; [apply Rdiv_lt_0_compat; lra|]; unfold Rdiv; rewrite Rmult_1_l; apply Rinv_le_contravar; auto.
        apply log2_bound; auto; lra.
      * apply change_times_increasing; intros; apply grid_increasing; auto; lra.
      * intros t I; apply in_change_times in I; destruct I as [i [I [_ ->]]]; exists (S i); repeat split; [lia|lia|].
        unfold Rdiv; ring.
  - destruct (trunc x ltac:(lra)) as [n1 [N1 [TR1 NX1]]]; destruct (trunc y ltac:(lra)) as [n2 [N2 [TR2 NX2]]].
    exists (quadratic_pulses 1 n1 n2); split.
    + intros T pre name HT; cbn [build_sequence]; rewrite <- quadratic_scale; apply quadratic_timing; auto.
    + destruct (sin_small x n1 NX1) as [A0 A1]; destruct (sin_small y n2 NX2) as [B0 B1].
      destruct (quadratic_times 1 n1 n2 ltac:(lra)) as [I B].
      split; [apply Rmult_lt_0_compat; auto|]; split; auto; split.
      * intros t H; apply in_map_iff in H; destruct H as [p [<- H]]; auto.
      * apply quadratic_spaced; [apply Rmult_lt_0_compat; auto|]; apply Rmult_le_compat; lra.
  - destruct (trunc x V) as [l [N [TR NX]]]; exists (map (fun t => (AX, t)) (x_times 1 l)); split.
    + intros T pre name HT; cbn [build_sequence]; rewrite (x_model T x l pre name) by auto.
      rewrite map_scale; do 4 f_equal; unfold x_times, change_times; rewrite map_map; apply map_ext; intros i; unfold Rdiv; ring.
    + rewrite in_pair; assert (PR : 0 < INR (2 ^ l)) by (apply lt_0_INR, pow2_pos).
      apply (grid_good (2 ^ l)); [apply pow2_pos| | |].
      * split; [apply exp_pos|]; rewrite Rpower_Ropp, pow2_INR, <- Rpower_pow by lra.
        apply Rinv_le_contravar; [apply exp_pos|]; apply Rle_Rpower; lra.
      * apply x_times_increasing; lra.
      * intros t I; apply in_change_times in I; destruct I as [i [I [_ ->]]]; exists (S i); repeat split; [lia|lia|].
        unfold Rdiv; ring.
Qed.

Lemma request_xy x : 1 <= x -> exists rel, describes_request (XYConcatenated x) rel /\
  nondecreasing (map snd rel) /\ (forall t, In t (map snd rel) -> 0 < t <= 1).
Proof.
  intros V; destruct (trunc x V) as [l [N [TR NX]]].
  assert (U := unit_pos 1 l ltac:(lra)); set (u := 1 / 2 ^ (l * 2)) in *.
  assert (TU : 1 = IZR (4 ^ Z.of_nat l) * u) by apply unit_total.
  destruct (xy_pulses l N) as [ps [E [ND B]]]; assert (K := units_bound l N).
  exists (map (scale_z u) ps); split; [|split].
  - intros T pre name HT; cbn [build_sequence].
    rewrite (xy_model T x l pre name ps) by (auto; intros p I; apply B in I; lia).
    rewrite map_map; do 3 f_equal; apply map_ext; intros [a z]; unfold scale, scale_z, u; cbn [fst snd]; f_equal; unfold Rdiv; ring.
  - rewrite map_map; clear - ND U.
    induction ps as [|[a z] ps IH]; cbn [map nondecreasing]; auto.
    destruct ND as [N1 N2]; split; [|apply IH; auto].
    destruct ps as [|[b y] ps]; cbn [map]; auto; cbn [scale_z snd].
    apply Rmult_le_compat_r; [lra|]; apply IZR_le, N1; left; auto.
  - intros t I; rewrite map_map in I; apply in_map_iff in I; destruct I as [[a z] [<- I]]; apply B in I; cbn [snd scale_z] in *.
    destruct I as [I1 I2]; assert (I3 : (z <= 4 ^ Z.of_nat l)%Z) by lia.
    apply IZR_le in I1; apply IZR_le in I3; rewrite TU at 1; split; nra.
Qed.

Lemma increasing_nondecreasing l : strictly_increasing l -> nondecreasing l.
Proof. induction l as [|x l IH]; cbn; auto; intros [A B]; split; auto; destruct l; auto; lra. Qed.

Lemma request_pulses r : valid_request r -> exists rel, describes_request r rel /\
  nondecreasing (map snd rel) /\ (forall t, In t (map snd rel) -> 0 < t <= 1) /\
  (is_xy r = false -> good_times (spacing r) (map snd rel)).
Proof.
  intros V; destruct (is_xy r) eqn:X.
  - destruct r; try discriminate; destruct (request_xy l V) as [rel [A [B C]]]; exists rel; repeat split; auto; try discriminate; apply C; auto.
  - destruct (request_single r V X) as [rel [A B]]; exists rel; split; auto; split; [|split; auto].
    + apply increasing_nondecreasing, B.
    + intros t I; assert (0 < t < 1) by (apply B; auto); lra.
Qed.

(** ** C44: validity *)

Lemma request_invalid r T pre name : ~ (0 < T /\ valid_request r) -> argument_error (build_sequence r T pre name).
Proof.
  intros H; destruct r as [| |x|x|x|x|x|x y|x|x]; cbn [valid_request build_sequence] in *.
  - apply ramsey_timing; tauto.
  - apply spin_echo_timing; tauto.
  - apply count_rejections; auto.
  - apply count_rejections; auto.
  - apply count_rejections; auto.
  - apply count_rejections; auto.
  - apply (walsh_timing T x 0); auto.
  - apply (quadratic_timing T x y 0 0); auto.
  - apply (x_concatenation T x 0); auto.
  - apply (xy_sequence T x 0); auto.
Qed.

Theorem request_validity r T pre name :
  (0 < T /\ valid_request r -> exists s, build_sequence r T pre name = Ok s /\ constructible_sequence s /\
     seq_duration s = T /\ seq_name s = name /\ nondecreasing (offsets s) /\
     (pre = false -> forall t, In t (offsets s) -> 0 < t <= T) /\
     (is_xy r = false -> strictly_increasing (offsets s) /\
        (pre = false -> forall t, In t (offsets s) -> 0 < t < T))) /\
  (~ (0 < T /\ valid_request r) -> argument_error (build_sequence r T pre name)).
Proof.
  split; [|apply request_invalid].
  intros [HT V]; destruct (request_pulses r V) as [rel [D [ND [B G]]]].
  set (l := with_pre_post pre T (map (scale T) rel)).
  exists (sequence_of T name l); split; [apply D; auto|].
  assert (TM : map e_time (map pi_pulse (map (scale T) rel)) = map (Rmult T) (map snd rel)).
  { rewrite !map_map; apply map_ext; intros [a t]; destruct a; reflexivity. }
  assert (OF : offsets (sequence_of T name l) =
    if pre then 0 :: map (Rmult T) (map snd rel) ++ [T] else map (Rmult T) (map snd rel)).
  { unfold l, with_pre_post; destruct pre; cbn [sequence_of offsets map]; rewrite ?map_app, TM; reflexivity. }
  assert (BT : forall t, In t (map (Rmult T) (map snd rel)) -> 0 < t <= T).
  { intros t I; apply in_map_iff in I; destruct I as [u [<- I]]; apply B in I; split; nra. }
  split; [|split; [reflexivity|split; [reflexivity|]]].
  - apply constructible_well_formed; split; [exact HT|split; [|unfold sequence_of; cbn; rewrite !map_length; auto]].
    change (forall t, In t (offsets (sequence_of T name l)) -> 0 <= t <= T); rewrite OF; destruct pre.
    + intros t [<-|I]; [lra|]; apply in_app_or in I; destruct I as [I|[<-|[]]]; [apply BT in I; lra|lra].
    + intros t I; apply BT in I; lra.
  - rewrite OF; split; [|split].
    + assert (NT : nondecreasing (map (Rmult T) (map snd rel))).
      { clear - ND HT; induction (map snd rel) as [|x q IH]; cbn; auto; destruct ND as [I1 I2]; split; auto.
        destruct q; cbn; auto; apply Rmult_le_compat_l; lra. }
      destruct pre; auto; split.
      * destruct (map snd rel) as [|x q]; cbn [map app]; [lra|]; assert (0 < T * x <= T) by (apply BT; left; auto); lra.
      * clear - NT BT; induction (map (Rmult T) (map snd rel)) as [|x q IH]; [cbn; auto|].
        destruct NT as [I1 I2]; split; [|apply IH; auto; intros; apply BT; right; auto].
        destruct q; cbn [app]; auto; apply BT; left; auto.
    + intros ->; auto.
    + intros X; destruct (G X) as [_ [I [W _]]].
      assert (WT : forall t, In t (map (Rmult T) (map snd rel)) -> 0 < t < T).
      { intros t H; apply in_map_iff in H; destruct H as [u [<- H]]; apply W in H; split; nra. }
      assert (IT : strictly_increasing (map (Rmult T) (map snd rel))).
      { clear - I HT; induction (map snd rel) as [|x q IH]; cbn; auto; destruct I as [I1 I2]; split; auto.
        destruct q; cbn; auto; apply Rmult_lt_compat_l; auto. }
      split; [|intros ->; auto].
      destruct pre; auto; split; [destruct (map snd rel); cbn [map app]; auto; apply WT; left; auto|].
      apply increasing_snoc; auto; intros y Y; apply WT; auto.
Qed.

(** ** C45: scaling of the duration *)

Lemma check_duration_scale k T : 0 < k -> check_duration (k * T) = check_duration T.
Proof.
  intros K; unfold check_duration; f_equal; destruct (Rlt_dec 0 T).
  - rewrite (proj2 (ltb_true 0 T)), (proj2 (ltb_true 0 (k * T))); auto; nra.
  - rewrite (proj2 (ltb_false 0 T)), (proj2 (ltb_false 0 (k * T))); auto; nra.
Qed.

Lemma stretch_sequence k T name pre rel : 
  stretch k (sequence_of T name (with_pre_post pre T (map (scale T) rel))) =
  sequence_of (k * T) name (with_pre_post pre (k * T) (map (scale (k * T)) rel)).
Proof.
  assert (CA : closing_angle (map (scale T) rel) = closing_angle (map (scale (k * T)) rel)).
  { assert (L : List.length (filter not_y (map (scale T) rel)) = List.length (filter not_y (map (scale (k * T)) rel))).
    { induction rel as [|[a t] rel IH]; cbn [map filter]; auto.
      destruct a; cbn [not_y scale fst]; cbn [List.length]; rewrite ?IH; auto. }
    unfold closing_angle; rewrite L; auto. }
  assert (M : forall (A : Type) (f : event -> A), (forall p c, f (pi_pulse (scale c p)) = f (pi_pulse (fst p, 0))) ->
    map f (map pi_pulse (map (scale T) rel)) = map f (map pi_pulse (map (scale (k * T)) rel))).
  { intros A f H; rewrite !map_map; apply map_ext; intros p; rewrite !H; auto. }
  assert (MT : map (Rmult k) (map e_time (map pi_pulse (map (scale T) rel))) = map e_time (map pi_pulse (map (scale (k * T)) rel))).
  { rewrite !map_map; apply map_ext; intros [a t]; destruct a; cbn; ring. }
  unfold stretch, sequence_of; cbn [seq_duration offsets rabi_rotations seq_azimuthal_angles detuning_rotations seq_name].
  destruct pre; cbn [with_pre_post].
  - cbn [map]; rewrite !map_app, MT; cbn [map e_time e_rabi e_phi e_det]; rewrite CA, Rmult_0_r.
    rewrite (M _ e_rabi), (M _ e_phi), (M _ e_det); auto; intros [[] t] c; reflexivity.
  - rewrite MT, (M _ e_rabi), (M _ e_phi), (M _ e_det); auto; intros [[] t] c; reflexivity.
Qed.

Lemma valid_request_dec r : valid_request r \/ ~ valid_request r.
Proof.
  destruct r as [| |x|x|x|x|x|x y|x|x]; cbn [valid_request]; auto; destruct (Rle_dec 1 x); auto.
  - destruct (Rle_dec x 2000); tauto.
  - tauto.
  - destruct (Rle_dec 1 y); tauto.
  - tauto.
Qed.

Theorem request_scaling r k T pre name : 0 < k ->
  build_sequence r (k * T) pre name = map_result (stretch k) (build_sequence r T pre name).
Proof.
  intros K; assert (CD := check_duration_scale k T K).
  destruct (Rlt_dec 0 T) as [HT|HT].
  - assert (KT : 0 < k * T) by nra.
    destruct (valid_request_dec r) as [V|V].
    + destruct (request_pulses r V) as [rel [D _]]; rewrite !D by auto; cbn [map_result]; rewrite stretch_sequence; auto.
    + destruct r as [| |x|x|x|x|x|x y|x|x]; cbn [valid_request] in V; try tauto; cbn [build_sequence];
        unfold new_carr_purcell_sequence, new_cpmg_sequence, new_uhrig_sequence, new_periodic_sequence, new_walsh_sequence,
          new_quadratic_sequence, new_x_concatenated_sequence, new_xy_concatenated_sequence, check_offset_count,
          check_concatenation_order; rewrite (check_duration_ok T), (check_duration_ok (k * T)) by auto; cbn [bind].
      1-4, 7-8: rewrite check_false by (apply leb_false; lra); reflexivity.
      * rewrite check_false; [reflexivity|]; apply andb_false_iff; destruct (Rle_dec 1 x); [right|left]; apply leb_false; lra.
      * destruct (Rle_dec 1 x).
        -- rewrite check_true by (apply leb_true; auto); cbn [bind]; rewrite check_false by (apply leb_false; lra); reflexivity.
        -- rewrite check_false by (apply leb_false; lra); reflexivity.
  - destruct (check_duration_bad T HT) as [m [a [b E]]].
    destruct r as [| |x|x|x|x|x|x y|x|x]; cbn [build_sequence];
      unfold new_ramsey_sequence, new_spin_echo_sequence, new_carr_purcell_sequence, new_cpmg_sequence, new_uhrig_sequence,
        new_periodic_sequence, new_walsh_sequence, new_quadratic_sequence, new_x_concatenated_sequence,
        new_xy_concatenated_sequence; rewrite CD, E; reflexivity.
Qed.

(** ** C59: conversion *)

Lemma window_bounds T w t : 0 <= w -> t - w <= fst (window T w t) /\ snd (window T w t) <= t + w.
Proof.
  intros W; unfold window, centre; cbn [fst snd].
  destruct (Req_EM_T t 0); [lra|]; destruct (Req_EM_T t T); lra.
Qed.

Lemma gaps_spaced maxr maxd mn T w d E : (forall e, In e E -> 0 <= pulse_width maxr maxd mn e <= w) ->
  2 * w + mn <= d -> spaced d (map e_time E) ->
  forall g, In g (gaps (map (fun e => window T (pulse_width maxr maxd mn e) (e_time e)) E)) -> mn <= g.
Proof.
  intros W H; induction E as [|e E IH]; intros S g G; [destruct G|].
  destruct E as [|e' E]; [cbn [map gaps] in G; destruct (window T (pulse_width maxr maxd mn e) (e_time e)); destruct G|].
  destruct S as [S1 S2].
  assert (B1 := window_bounds T _ (e_time e) (proj1 (W e (or_introl eq_refl)))).
  assert (B2 := window_bounds T _ (e_time e') (proj1 (W e' (or_intror (or_introl eq_refl))))).
  assert (W1 := W e (or_introl eq_refl)); assert (W2 := W e' (or_intror (or_introl eq_refl))).
  assert (IH' := IH (fun x I => W x (or_intror I)) S2 g).
  cbn [map gaps] in G, IH'.
  destruct (window T (pulse_width maxr maxd mn e) (e_time e)) as [a b].
  destruct (window T (pulse_width maxr maxd mn e') (e_time e')) as [a' b'].
  cbn [fst snd] in *; destruct G as [<-|G]; [lra|apply IH'; exact G].
Qed.

Lemma long_enough_intro mn g : mn <= g -> long_enough mn g.
Proof.
  intros [H|H]; [left; auto|right; unfold near; rewrite H, Rminus_eq_0, Rabs_R0].
  assert (S0 := small_pos); assert (0 <= Rabs g) by apply Rabs_pos; lra.
Qed.

Lemma predefined_width maxr maxd mn pre T l e : 0 < maxr -> 0 < maxd -> 0 <= mn -> In e (with_ends T (with_pre_post pre T l)) ->
  0 <= pulse_width maxr maxd mn e <= Rmax (Rmax (PI / maxr) (PI / maxd)) mn.
Proof.
  intros Hr Hd Hm I; assert (P := PI_RGT_0); assert (S0 := small_pos).
  assert (Q1 := Rmax_l (PI / maxr) (PI / maxd)); assert (Q2 := Rmax_r (PI / maxr) (PI / maxd)).
  set (m := Rmax (PI / maxr) (PI / maxd)) in *.
  assert (Q3 := Rmax_l m mn); assert (Q4 := Rmax_r m mn).
  assert (A : 0 < PI / maxr) by (apply Rdiv_lt_0_compat; auto).
  assert (A2 : PI / 2 / maxr <= PI / maxr) by (unfold Rdiv; apply Rmult_le_compat_r; [left; apply Rinv_0_lt_compat; auto|lra]).
  assert (Z : forall t, 0 <= pulse_width maxr maxd mn (idle t) <= Rmax m mn).
  { intros t; unfold pulse_width, idle; cbn [e_rabi e_det]; rewrite Rabs_R0; destruct (Rle_dec 0 (/ 10 ^ 8)); [|lra].
    lra. }
  assert (R : forall t r phi d, / 10 ^ 8 < r -> r / maxr <= m -> 0 <= pulse_width maxr maxd mn (Event t r phi d) <= Rmax m mn).
  { intros t r phi d H1 H2; unfold pulse_width; cbn [e_rabi]; destruct (Rle_dec (Rabs r) (/ 10 ^ 8)) as [N|N].
    - rewrite Rabs_pos_eq in N by lra; lra.
    - assert (X := Rmax_r (r / maxr) mn); split; [lra|apply Rmax_lub; lra]. }
  assert (D : forall t phi, 0 <= pulse_width maxr maxd mn (Event t 0 phi PI) <= Rmax m mn).
  { intros t phi; unfold pulse_width; cbn [e_rabi e_det]; rewrite Rabs_R0, (Rabs_pos_eq PI) by lra.
    destruct (Rle_dec 0 (/ 10 ^ 8)); [|lra]; destruct (Rle_dec PI (/ 10 ^ 8)) as [N|N]; [lra|].
    assert (X := Rmax_r (PI / maxd) mn); split; [lra|apply Rmax_lub; lra]. }
  assert (PI3 := PI2_3_2). 
  assert (K : forall p, 0 <= pulse_width maxr maxd mn (pi_pulse p) <= Rmax m mn).
  { intros [[] t]; unfold pi_pulse; [apply R; lra|apply R; lra|apply D]. }
  apply with_ends_in in I; destruct I as [I|[->| ->]]; auto.
  unfold with_pre_post in I; destruct pre; [destruct I as [<-|I]; [apply R; lra|]; apply in_app_or in I; destruct I as [I|[<-|[]]]; [|apply R; lra]|];
    apply in_map_iff in I; destruct I as [p [<- I]]; auto.
Qed.

Lemma with_ends_times pre T rel : 0 < T -> (forall t, In t (map snd rel) -> 0 < t < 1) ->
  map e_time (with_ends T (with_pre_post pre T (map (scale T) rel))) = map (Rmult T) (0 :: map snd rel ++ [1]).
Proof.
  intros HT B.
  assert (TM : map e_time (map pi_pulse (map (scale T) rel)) = map (Rmult T) (map snd rel)).
  { rewrite !map_map; apply map_ext; intros [a t]; destruct a; reflexivity. }
  assert (TP : forall p c, e_time (pi_pulse (scale c p)) = c * snd p) by (intros [[] t] c; reflexivity).
  cbn [map]; rewrite map_app, Rmult_0_r; cbn [map]; rewrite Rmult_1_r.
  unfold with_ends, with_pre_post; destruct pre.
  - cbn [e_time]; destruct (Req_EM_T 0 0); [|lra].
    change (Event 0 (PI / 2) 0 0 :: map pi_pulse (map (scale T) rel) ++ [Event T (PI / 2) (closing_angle (map (scale T) rel)) 0])
      with ((Event 0 (PI / 2) 0 0 :: map pi_pulse (map (scale T) rel)) ++ [Event T (PI / 2) (closing_angle (map (scale T) rel)) 0]).
    rewrite last_last; cbn [e_time]; destruct (Req_EM_T T T); [|lra]; rewrite app_nil_r.
    cbn [app map]; rewrite map_app, TM; reflexivity.
  - destruct rel as [|p rel].
    + cbn [map last idle e_time app]; destruct (Req_EM_T 0 T); [lra|]; reflexivity.
    + set (q := p :: rel) in *.
      assert (L1 : e_time (pi_pulse (scale T p)) <> 0).
      { rewrite TP; assert (0 < snd p < 1) by (apply B; left; auto); nra. }
      assert (L2 : e_time (last (map pi_pulse (map (scale T) q)) (idle 0)) <> T).
      { destruct (@exists_last _ q) as [f [z E]]; [discriminate|]; rewrite E, !map_app; cbn [map]; rewrite last_last, TP.
        assert (0 < snd z < 1) by (apply B; rewrite E, map_app; apply in_or_app; right; left; auto); nra. }
      destruct (Req_EM_T (e_time (last (map pi_pulse (map (scale T) q)) (idle 0))) T); [tauto|].
      unfold q at 1; cbn [map]; destruct (Req_EM_T (e_time (pi_pulse (scale T p))) 0); [tauto|].
      cbn [app map idle e_time]; rewrite map_app, TM; reflexivity.
Qed.

Lemma predefined_rotations pre T l e : In e (with_pre_post pre T l) -> 0 <= e_rabi e /\ ~ (0 < e_rabi e /\ 0 < e_det e).
Proof.
  assert (P := PI_RGT_0).
  assert (K : forall p, 0 <= e_rabi (pi_pulse p) /\ ~ (0 < e_rabi (pi_pulse p) /\ 0 < e_det (pi_pulse p))).
  { intros [[] t]; cbn; lra. }
  intros I; unfold with_pre_post in I; destruct pre; [destruct I as [<-|I]; [cbn; lra|]; apply in_app_or in I; destruct I as [I|[<-|[]]]; [|cbn; lra]|];
    apply in_map_iff in I; destruct I as [p [<- I]]; auto.
Qed.

Lemma spaced_convertible maxr maxd mn pre T l d :
  0 < T -> 0 < maxr -> 0 < maxd -> 0 <= mn -> 0 < d ->
  2 * Rmax (Rmax (PI / maxr) (PI / maxd)) mn + mn <= d ->
  strictly_increasing (map e_time (with_pre_post pre T l)) ->
  spaced d (map e_time (with_ends T (with_pre_post pre T l))) ->
  convertible maxr maxd mn T (with_pre_post pre T l).
Proof.
  intros HT Hr Hd Hm D0 H I S; unfold convertible; repeat split; auto.
  - intros e E; apply (predefined_rotations _ _ _ _ E).
  - intros e E; apply (predefined_rotations _ _ _ _ E).
  - intros g G; apply long_enough_intro; unfold idle_times in G.
    apply (gaps_spaced maxr maxd mn T (Rmax (Rmax (PI / maxr) (PI / maxd)) mn) d (with_ends T (with_pre_post pre T l))); auto.
    intros e E; apply (predefined_width maxr maxd mn pre T l); auto.
Qed.
