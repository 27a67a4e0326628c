(** * All predefined sequences in floating point *)

From Coq Require Import ZArith.
From Flocq Require Import Core.
From Verif Require Export L_QuatNorm L_FloatThms.
Import ListNotations.
Open Scope string_scope.
Open Scope list_scope.
Open Scope R_scope.

(** ** Without rounding it is the exact program *)

Lemma arange_exact start stop step : fl_arange (fun x => x) start stop step = np_arange start stop step.
Proof. unfold fl_arange, np_arange; cbv zeta; apply map_ext; intros i; ring. Qed.

Theorem exact_build r T pre name :
  fl_build_sequence (fun x => x) sin (fun x => x ^ 2) PI r T pre name = build_sequence r T pre name.
Proof.
  destruct r; cbn [fl_build_sequence build_sequence]; try reflexivity.
  - unfold fl_walsh_sequence, new_walsh_sequence, fl_walsh_offsets, walsh_relative_offsets, fl_walsh_array, walsh_array; cbv zeta.
    rewrite arange_exact, map_map; reflexivity.
  - unfold fl_quadratic_sequence, new_quadratic_sequence, fl_quadratic_rows, quadratic_offset_rows; cbv zeta.
    rewrite map_id; reflexivity.
Qed.

(** ** Invalid requests *)

Lemma fl_invalid rnd fsin fsquare fpi r T pre name : ~ (0 < T /\ valid_request r) ->
  argument_error (fl_build_sequence rnd fsin fsquare fpi r T pre name).
Proof.
  assert (BAD : forall (k : result dds), ~ 0 < T -> argument_error (do* check_duration T in k)).
  { intros k H; destruct (check_duration_bad T H) as [s [a [b ->]]]; do 3 eexists; reflexivity. }
  assert (CF : forall c d a b (k : result dds), c = false -> argument_error (do* check_arguments c d a b in k)).
  { intros c d a b k ->; do 3 eexists; reflexivity. }
  intros H; destruct (Rlt_dec 0 T) as [HT|HT].
  - destruct r as [| |x|x|x|x|x|x y|x|x]; cbn [valid_request] in H; try tauto; cbn [fl_build_sequence];
      try (unfold fl_count_sequence, check_offset_count; rewrite check_duration_ok by auto; cbn [bind]; apply CF, leb_false; lra).
    + unfold fl_walsh_sequence; rewrite check_duration_ok by auto; cbn [bind]; apply CF.
      destruct (leb 1 x) eqn:A; auto; destruct (leb x 2000) eqn:B; auto.
      apply leb_true in A; apply leb_true in B; tauto.
    + unfold fl_quadratic_sequence; rewrite check_duration_ok by auto; cbn [bind].
      destruct (leb 1 x) eqn:A; [|apply CF; auto]; rewrite check_true by auto; cbn [bind].
      apply CF; destruct (leb 1 y) eqn:B; auto; apply leb_true in A; apply leb_true in B; tauto.
    + unfold fl_x_concatenated_sequence, check_concatenation_order; rewrite check_duration_ok by auto; cbn [bind]; apply CF.
      apply leb_false; lra.
    + unfold fl_xy_concatenated_sequence, check_concatenation_order; rewrite check_duration_ok by auto; cbn [bind]; apply CF.
      apply leb_false; lra.
  - destruct r; cbn [fl_build_sequence]; apply BAD; auto.
Qed.

(** ** The spacing exceeds the errors *)

Lemma sin_lower a : 0 < a <= PI / 2 -> 58 / 100 * a <= sin a.
Proof.
  intros H; assert (P := PI_bounds); assert (C := sin_ge_cubic a ltac:(lra)).
  assert (S : a ^ 2 <= 250 / 100) by (cbn [pow]; nra).
  replace (a ^ 3) with (a ^ 2 * a) in C by ring; nra.
Qed.

Lemma uhrig_spacing x : 1 <= x -> 3 / 4 * (/ (x + 1)) ^ 2 <= sin (PI / (2 * (x + 1))) ^ 2.
Proof.
  intros X; assert (P := PI_bounds); set (q := / (x + 1)).
  assert (Q : 0 < q) by (apply Rinv_0_lt_compat; lra).
  assert (Q1 : q * (x + 1) = 1) by (unfold q; field; lra).
  replace (PI / (2 * (x + 1))) with (PI / 2 * q) by (unfold q; field; lra).
  assert (A : 0 < PI / 2 * q <= PI / 2).
  { split; [apply Rmult_lt_0_compat; lra|]; rewrite <- (Rmult_1_r (PI / 2)) at 2; apply Rmult_le_compat_l; nra. }
  assert (S := sin_lower _ A).
  assert (L : 87 / 100 * q <= sin (PI / 2 * q)) by nra.
  apply (Rle_trans _ ((87 / 100 * q) ^ 2)); [nra|apply pow_incr; nra].
Qed.

Lemma accurate_spacing r : valid_request r -> moderate r -> is_xy r = false -> 0 <= accuracy r /\ 2 * accuracy r < spacing r.
Proof.
  assert (INV : forall c x k, 0 < x -> 0 < c -> x <= k -> / k <= / x) by (intros; apply Rinv_le_contravar; lra).
  destruct r as [| |x|x|x|x|x|x y|x|x]; cbn [valid_request moderate is_xy accuracy spacing]; intros V M X; try discriminate.
  - lra.
  - lra.
  - assert (Q := INV 1 (2 * x) (2 ^ 41) ltac:(lra) ltac:(lra) ltac:(lra)); unfold Rdiv; rewrite Rmult_1_l; split; lra.
  - assert (Q := INV 1 (2 * x) (2 ^ 41) ltac:(lra) ltac:(lra) ltac:(lra)); unfold Rdiv; rewrite Rmult_1_l; split; lra.
  - split; [lra|]; eapply Rlt_le_trans; [|apply uhrig_spacing; auto].
    assert (Q := INV 1 (x + 1) (2 ^ 20) ltac:(lra) ltac:(lra) ltac:(lra)).
    assert (Q2 : (/ 2 ^ 20) ^ 2 <= (/ (x + 1)) ^ 2) by (apply pow_incr; lra).
    lra.
  - assert (Q := INV 1 (x + 1) (2 ^ 41) ltac:(lra) ltac:(lra) ltac:(lra)); unfold Rdiv; rewrite Rmult_1_l; split; lra.
  - assert (Q := INV 1 (2 * x) 4000 ltac:(lra) ltac:(lra) ltac:(lra)); unfold Rdiv; rewrite Rmult_1_l; split; lra.
  - split; [lra|]; destruct V as [V1 V2].
    assert (U1 := uhrig_spacing x V1); assert (U2 := uhrig_spacing y V2).
    assert (P1 : 0 < / (x + 1)) by (apply Rinv_0_lt_compat; lra); assert (P2 : 0 < / (y + 1)) by (apply Rinv_0_lt_compat; lra).
    assert (S1 : 0 < (/ (x + 1)) ^ 2) by (apply pow_lt; auto); assert (S2 : 0 < (/ (y + 1)) ^ 2) by (apply pow_lt; auto).
    assert (U : 3 / 4 * (/ (x + 1)) ^ 2 * (3 / 4 * (/ (y + 1)) ^ 2) <= sin (PI / (2 * (x + 1))) ^ 2 * sin (PI / (2 * (y + 1))) ^ 2)
      by (apply Rmult_le_compat; lra).
    eapply Rlt_le_trans; [|exact U].
    assert (Q := INV 1 ((x + 1) * (y + 1)) (2 ^ 20) ltac:(apply Rmult_lt_0_compat; lra) ltac:(lra) ltac:(lra)).
    rewrite Rinv_mult in Q.
    assert (Q2 : (/ 2 ^ 20) ^ 2 <= (/ (x + 1) * / (y + 1)) ^ 2) by (apply pow_incr; lra).
    rewrite Rpow_mult_distr in Q2; lra.
  - split; [apply Rlt_le, exp_pos|].
    replace (2 * Rpower 2 (x - 53)) with (Rpower 2 (x - 52)).
    + apply Rpower_lt; lra.
    + replace (x - 52) with (1 + (x - 53)) by ring; rewrite Rpower_plus, Rpower_1 by lra; ring.
Qed.

Section Library.
  Variables (fsin fsquare : R -> R).
  Hypothesis Hsin : accurate_sine fsin.
  Hypothesis Hsquare : accurate_square fsquare.

  Lemma fl_single r T : ordinary_duration T -> valid_request r -> moderate r -> is_xy r = false -> r <> Ramsey ->
    exists rel flp, fl_request fsin fsquare r T rel flp.
  Proof.
    intros [FT [HT _]] V M X NR; destruct r as [| |x|x|x|x|x|x y|x|x]; cbn [valid_request moderate] in V, M; try discriminate; try congruence.
    - assert (P := inv_pow_pos 900).
      assert (H : binary64 (T / 2) = T / 2) by (assert (Q := unit_exact T 1 FT HT ltac:(lia)); rewrite pow_1 in Q; exact Q).
      exists [(AX, 1 / 2)], [(AX, T / 2)]; split; [|split; [|split]].
      + intros T' pre name HT'; cbn [build_sequence map]; unfold scale; cbn [fst snd].
        replace (T' * (1 / 2)) with (T' / 2) by field; apply spin_echo_timing; auto.
      + intros pre name; cbn [fl_build_sequence]; unfold fl_spin_echo_sequence; rewrite check_duration_ok by lra; cbn [bind].
        rewrite H; exact (f_equal (fun a => finish T a pre name) (uniform_arrays_of AX [T / 2])).
      + cbn [map]; constructor; [|constructor]; split; [reflexivity|]; cbn [scale fst snd accuracy].
        replace (T / 2 - T * (1 / 2)) with 0 by field; rewrite Rabs_R0; lra.
      + intros p [<-|[]]; cbn [snd]; rewrite <- H; apply format_rnd.
    - apply fl_carr_purcell; lra.
    - apply fl_cpmg; lra.
    - apply fl_uhrig; auto; lra.
    - apply fl_periodic; lra.
    - apply fl_walsh; auto; lra.
    - apply fl_quadratic; auto; lra.
    - apply fl_x; auto; lra.
  Qed.

  Lemma fl_rounding r T : ordinary_duration T -> valid_request r -> moderate r ->
    exists rel flp, describes_request r rel /\
      (forall pre name, fl_build_sequence binary64 fsin fsquare float_pi r T pre name =
         Ok (sequence_of T name (with_pre_post pre T flp))) /\
      0 <= accuracy r /\ rounding (accuracy r * T) T flp (map (scale T) rel) /\
      (is_xy r = false -> strictly_increasing (0 :: map snd flp ++ [T])).
  Proof.
    intros OT V M; assert (OT' := OT); destruct OT' as [FT [HT _]]; assert (P := inv_pow_pos 900).
    destruct (is_xy r) eqn:X.
    - destruct r as [| |x|x|x|x|x|x y|x|x]; try discriminate; cbn [valid_request moderate] in V, M.
      destruct (fl_xy fsin fsquare T x FT HT ltac:(lra)) as [rel [flp [A [B C]]]]; exists rel, flp.
      split; auto; split; [|split; [apply Rlt_le, exp_pos|split; [exact C|discriminate]]].
      intros pre name; rewrite B; apply finish_ok; [lra|]; intros p I; apply C; auto.
    - destruct (accurate_spacing r V M X) as [A0 A1].
      assert (G : exists rel flp, describes_request r rel /\
        (forall pre name, fl_build_sequence binary64 fsin fsquare float_pi r T pre name = Ok (sequence_of T name (with_pre_post pre T flp))) /\
        rounding (accuracy r * T) T flp (map (scale T) rel) /\ strictly_increasing (0 :: map snd flp ++ [T])).
      { destruct (request_single r V X) as [rel0 [D0 GT]].
        destruct (match r with Ramsey => true | _ => false end) eqn:RM.
        - destruct r; try discriminate; exists rel0, []; split; auto.
          assert (E : rel0 = []).
          { apply (describes_unique Ramsey); auto; intros T' pre name HT'; cbn [build_sequence map]; apply ramsey_timing; auto. }
          rewrite E; split; [|split; [|cbn; lra]].
          + intros pre name; cbn [fl_build_sequence].
            transitivity (new_ramsey_sequence T pre name); [|apply ramsey_timing; lra].
            unfold fl_ramsey_sequence, new_ramsey_sequence; cbn [map].
            rewrite Rmult_0_r, Rmult_1_r, (rnd_format 0 format_0), (rnd_format T FT); reflexivity.
          + split; [constructor|split; [intros p []|intros i j I J; tauto]].
        - assert (NR : r <> Ramsey) by (intros ->; discriminate).
          destruct (fl_single r T OT V M X NR) as [rel [flp [D [B [F FM]]]]]; exists rel, flp; split; auto.
          rewrite (describes_unique _ _ _ D0 D) in GT.
          destruct (good_rounding T (accuracy r) (spacing r) flp rel ltac:(lra) A0 A1 GT F FM) as [RO SI].
          split; [|split; auto]; intros pre name; rewrite B; apply finish_ok; [lra|]; intros p I; apply RO; auto. }
      destruct G as [rel [flp [G1 [G2 [G3 G4]]]]]; exists rel, flp; repeat (split; auto).
  Qed.

  Lemma same_order_nondecreasing a b : List.length a = List.length b -> same_order a b -> nondecreasing b -> nondecreasing a.
  Proof.
    revert b; induction a as [|x a IH]; intros [|y b] L O N; try discriminate; cbn [nondecreasing]; auto.
    destruct N as [N1 N2]; split.
    - destruct a as [|x' a]; auto; destruct b as [|y' b]; [discriminate|].
      destruct (Rle_lt_dec x x') as [C|C]; auto.
      apply (O 1%nat 0%nat) in C; cbn [List.length nth] in *; try lia; lra.
    - apply (IH b); auto; intros i j I J; apply (O (S i) (S j)); cbn [List.length]; lia.
  Qed.

  Theorem float_sequences r T pre name : ordinary_duration T -> valid_request r -> moderate r ->
    exists s s0, build_sequence r T pre name = Ok s0 /\
      fl_build_sequence binary64 fsin fsquare float_pi r T pre name = Ok s /\
      rounded_sequence (accuracy r * T) s s0 /\
      (forall t, In t (offsets s) -> 0 <= t <= T /\ binary64_format t) /\
      nondecreasing (offsets s) /\ (is_xy r = false -> strictly_increasing (offsets s)).
  Proof.
    intros OT V M; assert (OT' := OT); destruct OT' as [FT [HT _]]; assert (P := inv_pow_pos 900).
    destruct (fl_rounding r T OT V M) as [rel [flp [D [B [A0 [RO SI]]]]]].
    exists (sequence_of T name (with_pre_post pre T flp)), (sequence_of T name (with_pre_post pre T (map (scale T) rel))).
    assert (DB := D T pre name ltac:(lra)).
    assert (E0 : 0 <= accuracy r * T) by (apply Rmult_le_pos; lra).
    assert (RS := rounding_sequence _ T flp (map (scale T) rel) pre name E0 RO).
    split; auto; split; auto; split; auto.
    assert (OF : offsets (sequence_of T name (with_pre_post pre T flp)) = if pre then 0 :: map snd flp ++ [T] else map snd flp).
    { apply with_pre_post_times. }
    split; [|split].
    - assert (I : forall t, In t (map snd flp) -> 0 <= t <= T /\ binary64_format t).
      { intros t I; apply in_map_iff in I; destruct I as [p [<- I]]; apply RO; auto. }
      rewrite OF; destruct pre; auto; intros t [<-|J]; [split; [lra|apply format_0]|].
      apply in_app_or in J; destruct J as [J|[<-|[]]]; auto; split; [lra|auto].
    - destruct (request_validity r T pre name) as [RV _]; destruct (RV ltac:(split; [lra|auto])) as [s0 [E [_ [_ [_ [ND _]]]]]].
      rewrite DB in E; injection E as E; rewrite <- E in ND.
      apply (same_order_nondecreasing _ (offsets (sequence_of T name (with_pre_post pre T (map (scale T) rel))))); auto; [|apply RS].
      assert (CT := proj1 (proj2 (proj2 (proj2 (proj2 (proj2 RS)))))); clear - CT; unfold close_times in CT; induction CT; cbn [List.length]; auto.
    - intros X; rewrite OF; specialize (SI X); destruct pre; auto.
      clear - SI; destruct SI as [_ SI]; revert SI; induction (map snd flp) as [|x l IH]; cbn [app strictly_increasing]; auto.
      intros [A1 A2]; split; [|apply IH; auto]; destruct l; auto.
  Qed.

  (** ** Evolution under a bounded detuning *)

  Lemma switched_close B M T e : 0 <= M -> bounded_detuning B M T -> forall ts ts' s a a',
    Rabs s = 1 -> 0 <= a <= T -> 0 <= a' <= T ->
    Forall2 (fun t t' => Rabs (t - t') <= e /\ 0 <= t <= T /\ 0 <= t' <= T) ts ts' ->
    Rabs (switched_from B s a T ts - switched_from B s a' T ts') <= M * Rabs (a - a') + 2 * M * e * INR (List.length ts).
  Proof.
    intros M0 HB; induction ts as [|t ts IH]; intros ts' s a a' SG A A' F; inversion F as [|? t' ? m [H1 [H2 H3]] F']; subst.
    - cbn [switched_from List.length INR].
      replace (s * (B T - B a) - s * (B T - B a')) with (- s * (B a - B a')) by ring.
      rewrite Rabs_mult, Rabs_Ropp, SG, Rmult_1_l; assert (Q := HB a a' A A'); lra.
    - cbn [switched_from]; change (List.length (t :: ts)) with (S (List.length ts)); rewrite S_INR.
      replace (s * (B t - B a) + switched_from B (- s) t T ts - (s * (B t' - B a') + switched_from B (- s) t' T m))
        with (s * (B t - B t') + - s * (B a - B a') + (switched_from B (- s) t T ts - switched_from B (- s) t' T m)) by ring.
      eapply Rle_trans; [apply Rabs_triang|].
      assert (I := IH m (- s) t t' ltac:(rewrite Rabs_Ropp; auto) H2 H3 F').
      assert (Q : Rabs (s * (B t - B t') + - s * (B a - B a')) <= M * Rabs (t - t') + M * Rabs (a - a')).
      { eapply Rle_trans; [apply Rabs_triang|]; rewrite !Rabs_mult, Rabs_Ropp, SG, !Rmult_1_l.
        assert (Q1 := HB t t' H2 H3); assert (Q2 := HB a a' A A'); lra. }
      assert (K : M * Rabs (t - t') <= M * e) by (apply Rmult_le_compat_l; auto); lra.
  Qed.

  Lemma flip_close e T flp ps : Forall2 (near_pulse e) flp ps -> (forall p, In p flp -> 0 <= snd p <= T) ->
    (forall p, In p ps -> 0 <= snd p <= T) ->
    Forall2 (fun t t' => Rabs (t - t') <= e /\ 0 <= t <= T /\ 0 <= t' <= T) (flip_times flp) (flip_times ps).
  Proof.
    induction 1 as [|[a t] [b u] l m [E C] _ IH]; intros H1 H2; cbn [flip_times]; [constructor|].
    cbn [fst snd] in E, C; subst b.
    assert (I : Forall2 (fun t t' => Rabs (t - t') <= e /\ 0 <= t <= T /\ 0 <= t' <= T) (flip_times l) (flip_times m))
      by (apply IH; intros; [apply H1|apply H2]; right; auto).
    assert (A1 := H1 (a, t) (or_introl eq_refl)); assert (A2 := H2 (a, u) (or_introl eq_refl)); cbn [snd] in A1, A2.
    destruct a; auto.
  Qed.

  Lemma flip_length l : (List.length (flip_times l) <= List.length l)%nat.
  Proof. induction l as [|[[] t] l IH]; cbn [flip_times List.length]; lia. Qed.

  Lemma evolution_close B M T e pre flp ps : 0 <= M -> 0 < T -> 0 <= e -> bounded_detuning B M T -> rounding e T flp ps ->
    (forall p, In p ps -> 0 <= snd p <= T) ->
    close_to (INR (List.length ps) * M * e)
      (dephased_evolution B T (with_pre_post pre T flp)) (dephased_evolution B T (with_pre_post pre T ps)).
  Proof.
    intros M0 HT E HB [N [BF _]] BP.
    destruct (events_rounded e flp ps N) as [_ [_ [_ CA]]].
    assert (PP : pulse_product (map pi_pulse flp) = pulse_product (map pi_pulse ps)).
    { clear - N; induction N as [|[a t] [b u] l m [A _] _ IH]; auto; cbn [fst] in A; subst b.
      cbn [map pulse_product]; rewrite IH, !pi_pulse_qmat; auto. }
    set (n := INR (List.length ps)).
    assert (SW : Rabs (switched B T (flip_times flp) - switched B T (flip_times ps)) <= 2 * (n * M * e)).
    { assert (FC := flip_close e T flp ps N (fun p I => proj1 (BF p I)) BP).
      eapply Rle_trans; [apply (switched_close B M T e M0 HB); [rewrite Rabs_R1; auto|lra|lra|exact FC]|].
      rewrite Rminus_diag_eq, Rabs_R0, Rmult_0_r by auto; rewrite Rplus_0_l.
      assert (K : INR (List.length (flip_times flp)) <= n).
      { unfold n; rewrite <- (near_length _ _ _ N); apply le_INR, flip_length. }
      assert (0 <= M * e) by (apply Rmult_le_pos; auto); nra. }
    set (x := switched B T (flip_times flp)) in *; set (y := switched B T (flip_times ps)) in *.
    assert (D : 0 <= n * M * e) by (repeat apply Rmult_le_pos; auto; apply pos_INR).
    assert (Q : qnorm2 (qsub (qz x) (qz y)) <= (n * M * e) ^ 2).
    { eapply Rle_trans; [apply qz_distance|]; apply pow_incr; assert (A := Rabs_pos (x - y)); lra. }
    rewrite !toggling_pre_post; fold x y; rewrite CA, PP, pulse_product_qmat, !z_rotation_qmat, !rotation_qmat, <- !qmat_mul.
    assert (U1 : qnorm2 (qprod ps) = 1) by apply qprod_unit.
    assert (U2 : forall h phi, qnorm2 (qplanar h phi) = 1) by apply qplanar_unit.
    destruct pre; rewrite <- ?qmat_mul.
    - apply close_norm; auto.
      set (w1 := qplanar (PI / 2 / 2) (closing_angle ps)); set (w2 := qplanar (PI / 2 / 2) 0).
      replace (qsub (qmul w1 (qmul (qmul (qprod ps) (qz x)) w2)) (qmul w1 (qmul (qmul (qprod ps) (qz y)) w2)))
        with (qmul w1 (qmul (qmul (qprod ps) (qsub (qz x) (qz y))) w2))
        by (apply q_eq; unfold qmul, qsub; cbn [qa qb qc qd]; ring).
      rewrite !qnorm2_mul; unfold w1, w2; rewrite !U2, U1; lra.
    - apply close_norm; auto.
      replace (qsub (qmul (qprod ps) (qz x)) (qmul (qprod ps) (qz y))) with (qmul (qprod ps) (qsub (qz x) (qz y)))
        by (apply q_eq; unfold qmul, qsub; cbn [qa qb qc qd]; ring).
      rewrite !qnorm2_mul, U1; lra.
  Qed.

  Theorem float_evolution r T pre name B M : ordinary_duration T -> valid_request r -> moderate r ->
    0 <= M -> bounded_detuning B M T ->
    exists s s0, build_sequence r T pre name = Ok s0 /\
      fl_build_sequence binary64 fsin fsquare float_pi r T pre name = Ok s /\
      same_evolution (INR (List.length (offsets s0)) * M * (accuracy r * T)) B s s0.
  Proof.
    intros OT V Mo M0 HB; assert (OT' := OT); destruct OT' as [FT [HT _]]; assert (P := inv_pow_pos 900).
    destruct (fl_rounding r T OT V Mo) as [rel [flp [D [F [A0 [RO _]]]]]].
    exists (sequence_of T name (with_pre_post pre T flp)), (sequence_of T name (with_pre_post pre T (map (scale T) rel))).
    split; [apply D; lra|split; auto].
    assert (E : 0 <= accuracy r * T) by (apply Rmult_le_pos; lra).
    intros l l0 H H0; cbn [sequence_of seq_duration seq_name] in *; apply sequence_of_inj in H; apply sequence_of_inj in H0; subst l l0.
    assert (BP : forall p, In p (map (scale T) rel) -> 0 <= snd p <= T).
    { destruct (request_pulses r V) as [rel' [D' [_ [W _]]]]; rewrite (describes_unique _ _ _ D' D) in W.
      intros p I; apply in_map_iff in I; destruct I as [q [<- I]]; cbn [scale snd].
      assert (0 < snd q <= 1) by (apply W, in_map; auto); split; nra. }
    eapply close_mono; [|apply (evolution_close B M T (accuracy r * T) pre flp (map (scale T) rel)); auto; lra].
    apply Rmult_le_compat_r; auto; apply Rmult_le_compat_r; auto; apply le_INR.
    cbn [sequence_of offsets]; rewrite !map_length; unfold with_pre_post; destruct pre; cbn [List.length]; rewrite ?app_length, !map_length; lia.
  Qed.
End Library.

(** ** Correctly rounded library functions are accurate *)

Lemma rounded_sine : accurate_sine (fun x => binary64 (sin x)).
Proof.
  intros x F X S; split; [apply format_rnd|].
  assert (T30 : 2 * tiny <= / 2 ^ 30) by (apply not_tiny, (above_100 30); [lia|lra]).
  assert (Z : 0 < tiny) by apply inv_pow_pos.
  assert (POS : forall y, / 2 ^ 30 <= y -> Rabs (binary64 y - y) <= y / 2 ^ 50).
  { intros y Y; assert (A := acc_rnd y ltac:(lra)); unfold acc in A; eapply Rle_trans; [exact A|].
    unfold eps; assert (0 < y) by lra; lra. }
  destruct (Rle_dec 0 (sin x)) as [C|C].
  - rewrite Rabs_right in S by lra; rewrite (Rabs_right (sin x)) by lra; apply POS; auto.
  - rewrite Rabs_left in S by lra; rewrite (Rabs_left (sin x)) by lra.
    assert (Q := POS (- sin x) S).
    replace (binary64 (sin x) - sin x) with (- (binary64 (- sin x) - - sin x)); [rewrite Rabs_Ropp; auto|].
    unfold binary64; rewrite round_NE_opp; ring.
Qed.
Lemma rounded_square : accurate_square (fun x => binary64 (x ^ 2)).
Proof.
  intros x F X; assert (Z : 0 < tiny) by apply inv_pow_pos; assert (P := inv_pow_pos 31).
  assert (S : (/ 2 ^ 31) ^ 2 <= x ^ 2) by (apply pow_incr; lra).
  assert (E : (/ 2 ^ 31) ^ 2 = / 2 ^ 62) by (rewrite pow_inv, <- pow_mult; reflexivity).
  assert (T62 : 2 * tiny <= / 2 ^ 62) by (apply not_tiny, (above_100 62); [lia|lra]).
  assert (A := acc_rnd (x ^ 2) ltac:(lra)); unfold acc in A; eapply Rle_trans; [exact A|].
  assert (0 <= x ^ 2) by apply pow2_ge_0; unfold eps; lra.
Qed.
