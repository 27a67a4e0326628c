(** * Where the rounded conversion fails *)

From Coq Require Import ZArith Lia.
From Flocq Require Import Core Plus_error.
From Verif Require Export L_FloatPipeline.
Import ListNotations.
Open Scope string_scope.
Open Scope list_scope.
Open Scope R_scope.

(** ** Pulses below the resolution of their time *)

Lemma absorb t h : binary64_format t -> 0 < t -> 0 <= h <= t / 2 ^ 55 -> binary64 (t - h) = t /\ binary64 (t + h) = t.
Proof.
  intros F P [H0 H].
  assert (S : succ radix2 (FLT_exp (-1074) 53) (pred radix2 (FLT_exp (-1074) 53) t) = t) by (apply succ_pred; auto; apply FLT_exp_valid; reflexivity).
  set (p := pred radix2 (FLT_exp (-1074) 53) t) in *.
  assert (P0 : 0 <= p) by (apply pred_ge_0; auto; apply FLT_exp_valid; reflexivity).
  rewrite succ_eq_pos in S by auto.
  assert (U := @ulp_FLT_gt radix2 (-1074) 53 eq_refl p); rewrite Rabs_pos_eq in U by auto.
  assert (U' := @ulp_FLT_gt radix2 (-1074) 53 eq_refl t); rewrite Rabs_pos_eq in U' by lra.
  change (Z.opp 53) with (-53)%Z in U, U'; rewrite bpow_53 in U, U'.
  assert (E55 : t / 2 ^ 55 = t * eps / 4) by (unfold eps; field).
  rewrite E55 in H; assert (EP : 0 < eps <= / 1000) by (unfold eps; split; lra).
  split; apply Rle_antisym.
  - rewrite <- (rnd_format t F) at 2; apply rnd_mono; lra.
  - apply round_N_ge_midp; auto; [apply FLT_exp_valid; reflexivity|]; fold p.
    assert (B : p * (1 + eps) < t) by lra.
    assert (B2 : t * eps / 2 < t - p); [|lra].
    assert (PE : 0 <= p * eps) by (apply Rmult_le_pos; lra).
    assert (0 <= (t - p) * eps) by (apply Rmult_le_pos; lra).
    assert (0 <= (t - p) * (/ 1000 - eps)) by (apply Rmult_le_pos; lra).
    assert (0 < t * eps) by (apply Rmult_lt_0_compat; lra). lra.
  - apply round_N_le_midp; auto; [apply FLT_exp_valid; reflexivity|].
    rewrite succ_eq_pos by lra; assert (0 < t * eps) by (apply Rmult_lt_0_compat; lra); lra.
  - rewrite <- (rnd_format t F) at 1; apply rnd_mono; lra.
Qed.

Lemma difference_positive x y : binary64_format x -> binary64_format y -> x < y -> 0 < binary64 (y - x).
Proof.
  intros FX FY L; assert (H := rnd_nonneg (y - x) ltac:(lra)).
  assert (N : binary64 (y - x) <> 0).
  { assert (PG : Prec_gt_0 53) by reflexivity.
    unfold binary64, Rminus; apply round_plus_neq_0; auto with typeclass_instances; [apply generic_format_opp; auto|lra]. }
  lra.
Qed.

(** the idle times between the pulses, rounded *)
Fixpoint idle_segments (ts : list R) : list seg :=
  match ts with
  | x :: ((y :: _) as l) => Seg 0 0 0 (binary64 (y - x)) :: idle_segments l
  | _ => []
  end.

Section Vanishing.
  Variables (maxr maxd T : R).
  Hypothesis HT : laboratory_duration T.
  Hypothesis FT : binary64_format T.
  Hypothesis Hr : 0 < maxr.
  Hypothesis Hd : 0 < maxd.
  Notation half := (fl_half_pulse_duration binary64 maxr maxd 0).

  Notation absorbed := (absorbed maxr maxd).

  Lemma half_absorbed e : absorbed e -> 0 <= e_rabi e -> 0 <= half (op_of e) <= e_time e / 2 ^ 55.
  Proof.
    intros [F [L [A B]]] P; set (t := e_time e) in *.
    assert (L0 : 0 < / 2 ^ 100) by apply inv_pow_pos.
    assert (TT : tiny <= t / 2 ^ 56).
    { assert (Q : / 2 ^ 156 = / 2 ^ 100 * / 2 ^ 56) by (change 156%nat with (100 + 56)%nat; apply inv_pow_add).
      assert (Q2 : tiny <= / 2 ^ 156) by (apply inv_pow_le; lia).
      unfold Rdiv; eapply Rle_trans; [exact Q2|rewrite Q]; apply Rmult_le_compat_r; [left; apply inv_pow_pos|auto]. }
    assert (TP : 0 < t / 2 ^ 56) by (apply Rdiv_lt_0_compat; [lra|apply pow_lt; lra]).
    assert (E := acc_rnd _ TT); apply acc_abs in E.
    assert (E55 : t / 2 ^ 55 = 2 * (t / 2 ^ 56)) by field.
    assert (EP : 0 < eps <= / 1000) by (unfold eps; split; lra).
    assert (E2 : binary64 (t / 2 ^ 56) <= 2 * (t / 2 ^ 56)).
    { assert (eps * (t / 2 ^ 56) <= / 1000 * (t / 2 ^ 56)) by (apply Rmult_le_compat_r; lra); lra. }
    assert (K : forall q, 0 <= q <= t / 2 ^ 56 -> 0 <= binary64 (5 / 10 * py_max (binary64 q) 0) <= t / 2 ^ 55).
    { intros q [Q0 Q]; rewrite py_max_Rmax, Rmax_left by (apply rnd_nonneg; auto); split.
      - apply rnd_nonneg; assert (N := rnd_nonneg q Q0); lra.
      - apply rnd_mono in Q; rewrite E55; eapply Rle_trans; [|exact E2]; apply rnd_mono; lra. }
    unfold fl_half_pulse_duration; cbn [op_of op_rabi op_detuning].
    destruct (negb (fl_isclose binary64 (e_rabi e) 0)); [|destruct (negb (fl_isclose binary64 (e_det e) 0))].
    - apply K; split; auto; apply Rmult_le_pos; [auto|left; apply Rinv_0_lt_compat; auto].
    - apply K; split; auto; apply Rmult_le_pos; [apply Rabs_pos|left; apply Rinv_0_lt_compat; auto].
    - lra.
  Qed.

  Lemma half_zero t : half (op_of (idle t)) = 0.
  Proof.
    assert (Z : fl_isclose binary64 0 0 = true).
    { rewrite definite_isclose by (left; auto); rewrite Rabs_R0; destruct (Rle_dec 0 (/ 10 ^ 8)); auto; exfalso; apply n; left; apply small_pos. }
    unfold fl_half_pulse_duration; cbn [op_of idle op_rabi op_detuning e_rabi e_det]; rewrite Z; reflexivity.
  Qed.

  Lemma fl_win_absorbed e : (absorbed e /\ 0 <= e_rabi e) \/ (e = idle 0 \/ e = idle T) -> fl_win maxr maxd 0 T e = (e_time e, e_time e).
  Proof.
    intros H; assert (T0 := T_low T HT).
    assert (R : fl_start_end binary64 half (op_of e) = (e_time e, e_time e)).
    { destruct H as [[A A0]|[-> | ->]].
      - destruct (absorb (e_time e) (half (op_of e))) as [E1 E2]; [apply A| |apply half_absorbed; auto|].
        + destruct A as [_ [A _]]; assert (P := inv_pow_pos 100); lra.
        + unfold fl_start_end; cbn [op_of op_offset] in *; rewrite E1, E2; auto.
      - unfold fl_start_end; rewrite half_zero; cbn [op_of op_offset idle e_time].
        rewrite Rminus_0_r, Rplus_0_r, (rnd_format 0) by apply format_0; auto.
      - unfold fl_start_end; rewrite half_zero; cbn [op_of op_offset idle e_time].
        rewrite Rminus_0_r, Rplus_0_r, rnd_format by auto; auto. }
    unfold fl_win; rewrite R; destruct (Req_EM_T (e_time e) 0) as [Z|Z]; [|destruct (Req_EM_T (e_time e) T) as [Z'|Z']; auto].
    - rewrite Z; replace (ltb 0 0) with false; auto; symmetry; apply ltb_false; lra.
    - rewrite Z'; replace (ltb T T) with false; auto; symmetry; apply ltb_false; lra.
  Qed.

  Lemma idle_weave E : (forall e, In e E -> (absorbed e /\ 0 <= e_rabi e) \/ (e = idle 0 \/ e = idle T)) ->
    (forall e, In e E -> binary64_format (e_time e)) -> strictly_increasing (map e_time E) ->
    filter lasting (map to_seg (fl_interleave binary64 (map op_of E) (map (fl_win maxr maxd 0 T) E))) = idle_segments (map e_time E) /\
    fl_gap_durations binary64 (map (fl_win maxr maxd 0 T) E) = map g_dur (idle_segments (map e_time E)) /\
    fl_diff binary64 (map e_time E) = map g_dur (idle_segments (map e_time E)) /\
    (forall g, In g (idle_segments (map e_time E)) -> 0 < g_dur g /\ g_rabi g = 0 /\ g_det g = 0).
  Proof.
    assert (Z : forall e, (absorbed e /\ 0 <= e_rabi e) \/ (e = idle 0 \/ e = idle T) ->
      lasting (to_seg (fl_pulse_segment binary64 (op_of e) (fl_win maxr maxd 0 T e))) = false).
    { intros e H; rewrite (fl_win_absorbed e H); unfold fl_pulse_segment; cbn [fst snd].
      replace (e_time e - e_time e) with 0 by ring; rewrite rnd_zero.
      replace (ltb 0 0) with false by (symmetry; apply ltb_false; lra); unfold lasting, to_seg; cbn [seg_duration g_dur]; apply ltb_false; lra. }
    induction E as [|e E IH]; intros H F I; [repeat split; auto; intros; contradiction|].
    destruct E as [|f E].
    - cbn [map fl_interleave filter]; rewrite Z by (apply H; left; auto).
      unfold to_seg, lasting; cbn [g_dur seg_duration]; replace (ltb 0 0) with false by (symmetry; apply ltb_false; lra).
      destruct (fl_win maxr maxd 0 T e); repeat split; auto; intros; contradiction.
    - destruct IH as [I1 [I2 [I3 I4]]]; [intros; apply H; right; auto|intros; apply F; right; auto|apply I|].
      assert (P : 0 < binary64 (e_time f - e_time e)).
      { apply difference_positive; [apply F; left; auto|apply F; right; left; auto|apply I]. }
      assert (W1 := fl_win_absorbed e (H e (or_introl eq_refl))); assert (W2 := fl_win_absorbed f (H f (or_intror (or_introl eq_refl)))).
      change (map e_time (e :: f :: E)) with (e_time e :: map e_time (f :: E)).
      change (map op_of (e :: f :: E)) with (op_of e :: map op_of (f :: E)).
      change (map (fl_win maxr maxd 0 T) (e :: f :: E)) with (fl_win maxr maxd 0 T e :: map (fl_win maxr maxd 0 T) (f :: E)).
      assert (IS : idle_segments (e_time e :: map e_time (f :: E)) = Seg 0 0 0 (binary64 (e_time f - e_time e)) :: idle_segments (map e_time (f :: E))) by reflexivity.
      rewrite IS; split; [|split; [|split]].
      + assert (FI : fl_interleave binary64 (op_of e :: map op_of (f :: E)) (fl_win maxr maxd 0 T e :: map (fl_win maxr maxd 0 T) (f :: E)) =
          fl_pulse_segment binary64 (op_of e) (fl_win maxr maxd 0 T e) ::
          MkSeg 0 0 0 (binary64 (fst (fl_win maxr maxd 0 T f) - snd (fl_win maxr maxd 0 T e))) ::
          fl_interleave binary64 (map op_of (f :: E)) (map (fl_win maxr maxd 0 T) (f :: E))) by reflexivity.
        rewrite FI; clear FI; cbn [map filter]; rewrite Z by (apply H; left; auto).
        cbn [map] in I1; rewrite <- I1; rewrite W1, W2; cbn [fst snd].
        unfold to_seg at 1; unfold lasting at 1; cbn [g_dur seg_duration seg_rabi seg_azimuthal seg_detuning].
        rewrite (proj2 (ltb_true 0 _) P); reflexivity.
      + cbn [map g_dur]; cbn [map] in I2; rewrite W1; rewrite <- I2; rewrite W2; reflexivity.
      + cbn [map g_dur]; cbn [map] in I3; rewrite <- I3; reflexivity.
      + intros g [<-|J]; [cbn; auto|apply I4; exact J].
  Qed.

  Theorem float_vanishing n0 l name :
    (forall e, In e l -> absorbed e /\ e_time e <= T /\ 0 <= e_rabi e /\ ~ (0 < e_rabi e /\ 0 < e_det e)) ->
    strictly_increasing (map e_time l) ->
    exists c segs, fl_convert binary64 (sequence_of T n0 l) maxr maxd 0 name = Ok c /\ describes segs c /\
      forall g, In g segs -> g_rabi g = 0 /\ g_det g = 0.
  Proof.
    intros A I; assert (UT := T_low T HT).
    assert (B : forall e, In e l -> 0 <= e_time e <= T).
    { intros e Ie; destruct (A e Ie) as [[_ [L _]] [U _]]; assert (P := inv_pow_pos 100); lra. }
    set (E := with_ends T l).
    assert (IE : strictly_increasing (map e_time E)) by (apply with_ends_increasing; auto; lra).
    assert (AE : forall e, In e E -> (absorbed e /\ 0 <= e_rabi e) \/ (e = idle 0 \/ e = idle T)).
    { intros e Ie; apply with_ends_in in Ie; destruct Ie as [Ie|Ie]; auto; left; split; apply A; auto. }
    assert (FE : forall e, In e E -> binary64_format (e_time e)).
    { intros e Ie; destruct (AE e Ie) as [[[F _] _]|[-> | ->]]; auto; apply format_0. }
    destruct (idle_weave E AE FE IE) as [W1 [W2 [W3 W4]]].
    destruct (segments_constructible (idle_segments (map e_time E)) name) as [c [EC [DC _]]].
    { intros g J; destruct (W4 g J) as [X [Y _]]; rewrite Y; lra. }
    exists c, (idle_segments (map e_time E)); split; [|split; [exact DC|intros g J; apply W4; auto]].
    assert (PG : forall x, In x (map g_dur (idle_segments (map e_time E))) -> 0 < x).
    { intros x J; apply in_map_iff in J; destruct J as [g [<- J]]; apply W4; auto. }
    unfold fl_convert.
    rewrite check_true by (apply ltb_true; auto); cbn [bind].
    rewrite check_true by (apply ltb_true; auto); cbn [bind].
    rewrite check_true by (apply leb_true; lra); cbn [bind].
    cbn [sequence_of rabi_rotations detuning_rotations seq_duration].
    rewrite check_true by (apply forallb_rabi; intros e J; apply A; auto); cbn [bind].
    rewrite check_true by (apply check_valid_spec; intros e J; apply A; auto); cbn [bind]; cbv zeta.
    change (MkDDS T (map e_time l) (map e_rabi l) (map e_phi l) (map e_det l) n0) with (sequence_of T n0 l).
    rewrite dds_operations_of, pad_with_ends by (auto; lra); fold E.
    assert (M : map op_offset (map op_of E) = map e_time E) by (rewrite map_map; auto).
    rewrite M, W3, check_true.
    2:{ apply negb_true_iff; destruct (existsb _ _) eqn:Q; auto; exfalso; apply existsb_exists in Q.
        destruct Q as [x [Jx Q]]; apply leb_true in Q; apply PG in Jx; lra. }
    cbn [bind].
    unfold E; rewrite (fl_windows_model maxr maxd 0 T HT l B I); fold E.
    rewrite W2, check_true.
    2:{ unfold fl_gaps_ok; apply forallb_forall; intros x Jx; apply PG in Jx; apply orb_true_iff; left; apply ltb_true; auto. }
    cbn [bind].
    assert (NA : fl_allclose0 binary64 (map (fl_win maxr maxd 0 T) E) = false).
    { destruct (fl_allclose0 binary64 (map (fl_win maxr maxd 0 T) E)) eqn:Q; auto; exfalso.
      unfold fl_allclose0 in Q; rewrite forallb_forall in Q.
      destruct (with_ends_shape T l ltac:(lra) B I) as [e0 [mid [en [SE [_ [EN _]]]]]]; fold E in SE.
      assert (J : In en E) by (rewrite SE; right; apply in_or_app; right; left; auto).
      specialize (Q _ (in_map _ _ _ J)); apply andb_true_iff in Q; destruct Q as [_ Q].
      rewrite (fl_win_absorbed en (AE en J)), EN in Q; cbn [snd] in Q.
      rewrite large_isclose in Q; [discriminate|]; rewrite Rabs_pos_eq; lra. }
    rewrite NA; unfold control_of_segments; rewrite <- EC, <- W1, <- filter_to_seg, !map_map; reflexivity.
  Qed.
End Vanishing.

(** ** Rates above the maximum *)

Lemma rnd_to x e n : (-1000 <= e)%Z -> bpow radix2 (e - 1) <= Rabs x < bpow radix2 e ->
  Rabs (x * bpow radix2 (53 - e) - IZR n) < / 2 -> binary64 x = IZR n * bpow radix2 (e - 53).
Proof.
  intros L B H; unfold binary64, round, scaled_mantissa, cexp, F2R; cbn [Fnum Fexp].
  rewrite (mag_unique radix2 x e B).
  assert (F : FLT_exp (-1074) 53 e = (e - 53)%Z) by (unfold FLT_exp; apply Z.max_l; lia).
  rewrite F; replace (- (e - 53))%Z with (53 - e)%Z by ring.
  rewrite (Znearest_imp _ _ n H); reflexivity.
Qed.

Lemma format_pow (m : Z) (e : Z) : (-1074 <= e)%Z -> (Z.abs m < 2 ^ 53)%Z -> binary64_format (IZR m * bpow radix2 e).
Proof.
  intros E M; apply generic_format_FLT; exists (Float radix2 m e); [reflexivity|exact M|exact E].
Qed.

Definition steep : event := Event 2 3 0 0.

Lemma steep_window : fl_win (2 ^ 53) 1 0 4 steep = (2 - / 2 ^ 52, 2).
Proof.
  assert (I0 : fl_isclose binary64 3 0 = false) by (apply large_isclose; rewrite Rabs_pos_eq; lra).
  assert (B0 : binary64 (3 / 2 ^ 53) = 3 / 2 ^ 53).
  { apply rnd_format; replace (3 / 2 ^ 53) with (IZR 3 * bpow radix2 (-53)); [apply format_pow; lia|].
    rewrite bpow_53; unfold eps; field. }
  assert (B1 : binary64 (5 / 10 * (3 / 2 ^ 53)) = 3 / 2 ^ 54).
  { replace (5 / 10 * (3 / 2 ^ 53)) with (3 / 2 ^ 54) by field; apply rnd_format.
    replace (3 / 2 ^ 54) with (IZR 3 * bpow radix2 (-54)); [apply format_pow; lia|].
    change (-54)%Z with (- Z.of_nat 54)%Z; rewrite bpow_inv; field. }
  assert (P54 : 2 ^ 54 = 18014398509481984) by ring.
  assert (P52 : 2 ^ 52 = 4503599627370496) by ring.
  assert (B2 : binary64 (2 - 3 / 2 ^ 54) = 2 - / 2 ^ 52).
  { rewrite (rnd_to _ 1 9007199254740991); [| lia | |].
    - change (1 - 53)%Z with (- Z.of_nat 52)%Z; rewrite bpow_inv, P52; field.
    - change (1 - 1)%Z with 0%Z; rewrite bpow_1; change (bpow radix2 0) with 1; change (IZR radix2) with 2; rewrite P54, Rabs_pos_eq; lra.
    - change (53 - 1)%Z with (Z.of_nat 52); rewrite bpow_pow, P52, P54; apply Rabs_def1; lra. }
  assert (B3 : binary64 (2 + 3 / 2 ^ 54) = 2).
  { rewrite (rnd_to _ 2 4503599627370496); [| lia | |].
    - change (2 - 53)%Z with (- Z.of_nat 51)%Z; rewrite bpow_inv; replace (2 ^ 51) with 2251799813685248 by ring; field.
    - change (2 - 1)%Z with 1%Z; rewrite bpow_1; change (bpow radix2 2) with 4; change (IZR radix2) with 2; rewrite P54, Rabs_pos_eq; lra.
    - change (53 - 2)%Z with (Z.of_nat 51); rewrite bpow_pow, P54; replace (2 ^ 51) with 2251799813685248 by ring; apply Rabs_def1; lra. }
  unfold fl_win, fl_start_end, fl_half_pulse_duration, steep; cbn [op_of op_rabi op_detuning op_offset e_time e_rabi e_det].
  rewrite I0; cbn [negb]; rewrite B0.
  rewrite py_max_Rmax, Rmax_left by (assert (0 < 2 ^ 53) by (apply pow_lt; lra); unfold Rdiv; apply Rmult_le_pos; [lra|left; apply Rinv_0_lt_compat; auto]).
  rewrite B1, B2, B3.
  destruct (Req_EM_T 2 0); [lra|]; destruct (Req_EM_T 2 4); [lra|]; reflexivity.
Qed.

Lemma fl_win_idle T t : laboratory_duration T -> binary64_format t -> 0 <= t <= T -> fl_win (2 ^ 53) 1 0 T (idle t) = (t, t).
Proof.
  intros HT F B; unfold fl_win, fl_start_end; rewrite half_zero; cbn [op_of op_offset idle e_time].
  rewrite Rminus_0_r, Rplus_0_r, rnd_format by auto.
  destruct (Req_EM_T t 0); [|destruct (Req_EM_T t T); auto].
  - replace (ltb t 0) with false; auto; symmetry; apply ltb_false; lra.
  - replace (ltb T t) with false; auto; symmetry; apply ltb_false; lra.
Qed.

(** a pulse of angle 3 in the middle of 4 time units, with a maximum rate of 2^53 *)
Theorem float_rate_exceeded : exists c g segs,
  constructible_sequence (sequence_of 4 None [steep]) /\ laboratory_duration 4 /\
  fl_convert binary64 (sequence_of 4 None [steep]) (2 ^ 53) 1 0 None = Ok c /\ describes segs c /\
  In g segs /\ g_rabi g = 15 / 10 * 2 ^ 53.
Proof.
  assert (HL : laboratory_duration 4).
  { unfold laboratory_duration; replace (10 ^ 8) with 100000000 by ring; replace (2 ^ 20) with 1048576 by ring; lra. }
  assert (P52 : 2 ^ 52 = 4503599627370496) by ring.
  assert (P53 : 2 ^ 53 = 2 * 2 ^ 52) by ring.
  assert (F2 : binary64_format 2) by (replace 2 with (IZR 2 * bpow radix2 0) by (cbn [bpow]; ring); apply format_pow; lia).
  assert (F4 : binary64_format 4) by (replace 4 with (IZR 4 * bpow radix2 0) by (cbn [bpow]; ring); apply format_pow; lia).
  assert (FA : binary64_format (2 - / 2 ^ 52)).
  { replace (2 - / 2 ^ 52) with (IZR 9007199254740991 * bpow radix2 (-52)); [apply format_pow; lia|].
    change (-52)%Z with (- Z.of_nat 52)%Z; rewrite bpow_inv, P52; field. }
  assert (FW : binary64_format (/ 2 ^ 52)).
  { replace (/ 2 ^ 52) with (IZR 1 * bpow radix2 (-52)); [apply format_pow; lia|].
    change (-52)%Z with (- Z.of_nat 52)%Z; rewrite bpow_inv; field; apply pow_nonzero; lra. }
  assert (FR : binary64_format (3 * 2 ^ 52)).
  { replace (2 ^ 52) with (bpow radix2 52) by (change 52%Z with (Z.of_nat 52); apply bpow_pow); apply format_pow; lia. }
  set (segs := [Seg 0 0 0 (2 - / 2 ^ 52); Seg (3 * 2 ^ 52) 0 0 (/ 2 ^ 52); Seg 0 0 0 2]).
  destruct (segments_constructible segs None) as [c [EC [DC _]]].
  { intros g [<-|[<-|[<-|[]]]]; cbn [g_dur g_rabi]; try rewrite P52; lra. }
  assert (B : forall e, In e [steep] -> 0 <= e_time e <= 4) by (intros e [<-|[]]; cbn; lra).
  assert (I : strictly_increasing (map e_time [steep])) by (cbn; auto).
  assert (E : with_ends 4 [steep] = [idle 0; steep; idle 4]).
  { unfold with_ends; cbn [steep e_time last]; destruct (Req_EM_T 2 0); [lra|]; destruct (Req_EM_T 2 4); [lra|]; reflexivity. }
  exists c, (Seg (3 * 2 ^ 52) 0 0 (/ 2 ^ 52)), segs; split; [|split; [exact HL|split; [|split; [exact DC|split; [right; left; auto|cbn [g_rabi]; lra]]]]].
  { apply constructible_well_formed; unfold well_formed, valid_sequence; cbn; split; [lra|split; [|auto]]; intros t [<-|[]]; lra. }
  unfold fl_convert.
  rewrite check_true by (apply ltb_true; lra); cbn [bind].
  rewrite check_true by (apply ltb_true; apply pow_lt; lra); cbn [bind].
  rewrite check_true by (apply leb_true; lra); cbn [bind].
  cbn [sequence_of rabi_rotations detuning_rotations seq_duration].
  rewrite check_true by (apply forallb_rabi; intros e [<-|[]]; cbn; lra); cbn [bind].
  rewrite check_true by (apply check_valid_spec; intros e [<-|[]]; cbn; lra); cbn [bind]; cbv zeta.
  change (MkDDS 4 (map e_time [steep]) (map e_rabi [steep]) (map e_phi [steep]) (map e_det [steep]) None) with (sequence_of 4 None [steep]).
  rewrite dds_operations_of, pad_with_ends by (auto; lra).
  assert (M : map op_offset (map op_of (with_ends 4 [steep])) = [0; 2; 4]) by (rewrite E; reflexivity).
  rewrite M; clear M.
  assert (R2 : binary64 (2 - 0) = 2) by (rewrite Rminus_0_r; apply rnd_format; auto).
  assert (R2' : binary64 (4 - 2) = 2) by (replace (4 - 2) with 2 by ring; apply rnd_format; auto).
  rewrite check_true.
  2:{ cbn [fl_diff existsb]; rewrite R2, R2'; replace (leb 2 0) with false; auto; symmetry; apply leb_false; lra. }
  cbn [bind]; rewrite (fl_windows_model (2 ^ 53) 1 0 4 HL [steep] B I), E; cbn [map].
  rewrite steep_window, !fl_win_idle by (auto; try apply format_0; lra).
  assert (RA : binary64 (2 - / 2 ^ 52 - 0) = 2 - / 2 ^ 52) by (rewrite Rminus_0_r; apply rnd_format; auto).
  rewrite check_true.
  2:{ cbn [fl_gap_durations fl_gaps_ok forallb]; rewrite RA, R2'; unfold fl_gaps_ok; cbn [forallb].
      rewrite !(proj2 (ltb_true 0 _)) by (rewrite ?P52; lra); reflexivity. }
  cbn [bind].
  assert (NA : fl_allclose0 binary64 [(0, 0); (2 - / 2 ^ 52, 2); (4, 4)] = false).
  { unfold fl_allclose0; cbn [forallb fst snd].
    rewrite (large_isclose 4) by (rewrite Rabs_pos_eq; lra); rewrite !andb_false_r; reflexivity. }
  rewrite NA; unfold control_of_segments; rewrite <- EC.
  assert (IS : fl_isclose binary64 3 0 = false) by (apply large_isclose; rewrite Rabs_pos_eq; lra).
  assert (RZ : forall x, binary64 (x - x) = 0) by (intros x; replace (x - x) with 0 by ring; apply rnd_zero).
  assert (RW : binary64 (2 - (2 - / 2 ^ 52)) = / 2 ^ 52) by (replace (2 - (2 - / 2 ^ 52)) with (/ 2 ^ 52) by ring; apply rnd_format; auto).
  assert (RR : binary64 (3 / / 2 ^ 52) = 3 * 2 ^ 52).
  { replace (3 / / 2 ^ 52) with (3 * 2 ^ 52) by (field; apply pow_nonzero; lra); apply rnd_format; auto. }
  assert (LN : ltb 0 0 = false) by (apply ltb_false; lra).
  assert (LW : ltb 0 (/ 2 ^ 52) = true) by (apply ltb_true, inv_pow_pos).
  assert (L2 : ltb 0 2 = true) by (apply ltb_true; lra).
  assert (LA : ltb 0 (2 - / 2 ^ 52) = true) by (apply ltb_true; rewrite P52; lra).
  cbn [fl_interleave]; unfold fl_pulse_segment; cbn [fst snd].
  rewrite !RZ, RW, RA, R2', LN, LW; cbn [op_of steep op_rabi e_rabi e_phi op_azimuthal]; rewrite IS, RR; cbn [negb filter seg_duration].
  rewrite LN, LW, LA, L2; reflexivity.
Qed.
