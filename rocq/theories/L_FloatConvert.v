(** * The conversion in floating point *)

From Coq Require Import Lia.
From Flocq Require Import Core Relative.
From Verif Require Export Spec_FloatConvert L_Float L_FinitePulse.
Import ListNotations.
Open Scope string_scope.
Open Scope list_scope.
Open Scope R_scope.

(** ** The error of one operation *)

Definition eta : R := / 2 ^ 200.

Lemma rnd_error x : Rabs (binary64 x - x) <= eps * Rabs x + eta.
Proof.
  destruct (error_N_FLT radix2 (-1074) 53 ltac:(reflexivity) (fun x => negb (Z.even x)) x) as [e [h [E [H [_ Q]]]]].
  unfold binary64; rewrite Q.
  replace (x * (1 + e) + h - x) with (e * x + h) by ring.
  eapply Rle_trans; [apply Rabs_triang|]; rewrite Rabs_mult; apply Rplus_le_compat.
  - apply Rmult_le_compat_r; [apply Rabs_pos|]; eapply Rle_trans; [exact E|].
    replace (- (53) + 1)%Z with (- Z.of_nat 52)%Z by reflexivity; rewrite bpow_inv; unfold eps; lra.
  - eapply Rle_trans; [exact H|]; change (-1074)%Z with (- Z.of_nat 1074)%Z; rewrite bpow_inv; unfold eta.
    assert (A := inv_pow_le 200 1074 ltac:(lia)); assert (B := inv_pow_pos 1074); lra.
Qed.

Lemma rnd_zero : binary64 0 = 0. Proof. apply rnd_format, format_0. Qed.
Lemma rnd_nonneg x : 0 <= x -> 0 <= binary64 x.
Proof. intros H; rewrite <- rnd_zero; apply rnd_mono; auto. Qed.

Section Laboratory.
  Variable T : R.
  Hypothesis HT : laboratory_duration T.
  Definition u : R := eps * T.

  Lemma T_low : 2 / 100000000 <= T.
  Proof. destruct HT as [H _]; replace (10 ^ 8) with 100000000 in H by ring; auto. Qed.
  Lemma T_high : T <= 1048576.
  Proof. destruct HT as [_ H]; replace (2 ^ 20) with 1048576 in H by ring; auto. Qed.
  Lemma u_pos : 0 < u.
  Proof. unfold u, eps; assert (L := T_low); lra. Qed.
  Lemma u_T : 8192 * u = T / 2 ^ 40.
  Proof. unfold u, eps; replace (2 ^ 40) with 1099511627776 by ring; lra. Qed.
  Lemma u_T48 : 32 * u = T / 2 ^ 48.
  Proof. unfold u, eps; replace (2 ^ 48) with 281474976710656 by ring; lra. Qed.
  Lemma eta_u : eta <= u / 100.
  Proof.
    unfold eta, u, eps; assert (L := T_low); assert (A := inv_pow_le 100 200 ltac:(lia)).
    assert (B : / 2 ^ 100 = / 1267650600228229401496703205376) by (f_equal; ring); lra.
  Qed.
  Lemma u_small : 64 * u <= / 100000000.
  Proof. unfold u, eps; assert (L := T_high); lra. Qed.
  Lemma u_less : 4096 * u < T.
  Proof. unfold u, eps; assert (L := T_low); lra. Qed.

  (** an operation whose result is at most [k * T] *)
  Lemma err k x : Rabs x <= k * T -> Rabs (binary64 x - x) <= (k + / 100) * u.
  Proof.
    intros H; eapply Rle_trans; [apply rnd_error|]; assert (E := eta_u); unfold u in *.
    apply (Rmult_le_compat_l eps) in H; [|apply Rlt_le, eps_pos]; lra.
  Qed.
End Laboratory.

Ltac abs := repeat match goal with H : Rabs _ <= _ |- _ => apply Rabs_le_inv in H end; try apply Rabs_le.

(** ** Comparison with zero *)

Lemma atol_bounds : 99 / 10000000000 <= binary64 (/ 100000000) <= 101 / 10000000000.
Proof.
  assert (E := rnd_error (/ 100000000)); rewrite (Rabs_pos_eq (/ 100000000)) in E by lra.
  assert (B : eta <= / 2 ^ 100) by (apply inv_pow_le; lia).
  replace (/ 2 ^ 100) with (/ 1267650600228229401496703205376) in B by (f_equal; ring).
  apply Rabs_le_inv in E; unfold eps in E; lra.
Qed.

Lemma isclose_zero x : fl_isclose binary64 x 0 = leb (Rabs (binary64 x)) (binary64 (/ 100000000)).
Proof.
  unfold fl_isclose; rewrite Rabs_R0, Rmult_0_r, rnd_zero, Rplus_0_r, Rminus_0_r.
  rewrite (rnd_format (binary64 _)) by apply format_rnd; auto.
Qed.

Lemma large_isclose x : 19 / 1000000000 <= Rabs x -> fl_isclose binary64 x 0 = false.
Proof.
  intros H; rewrite isclose_zero; destruct (leb _ _) eqn:L; auto; apply leb_true in L; exfalso.
  assert (A := atol_bounds); assert (E := rnd_error x).
  assert (B : eta <= / 2 ^ 100) by (apply inv_pow_le; lia).
  replace (/ 2 ^ 100) with (/ 1267650600228229401496703205376) in B by (f_equal; ring).
  assert (TR := Rabs_triang_inv x (binary64 x)); rewrite Rabs_minus_sym in TR; unfold eps in E.
  assert (P := Rabs_pos x); lra.
Qed.

Lemma definite_isclose x : definite x ->
  fl_isclose binary64 x 0 = if Rle_dec (Rabs x) (/ 10 ^ 8) then true else false.
Proof.
  replace (/ 10 ^ 8) with (/ 100000000) by (f_equal; ring).
  unfold definite; replace (10 ^ 8) with 100000000 by ring; intros [-> | H].
  - rewrite isclose_zero, rnd_zero, !Rabs_R0; destruct (Rle_dec 0 (/ 100000000)); [|lra].
    apply leb_true; assert (A := atol_bounds); lra.
  - rewrite large_isclose by lra; destruct (Rle_dec (Rabs x) (/ 100000000)); [lra|auto].
Qed.

Lemma py_max_Rmax a b : py_max a b = Rmax a b.
Proof.
  unfold py_max; destruct (ltb a b) eqn:L; [apply ltb_true in L; rewrite Rmax_right; lra|].
  apply ltb_false in L; rewrite Rmax_left; lra.
Qed.
Lemma Rmax_error a b m d : Rabs (a - b) <= d -> Rabs (Rmax a m - Rmax b m) <= d.
Proof.
  intros H; apply Rabs_le_inv in H; apply Rabs_le; unfold Rmax.
  destruct (Rle_dec a m), (Rle_dec b m); lra.
Qed.

(** ** Windows *)

Section Windows.
  Variables (maxr maxd mn T : R).
  Hypothesis HT : laboratory_duration T.
  Hypothesis Hr : 0 < maxr.
  Hypothesis Hd : 0 < maxd.
  Hypothesis Hmn : 0 <= mn.
  Notation u := (u T).
  Notation W := (pulse_width maxr maxd mn).
  Notation win := (win maxr maxd mn T).
  Notation half := (fl_half_pulse_duration binary64 maxr maxd mn).
  Notation rnd := binary64.

  Definition sound (e : event) : Prop :=
    definite (e_rabi e) /\ definite (e_det e) /\ 0 <= e_rabi e /\ 0 <= e_time e <= T /\ W e <= T.

  Lemma half_idle e : sound e -> effective e = false -> half (op_of e) = 0 /\ W e = 0.
  Proof.
    intros [A [B [_ _]]] F; unfold effective in F; unfold fl_half_pulse_duration, pulse_width; cbn [op_of op_rabi op_detuning].
    rewrite !definite_isclose by auto.
    destruct (Rle_dec (Rabs (e_rabi e)) (/ 10 ^ 8)); [|discriminate].
    destruct (Rle_dec (Rabs (e_det e)) (/ 10 ^ 8)); [|discriminate]; auto.
  Qed.

  Lemma half_error e : sound e -> Rabs (half (op_of e) - W e / 2) <= 125 / 100 * u /\ 0 <= half (op_of e).
  Proof.
    intros [A [B [P [_ L]]]]; assert (U := u_pos T HT); assert (UL := u_less T HT).
    assert (K : forall q, 0 <= q -> Rmax q mn <= T ->
      Rabs (rnd (5 / 10 * py_max (rnd q) mn) - Rmax q mn / 2) <= 125 / 100 * u /\ 0 <= rnd (5 / 10 * py_max (rnd q) mn)).
    { intros q Q M; rewrite py_max_Rmax.
      assert (Q1 : q <= T) by (eapply Rle_trans; [apply Rmax_l|exact M]).
      assert (E1 := err T HT 1 q); rewrite Rabs_pos_eq in E1 by auto; specialize (E1 ltac:(lra)).
      apply (Rmax_error _ _ mn) in E1; set (a := Rmax (rnd q) mn) in *; set (b := Rmax q mn) in *.
      assert (a0 : 0 <= a) by (eapply Rle_trans; [exact Hmn|apply Rmax_r]).
      split; [|apply rnd_nonneg; lra].
      assert (E2 := err T HT (51 / 100) (5 / 10 * a)); rewrite Rabs_pos_eq in E2 by lra.
      apply Rabs_le_inv in E1; specialize (E2 ltac:(lra)); apply Rabs_le_inv in E2; apply Rabs_le; lra. }
    unfold fl_half_pulse_duration, pulse_width in *; cbn [op_of op_rabi op_detuning].
    rewrite !definite_isclose by auto.
    destruct (Rle_dec (Rabs (e_rabi e)) (/ 10 ^ 8)); cbn [negb].
    - destruct (Rle_dec (Rabs (e_det e)) (/ 10 ^ 8)); cbn [negb].
      + split; [|lra]; replace (0 - 0 / 2) with 0 by field; rewrite Rabs_R0; lra.
      + apply K; auto; apply Rmult_le_pos; [apply Rabs_pos|left; apply Rinv_0_lt_compat; auto].
    - apply K; auto; apply Rmult_le_pos; [auto|left; apply Rinv_0_lt_compat; auto].
  Qed.

  Notation raw := (fl_start_end binary64 half).

  Lemma raw_error e : sound e ->
    Rabs (fst (raw (op_of e)) - (e_time e - W e / 2)) <= 3 * u /\
    Rabs (snd (raw (op_of e)) - (e_time e + W e / 2)) <= 4 * u.
  Proof.
    intros S; destruct (half_error e S) as [H H0]; destruct S as [_ [_ [_ [t L]]]].
    assert (U := u_pos T HT); assert (UL := u_less T HT); assert (W0 := width_nonneg maxr maxd mn e Hmn).
    unfold fl_start_end; cbn [op_of op_offset fst snd]; set (h := half (op_of e)) in *; set (t0 := e_time e) in *.
    apply Rabs_le_inv in H; split.
    - assert (E := err T HT 1 (t0 - h) ltac:(apply Rabs_le; lra)); apply Rabs_le_inv in E; apply Rabs_le; lra.
    - assert (E := err T HT 2 (t0 + h) ltac:(apply Rabs_le; lra)); apply Rabs_le_inv in E; apply Rabs_le; lra.
  Qed.

  Lemma raw_idle e : sound e -> effective e = false -> fst (raw (op_of e)) = snd (raw (op_of e)).
  Proof. intros S F; destruct (half_idle e S F) as [H _]; unfold fl_start_end; rewrite H; cbn [fst snd]; rewrite Rminus_0_r, Rplus_0_r; reflexivity. Qed.

  (** the windows of the first, of the last and of the other pulses *)
  Definition fl_win (e : event) : R * R :=
    let (s, f) := raw (op_of e) in
    if Req_EM_T (e_time e) 0 then
      if ltb s 0 then (rnd (s + rnd (0 - s)), rnd (f + rnd (0 - s))) else (s, f)
    else if Req_EM_T (e_time e) T then
      if ltb T f then (rnd (s - rnd (f - T)), rnd (f - rnd (f - T))) else (s, f)
    else (s, f).

  Lemma window_error e : sound e ->
    Rabs (fst (fl_win e) - fst (win e)) <= 11 * u /\ Rabs (snd (fl_win e) - snd (win e)) <= 11 * u.
  Proof.
    intros S; destruct (raw_error e S) as [A B]; destruct S as [_ [_ [_ [t L]]]].
    assert (U := u_pos T HT); assert (UL := u_less T HT); assert (W0 := width_nonneg maxr maxd mn e Hmn).
    unfold fl_win, L_Convert.win, window, centre; destruct (raw (op_of e)) as [s f]; cbn [fst snd] in *.
    set (h := W e) in *; apply Rabs_le_inv in A, B.
    destruct (Req_EM_T (e_time e) 0) as [Z|Z]; [|destruct (Req_EM_T (e_time e) T) as [Z'|Z']].
    - rewrite Z in *; destruct (ltb s 0) eqn:Q; [apply ltb_true in Q|apply ltb_false in Q]; cbn [fst snd].
      + assert (E := err T HT 1 (0 - s) ltac:(apply Rabs_le; lra)); apply Rabs_le_inv in E.
        assert (E1 := err T HT 1 (s + rnd (0 - s)) ltac:(apply Rabs_le; lra)); apply Rabs_le_inv in E1.
        assert (E2 := err T HT 2 (f + rnd (0 - s)) ltac:(apply Rabs_le; lra)); apply Rabs_le_inv in E2.
        split; apply Rabs_le; lra.
      + split; apply Rabs_le; lra.
    - rewrite Z' in *; destruct (ltb T f) eqn:Q; [apply ltb_true in Q|apply ltb_false in Q]; cbn [fst snd].
      + assert (E := err T HT 1 (f - T) ltac:(apply Rabs_le; lra)); apply Rabs_le_inv in E.
        assert (E1 := err T HT (101 / 100) (s - rnd (f - T)) ltac:(apply Rabs_le; lra)); apply Rabs_le_inv in E1.
        assert (E2 := err T HT (101 / 100) (f - rnd (f - T)) ltac:(apply Rabs_le; lra)); apply Rabs_le_inv in E2.
        split; apply Rabs_le; lra.
      + split; apply Rabs_le; lra.
    - cbn [fst snd]; split; apply Rabs_le; lra.
  Qed.

  Lemma window_idle e : sound e -> effective e = false -> fst (fl_win e) = snd (fl_win e).
  Proof.
    intros S F; assert (Q := raw_idle e S F); unfold fl_win; destruct (raw (op_of e)) as [s f]; cbn [fst snd] in Q; subst f.
    destruct (Req_EM_T (e_time e) 0); [destruct (ltb s 0); auto|].
    destruct (Req_EM_T (e_time e) T); [destruct (ltb T s); auto|auto].
  Qed.

  Lemma fl_shift_last_snoc l x : fl_shift_last rnd T (l ++ [x]) = l ++ fl_shift_last rnd T [x].
  Proof.
    induction l as [|a l IH]; [reflexivity|].
    cbn [app]; rewrite <- IH; destruct l; cbn [app]; destruct a; reflexivity.
  Qed.

  Lemma fl_windows_model l : (forall e, In e l -> 0 <= e_time e <= T) -> strictly_increasing (map e_time l) ->
    fl_pulse_start_ends rnd half T (map op_of (with_ends T l)) = map fl_win (with_ends T l).
  Proof.
    intros B I; assert (T0 := T_low T HT).
    destruct (with_ends_shape T l ltac:(lra) B I) as [e0 [mid [en [-> [E0 [EN M]]]]]].
    unfold fl_pulse_start_ends; cbn [map]; rewrite !map_app; cbn [map].
    assert (S0 : fl_shift_first rnd (raw (op_of e0) :: map raw (map op_of mid) ++ [raw (op_of en)]) =
      fl_win e0 :: map raw (map op_of mid) ++ [raw (op_of en)]).
    { unfold fl_win; destruct (raw (op_of e0)) as [s f]; cbn [fl_shift_first]; rewrite E0.
      destruct (Req_EM_T 0 0); [|lra]; cbv zeta; destruct (ltb s 0); reflexivity. }
    rewrite S0; clear S0.
    change (fl_win e0 :: map raw (map op_of mid) ++ [raw (op_of en)]) with ((fl_win e0 :: map raw (map op_of mid)) ++ [raw (op_of en)]).
    rewrite fl_shift_last_snoc; cbn [app]; f_equal; f_equal.
    - rewrite map_map; apply map_ext_in; intros e Ie; apply M in Ie.
      unfold fl_win; destruct (raw (op_of e)).
      destruct (Req_EM_T (e_time e) 0); [lra|]; destruct (Req_EM_T (e_time e) T); [lra|]; reflexivity.
    - unfold fl_win; destruct (raw (op_of en)) as [s f]; cbn [fl_shift_last]; rewrite EN.
      destruct (Req_EM_T T 0); [lra|]; destruct (Req_EM_T T T); [|lra]; cbv zeta; destruct (ltb T f); reflexivity.
  Qed.

  Lemma rnd_relative x : / 2 ^ 100 <= Rabs x -> Rabs (rnd x - x) <= eps * Rabs x.
  Proof.
    intros H; unfold binary64.
    assert (E := relative_error_N_FLT radix2 (-1074) 53 eq_refl (fun n => negb (Z.even n)) x).
    rewrite tiny_bpow in E; assert (N := not_tiny (Rabs x) H).
    assert (P : 0 < tiny) by (rewrite <- tiny_bpow; apply bpow_gt_0); specialize (E ltac:(lra)).
    replace eps with (/ 2 * bpow radix2 (- (53) + 1)); auto.
    rewrite bpow_plus; change (Z.opp 53) with (-53)%Z; rewrite bpow_53, bpow_1; change (IZR radix2) with 2; field.
  Qed.

  (** ** Rates *)

  Lemma rate_error x w V : 2 / 10 ^ 8 <= Rabs x -> T / 2 ^ 40 <= V <= T -> Rabs (w - V) <= 25 * u ->
    0 < w /\
    Rabs (rnd (x / w) - x / V) <= Rabs (x / V) * (T / V) / 2 ^ 48 /\
    Rabs (rnd (x / w) * w - x / V * V) <= Rabs (x / V) * V / 2 ^ 53.
  Proof.
    intros HX [VL VH] HW; assert (U := u_pos T HT); assert (UL := u_less T HT).
    rewrite <- (u_T T) in VL; apply Rabs_le_inv in HW.
    assert (w0 : 0 < w) by lra; assert (V0 : 0 < V) by lra; split; auto.
    set (a := Rabs x) in *; assert (a0 : 0 <= a) by apply Rabs_pos.
    assert (aw : Rabs (x / w) = a / w).
    { unfold Rdiv; rewrite Rabs_mult, (Rabs_pos_eq (/ w)); auto; left; apply Rinv_0_lt_compat; auto. }
    assert (aV : Rabs (x / V) = a / V).
    { unfold Rdiv; rewrite Rabs_mult, (Rabs_pos_eq (/ V)); auto; left; apply Rinv_0_lt_compat; auto. }
    assert (E : Rabs (rnd (x / w) - x / w) <= eps * (a / w)).
    { rewrite <- aw; apply rnd_relative; rewrite aw.
      assert (TH := T_high T HT); replace (10 ^ 8) with 100000000 in HX by ring.
      apply Rle_trans with (2 / 100000000 / 2000000).
      - replace (/ 2 ^ 100) with (/ 1267650600228229401496703205376) by (f_equal; ring); lra.
      - unfold Rdiv; apply Rmult_le_compat; [lra|lra|lra|]; apply Rinv_le_contravar; lra. }
    assert (Ew : Rabs (rnd (x / w) * w - x) <= eps * a).
    { replace (rnd (x / w) * w - x) with ((rnd (x / w) - x / w) * w) by (field; lra).
      rewrite Rabs_mult, (Rabs_pos_eq w) by lra.
      apply (Rmult_le_compat_r w) in E; [|lra]; replace (eps * (a / w) * w) with (eps * a) in E by (field; lra); auto. }
    split.
    - rewrite aV; set (r := V / w).
      assert (r0 : 0 < r) by (apply Rdiv_lt_0_compat; auto).
      assert (r1 : r <= 101 / 100).
      { unfold r; apply (Rmult_le_reg_r w); auto; unfold Rdiv at 1; rewrite Rmult_assoc, Rinv_l by lra; lra. }
      assert (F : Rabs (x / w - x / V) <= a / V * (25 * u * (r / V))).
      { replace (x / w - x / V) with (x / V * ((V - w) * (r / V))) by (unfold r; field; lra).
        rewrite Rabs_mult, aV; apply Rmult_le_compat_l; [apply Rmult_le_pos; [auto|left; apply Rinv_0_lt_compat; auto]|].
        rewrite Rabs_mult, (Rabs_pos_eq (r / V)) by (left; apply Rdiv_lt_0_compat; auto).
        apply Rmult_le_compat_r; [left; apply Rdiv_lt_0_compat; auto|apply Rabs_le; lra]. }
      assert (G : eps * (a / w) <= a / V * (u * (r / V))).
      { replace (eps * (a / w)) with (a / V * (eps * r)) by (unfold r; field; lra).
        apply Rmult_le_compat_l; [apply Rmult_le_pos; [auto|left; apply Rinv_0_lt_compat; auto]|].
        replace (eps * r) with (eps * V * (r / V)) by (field; lra).
        apply Rmult_le_compat_r; [left; apply Rdiv_lt_0_compat; auto|].
        unfold L_FloatConvert.u; apply Rmult_le_compat_l; [apply Rlt_le, eps_pos|auto]. }
      replace (a / V * (T / V) / 2 ^ 48) with (a / V * (32 * u / V)) by (rewrite u_T48; field; lra).
      apply Rle_trans with (a / V * (26 * u * (r / V))).
      + replace (rnd (x / w) - x / V) with (rnd (x / w) - x / w + (x / w - x / V)) by ring.
        eapply Rle_trans; [apply Rabs_triang|]; lra.
      + apply Rmult_le_compat_l; [apply Rmult_le_pos; [auto|left; apply Rinv_0_lt_compat; auto]|].
        unfold Rdiv; rewrite <- Rmult_assoc; apply Rmult_le_compat_r; [left; apply Rinv_0_lt_compat; auto|].
        apply Rle_trans with (26 * u * (101 / 100)); [apply Rmult_le_compat_l; lra|lra].
    - rewrite aV; replace (x / V * V) with x by (field; lra); replace (a / V * V) with a by (field; lra).
      unfold eps in Ew; replace (2 ^ 53) with 9007199254740992 by ring; lra.
  Qed.

  (** ** Segments *)

  Lemma win_bounds e : sound e -> - T / 2 <= fst (win e) <= T /\ 0 <= snd (win e) <= 3 / 2 * T.
  Proof.
    intros [_ [_ [_ [t L]]]]; assert (W0 := width_nonneg maxr maxd mn e Hmn).
    unfold L_Convert.win, window, centre; cbn [fst snd]; destruct (Req_EM_T (e_time e) 0); [lra|].
    destruct (Req_EM_T (e_time e) T); lra.
  Qed.

  Lemma width_error e : sound e -> Rabs (rnd (snd (fl_win e) - fst (fl_win e)) - W e) <= 25 * u.
  Proof.
    intros S; destruct (window_error e S) as [A B]; assert (WW := win_width maxr maxd mn T e).
    assert (U := u_pos T HT); assert (UL := u_less T HT); assert (W0 := width_nonneg maxr maxd mn e Hmn).
    assert (L : W e <= T) by apply S.
    apply Rabs_le_inv in A, B.
    assert (E := err T HT 2 (snd (fl_win e) - fst (fl_win e)) ltac:(apply Rabs_le; lra)).
    apply Rabs_le_inv in E; apply Rabs_le; lra.
  Qed.

  Lemma gap_error e f : sound e -> sound f ->
    Rabs (rnd (fst (fl_win f) - snd (fl_win e)) - (fst (win f) - snd (win e))) <= 25 * u.
  Proof.
    intros S S'; destruct (window_error e S) as [_ B]; destruct (window_error f S') as [A _].
    assert (U := u_pos T HT); assert (UL := u_less T HT).
    assert (X := win_bounds e S); assert (Y := win_bounds f S').
    apply Rabs_le_inv in A, B.
    assert (E := err T HT (201 / 100) (fst (fl_win f) - snd (fl_win e)) ltac:(apply Rabs_le; lra)).
    apply Rabs_le_inv in E; apply Rabs_le; lra.
  Qed.

  Definition paired (g g0 : seg) : Prop :=
    lasting g = lasting g0 /\ (lasting g0 = true -> rounded_segment T g g0 /\ 0 <= g_rabi g).

  Lemma Rabs_scaled x y z : 0 <= x -> 0 <= y -> 0 < z -> 0 <= x * y / z.
  Proof. intros X Y Z; apply Rmult_le_pos; [apply Rmult_le_pos; auto|left; apply Rinv_0_lt_compat; auto]. Qed.

  Lemma paired_gap e f : sound e -> sound f -> T / 2 ^ 40 <= fst (win f) - snd (win e) ->
    paired (Seg 0 0 0 (rnd (fst (fl_win f) - snd (fl_win e)))) (Seg 0 0 0 (fst (win f) - snd (win e))).
  Proof.
    intros S S' G; assert (E := gap_error e f S S'); assert (U := u_pos T HT).
    rewrite <- (u_T T) in G; assert (E' := E); apply Rabs_le_inv in E'.
    unfold paired, lasting; cbn [g_dur g_rabi].
    rewrite !(proj2 (ltb_true 0 _)) by lra; split; auto; intros _; split; [|lra].
    unfold rounded_segment; cbn [g_dur g_rabi g_det g_phi].
    rewrite Rabs_R0, !Rmult_0_l, Rminus_0_r, Rabs_R0; unfold Rdiv at 2 3 4 5; rewrite !Rmult_0_l.
    rewrite <- (u_T48 T); repeat split; try lra.
  Qed.

  Lemma paired_pulse e : sound e -> (effective e = true -> T / 2 ^ 40 <= W e) ->
    paired (to_seg (fl_pulse_segment rnd (op_of e) (fl_win e))) (pulse_seg maxr maxd mn e).
  Proof.
    intros S L; destruct (effective e) eqn:F.
    - specialize (L eq_refl); assert (H := width_error e S).
      assert (U := u_pos T HT); assert (TW : T / 2 ^ 40 <= W e <= T) by (split; auto; apply S).
      assert (V0 : 0 < W e) by (rewrite <- (u_T T) in L; lra).
      assert (DW : Rabs (rnd (snd (fl_win e) - fst (fl_win e)) - W e) <= T / 2 ^ 48) by (rewrite <- (u_T48 T); lra).
      unfold fl_pulse_segment; set (w := rnd (snd (fl_win e) - fst (fl_win e))) in *.
      cbv zeta; cbn [op_of op_rabi op_detuning op_azimuthal].
      destruct S as [A [B [P _]]]; rewrite !definite_isclose by auto.
      unfold effective in F; unfold L_Convert.pulse_seg.
      assert (Z : forall z, 0 <= Rabs 0 * (T / W e) / 2 ^ 48 + 0 * z) by (intros; rewrite Rabs_R0; lra).
      assert (ZZ : 0 * (T / W e) / 2 ^ 48 = 0) by (unfold Rdiv at 1; rewrite !Rmult_0_l; auto).
      assert (ZZ' : 0 * W e / 2 ^ 53 = 0) by (unfold Rdiv; rewrite !Rmult_0_l; auto).
      destruct (Rle_dec (Rabs (e_rabi e)) (/ 10 ^ 8)) as [N|N]; cbn [negb].
      + destruct (Rle_dec (Rabs (e_det e)) (/ 10 ^ 8)) as [N'|N']; [discriminate|]; cbn [negb].
        assert (X : 2 / 10 ^ 8 <= Rabs (e_det e)).
        { destruct B as [B|B]; auto; rewrite B, Rabs_R0 in N'; exfalso; apply N', Rlt_le, Rinv_0_lt_compat, pow_lt; lra. }
        destruct (rate_error _ w _ X TW H) as [w0 [Q1 Q2]].
        rewrite (proj2 (ltb_true 0 w) w0); unfold paired, lasting, to_seg; cbn [seg_rabi seg_azimuthal seg_detuning seg_duration g_dur g_rabi].
        rewrite (proj2 (ltb_true 0 w) w0), (proj2 (ltb_true 0 (W e)) V0); split; auto; intros _; split; [|lra].
        unfold rounded_segment; cbn [g_dur g_rabi g_det g_phi]; rewrite ?Rmult_0_l, ?Rminus_0_r, ?Rabs_R0.
        repeat split; auto; unfold Rdiv; rewrite ?Rmult_0_l; lra.
      + assert (X : 2 / 10 ^ 8 <= Rabs (e_rabi e)).
        { destruct A as [A|A]; auto; rewrite A, Rabs_R0 in N; exfalso; apply N, Rlt_le, Rinv_0_lt_compat, pow_lt; lra. }
        destruct (rate_error _ w _ X TW H) as [w0 [Q1 Q2]].
        assert (RP : 0 <= e_rabi e / W e) by (apply Rmult_le_pos; [auto|left; apply Rinv_0_lt_compat; auto]).
        rewrite (Rabs_pos_eq (e_rabi e / W e)) in Q1, Q2 by auto.
        rewrite (proj2 (ltb_true 0 w) w0); unfold paired, lasting, to_seg; cbn [seg_rabi seg_azimuthal seg_detuning seg_duration g_dur g_rabi].
        rewrite (proj2 (ltb_true 0 w) w0), (proj2 (ltb_true 0 (W e)) V0); split; auto; intros _; split.
        2:{ apply rnd_nonneg, Rmult_le_pos; [auto|left; apply Rinv_0_lt_compat; auto]. }
        unfold rounded_segment; cbn [g_dur g_rabi g_det g_phi]; rewrite ?Rmult_0_l, ?Rminus_0_r, ?Rabs_R0.
        repeat split; auto; unfold Rdiv; rewrite ?Rmult_0_l; lra.
    - assert (Q := window_idle e S F); unfold fl_pulse_segment; rewrite Q.
      replace (snd (fl_win e) - snd (fl_win e)) with 0 by ring; rewrite rnd_zero; cbv zeta.
      assert (N : ltb 0 0 = false) by (apply ltb_false; lra); rewrite N.
      destruct (half_idle e S F) as [_ W0].
      unfold paired, lasting; rewrite pulse_seg_dur, W0; cbn [to_seg seg_duration g_dur]; rewrite N; split; auto; discriminate.
  Qed.

  Lemma paired_weave E : (forall e, In e E -> sound e /\ (effective e = true -> T / 2 ^ 40 <= W e)) ->
    (forall g, In g (gaps (map win E)) -> T / 2 ^ 40 <= g) ->
    Forall2 paired (map to_seg (fl_interleave rnd (map op_of E) (map fl_win E))) (weave maxr maxd mn T E).
  Proof.
    induction E as [|e E IH]; intros H G; [constructor|].
    cbn [map fl_interleave weave]; constructor; [apply paired_pulse; apply H; left; auto|].
    constructor.
    - destruct E as [|f E]; cbn [map gap_after].
      + unfold paired, lasting, to_seg; cbn [seg_duration g_dur]; assert (N : ltb 0 0 = false) by (apply ltb_false; lra).
        rewrite N; split; auto; discriminate.
      + apply paired_gap; [apply H; left; auto|apply H; right; left; auto|].
        apply G; cbn [map gaps]; destruct (win e), (win f); left; reflexivity.
    - apply IH; [intros; apply H; right; auto|].
      intros g I; apply G; destruct E as [|f E]; [destruct I|]; cbn [map gaps] in *.
      destruct (win e), (win f); right; auto.
  Qed.

  Lemma paired_filter a b : Forall2 paired a b ->
    Forall2 (rounded_segment T) (filter lasting a) (filter lasting b) /\
    (forall g, In g (filter lasting a) -> 0 < g_dur g /\ 0 <= g_rabi g).
  Proof.
    induction 1 as [|x y a b P _ [IH1 IH2]]; [split; [constructor|intros g []]|].
    destruct P as [Q R]; cbn [filter]; rewrite Q; destruct (lasting y) eqn:L; auto.
    destruct (R eq_refl) as [R1 R2]; split; [constructor; auto|].
    intros g [<-|I]; auto; split; auto; unfold lasting in Q; apply ltb_true in Q; auto.
  Qed.

  (** ** Windows inside the sequence *)

  Lemma windows_chain F : forall e, (forall g, In g (gaps (map win (e :: F))) -> 0 <= g) ->
    forall f, In f (e :: F) -> fst (win e) <= fst (win f) /\ snd (win f) <= snd (win (last (e :: F) e)).
  Proof.
    induction F as [|e' F IH]; intros e G f I.
    - destruct I as [<-|[]]; cbn [last]; lra.
    - assert (WW := win_width maxr maxd mn T e); assert (W0 := width_nonneg maxr maxd mn e Hmn).
      assert (G0 : 0 <= fst (win e') - snd (win e)).
      { apply G; cbn [map gaps]; destruct (win e), (win e'); left; reflexivity. }
      assert (LE : forall d d' : event, last (e' :: F) d = last (e' :: F) d').
      { clear; intros d d'; revert e'; induction F as [|g F IH]; intros f; auto; apply (IH g). }
      change (last (e :: e' :: F) e) with (last (e' :: F) e); rewrite (LE e e').
      assert (H := IH e'); assert (GG : forall g, In g (gaps (map win (e' :: F))) -> 0 <= g).
      { intros g Ig; apply G; cbn [map gaps] in *; destruct (win e), (win e'); right; auto. }
      specialize (H GG); assert (H0 := H e' (or_introl eq_refl)).
      assert (WW' := win_width maxr maxd mn T e'); assert (W0' := width_nonneg maxr maxd mn e' Hmn).
      destruct I as [<-|I]; [lra|]; specialize (H f I); lra.
  Qed.
End Windows.

(** ** Differences of the offsets *)

Lemma fl_diff_positive T E : laboratory_duration T ->
  (forall maxr maxd mn, 0 <= mn -> (forall e, In e E -> 0 <= e_time e <= T) ->
    (forall g, In g (gaps (map (win maxr maxd mn T) E)) -> T / 2 ^ 40 <= g) ->
    existsb (fun d => leb d 0) (fl_diff binary64 (map e_time E)) = false).
Proof.
  intros HT maxr maxd mn Hmn; assert (U := u_pos T HT); assert (UL := u_less T HT).
  induction E as [|e [|f E] IH]; intros B G; auto.
  change (map e_time (e :: f :: E)) with (e_time e :: map e_time (f :: E)).
  change (fl_diff binary64 (e_time e :: map e_time (f :: E))) with
    (binary64 (e_time f - e_time e) :: fl_diff binary64 (map e_time (f :: E))).
  cbn [existsb]; rewrite IH, orb_false_r.
  - assert (G0 : T / 2 ^ 40 <= fst (win maxr maxd mn T f) - snd (win maxr maxd mn T e)).
    { apply G; cbn [map gaps]; destruct (win maxr maxd mn T e), (win maxr maxd mn T f); left; reflexivity. }
    assert (Be := B e (or_introl eq_refl)); assert (Bf := B f (or_intror (or_introl eq_refl))).
    assert (A1 := window_time maxr maxd mn T Hmn e Be); assert (A2 := window_time maxr maxd mn T Hmn f Bf).
    rewrite <- (u_T T) in G0.
    assert (X := err T HT 1 (e_time f - e_time e) ltac:(apply Rabs_le; lra)).
    apply Rabs_le_inv in X.
    destruct (leb (binary64 (e_time f - e_time e)) 0) eqn:Q; auto; apply leb_true in Q; lra.
  - intros; apply B; right; auto.
  - intros g I; apply G; cbn [map gaps] in *; destruct (win maxr maxd mn T e), (win maxr maxd mn T f); right; auto.
Qed.

(** ** The gaps are accepted *)

Lemma fl_long T mn g' g : laboratory_duration T -> 0 <= mn -> Rabs (g' - g) <= 25 * u T -> mn <= g ->
  (ltb mn g' || fl_isclose binary64 g' mn)%bool = true.
Proof.
  intros HT Hmn E G; apply Rabs_le_inv in E; assert (U := u_pos T HT); assert (US := u_small T HT); assert (UL := u_less T HT).
  apply orb_true_iff; destruct (Rlt_dec mn g') as [L|L]; [left; apply ltb_true; auto|right].
  unfold fl_isclose; apply leb_true.
  assert (X := err T HT 1 (g' - mn) ltac:(apply Rabs_le; lra)); apply Rabs_le_inv in X.
  apply Rle_trans with (binary64 (/ 100000000)).
  - assert (A := atol_bounds); apply Rle_trans with (27 * u T); [apply Rabs_le; lra|lra].
  - rewrite <- (rnd_format (binary64 (/ 100000000))) at 1 by apply format_rnd; apply rnd_mono.
    assert (0 <= binary64 (binary64 (/ 100000) * Rabs mn)); [|lra].
    apply rnd_nonneg, Rmult_le_pos; [apply rnd_nonneg; lra|apply Rabs_pos].
Qed.

Theorem float_conversion T n0 l maxr maxd mn name :
  constructible_sequence (sequence_of T n0 l) -> laboratory_duration T ->
  (forall e, In e l -> definite (e_rabi e) /\ definite (e_det e)) ->
  convertible maxr maxd mn T l -> resolved maxr maxd mn T l ->
  exists c c0 segs segs0,
    fl_convert binary64 (sequence_of T n0 l) maxr maxd mn name = Ok c /\
    convert_dds_to_driven_control (sequence_of T n0 l) maxr maxd mn name = Ok c0 /\
    describes segs c /\ describes segs0 c0 /\ dc_name c = name /\ dc_name c0 = name /\
    Forall2 (rounded_segment T) segs segs0.
Proof.
  intros CS HL DF C [RW RG]; destruct (sequence_bounds _ _ _ CS) as [HT B].
  assert (UT := T_low T HL); assert (U := u_pos T HL); assert (UL := u_less T HL).
  assert (S8 : / 10 ^ 8 = / 100000000) by (f_equal; ring).
  destruct (proj1 (convert_model T n0 l maxr maxd mn name HT B) C) as [c0 [E0 [D0 N0]]].
  rewrite (converted_long maxr maxd mn T l C HT B) in D0 by lra.
  assert (C' := C); destruct C' as [Hr [Hd [Hmn [P [V [I _]]]]]].
  destruct (first_last maxr maxd mn T l C HT B) as [e0 [F [SE [X0 XT]]]].
  set (E := with_ends T l) in *.
  assert (BE : forall e, In e E -> 0 <= e_time e <= T).
  { intros e Ie; apply with_ends_in in Ie; destruct Ie as [Ie|[->| ->]]; auto; cbn; lra. }
  assert (GE : forall g, In g (gaps (map (win maxr maxd mn T) E)) -> mn <= g /\ T / 2 ^ 40 <= g) by (intros; apply RG; auto).
  assert (SO : forall e, In e E -> sound maxr maxd mn T e /\ (effective e = true -> T / 2 ^ 40 <= pulse_width maxr maxd mn e)).
  { intros e Ie; split.
    - assert (DD : definite (e_rabi e) /\ definite (e_det e)).
      { assert (J := Ie); apply with_ends_in in J; destruct J as [J|[->| ->]]; auto; split; left; reflexivity. }
      split; [apply DD|split; [apply DD|split; [|split; auto]]].
      + apply (rabi_pos maxr maxd mn T l C); auto.
      + assert (K := windows_chain maxr maxd mn T Hmn F e0); rewrite <- SE in K.
        destruct (K (fun g G => Rle_trans _ _ _ Hmn (proj1 (GE g G))) e Ie) as [K1 K2].
        rewrite SE in K2; rewrite X0 in K1; rewrite XT in K2; assert (K3 := win_width maxr maxd mn T e); lra.
    - intros EF; apply with_ends_in in Ie; destruct Ie as [Ie|[->| ->]]; auto; exfalso; revert EF; unfold effective;
        cbn [idle e_rabi e_det]; rewrite Rabs_R0, S8; (destruct (Rle_dec 0 (/ 100000000)); [discriminate|lra]). }
  destruct (paired_filter T _ _ (paired_weave maxr maxd mn T HL Hr Hd Hmn E SO (fun g G => proj2 (GE g G)))) as [Q1 Q2].
  destruct (segments_constructible _ name Q2) as [c [EC [DC NC]]].
  do 4 eexists; split; [|split; [exact E0|split; [exact DC|split; [exact D0|split; [exact NC|split; [exact N0|exact Q1]]]]]].
  unfold fl_convert.
  rewrite check_true by (apply ltb_true; auto); cbn [bind].
  rewrite check_true by (apply ltb_true; auto); cbn [bind].
  rewrite check_true by (apply leb_true; auto); cbn [bind].
  cbn [sequence_of rabi_rotations detuning_rotations seq_duration].
  rewrite check_true by (apply forallb_rabi; auto); cbn [bind].
  rewrite check_true by (apply check_valid_spec; auto); cbn [bind]; cbv zeta.
  change (MkDDS T (map e_time l) (map e_rabi l) (map e_phi l) (map e_det l) n0) with (sequence_of T n0 l).
  rewrite dds_operations_of, pad_with_ends by auto; fold E.
  assert (M : map op_offset (map op_of E) = map e_time E) by (rewrite map_map; auto).
  rewrite M; rewrite check_true by (apply negb_true_iff, (fl_diff_positive T E HL maxr maxd mn Hmn BE); intros; apply GE; auto); cbn [bind].
  unfold E; rewrite (fl_windows_model maxr maxd mn T HL l B I); fold E.
  rewrite check_true.
  2:{ unfold fl_gaps_ok; apply forallb_forall.
      assert (K : forall L, (forall e, In e L -> sound maxr maxd mn T e) -> (forall g, In g (gaps (map (win maxr maxd mn T) L)) -> mn <= g) ->
        forall x, In x (fl_gap_durations binary64 (map (fl_win maxr maxd mn T) L)) -> (ltb mn x || fl_isclose binary64 x mn)%bool = true).
      { clear - HL Hmn Hr Hd; induction L as [|e [|f L] IH]; intros S G x Ix; [destruct Ix| |].
        - cbn [map] in Ix; destruct (fl_win maxr maxd mn T e); cbn in Ix; contradiction.
        - assert (GG : fl_gap_durations binary64 (map (fl_win maxr maxd mn T) (e :: f :: L)) =
            binary64 (fst (fl_win maxr maxd mn T f) - snd (fl_win maxr maxd mn T e)) ::
            fl_gap_durations binary64 (map (fl_win maxr maxd mn T) (f :: L))).
          { cbn [map fl_gap_durations]; destruct (fl_win maxr maxd mn T e), (fl_win maxr maxd mn T f); reflexivity. }
          rewrite GG in Ix; destruct Ix as [<-|Ix].
          + eapply fl_long; [exact HL|exact Hmn|apply gap_error; auto; apply S; [left|right; left]; auto|].
            apply G; cbn [map gaps]; destruct (win maxr maxd mn T e), (win maxr maxd mn T f); left; reflexivity.
          + apply IH; [intros; apply S; right; auto| |exact Ix].
            intros g Ig; apply G; cbn [map gaps] in *; destruct (win maxr maxd mn T e), (win maxr maxd mn T f); right; auto. }
      apply K; [intros e Ie; apply SO; auto|intros g Ig; apply GE; auto]. }
  cbn [bind].
  assert (NA : fl_allclose0 binary64 (map (fl_win maxr maxd mn T) E) = false).
  { destruct (fl_allclose0 binary64 (map (fl_win maxr maxd mn T) E)) eqn:A; auto; exfalso.
    unfold fl_allclose0 in A; rewrite forallb_forall in A.
    set (en := last (e0 :: F) e0) in *.
    assert (In en E). { rewrite SE; unfold en; destruct (@exists_last _ (e0 :: F)) as [m [z Z]]; [discriminate|]; rewrite Z, last_last; apply in_or_app; right; left; auto. }
    specialize (A _ (in_map _ _ _ H)); apply andb_true_iff in A; destruct A as [_ A].
    rewrite large_isclose in A; [discriminate|].
    destruct (window_error maxr maxd mn T HL Hr Hd Hmn en) as [_ Z]; [apply SO; auto|].
    rewrite XT in Z; apply Rabs_le_inv in Z; rewrite Rabs_pos_eq; lra. }
  rewrite NA; unfold control_of_segments; rewrite <- EC, <- filter_to_seg, !map_map; reflexivity.
Qed.
