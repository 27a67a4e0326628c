(** * Consequences of rounding in the conversion *)

From Coq Require Import ZArith Lia.
From Flocq Require Import Core Plus_error.
From Verif Require Export L_PreConvert L_FloatConvert L_FloatSeq.
Import ListNotations.
Open Scope string_scope.
Open Scope list_scope.
Open Scope R_scope.

Lemma fl_convert_unrounded s maxr maxd mn name :
  fl_convert (fun x => x) s maxr maxd mn name = convert_dds_to_driven_control s maxr maxd mn name.
Proof. reflexivity. Qed.

Lemma close_trans e f U V X : close_to e U V -> close_to f V X -> close_to (e + f) U X.
Proof.
  assert (K : forall a b c, Rabs (a - b) <= e -> Rabs (b - c) <= f -> Rabs (a - c) <= e + f).
  { intros a b c A B; apply Rabs_le_inv in A, B; apply Rabs_le; lra. }
  unfold close_to; intros [A1 [A2 [A3 [A4 [A5 [A6 [A7 A8]]]]]]] [B1 [B2 [B3 [B4 [B5 [B6 [B7 B8]]]]]]];
    repeat split; eapply K; eauto.
Qed.

(** ** Rates *)

Lemma float_segments T n0 l maxr maxd mn name c segs :
  constructible_sequence (sequence_of T n0 l) -> laboratory_duration T ->
  (forall e, In e l -> definite (e_rabi e) /\ definite (e_det e)) ->
  convertible maxr maxd mn T l -> resolved maxr maxd mn T l ->
  fl_convert binary64 (sequence_of T n0 l) maxr maxd mn name = Ok c -> describes segs c ->
  exists c0, convert_dds_to_driven_control (sequence_of T n0 l) maxr maxd mn name = Ok c0 /\
    describes (converted maxr maxd mn T l) c0 /\
    Forall2 (rounded_segment T) segs (converted maxr maxd mn T l).
Proof.
  intros CS HL DF C RS E D.
  destruct (float_conversion T n0 l maxr maxd mn name CS HL DF C RS) as [c' [c0 [s [s0 [E1 [E0 [D1 [D0 [_ [_ F]]]]]]]]]].
  rewrite E in E1; injection E1 as <-; exists c0; split; auto.
  destruct (conversion_result _ _ _ _ _ _ _ _ CS E0) as [_ [_ [_ [D2 _]]]]; split; auto.
  rewrite (L_DrivenControl.describes_unique _ _ _ D D1), (L_DrivenControl.describes_unique _ _ _ D2 D0); auto.
Qed.

Lemma Forall2_in_l {A B} (P : A -> B -> Prop) a b x : Forall2 P a b -> In x a -> exists y, In y b /\ P x y.
Proof. induction 1 as [|u v a b H _ IH]; intros []; [subst; exists v; cbn; auto|]; destruct IH as [y [Y Q]]; auto; exists y; cbn; auto. Qed.

Lemma fl_constructible rnd s maxr maxd mn name c : fl_convert rnd s maxr maxd mn name = Ok c -> constructible c.
Proof.
  unfold fl_convert; cbv zeta.
  repeat match goal with |- bind (check_arguments ?b ?s ?a ?e) _ = _ -> _ =>
    destruct b; [rewrite (check_true true s a e eq_refl); cbn [bind]|discriminate] end.
  unfold control_of_segments; intros E.
  match type of E with (if ?b then _ else _) = _ => destruct b end; do 5 eexists; exact E.
Qed.

Theorem float_rates T n0 l maxr maxd mn name c segs v :
  constructible_sequence (sequence_of T n0 l) -> laboratory_duration T ->
  (forall e, In e l -> definite (e_rabi e) /\ definite (e_det e)) ->
  convertible maxr maxd mn T l -> resolved maxr maxd mn T l ->
  fl_convert binary64 (sequence_of T n0 l) maxr maxd mn name = Ok c -> describes segs c ->
  0 < v -> (forall e, In e l -> effective e = true -> v <= pulse_width maxr maxd mn e) ->
  forall g, In g segs ->
    0 <= g_rabi g <= maxr * (1 + T / v / 2 ^ 48) /\ Rabs (g_det g) <= maxd * (1 + T / v / 2 ^ 48).
Proof.
  intros CS HL DF C RS E D V0 HV g I.
  destruct (float_segments T n0 l maxr maxd mn name c segs CS HL DF C RS E D) as [c0 [E0 [D0 F]]].
  destruct (sequence_bounds _ _ _ CS) as [HT B]; assert (UT := T_low T HL).
  destruct (constructible_segments c (fl_constructible _ _ _ _ _ _ _ E)) as [l' [D' [U POS]]].
  rewrite <- (U _ D) in POS; destruct (POS g I) as [_ G0].
  destruct (Forall2_in_l _ _ _ _ F I) as [g0 [I0 RD]]; destruct RD as [_ [_ [RR [RD _]]]].
  destruct (in_converted maxr maxd mn T l C HT g0 I0) as [W0 K].
  assert (Hr := Hr maxr maxd mn T l C); assert (Hd := Hd maxr maxd mn T l C).
  set (q := T / v / 2 ^ 48); assert (P48 : 0 < / 2 ^ 48) by apply inv_pow_pos.
  assert (q0 : 0 <= q).
  { unfold q; apply Rmult_le_pos; [apply Rmult_le_pos; [lra|left; apply Rinv_0_lt_compat; auto]|lra]. }
  assert (BASE : forall m x y, 0 < m -> Rabs (x - y) <= Rabs y * (T / g_dur g0) / 2 ^ 48 -> Rabs y <= m ->
    (y = 0 \/ v <= g_dur g0) -> Rabs x <= m * (1 + q)).
  { intros m x y M H Y [->|VW].
    - rewrite Rabs_R0, Rminus_0_r in H; unfold Rdiv in H; rewrite !Rmult_0_l in H; assert (0 <= m * (1 + q)) by (apply Rmult_le_pos; lra); lra.
    - assert (Q : T / g_dur g0 / 2 ^ 48 <= q).
      { unfold q, Rdiv; apply Rmult_le_compat_r; [lra|]; apply Rmult_le_compat_l; [lra|apply Rinv_le_contravar; auto]. }
      assert (Q0 : 0 <= T / g_dur g0 / 2 ^ 48).
      { unfold Rdiv; apply Rmult_le_pos; [apply Rmult_le_pos; [lra|left; apply Rinv_0_lt_compat; auto]|lra]. }
      assert (A := Rabs_triang (x - y) y); replace (x - y + y) with x in A by ring.
      unfold Rdiv at 1 in H; rewrite Rmult_assoc in H; change (T / g_dur g0 * / 2 ^ 48) with (T / g_dur g0 / 2 ^ 48) in H.
      assert (Y0 := Rabs_pos y).
      assert (Rabs y * (T / g_dur g0 / 2 ^ 48) <= m * q) by (apply Rmult_le_compat; auto); lra. }
  assert (EF : forall e, In e (with_ends T l) -> g0 = pulse_seg maxr maxd mn e ->
    (g_rabi g0 = 0 \/ v <= g_dur g0) /\ (g_det g0 = 0 \/ v <= g_dur g0)).
  { intros e Ie ->; rewrite pulse_seg_dur; destruct (effective e) eqn:EF.
    - assert (v <= pulse_width maxr maxd mn e); [|auto].
      apply HV; auto; apply with_ends_in in Ie; destruct Ie as [Ie|[->| ->]]; auto; exfalso;
        revert EF; unfold effective; cbn [idle e_rabi e_det]; rewrite Rabs_R0; (destruct (Rle_dec 0 (/ 10 ^ 8)) as [|N]; [discriminate|]);
        intros _; apply N, Rlt_le, Rinv_0_lt_compat, pow_lt; lra.
    - unfold effective in EF; unfold pulse_seg; destruct (Rle_dec (Rabs (e_rabi e)) (/ 10 ^ 8)); [|discriminate].
      destruct (Rle_dec (Rabs (e_det e)) (/ 10 ^ 8)); [|discriminate]; cbn; auto. }
  destruct K as [[e [Ie Eg]]|[Eg _]].
  - assert (PR := pulse_seg_rabi maxr maxd mn Hr e (rabi_pos maxr maxd mn T l C e Ie)).
    assert (PD := pulse_seg_det maxr maxd mn Hd e); rewrite <- Eg in PR, PD; destruct (EF e Ie Eg) as [V1 V2].
    split; [split; auto|].
    + rewrite <- (Rabs_pos_eq (g_rabi g)) by auto; apply (BASE maxr _ (g_rabi g0)); auto; rewrite (Rabs_pos_eq (g_rabi g0)); lra.
    + apply (BASE maxd _ (g_det g0)); auto.
  - rewrite Eg in RR, RD; cbn [g_rabi g_det g_dur] in RR, RD.
    split; [split; auto|].
    + rewrite <- (Rabs_pos_eq (g_rabi g)) by auto; apply (BASE maxr _ 0); auto; rewrite Rabs_R0; lra.
    + apply (BASE maxd _ 0); auto; rewrite Rabs_R0; lra.
Qed.

Lemma rounded_active T g g0 : rounded_segment T g g0 -> 0 < g_dur g0 -> 0 <= g_rabi g0 -> active g = active g0.
Proof.
  intros [_ [_ [R [D [AR AD]]]]] P0 R0.
  assert (Q : 0 < / 2 ^ 53 <= / 2) by (split; [apply inv_pow_pos|rewrite <- (pow_1 2) at 2; apply inv_pow_le; lia]).
  assert (K : forall a b d d0, 0 < d0 -> a = 0 -> Rabs (a * d - b * d0) <= Rabs b * d0 / 2 ^ 53 -> b = 0).
  { intros a b d d0 H -> C; rewrite Rmult_0_l, Rminus_0_l, Rabs_Ropp, Rabs_mult, (Rabs_pos_eq d0) in C by lra.
    destruct (Req_dec b 0) as [Z|Z]; auto; apply Rabs_pos_lt in Z; unfold Rdiv in C.
    assert (X : 0 < Rabs b * d0) by (apply Rmult_lt_0_compat; auto).
    assert (Rabs b * d0 * / 2 ^ 53 <= Rabs b * d0 * / 2) by (apply Rmult_le_compat_l; lra); lra. }
  assert (Z : forall x m, Rabs (x - 0) <= 0 * m -> x = 0).
  { intros x m H; rewrite Rmult_0_l, Rminus_0_r in H; assert (X := Rabs_pos x); destruct (Req_dec x 0); auto; assert (Y := Rabs_pos_lt x H0); lra. }
  assert (A : g_rabi g = 0 <-> g_rabi g0 = 0).
  { split; intros H; [apply (K (g_rabi g) (g_rabi g0) (g_dur g) (g_dur g0)); auto; rewrite (Rabs_pos_eq (g_rabi g0)) by auto; exact AR|].
    rewrite H in R; unfold Rdiv in R; rewrite !Rmult_assoc in R; apply (Z _ _ R). }
  assert (B : g_det g = 0 <-> g_det g0 = 0).
  { split; intros H; [apply (K (g_det g) (g_det g0) (g_dur g) (g_dur g0)); auto|].
    rewrite H, Rabs_R0 in D; unfold Rdiv in D; rewrite !Rmult_assoc in D; apply (Z _ _ D). }
  unfold active; destruct (Req_EM_T (g_rabi g) 0), (Req_EM_T (g_rabi g0) 0); try tauto;
    destruct (Req_EM_T (g_det g) 0), (Req_EM_T (g_det g0) 0); tauto.
Qed.

Theorem float_pulses T n0 l maxr maxd mn name c segs :
  constructible_sequence (sequence_of T n0 l) -> laboratory_duration T ->
  (forall e, In e l -> definite (e_rabi e) /\ definite (e_det e)) ->
  convertible maxr maxd mn T l -> resolved maxr maxd mn T l ->
  fl_convert binary64 (sequence_of T n0 l) maxr maxd mn name = Ok c -> describes segs c ->
  Forall2 performs_rounded (filter effective l) (filter active segs).
Proof.
  intros CS HL DF C RS E D.
  destruct (float_segments T n0 l maxr maxd mn name c segs CS HL DF C RS E D) as [c0 [E0 [D0 F]]].
  assert (UT := T_low T HL); assert (S8 : / 10 ^ 8 = / 100000000) by (f_equal; ring).
  assert (P := conversion_pulses T n0 l maxr maxd mn name c0 _ CS ltac:(lra) E0 D0).
  destruct (sequence_bounds _ _ _ CS) as [HT _].
  assert (V : forall g, In g (converted maxr maxd mn T l) -> 0 < g_dur g /\ 0 <= g_rabi g).
  { intros g I; apply (converted_valid maxr maxd mn T HT (proj1 C) l); auto; apply C. }
  assert (R : Forall2 (rounded_segment T) (filter active segs) (filter active (converted maxr maxd mn T l))).
  { revert V; clear - F; induction F as [|g g0 a b R F IH]; intros V; [constructor|].
    destruct (V g0 (or_introl eq_refl)) as [V1 V2]; cbn [filter]; rewrite (rounded_active T g g0 R V1 V2).
    assert (I := IH (fun g I => V g (or_intror I))); destruct (active g0); auto. }
  revert P R V; generalize (filter active segs), (converted maxr maxd mn T l); intros s s0 P R V.
  assert (V' : forall g, In g (filter active s0) -> 0 < g_dur g /\ 0 <= g_rabi g) by (intros g I; apply V; apply filter_In in I; apply I).
  clear V; revert s R V'; induction P as [|e g0 le lg PE P IH]; intros s R V; inversion R as [|g x a b RG R' X1 X2]; subst; constructor.
  - destruct (V g0 (or_introl eq_refl)) as [V1 V2]; destruct RG as [PH [_ [RR [RD [AR AD]]]]]; destruct PE as [[N [A [Q Z]]]|[N [Z A]]].
    + left; split; auto; rewrite A in AR; split; auto; split; [congruence|].
      rewrite Z, Rabs_R0, Rminus_0_r in RD; unfold Rdiv in RD; rewrite !Rmult_0_l in RD.
      destruct (Req_dec (g_det g) 0) as [K|K]; auto; apply Rabs_pos_lt in K; lra.
    + right; split; auto; split.
      * rewrite Z, Rminus_0_r in RR; unfold Rdiv in RR; rewrite !Rmult_0_l in RR.
        destruct (Req_dec (g_rabi g) 0) as [K|K]; auto; apply Rabs_pos_lt in K; lra.
      * rewrite <- (Rabs_pos_eq (g_dur g0)) in AD by lra; rewrite <- Rabs_mult, (Rabs_pos_eq (g_dur g0)), A in AD by lra; exact AD.
  - apply IH; auto; intros; apply V; right; auto.
Qed.

(** ** Evolution *)

Definition angle_cost (eps delta T : R) (g0 : seg) : R :=
  (Rabs (1 + eps) * (g_rabi g0 * g_dur g0) + Rabs (g_det g0) * g_dur g0) / 2 ^ 54 + Rabs delta * T / 2 ^ 49.

Lemma rounded_near eps delta T g g0 : rounded_segment T g g0 -> 0 < g_dur g -> 0 < g_dur g0 -> 0 <= g_rabi g0 -> 0 <= T ->
  qnear (angle_cost eps delta T g0) (qnoisy eps delta g) (qnoisy eps delta g0).
Proof.
  intros [PH [DU [_ [_ [AR AD]]]]] P P0 R0 T0; unfold qnoisy; rewrite !qseg_exp by auto; rewrite PH.
  set (a := g_rabi g * g_dur g) in *; set (a0 := g_rabi g0 * g_dur g0) in *.
  set (d := g_det g * g_dur g) in *; set (d0 := g_det g0 * g_dur g0) in *.
  assert (P53 : 2 ^ 54 = 2 * 2 ^ 53) by ring; assert (P48 : 2 ^ 49 = 2 * 2 ^ 48) by ring.
  assert (Q53 : 0 < 2 ^ 53) by (apply pow_lt; lra); assert (Q48 : 0 < 2 ^ 48) by (apply pow_lt; lra).
  set (x := Rabs (1 + eps) * (a0 / 2 ^ 53)); set (y := Rabs (g_det g0) * g_dur g0 / 2 ^ 53 + Rabs delta * (T / 2 ^ 48)).
  assert (CO : angle_cost eps delta T g0 = (x + y) / 2).
  { unfold angle_cost, x, y; fold a0; rewrite P53, P48; field; lra. }
  rewrite CO.
  assert (a00 : 0 <= a0) by (apply Rmult_le_pos; lra).
  assert (x0 : 0 <= x) by (apply Rmult_le_pos; [apply Rabs_pos|apply Rmult_le_pos; [auto|left; apply Rinv_0_lt_compat; auto]]).
  assert (y0 : 0 <= y).
  { unfold y; apply Rplus_le_le_0_compat; [apply Rmult_le_pos; [apply Rmult_le_pos; [apply Rabs_pos|lra]|left; apply Rinv_0_lt_compat; auto]|].
    apply Rmult_le_pos; [apply Rabs_pos|apply Rmult_le_pos; [lra|left; apply Rinv_0_lt_compat; auto]]. }
  apply qexp_near; [lra|].
  replace ((1 + eps) * g_rabi g * cos (g_phi g0) * g_dur g - (1 + eps) * g_rabi g0 * cos (g_phi g0) * g_dur g0)
    with ((1 + eps) * (a - a0) * cos (g_phi g0)) by (unfold a, a0; ring).
  replace ((1 + eps) * g_rabi g * sin (g_phi g0) * g_dur g - (1 + eps) * g_rabi g0 * sin (g_phi g0) * g_dur g0)
    with ((1 + eps) * (a - a0) * sin (g_phi g0)) by (unfold a, a0; ring).
  replace ((g_det g + delta) * g_dur g - (g_det g0 + delta) * g_dur g0) with ((d - d0) + delta * (g_dur g - g_dur g0)) by (unfold d, d0; ring).
  replace (((1 + eps) * (a - a0) * cos (g_phi g0)) ^ 2 + ((1 + eps) * (a - a0) * sin (g_phi g0)) ^ 2) with
    (((1 + eps) * (a - a0)) ^ 2 * ((sin (g_phi g0))² + (cos (g_phi g0))²)) by (unfold Rsqr; ring).
  rewrite sin2_cos2, Rmult_1_r; replace (2 * ((x + y) / 2)) with (x + y) by field.
  assert (X : Rabs ((1 + eps) * (a - a0)) <= x).
  { rewrite Rabs_mult; unfold x; apply Rmult_le_compat_l; [apply Rabs_pos|auto]. }
  assert (Y : Rabs (d - d0 + delta * (g_dur g - g_dur g0)) <= y).
  { eapply Rle_trans; [apply Rabs_triang|]; unfold y; apply Rplus_le_compat; auto.
    rewrite Rabs_mult; apply Rmult_le_compat_l; [apply Rabs_pos|auto]. }
  rewrite <- (pow2_abs ((1 + eps) * (a - a0))), <- (pow2_abs (d - d0 + _)).
  set (X' := Rabs ((1 + eps) * (a - a0))) in *; set (Y' := Rabs (d - d0 + delta * (g_dur g - g_dur g0))) in *.
  assert (0 <= X') by apply Rabs_pos; assert (0 <= Y') by apply Rabs_pos.
  assert (X' ^ 2 <= x ^ 2) by (apply pow_incr; lra); assert (Y' ^ 2 <= y ^ 2) by (apply pow_incr; lra).
  assert (0 <= x * y) by (apply Rmult_le_pos; auto); lra.
Qed.

Lemma rounded_evolution eps delta T a b : 0 <= T -> Forall2 (rounded_segment T) a b ->
  (forall g, In g a -> 0 < g_dur g) -> (forall g, In g b -> 0 < g_dur g /\ 0 <= g_rabi g) ->
  qnear (total (map (angle_cost eps delta T) b)) (qevolution eps delta a) (qevolution eps delta b).
Proof.
  intros T0; induction 1 as [|g g0 a b R F IH]; intros PA PB; cbn [map total qevolution]; [apply qnear_refl|].
  destruct (PB g0 (or_introl eq_refl)) as [P0 R0]; assert (P := PA g (or_introl eq_refl)).
  assert (IH' := IH (fun g I => PA g (or_intror I)) (fun g I => PB g (or_intror I))).
  assert (N := rounded_near eps delta T g g0 R P P0 R0 T0).
  rewrite Rplus_comm; apply qnear_mul; auto.
  - assert (UE : forall s, (forall g, In g s -> 0 < g_dur g) -> unit_quat (qevolution eps delta s)).
    { clear; induction s as [|g s IH]; intros H; [apply unit_one|]; cbn [qevolution]; apply unit_mul.
      - apply IH; intros; apply H; right; auto.
      - unfold qnoisy; rewrite qseg_exp by (apply H; left; auto); apply unit_qexp. }
    apply UE; intros; apply PB; right; auto.
  - unfold qnoisy; rewrite qseg_exp by auto; apply unit_qexp.
Qed.

Section Costs.
  Variables (maxr maxd mn T eps delta : R).
  Hypothesis Hr : 0 < maxr.
  Hypothesis Hd : 0 < maxd.
  Hypothesis Hmn : 0 <= mn.
  Hypothesis HT : 0 < T.

  Definition event_cost (e : event) : R :=
    (Rabs (1 + eps) * e_rabi e + Rabs (e_det e)) / 2 ^ 54 + Rabs delta * T / 2 ^ 48.

  Lemma cost_filter g s : 0 <= g_rabi g -> total (map (angle_cost eps delta T) (filter lasting (g :: s))) <=
    (if lasting g then angle_cost eps delta T g else 0) + total (map (angle_cost eps delta T) (filter lasting s)).
  Proof. intros _; cbn [filter]; destruct (lasting g); cbn [map total]; lra. Qed.

  Lemma noise_cost : 0 <= Rabs delta * T / 2 ^ 49.
  Proof. unfold Rdiv; apply Rmult_le_pos; [apply Rmult_le_pos; [apply Rabs_pos|lra]|left; apply Rinv_0_lt_compat, pow_lt; lra]. Qed.

  Lemma pulse_cost e : 0 <= e_rabi e ->
    (if lasting (pulse_seg maxr maxd mn e) then angle_cost eps delta T (pulse_seg maxr maxd mn e) else 0) <=
    (Rabs (1 + eps) * e_rabi e + Rabs (e_det e)) / 2 ^ 54 + Rabs delta * T / 2 ^ 49.
  Proof.
    intros P; assert (N := noise_cost); assert (E0 := Rabs_pos (1 + eps)); assert (D0 := Rabs_pos (e_det e)).
    assert (P54 : 0 < / 2 ^ 54) by apply inv_pow_pos.
    assert (RN : 0 <= Rabs (1 + eps) * e_rabi e) by (apply Rmult_le_pos; auto).
    assert (Z : 0 <= (Rabs (1 + eps) * e_rabi e + Rabs (e_det e)) / 2 ^ 54) by (unfold Rdiv; apply Rmult_le_pos; lra).
    unfold lasting; destruct (ltb 0 (g_dur (pulse_seg maxr maxd mn e))) eqn:L; [apply ltb_true in L|lra].
    unfold angle_cost; apply Rplus_le_compat_r; unfold Rdiv; apply Rmult_le_compat_r; [lra|].
    rewrite pulse_seg_dur in L; revert L; unfold pulse_seg.
    destruct (Rle_dec (Rabs (e_rabi e)) (/ 10 ^ 8)); [destruct (Rle_dec (Rabs (e_det e)) (/ 10 ^ 8))|]; cbn [g_rabi g_dur g_det]; intros L.
    - rewrite Rabs_R0; lra.
    - rewrite Rmult_0_l, Rmult_0_r; unfold Rdiv; rewrite Rabs_mult, (Rabs_pos_eq (/ _)) by (left; apply Rinv_0_lt_compat; auto).
      rewrite Rmult_assoc, Rinv_l by lra; lra.
    - rewrite Rabs_R0, Rmult_0_l; unfold Rdiv; rewrite (Rmult_assoc (e_rabi e)), Rinv_l by lra; lra.
  Qed.

  Lemma weave_cost E : (forall e, In e E -> 0 <= e_rabi e) ->
    total (map (angle_cost eps delta T) (filter lasting (weave maxr maxd mn T E))) <= total (map event_cost E).
  Proof.
    assert (N := noise_cost); induction E as [|e E IH]; intros P; [cbn; lra|].
    assert (I := IH (fun e I => P e (or_intror I))); assert (C := pulse_cost e (P e (or_introl eq_refl))).
    cbn [weave map total]; eapply Rle_trans; [apply cost_filter; apply (pulse_seg_rabi maxr maxd mn); auto; apply P; left; auto|].
    assert (G := cost_filter (Seg 0 0 0 (gap_after maxr maxd mn T E e)) (weave maxr maxd mn T E) ltac:(cbn; lra)).
    assert (GC : (if lasting (Seg 0 0 0 (gap_after maxr maxd mn T E e)) then angle_cost eps delta T (Seg 0 0 0 (gap_after maxr maxd mn T E e)) else 0)
      <= Rabs delta * T / 2 ^ 49).
    { destruct (lasting (Seg 0 0 0 (gap_after maxr maxd mn T E e))); [|exact N]; unfold angle_cost; cbn [g_rabi g_det g_dur]; rewrite Rabs_R0.
      replace (Rabs (1 + eps) * (0 * gap_after maxr maxd mn T E e) + 0 * gap_after maxr maxd mn T E e) with 0 by ring.
      unfold Rdiv; rewrite Rmult_0_l; lra. }
    unfold event_cost at 1; replace (Rabs delta * T / 2 ^ 48) with (Rabs delta * T / 2 ^ 49 + Rabs delta * T / 2 ^ 49) by field; lra.
  Qed.

  Lemma ends_length l : (List.length (with_ends T l) <= List.length l + 2)%nat.
  Proof.
    unfold with_ends; rewrite !app_length; destruct l as [|e l]; [|destruct (Req_EM_T (e_time e) 0)];
      (destruct (Req_EM_T _ T); cbn [List.length]; lia).
  Qed.

  Lemma events_cost l : (forall e, In e l -> 0 <= e_rabi e) -> total (map event_cost (with_ends T l)) <= rounding_cost eps delta T l.
  Proof.
    intros P; assert (K : forall l, total (map event_cost l) =
      total (map (fun e => (Rabs (1 + eps) * e_rabi e + Rabs (e_det e)) / 2 ^ 54) l) + INR (List.length l) * (Rabs delta * T / 2 ^ 48)).
    { clear; induction l as [|e l IH]; [cbn; lra|]; cbn [map total]; change (List.length (e :: l)) with (S (List.length l)); rewrite S_INR, IH.
      unfold event_cost; lra. }
    rewrite K, with_ends_total.
    2:{ intros t; cbn [idle e_rabi e_det]; rewrite Rabs_R0; field. }
    assert (S1 : forall l, total (map (fun e => (Rabs (1 + eps) * e_rabi e + Rabs (e_det e)) / 2 ^ 54) l) =
      (Rabs (1 + eps) * total (map e_rabi l) + total (map (fun e => Rabs (e_det e)) l)) / 2 ^ 54).
    { clear; induction l as [|e l IH]; cbn [map total]; [field|]; rewrite IH; field. }
    rewrite S1; unfold rounding_cost; apply Rplus_le_compat_l.
    assert (L := le_INR _ _ (ends_length l)); rewrite plus_INR in L; cbn [INR] in L.
    assert (N : 0 <= Rabs delta * T / 2 ^ 48) by (assert (Q := noise_cost); replace (Rabs delta * T / 2 ^ 48) with (2 * (Rabs delta * T / 2 ^ 49)) by field; lra).
    apply Rle_trans with ((INR (List.length l) + (1 + 1)) * (Rabs delta * T / 2 ^ 48)); [apply Rmult_le_compat_r; auto|].
    apply Req_le; field.
  Qed.
End Costs.

Theorem float_evolution_exact T n0 l maxr maxd mn name c segs eps delta :
  constructible_sequence (sequence_of T n0 l) -> laboratory_duration T ->
  (forall e, In e l -> definite (e_rabi e) /\ definite (e_det e)) ->
  convertible maxr maxd mn T l -> resolved maxr maxd mn T l ->
  fl_convert binary64 (sequence_of T n0 l) maxr maxd mn name = Ok c -> describes segs c ->
  exists c0 segs0, convert_dds_to_driven_control (sequence_of T n0 l) maxr maxd mn name = Ok c0 /\ describes segs0 c0 /\
    close_to (rounding_cost eps delta T l) (noisy_evolution eps delta segs) (noisy_evolution eps delta segs0).
Proof.
  intros CS HL DF C RS E D.
  destruct (float_segments T n0 l maxr maxd mn name c segs CS HL DF C RS E D) as [c0 [E0 [D0 F]]].
  destruct (sequence_bounds _ _ _ CS) as [HT B]; assert (UT := T_low T HL).
  exists c0; eexists; split; [exact E0|split; [exact D0|]].
  destruct (constructible_segments c (fl_constructible _ _ _ _ _ _ _ E)) as [l' [D' [U POS]]].
  rewrite <- (U _ D) in POS.
  rewrite !noisy_evolution_qmat; apply qnear_close; eapply qnear_mono; [|apply (rounded_evolution eps delta T); [lra|exact F|intros; apply POS; auto|]].
  - assert (S8 : / 10 ^ 8 = / 100000000) by (f_equal; ring).
    rewrite (converted_long maxr maxd mn T l C HT B) by lra.
    eapply Rle_trans; [apply weave_cost; auto; try apply C; intros e Ie; apply (rabi_pos maxr maxd mn T l C); auto|].
    apply events_cost; auto; apply C.
  - intros g I; apply (converted_valid maxr maxd mn T HT (proj1 C) l); auto; apply C.
Qed.

(** the whole conversion against the ideal pulses *)
Theorem float_finite_pulses T n0 l maxr maxd mn name c segs eps delta :
  constructible_sequence (sequence_of T n0 l) -> laboratory_duration T ->
  (forall e, In e l -> clean e /\ definite (e_rabi e) /\ definite (e_det e)) ->
  convertible maxr maxd mn T l -> resolved maxr maxd mn T l ->
  fl_convert binary64 (sequence_of T n0 l) maxr maxd mn name = Ok c -> describes segs c ->
  close_to (Rabs delta * total (map (pulse_width maxr maxd mn) l) + Rabs eps * total (map e_rabi l) / 2 + rounding_cost eps delta T l)
    (noisy_evolution eps delta segs) (dephased_evolution (fun t => delta * t) T l).
Proof.
  intros CS HL DF C RS E D.
  destruct (float_evolution_exact T n0 l maxr maxd mn name c segs eps delta CS HL (fun e I => proj2 (DF e I)) C RS E D) as [c0 [s0 [E0 [D0 Q]]]].
  assert (UT := T_low T HL); assert (S8 : / 10 ^ 8 = / 100000000) by (f_equal; ring).
  assert (FP := finite_pulses T n0 l maxr maxd mn name c0 s0 eps delta CS ltac:(lra) (fun e I => proj1 (DF e I)) E0 D0).
  assert (DU : duration c0 = T).
  { destruct (conversion_duration T n0 l maxr maxd mn name c0 CS E0) as [A _]; apply A; intros g I.
    apply Rle_trans with mn; [apply C|apply RS; auto]. }
  rewrite DU in FP; eapply close_mono; [|eapply close_trans; [exact Q|exact FP]]; lra.
Qed.

(** ** From the request to the control *)

Lemma gaps_spaced_by maxr maxd mn T w d k E : (forall e, In e E -> 0 <= pulse_width maxr maxd mn e <= w) ->
  2 * w + k <= d -> spaced d (map e_time E) ->
  forall g, In g (gaps (map (fun e => window T (pulse_width maxr maxd mn e) (e_time e)) E)) -> k <= g.
Proof.
  intros W H; induction E as [|e E IH]; intros S g G; [destruct G|].
  destruct E as [|e' E]; [cbn [map gaps] in G; destruct (window T (pulse_width maxr maxd mn e) (e_time e)); destruct G|].
  destruct S as [S1 S2].
  assert (B1 := window_bounds T _ (e_time e) (proj1 (W e (or_introl eq_refl)))).
  assert (B2 := window_bounds T _ (e_time e') (proj1 (W e' (or_intror (or_introl eq_refl))))).
  assert (W1 := W e (or_introl eq_refl)); assert (W2 := W e' (or_intror (or_introl eq_refl))).
  assert (IH' := IH (fun x I => W x (or_intror I)) S2 g).
  cbn [map gaps] in G, IH'.
  destruct (window T (pulse_width maxr maxd mn e) (e_time e)) as [a b].
  destruct (window T (pulse_width maxr maxd mn e') (e_time e')) as [a' b'].
  cbn [fst snd] in *; destruct G as [<-|G]; [lra|apply IH'; exact G].
Qed.

Lemma spaced_close d e a b : spaced d b -> close_times e a b -> spaced (d - 2 * e) a.
Proof.
  intros S C; revert S; induction C as [|x y a b H C IH]; intros S; [exact I|].
  destruct C as [|x' y' a b H' C]; [exact I|].
  destruct S as [S1 S2]; split; [apply Rabs_le_inv in H, H'; lra|apply IH; exact S2].
Qed.

(** pulses whose angles are multiples of [k * PI / 2] *)
Definition standard (k : R) (e : event) : Prop :=
  (e_det e = 0 /\ (e_rabi e = PI * k \/ e_rabi e = PI / 2 * k)) \/ (e_rabi e = 0 /\ e_det e = PI * k).

Definition stored (e : event) : event :=
  Event (e_time e) (stored_angle (e_rabi e)) (stored_angle (e_phi e)) (stored_angle (e_det e)).
Definition pi_ratio : R := float_pi / PI.

Lemma pi_ratio_bounds : 99 / 100 <= pi_ratio <= 1 /\ PI * (1 - pi_ratio) <= 2 / 10 ^ 16.
Proof.
  assert (B := float_pi_bound); assert (P := PI2_3_2); unfold pi_ratio.
  assert (S16 : 10 ^ 16 = 10000000000000000) by ring; rewrite S16 in *.
  split; [split|].
  - apply (Rmult_le_reg_r PI); [lra|]; unfold Rdiv; rewrite (Rmult_assoc float_pi), Rinv_l; lra.
  - apply (Rmult_le_reg_r PI); [lra|]; unfold Rdiv; rewrite (Rmult_assoc float_pi), Rinv_l; lra.
  - replace (PI * (1 - float_pi / PI)) with (PI - float_pi) by (field; lra); lra.
Qed.

(** the angles of the predefined sequences *)
Lemma predefined_angles pre T l e : In e (with_pre_post pre T l) ->
  standard 1 e /\ (e_phi e = 0 \/ e_phi e = PI / 2 \/ (e_phi e = PI /\ e_rabi e = PI / 2)).
Proof.
  assert (K : forall p, standard 1 (pi_pulse p) /\ (e_phi (pi_pulse p) = 0 \/ e_phi (pi_pulse p) = PI / 2 \/ (e_phi (pi_pulse p) = PI /\ e_rabi (pi_pulse p) = PI / 2))).
  { intros [[] t]; unfold standard; cbn [pi_pulse e_rabi e_det e_phi]; rewrite ?Rmult_1_r; auto. }
  intros I; unfold with_pre_post in I; destruct pre.
  - destruct I as [<-|I]; [unfold standard; cbn; rewrite ?Rmult_1_r; auto|].
    apply in_app_or in I; destruct I as [I|[<-|[]]].
    + apply in_map_iff in I; destruct I as [p [<- _]]; auto.
    + unfold standard, closing_angle; cbn; rewrite ?Rmult_1_r; destruct (Nat.even _); auto 6.
  - apply in_map_iff in I; destruct I as [p [<- _]]; auto.
Qed.

Lemma stored_standard e : standard 1 e -> standard pi_ratio (stored e).
Proof.
  unfold standard, stored, stored_angle; cbn [e_rabi e_det]; fold pi_ratio; rewrite !Rmult_1_r.
  intros [[-> [->| ->]]|[-> ->]]; rewrite Rmult_0_l; auto.
Qed.

Lemma standard_facts k e : 99 / 100 <= k <= 1 -> standard k e ->
  clean e /\ definite (e_rabi e) /\ definite (e_det e) /\ e_rabi e + Rabs (e_det e) <= PI /\ 0 <= e_rabi e /\ ~ (0 < e_rabi e /\ 0 < e_det e).
Proof.
  intros HK H; assert (P := PI2_3_2); assert (S8 : / 10 ^ 8 = / 100000000) by (f_equal; ring).
  assert (Z : definite 0) by (left; auto).
  assert (D : forall x, 1 <= x -> definite x) by (intros x L; right; unfold Rdiv; rewrite S8, Rabs_pos_eq; lra).
  assert (N : forall x, 1 <= x -> ~ negligible x) by (intros x L; unfold negligible; rewrite Rabs_pos_eq, S8; lra).
  assert (A : 1 <= PI / 2 * k) by (apply Rle_trans with (3 / 2 * (99 / 100)); [lra|apply Rmult_le_compat; lra]).
  assert (B : PI * k <= PI * 1) by (apply Rmult_le_compat_l; lra).
  unfold clean; destruct H as [[-> [->| ->]]|[-> ->]]; rewrite ?Rabs_R0, ?(Rabs_pos_eq (PI * k)) by lra;
    (split; [first [left; split; [reflexivity|right; apply N; lra]|right; split; [reflexivity|apply N; lra]]|]);
    (split; [first [exact Z|apply D; lra]|split; [first [exact Z|apply D; lra]|lra]]).
Qed.

Lemma standard_width maxr maxd mn k e : 0 < maxr -> 0 < maxd -> 0 <= mn -> 99 / 100 <= k <= 1 -> standard k e ->
  pulse_width maxr maxd mn e <= longest_pulse maxr maxd mn /\
  forall w, w <= 1 / maxr -> w <= 1 / maxd -> w <= pulse_width maxr maxd mn e.
Proof.
  intros Hr Hd Hm HK H; assert (P := PI2_3_2); assert (S8 : / 10 ^ 8 = / 100000000) by (f_equal; ring).
  assert (A : 1 <= PI / 2 * k) by (apply Rle_trans with (3 / 2 * (99 / 100)); [lra|apply Rmult_le_compat; lra]).
  assert (B : PI * k <= PI * 1) by (apply Rmult_le_compat_l; lra).
  assert (DV : forall x m, 0 < m -> 1 <= x <= PI -> 1 / m <= x / m <= PI / m).
  { intros x m M [X1 X2]; unfold Rdiv; split; apply Rmult_le_compat_r; auto; left; apply Rinv_0_lt_compat; auto. }
  assert (Q1 := Rmax_l (PI / maxr) (PI / maxd)); assert (Q2 := Rmax_r (PI / maxr) (PI / maxd)).
  assert (M1 : forall x, 1 <= x <= PI -> Rmax (x / maxr) mn <= longest_pulse maxr maxd mn).
  { intros x X; assert (D := DV x maxr Hr X); unfold longest_pulse; apply Rmax_lub; [|apply Rmax_r]; eapply Rle_trans; [|apply Rmax_l]; lra. }
  assert (M2 : forall x, 1 <= x <= PI -> Rmax (x / maxd) mn <= longest_pulse maxr maxd mn).
  { intros x X; assert (D := DV x maxd Hd X); unfold longest_pulse; apply Rmax_lub; [|apply Rmax_r]; eapply Rle_trans; [|apply Rmax_l]; lra. }
  unfold pulse_width; destruct H as [[-> [->| ->]]|[-> ->]]; rewrite ?Rabs_R0, ?(Rabs_pos_eq (PI * k)), ?(Rabs_pos_eq (PI / 2 * k)), S8 by lra.
  - destruct (Rle_dec (PI * k) (/ 100000000)); [lra|]; split; [apply M1; lra|].
    intros w W1 W2; eapply Rle_trans; [|apply Rmax_l]; assert (D := DV (PI * k) maxr Hr ltac:(lra)); lra.
  - destruct (Rle_dec (PI / 2 * k) (/ 100000000)); [lra|]; split; [apply M1; lra|].
    intros w W1 W2; eapply Rle_trans; [|apply Rmax_l]; assert (D := DV (PI / 2 * k) maxr Hr ltac:(lra)); lra.
  - destruct (Rle_dec 0 (/ 100000000)); [|lra]; destruct (Rle_dec (PI * k) (/ 100000000)); [lra|]; split; [apply M2; lra|].
    intros w W1 W2; eapply Rle_trans; [|apply Rmax_l]; assert (D := DV (PI * k) maxd Hd ltac:(lra)); lra.
Qed.

(** ** Storing [np.pi] for [PI] *)

Lemma stored_sequence T n l : stored_angles (sequence_of T n l) = sequence_of T n (map stored l).
Proof. unfold stored_angles, sequence_of; cbn [seq_duration offsets rabi_rotations seq_azimuthal_angles detuning_rotations seq_name]; rewrite !map_map; reflexivity. Qed.

Lemma stored_times l : map e_time (map stored l) = map e_time l.
Proof. rewrite map_map; reflexivity. Qed.

Lemma cos_sin_near r r0 p p0 a b : 0 <= r0 -> Rabs (r - r0) <= a -> Rabs (p - p0) <= b ->
  Rabs (r * cos p - r0 * cos p0) <= a + r0 * b /\ Rabs (r * sin p - r0 * sin p0) <= a + r0 * b.
Proof.
  intros R0 A B.
  assert (K : forall c c0, Rabs c <= 1 -> Rabs (c - c0) <= b -> Rabs (r * c - r0 * c0) <= a + r0 * b).
  { intros c c0 C D; replace (r * c - r0 * c0) with ((r - r0) * c + r0 * (c - c0)) by ring.
    eapply Rle_trans; [apply Rabs_triang|]; rewrite !Rabs_mult, (Rabs_pos_eq r0) by auto; apply Rplus_le_compat.
    - apply Rle_trans with (a * 1); [apply Rmult_le_compat; auto; apply Rabs_pos|lra].
    - apply Rmult_le_compat_l; auto. }
  assert (LC : forall x, Rabs (cos x) <= 1) by (intros; apply Rabs_le, COS_bound).
  assert (LS : forall x, Rabs (sin x) <= 1) by (intros; apply Rabs_le, SIN_bound).
  split; apply K; auto.
  - eapply Rle_trans; [apply cos_lipschitz|auto].
  - eapply Rle_trans; [apply sin_lipschitz|auto].
Qed.

Lemma stored_pulse pre T l e : In e (with_pre_post pre T l) -> qnear (4 / 10 ^ 16) (qpulse (stored e)) (qpulse e).
Proof.
  intros I; destruct (predefined_angles pre T l e I) as [S F]; destruct pi_ratio_bounds as [K1 K2].
  assert (P := PI_4); assert (P' := PI2_3_2); assert (S16 : 10 ^ 16 = 10000000000000000) by ring; rewrite S16 in *.
  set (d := PI * (1 - pi_ratio)) in *.
  assert (D0 : 0 <= d) by (apply Rmult_le_pos; lra).
  unfold qpulse, stored; cbn [e_rabi e_phi e_det]; unfold stored_angle; fold pi_ratio.
  assert (R : exists a b, 0 <= e_rabi e /\ Rabs (e_rabi e * pi_ratio - e_rabi e) <= a /\ Rabs (e_phi e * pi_ratio - e_phi e) <= b /\
    0 <= a + e_rabi e * b <= 52 / 100000000000000000 /\ (e_det e = 0 \/ (a + e_rabi e * b = 0 /\ Rabs (e_det e * pi_ratio - e_det e) <= d))).
  { assert (E1 : Rabs (PI * pi_ratio - PI) <= d) by (replace (PI * pi_ratio - PI) with (- d) by (unfold d; ring); rewrite Rabs_Ropp, Rabs_pos_eq; lra).
    assert (E2 : Rabs (PI / 2 * pi_ratio - PI / 2) <= d / 2).
    { replace (PI / 2 * pi_ratio - PI / 2) with (- (d / 2)) by (unfold d; field); rewrite Rabs_Ropp, Rabs_pos_eq; lra. }
    assert (E0 : Rabs (0 * pi_ratio - 0) <= 0) by (replace (0 * pi_ratio - 0) with 0 by ring; rewrite Rabs_R0; lra).
    assert (X1 : PI * d <= 4 * d) by (apply Rmult_le_compat_r; lra).
    assert (X0 : 0 <= PI * d) by (apply Rmult_le_pos; lra).
    assert (X2 : PI * d <= 32 / 10 * d).
    { apply Rmult_le_compat_r; auto; assert (B := float_pi_bound); rewrite S16 in B; unfold float_pi in B; lra. }
    destruct S as [[S1 [S2|S2]]|[S2 S1]]; rewrite Rmult_1_r in *; rewrite ?Rmult_1_r in *; rewrite S1, S2; rewrite S2 in F; destruct F as [->|[->|[-> Q]]]; try lra.
    - exists d, 0; repeat split; auto; lra.
    - exists d, (d / 2); repeat split; auto; lra.
    - exists (d / 2), 0; repeat split; auto; lra.
    - exists (d / 2), (d / 2); repeat split; auto; lra.
    - exists (d / 2), d; repeat split; auto; lra.
    - exists 0, 0; repeat split; auto; try lra; right; split; auto; lra.
    - exists 0, (d / 2); repeat split; auto; try lra; right; split; auto; lra. }
  destruct R as [a [b [R0 [A [B [[C0 C] D]]]]]].
  destruct (cos_sin_near _ _ _ _ a b R0 A B) as [X Y].
  set (x := e_rabi e * pi_ratio * cos (e_phi e * pi_ratio) - e_rabi e * cos (e_phi e)) in *.
  set (y := e_rabi e * pi_ratio * sin (e_phi e * pi_ratio) - e_rabi e * sin (e_phi e)) in *.
  assert (SQ : forall u v, Rabs u <= v -> u ^ 2 <= v ^ 2) by (intros u v H; rewrite <- pow2_abs; apply pow_incr; split; [apply Rabs_pos|auto]).
  apply SQ in X, Y.
  apply qexp_near; [lra|]; fold x y.
  destruct D as [-> |[Z D]].
  - replace (0 * pi_ratio - 0) with 0 by ring.
    assert ((a + e_rabi e * b) ^ 2 <= (52 / 100000000000000000) ^ 2) by (apply pow_incr; lra); lra.
  - rewrite Z in X, Y; apply SQ in D; assert (d ^ 2 <= (2 / 10000000000000000) ^ 2) by (apply pow_incr; lra); lra.
Qed.

Lemma stored_evolution delta T kappa l : 0 <= kappa -> (forall e, In e l -> qnear kappa (qpulse (stored e)) (qpulse e)) ->
  close_to (INR (List.length l) * kappa) (dephased_evolution (fun t => delta * t) T (map stored l)) (dephased_evolution (fun t => delta * t) T l).
Proof.
  intros K H; unfold dephased_evolution; rewrite !evolution_ideal; apply qnear_close.
  generalize 0 as t0; induction l as [|e l IH]; intros t0.
  - cbn [map qideal List.length INR]; rewrite Rmult_0_l; apply qnear_refl.
  - cbn [map qideal]; change (e_time (stored e)) with (e_time e).
    change (List.length (e :: l)) with (S (List.length l)); rewrite S_INR.
    replace ((INR (List.length l) + 1) * kappa) with (INR (List.length l) * kappa + (kappa + 0)) by ring.
    apply qnear_mul; [apply unit_ideal|apply unit_mul; [apply unit_qexp|apply unit_qz]|apply IH; intros; apply H; right; auto|].
    apply qnear_mul; [apply unit_qexp|apply unit_qz|apply H; left; auto|apply qnear_refl].
Qed.

Lemma total_bound {A} (f : A -> R) m l : (forall x, In x l -> f x <= m) -> total (map f l) <= INR (List.length l) * m.
Proof.
  induction l as [|x l IH]; intros H; [cbn; lra|]; cbn [map total]; change (List.length (x :: l)) with (S (List.length l)); rewrite S_INR.
  assert (f x <= m) by (apply H; left; auto); assert (I := IH (fun y J => H y (or_intror J))); lra.
Qed.
Lemma total_plus {A} (f g : A -> R) l : total (map f l) + total (map g l) = total (map (fun x => f x + g x) l).
Proof. induction l as [|x l IH]; cbn [map total]; [ring|rewrite <- IH; ring]. Qed.
Lemma total_nonneg {A} (f : A -> R) l : (forall x, In x l -> 0 <= f x) -> 0 <= total (map f l).
Proof.
  induction l as [|x l IH]; intros H; [cbn; lra|]; cbn [map total].
  assert (0 <= f x) by (apply H; left; auto); assert (I := IH (fun y J => H y (or_intror J))); lra.
Qed.

Lemma accurate_separated r : valid_request r -> moderate r -> separated r true -> 0 <= accuracy r /\ 2 * accuracy r < spacing r.
Proof.
  intros V M SP; destruct (is_xy r) eqn:X; [|apply accurate_spacing; auto].
  destruct r as [| | | | | | | | |x]; try discriminate; cbn [separated accuracy spacing] in *.
  destruct SP as [[_ SP]|X2]; [discriminate|]; split; [apply Rlt_le, exp_pos|].
  assert (A : Rpower 2 (2 * x - 53) < Rpower 2 (- INR 6)) by (apply Rpower_lt; [lra|]; replace (INR 6) with 6 by (cbn [INR]; ring); lra).
  rewrite Rpower_Ropp, Rpower_pow in A by lra; lra.
Qed.

Section Pipeline.
  Variables (fsin fsquare : R -> R).
  Hypothesis Hsin : accurate_sine fsin.
  Hypothesis Hsquare : accurate_square fsquare.

  (** [l]: the pulses that are stored *)
  Theorem float_pipeline_pulses r T pre name maxr maxd mn name' :
    binary64_format T -> laboratory_duration T -> valid_request r -> moderate r -> separated r true ->
    pipeline_rates r T maxr maxd mn ->
    exists s c segs l0 l,
      fl_build_sequence binary64 fsin fsquare float_pi r T pre name = Ok s /\
      fl_convert binary64 (stored_angles s) maxr maxd mn name' = Ok c /\ describes segs c /\
      build_sequence r T pre name = Ok (sequence_of T name l0) /\
      (stored_angles s = sequence_of T name l /\ map e_rabi l = map (fun e => stored_angle (e_rabi e)) l0 /\
       (forall e, In e l -> standard pi_ratio e /\ Rabs (e_phi e) <= 4) /\ constructible_sequence (sequence_of T name l) /\
       convertible maxr maxd mn T l /\ resolved maxr maxd mn T l) /\
      forall eps delta,
        close_to (pipeline_error eps delta T (longest_pulse maxr maxd mn) (accuracy r) (INR (List.length l0)))
          (noisy_evolution eps delta segs) (dephased_evolution (fun t => delta * t) T l0).
  Proof.
    intros FT HL V M X [Hr [Hd [Hmn [R1 [R2 R3]]]]].
    assert (UT := T_low T HL); assert (UH := T_high T HL).
    assert (OT : ordinary_duration T).
    { split; auto; split.
      - assert (A := inv_pow_le 100 900 ltac:(lia)); assert (B : / 2 ^ 100 = / 1267650600228229401496703205376) by (f_equal; ring); lra.
      - assert (A : 2 ^ 20 <= 2 ^ 900) by (apply Rle_pow; [lra|lia]); replace (2 ^ 20) with 1048576 in A by ring; lra. }
    destruct (fl_rounding fsin fsquare Hsin Hsquare r T OT V M) as [rel [flp [D [B [A0 [RO SI]]]]]].
    clear SI.
    set (l1 := with_pre_post pre T flp); set (l := map stored l1); set (l0 := with_pre_post pre T (map (scale T) rel)).
    destruct pi_ratio_bounds as [K0 _].
    assert (ST : forall e, In e l -> standard pi_ratio e).
    { intros e I; apply in_map_iff in I; destruct I as [f [<- I]]; apply stored_standard, (predefined_angles pre T flp f I). }
    assert (BT : forall e, In e l -> 0 <= e_time e <= T).
    { intros e I; apply in_map_iff in I; destruct I as [f [<- I]]; change (e_time (stored f)) with (e_time f).
      revert f I; intros e I; unfold l1, with_pre_post in I; destruct RO as [_ [RO _]].
      assert (K : In e (map pi_pulse flp) -> 0 <= e_time e <= T).
      { intros J; apply in_map_iff in J; destruct J as [[a t] [<- J]]; apply RO in J; destruct a; apply J. }
      destruct pre; auto; destruct I as [<-|I]; [cbn; lra|]; apply in_app_or in I; destruct I as [I|[<-|[]]]; [auto|cbn; lra]. }
    assert (CS : constructible_sequence (sequence_of T name l)).
    { apply constructible_well_formed; unfold well_formed, valid_sequence; cbn [sequence_of seq_duration offsets rabi_rotations seq_azimuthal_angles detuning_rotations].
      rewrite !map_length; split; [lra|split; [|auto]].
      intros t I; apply in_map_iff in I; destruct I as [e [<- I]]; auto. }
    destruct (request_good r V X) as [rel' [D' GT]]; rewrite (L_FloatRound.describes_unique _ _ _ D' D) in GT.
    assert (AS := accurate_separated r V M X).
    destruct (good_rounding T (accuracy r) (spacing r) flp rel ltac:(lra) A0 (proj2 AS) GT (proj1 RO) (fun p I => proj2 (proj1 (proj2 RO) p I))) as [_ SI].
    destruct GT as [G0 [G1 [G2 G3]]].
    set (d := (spacing r - 2 * accuracy r) * T).
    set (frel := map (fun p => (fst p, snd p / T)) flp).
    assert (FR : flp = map (scale T) frel).
    { unfold frel; rewrite map_map; rewrite <- (map_id flp) at 1; apply map_ext; intros [a t]; unfold scale; cbn [fst snd]; f_equal; field; lra. }
    assert (TF : forall t, In t (map snd frel) -> 0 < t < 1).
    { intros t I; unfold frel in I; rewrite map_map in I; apply in_map_iff in I; destruct I as [[a x] [<- I]]; cbn [snd].
      assert (J : In x (map snd flp)) by (apply in_map_iff; exists (a, x); auto).
      assert (W1 : 0 < x) by (apply (increasing_head _ 0 x SI), in_or_app; left; auto).
      assert (W2 : x < T) by (apply (increasing_last (0 :: map snd flp) T x SI); right; auto).
      split; [apply Rdiv_lt_0_compat; lra|apply (Rmult_lt_reg_r T); [lra|]; unfold Rdiv; rewrite Rmult_assoc, Rinv_l; lra]. }
    assert (WE : with_ends T l = map stored (with_ends T l1)).
    { assert (SZ : forall t, stored (idle t) = idle t) by (intros t; unfold stored, idle, stored_angle; cbn [e_time e_rabi e_phi e_det]; rewrite Rmult_0_l; auto).
      unfold with_ends, l; rewrite !map_app; f_equal; [|f_equal].
      - destruct l1 as [|e l1]; cbn [map]; [rewrite SZ; auto|]; change (e_time (stored e)) with (e_time e); destruct (Req_EM_T (e_time e) 0); cbn [map]; rewrite ?SZ; auto.
      - assert (LS : e_time (last (map stored l1) (idle 0)) = e_time (last l1 (idle 0))).
        { clear; induction l1 as [|e [|f l1] IH]; auto. }
        rewrite LS; destruct (Req_EM_T _ T); cbn [map]; rewrite ?SZ; auto. }
    assert (TE : map e_time (with_ends T l) = 0 :: map snd flp ++ [T]).
    { rewrite WE, stored_times; unfold l1; rewrite FR, with_ends_times by (auto; lra); rewrite <- FR; cbn [map]; rewrite map_app; cbn [map].
      rewrite Rmult_0_r, Rmult_1_r; f_equal; f_equal; unfold frel; rewrite !map_map; apply map_ext; intros [a x]; cbn [snd]; field; lra. }
    assert (SP : spaced d (map e_time (with_ends T l))).
    { rewrite TE; unfold d; replace ((spacing r - 2 * accuracy r) * T) with (T * spacing r - 2 * (accuracy r * T)) by ring.
      apply (spaced_close _ _ _ (map (Rmult T) (0 :: map snd rel ++ [1]))); [apply spaced_scale; [lra|auto]|].
      cbn [map]; rewrite map_app; cbn [map]; rewrite Rmult_0_r, Rmult_1_r.
      assert (Z : forall x, Rabs (x - x) <= accuracy r * T) by (intros x; unfold Rminus; rewrite Rplus_opp_r, Rabs_R0; apply Rmult_le_pos; lra).
      constructor; [auto|]; apply Forall2_app; [|constructor; auto; constructor].
      destruct RO as [RO _]; apply near_times in RO; rewrite !map_map in RO |- *; exact RO. }
    assert (D0 : 0 < d) by (unfold d; apply Rmult_lt_0_compat; lra).
    fold d in R3; unfold longest_pulse in R3.
    set (w := Rmax (Rmax (PI / maxr) (PI / maxd)) mn) in *.
    assert (T40 : 0 < T / 2 ^ 40) by (apply Rdiv_lt_0_compat; [lra|apply pow_lt; lra]).
    assert (SL : strictly_increasing (map e_time l)).
    { assert (I := spaced_increasing _ _ D0 SP); unfold with_ends in I; rewrite map_app in I.
      match type of I with strictly_increasing (?a ++ ?b) => assert (I2 : strictly_increasing b) end.
      { revert I; match goal with |- strictly_increasing (map _ ?a ++ _) -> _ => generalize a end.
        intros a; induction a as [|z q IH]; cbn [map app]; auto; intros [_ H]; auto. }
      rewrite map_app in I2; apply increasing_prefix in I2; auto. }
    assert (W0 : forall e, In e (with_ends T l) -> 0 <= pulse_width maxr maxd mn e <= w).
    { intros e I; split; [apply width_nonneg; auto|].
      assert (ZW : forall t, pulse_width maxr maxd mn (idle t) <= w).
      { intros t; unfold pulse_width, idle; cbn [e_rabi e_det]; rewrite Rabs_R0; assert (S8 := small_pos).
        destruct (Rle_dec 0 (/ 10 ^ 8)); [|lra]; eapply Rle_trans; [exact Hmn|apply Rmax_r]. }
      apply with_ends_in in I; destruct I as [I|[->| ->]]; auto; apply (standard_width maxr maxd mn pi_ratio e); auto. }
    assert (GG : forall k, 2 * w + k <= d -> forall g, In g (idle_times maxr maxd mn T l) -> k <= g).
    { intros k HK g I; apply (gaps_spaced_by maxr maxd mn T w d k (with_ends T l)); auto. }
    assert (SF : forall e, In e l -> _) by (intros e I; exact (standard_facts pi_ratio e K0 (ST e I))).
    assert (CV : convertible maxr maxd mn T l).
    { repeat split; auto; [intros e I; apply SF; auto|intros e I; apply SF; auto|].
      intros g I; left; apply Rlt_le_trans with (mn + T / 2 ^ 40); [lra|apply GG; auto; lra]. }
    assert (RS : resolved maxr maxd mn T l).
    { split; [intros e I _; apply (standard_width maxr maxd mn pi_ratio e); auto|].
      intros g I; assert (K : mn + T / 2 ^ 40 <= g) by (apply GG; auto; lra); lra. }
    assert (DF : forall e, In e l -> clean e /\ definite (e_rabi e) /\ definite (e_det e)).
    { intros e I; destruct (SF e I) as [A [A' [A'' _]]]; auto. }
    destruct (float_conversion T name l maxr maxd mn name' CS HL (fun e I => proj2 (DF e I)) CV RS) as [c [c0 [segs [segs0 [E [E0 [DS _]]]]]]].
    exists (sequence_of T name l1), c, segs, l0, l; split; [apply B|]; split; [rewrite stored_sequence; exact E|]; split; [exact DS|]; split; [apply D; lra|].
    split.
    { split; [apply stored_sequence|].
      assert (AX' : map fst flp = map fst (map (scale T) rel)).
      { destruct RO as [RO _]; clear - RO; induction RO as [|p q a b H RO IH]; cbn [map]; auto; rewrite IH, (proj1 H); auto. }
      assert (RP : forall ps, map e_rabi (map pi_pulse ps) = map (fun a => e_rabi (pi_pulse (a, 0))) (map fst ps)).
      { intros ps; rewrite !map_map; apply map_ext; intros [[] t]; reflexivity. }
      assert (PH : forall e, In e l -> Rabs (e_phi e) <= 4).
      { intros e I; apply in_map_iff in I; destruct I as [f [<- I]]; destruct (predefined_angles pre T flp f I) as [_ F].
        assert (P := PI_4); assert (P0 := PI_RGT_0); assert (RB := proj1 pi_ratio_bounds).
        cbn [stored e_phi]; unfold stored_angle; fold pi_ratio; rewrite Rabs_mult, (Rabs_pos_eq pi_ratio) by lra.
        assert (Q : Rabs (e_phi f) <= 4) by (destruct F as [->|[->|[-> _]]]; rewrite ?Rabs_R0, ?Rabs_pos_eq; lra).
        assert (Q0 := Rabs_pos (e_phi f)); nra. }
      split; [|auto].
      unfold l; rewrite map_map; cbn [stored e_rabi]; rewrite <- (map_map e_rabi stored_angle l1), <- (map_map e_rabi stored_angle l0); f_equal.
      unfold l1, l0, with_pre_post; destruct pre; cbn [map]; rewrite ?map_app, !RP, AX'; reflexivity. }
    intros eps delta.
    assert (F := float_finite_pulses T name l maxr maxd mn name' c segs eps delta CS HL DF CV RS E DS).
    assert (BD : bounded_detuning (fun t => delta * t) (Rabs delta) T).
    { intros t t' _ _; rewrite <- Rabs_mult; right; f_equal; ring. }
    assert (W : forall p, In p (map (scale T) rel) -> 0 <= snd p <= T).
    { intros p I; apply in_map_iff in I; destruct I as [[a t] [<- I]]; cbn [scale snd].
      assert (J : 0 < t < 1) by (apply G2, in_map_iff; exists (a, t); auto); split; nra. }
    assert (Q := evolution_close (fun t => delta * t) (Rabs delta) T (accuracy r * T) pre flp (map (scale T) rel)
      (Rabs_pos delta) ltac:(lra) ltac:(apply Rmult_le_pos; lra) BD RO W).
    assert (SE := stored_evolution delta T (4 / 10 ^ 16) l1 ltac:(unfold Rdiv; apply Rmult_le_pos; [lra|left; apply Rinv_0_lt_compat, pow_lt; lra])
      (fun e I => stored_pulse pre T flp e I)).
    eapply close_mono; [|eapply close_trans; [exact F|eapply close_trans; [exact SE|exact Q]]].
    assert (LN : List.length flp = List.length (map (scale T) rel)) by (destruct RO as [RO _]; apply (near_length _ _ _ RO)).
    assert (L1 : INR (List.length (map (scale T) rel)) <= INR (List.length l0)).
    { apply le_INR; unfold l0, with_pre_post; destruct pre; cbn [List.length]; rewrite ?app_length, !map_length; lia. }
    assert (L2 : List.length l = List.length l0).
    { unfold l; rewrite map_length; unfold l1, l0, with_pre_post; destruct pre; rewrite map_length in LN; cbn [List.length]; rewrite ?app_length, !map_length; cbn [List.length]; lia. }
    assert (S1 := total_bound (pulse_width maxr maxd mn) w l).
    assert (S1' : total (map (pulse_width maxr maxd mn) l) <= INR (List.length l) * w).
    { apply S1; intros e I; apply W0; unfold with_ends; apply in_or_app; right; apply in_or_app; left; exact I. }
    assert (S2 : total (map (fun e => e_rabi e + Rabs (e_det e)) l) <= INR (List.length l) * PI).
    { apply total_bound; intros e I; apply (SF e I). }
    rewrite <- total_plus in S2.
    assert (S3 : 0 <= total (map e_rabi l)) by (apply total_nonneg; intros e I; apply (SF e I)).
    assert (S4 : 0 <= total (map (fun e => Rabs (e_det e)) l)) by (apply total_nonneg; intros e I; apply Rabs_pos).
    unfold pipeline_error, rounding_cost, longest_pulse; fold w; assert (L3 : List.length l1 = List.length l) by (unfold l; rewrite map_length; auto); rewrite L3, L2 in *.
    set (N := INR (List.length l0)) in *; set (N1 := INR (List.length (map (scale T) rel))) in *.
    set (A := total (map e_rabi l)) in *; set (A' := total (map (fun e => Rabs (e_det e)) l)) in *.
    set (P := total (map (pulse_width maxr maxd mn) l)) in *.
    assert (P1 := Rabs_pos eps); assert (P2 := Rabs_pos delta).
    assert (P3 : Rabs (1 + eps) <= 1 + Rabs eps) by (eapply Rle_trans; [apply Rabs_triang|rewrite Rabs_R1; lra]).
    assert (I54 : 0 < / 2 ^ 54) by (apply Rinv_0_lt_compat, pow_lt; lra).
    assert (K1 : Rabs delta * P <= Rabs delta * (N * w)) by (apply Rmult_le_compat_l; auto).
    assert (K2 : Rabs eps * A / 2 <= Rabs eps * N * PI / 2).
    { assert (Rabs eps * A <= Rabs eps * (N * PI)) by (apply Rmult_le_compat_l; lra); lra. }
    assert (K3 : (Rabs (1 + eps) * A + A') / 2 ^ 54 <= (1 + Rabs eps) * N * PI / 2 ^ 54).
    { unfold Rdiv; apply Rmult_le_compat_r; [lra|].
      assert (Rabs (1 + eps) * A <= (1 + Rabs eps) * A) by (apply Rmult_le_compat_r; auto).
      assert ((1 + Rabs eps) * (A + A') <= (1 + Rabs eps) * (N * PI)) by (apply Rmult_le_compat_l; lra).
      assert (0 <= Rabs eps * A') by (apply Rmult_le_pos; auto); lra. }
    assert (K4 : N1 * Rabs delta * (accuracy r * T) <= N * Rabs delta * (accuracy r * T)).
    { apply Rmult_le_compat_r; [apply Rmult_le_pos; lra|apply Rmult_le_compat_r; auto]. }
    unfold Rdiv in *; lra.
  Qed.
  Theorem float_pipeline r T pre name maxr maxd mn name' :
    binary64_format T -> laboratory_duration T -> valid_request r -> moderate r -> separated r true ->
    pipeline_rates r T maxr maxd mn ->
    exists s c segs l0,
      fl_build_sequence binary64 fsin fsquare float_pi r T pre name = Ok s /\
      fl_convert binary64 (stored_angles s) maxr maxd mn name' = Ok c /\ describes segs c /\
      build_sequence r T pre name = Ok (sequence_of T name l0) /\
      forall eps delta,
        close_to (pipeline_error eps delta T (longest_pulse maxr maxd mn) (accuracy r) (INR (List.length l0)))
          (noisy_evolution eps delta segs) (dephased_evolution (fun t => delta * t) T l0).
  Proof.
    intros FT HL V M X PR.
    destruct (float_pipeline_pulses r T pre name maxr maxd mn name' FT HL V M X PR) as [s [c [segs [l0 [l [A [B [C [D [_ Q]]]]]]]]]].
    exists s, c, segs, l0; auto.
  Qed.

  (** sequences that cancel a constant detuning still do so after rounding and conversion *)
  Theorem float_decoupling r T pre name maxr maxd mn name' :
    binary64_format T -> laboratory_duration T -> valid_request r -> moderate r -> separated r true ->
    pipeline_rates r T maxr maxd mn ->
    (forall s0, build_sequence r T pre name = Ok s0 -> refocuses s0) ->
    exists s c segs l0,
      fl_build_sequence binary64 fsin fsquare float_pi r T pre name = Ok s /\
      fl_convert binary64 (stored_angles s) maxr maxd mn name' = Ok c /\ describes segs c /\
      build_sequence r T pre name = Ok (sequence_of T name l0) /\
      forall eps delta,
        close_to (pipeline_error eps delta T (longest_pulse maxr maxd mn) (accuracy r) (INR (List.length l0)))
          (noisy_evolution eps delta segs) (pulse_product l0).
  Proof.
    intros FT HL V M X PR RF.
    destruct (float_pipeline r T pre name maxr maxd mn name' FT HL V M X PR) as [s [c [segs [l0 [A [B [C [D Q]]]]]]]].
    exists s, c, segs, l0; repeat (split; [assumption|]); intros eps delta.
    rewrite <- (RF _ D l0 eq_refl delta); apply Q.
  Qed.

  (** the sequences stored are made of binary64 numbers *)
  Theorem stored_format r T pre name s : ordinary_duration T -> valid_request r -> moderate r ->
    fl_build_sequence binary64 fsin fsquare float_pi r T pre name = Ok s ->
    let s' := stored_angles s in
    forall x, x = seq_duration s' \/ In x (offsets s') \/ In x (rabi_rotations s') \/ In x (seq_azimuthal_angles s') \/ In x (detuning_rotations s') ->
    binary64_format x.
  Proof.
    intros OT V M E s' x.
    destruct (fl_rounding fsin fsquare Hsin Hsquare r T OT V M) as [rel [flp [_ [B [_ [RO _]]]]]].
    rewrite B in E; injection E as <-; unfold s'; rewrite stored_sequence.
    assert (P := PI_RGT_0).
    assert (F1 : binary64_format (PI * (float_pi / PI))).
    { replace (PI * (float_pi / PI)) with (IZR 884279719003555 * bpow radix2 (-48)).
      - apply generic_format_FLT; exists (Float radix2 884279719003555 (-48)); [reflexivity|cbn; lia|cbn; lia].
      - change (-48)%Z with (- Z.of_nat 48)%Z; rewrite bpow_inv; unfold float_pi; field; lra. }
    assert (F2 : binary64_format (PI / 2 * (float_pi / PI))).
    { replace (PI / 2 * (float_pi / PI)) with (IZR 884279719003555 * bpow radix2 (-49)).
      - apply generic_format_FLT; exists (Float radix2 884279719003555 (-49)); [reflexivity|cbn; lia|cbn; lia].
      - change (-49)%Z with (- Z.of_nat 49)%Z; rewrite bpow_inv; unfold float_pi; field; lra. }
    assert (F0 : binary64_format (0 * (float_pi / PI))) by (rewrite Rmult_0_l; apply format_0).
    destruct OT as [FT _].
    assert (K : forall e, In e (map stored (with_pre_post pre T flp)) -> binary64_format (e_time e) /\ binary64_format (e_rabi e) /\
      binary64_format (e_phi e) /\ binary64_format (e_det e)).
    { intros e I; apply in_map_iff in I; destruct I as [f [<- I]].
      assert (FTM : binary64_format (e_time f)).
      { destruct RO as [_ [RO _]]; unfold with_pre_post in I.
        assert (J : In f (map pi_pulse flp) -> binary64_format (e_time f)).
        { intros J; apply in_map_iff in J; destruct J as [[a t] [<- J]]; apply RO in J; destruct a; apply J. }
        destruct pre; auto; destruct I as [<-|I]; [apply format_0|]; apply in_app_or in I; destruct I as [I|[<-|[]]]; auto. }
      destruct (predefined_angles pre T flp f I) as [S F]; unfold stored, stored_angle; cbn [e_time e_rabi e_phi e_det].
      split; [auto|]; destruct S as [[S1 S2]|[S2 S1]]; rewrite S1; rewrite ?Rmult_1_r in *; (split; [destruct S2 as [->| ->]|split; [destruct F as [->|[->|[-> _]]]|]]) || (rewrite S2; split; [|split; [destruct F as [->|[->|[-> _]]]|]]); auto. }
    cbn [sequence_of seq_duration offsets rabi_rotations seq_azimuthal_angles detuning_rotations].
    intros [->|[I|[I|[I|I]]]]; auto; apply in_map_iff in I; destruct I as [e [<- I]]; apply K; auto.
  Qed.
End Pipeline.
