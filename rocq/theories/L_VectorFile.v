(** * From the request to the file under noise along every direction: lemmas *)

From Verif Require Import L_NoiseExact L_Remainder L_VectorControl.
From Verif Require Export Spec_VectorFile.
From Verif Require Import L_FloatFiles.
From Coq Require Import Lia.
Import ListNotations.
Set Bullet Behavior "Strict Subproofs".
Open Scope string_scope.
Open Scope list_scope.
Open Scope R_scope.

Lemma abs_le_inv u v : Rabs u <= v -> - v <= u <= v.
Proof. intros H; apply Rabs_le_between in H; exact H. Qed.

(** ** The noise propagator at shifted times *)

Section Shift.
  Variables (x y z : R -> R) (M : R) (q : R -> quat).
  Hypothesis M0 : 0 <= M.
  Hypothesis HM : forall t, 0 <= t -> x t ^ 2 + y t ^ 2 + z t ^ 2 <= M ^ 2.
  Hypothesis Q : qsolves x y z 0 q.

  Lemma strength_all S : strength_below x y z M S.
  Proof. intros t I; apply HM; lra. Qed.
  Lemma q_shift a b d : 0 <= a -> 0 <= b -> Rabs (a - b) <= d -> qnear (M * d / 2) (q a) (q b).
  Proof.
    assert (K : forall a b, 0 <= a -> a <= b -> qnear (M * (b - a) / 2) (q b) (q a)).
    { clear a b d; intros a b A AB; assert (G0 := G_near b x y z M M0 (strength_all b) q Q a b A AB (Rle_refl b)).
      assert (N := qnear_right _ (q a) _ _ (q_unit x y z q Q a) G0).
      unfold G in N; rewrite <- qmul_assoc, (proj2 (qconj_inverse (q a) (q_unit x y z q Q a))), qmul_1_r, qmul_1_l in N; exact N. }
    intros A B D; apply abs_le_inv in D; destruct (Rle_dec a b) as [L|L].
    - apply qnear_sym; eapply qnear_mono; [|apply (K a b A L)]; assert (M * (b - a) <= M * d) by (apply Rmult_le_compat_l; lra); lra.
    - eapply qnear_mono; [|apply (K b a B ltac:(lra))]; assert (M * (a - b) <= M * d) by (apply Rmult_le_compat_l; lra); lra.
  Qed.
  Lemma qconj_near e p r : qnear e p r -> qnear e (qconj p) (qconj r).
  Proof. intros [A B]; split; auto; destruct p, r; cbn in *; unfold qnorm2 in *; cbn in *; lra. Qed.
  Lemma G_shift a b a' b' d d' : 0 <= a -> 0 <= b -> 0 <= a' -> 0 <= b' -> Rabs (a - a') <= d -> Rabs (b - b') <= d' ->
    qnear (M * d' / 2 + M * d / 2) (G q a b) (G q a' b').
  Proof.
    intros A B A' B' D D'; unfold G; apply qnear_mul; [apply (q_unit x y z q Q)|apply qconj_unit, (q_unit x y z q Q)|apply q_shift; auto|].
    apply qconj_near, q_shift; auto.
  Qed.

  (** ** Pulses at shifted times *)

  Definition shifted (d k T : R) (e e0 : event) : Prop :=
    Rabs (e_time e - e_time e0) <= d /\ qnear k (qpul e) (qpul e0) /\ 0 <= e_time e <= T /\ 0 <= e_time e0 <= T.
  Lemma gfrom_shift d k T l l0 : 0 <= d -> 0 <= k -> Forall2 (shifted d k T) l l0 -> forall t t0,
    qnear (INR (List.length l0) * (M * d + k)) (qmul (gfrom T q t l) (q t)) (qmul (gfrom T q t0 l0) (q t0)).
  Proof.
    intros D0 K0; assert (U := q_unit x y z q Q).
    assert (C : forall t, qmul (qconj (q t)) (q t) = qone) by (intros t; exact (proj2 (qconj_inverse (q t) (U t)))).
    assert (C' : forall t, qmul (q t) (qconj (q t)) = qone) by (intros t; exact (proj1 (qconj_inverse (q t) (U t)))).
    induction 1 as [|e e0 l l0 [S1 [S2 [S3 S4]]] F IH]; intros t t0.
    - cbn [gfrom List.length INR]; unfold G; rewrite <- !qmul_assoc, !C, Rmult_0_l; apply qnear_refl.
    - assert (ST : forall l t e, qmul (gfrom T q t (e :: l)) (q t) =
        qmul (qmul (gfrom T q (e_time e) l) (q (e_time e))) (qmul (qconj (q (e_time e))) (qmul (qpul e) (q (e_time e))))).
      { clear - C C'; intros l t e; cbn [gfrom]; unfold G; rewrite <- !qmul_assoc, C, qmul_1_r.
        f_equal; rewrite (qmul_assoc (q (e_time e)) (qconj (q (e_time e)))), C', qmul_1_l; reflexivity. }
      rewrite !ST; cbn [List.length]; rewrite S_INR.
      assert (UP : forall e, unit_quat (qpul e)) by (intros; apply unit_qseg).
      assert (N := q_shift (e_time e) (e_time e0) d (proj1 S3) (proj1 S4) S1).
      eapply qnear_mono; [|apply qnear_mul; [| |apply IH|apply qnear_mul; [| |apply qconj_near; exact N|apply qnear_mul; [| |exact S2|exact N]]]].
      + lra.
      + apply unit_mul; auto; apply (unit_gfrom T x y z q Q).
      + apply unit_mul; [apply qconj_unit; auto|apply unit_mul; auto].
      + apply qconj_unit; auto.
      + apply unit_mul; auto.
      + auto.
      + auto.
  Qed.
  Lemma gfrom_near d k T l l0 : 0 <= d -> 0 <= k -> Forall2 (shifted d k T) l l0 ->
    qnear (INR (List.length l0) * (M * d + k)) (gfrom T q 0 l) (gfrom T q 0 l0).
  Proof.
    intros D0 K0 F; assert (N := gfrom_shift d k T l l0 D0 K0 F 0 0); rewrite (proj1 Q), !qmul_1_r in N; exact N.
  Qed.
End Shift.

(** ** Segments read from the file *)

Definition qs (g : seg) : quat := qseg (g_rabi g * cos (g_phi g)) (g_rabi g * sin (g_phi g)) (g_det g) (g_dur g).
Lemma qs_noisy g : qnoisy 0 0 g = qs g.
Proof. unfold qnoisy, qs; f_equal; ring. Qed.
Definition reread_cost (m : R) (g : seg) : R := (g_rabi g / 2 ^ 53 + m / 2 ^ 1075) * g_dur g / 2.
Lemma reread_total m l : total (map (reread_cost m) l) = file_cost 0 m l.
Proof.
  unfold file_cost; rewrite Rplus_0_r, Rabs_R1, Rmult_1_l.
  change (2 ^ 1076) with (2 * 2 ^ 1075); change (2 ^ 54) with (2 * 2 ^ 53); unfold reread_cost.
  assert (A := pow_lt 2 1075 ltac:(lra)); assert (B := pow_lt 2 53 ltac:(lra)); revert A B.
  generalize (2 ^ 1075), (2 ^ 53); intros a b A B; induction l as [|g l IH]; cbn [map total]; [field; lra|rewrite IH; field; lra].
Qed.

Lemma reread_quat m g' g : 0 <= m -> 0 < g_dur g -> 0 <= g_rabi g -> reread m g' g ->
  0 <= reread_cost m g /\ qnear (reread_cost m g) (qs g') (qs g) /\ Rabs (g_rabi g') * g_dur g' <= g_rabi g * g_dur g + 2 * reread_cost m g.
Proof.
  intros M P R0 [A [B [C [D _]]]]; unfold qs; rewrite A, B, C; rewrite (Rabs_pos_eq (g_rabi g)) in D by auto.
  assert (I1 : 0 < / 2 ^ 53) by apply inv_pow_pos; assert (I2 : 0 < / 2 ^ 1075) by apply inv_pow_pos; unfold Rdiv in D.
  set (k := g_rabi g * / 2 ^ 53 + m * / 2 ^ 1075) in *.
  assert (K : reread_cost m g = k * g_dur g / 2) by reflexivity; rewrite K; clearbody k; clear K I1 I2.
  assert (K0 : 0 <= k) by (eapply Rle_trans; [apply Rabs_pos|exact D]).
  assert (KW : 0 <= k * g_dur g) by (apply Rmult_le_pos; lra).
  split; [lra|]; split.
  - rewrite !qseg_exp by auto; apply qexp_near; [lra|].
    replace ((g_rabi g' * cos (g_phi g) * g_dur g - g_rabi g * cos (g_phi g) * g_dur g) ^ 2 +
      (g_rabi g' * sin (g_phi g) * g_dur g - g_rabi g * sin (g_phi g) * g_dur g) ^ 2 + (g_det g * g_dur g - g_det g * g_dur g) ^ 2)
      with (((g_rabi g' - g_rabi g) * g_dur g) ^ 2 * ((sin (g_phi g))² + (cos (g_phi g))²)) by (unfold Rsqr; ring).
    rewrite sin2_cos2, Rmult_1_r; replace (2 * (k * g_dur g / 2)) with (k * g_dur g) by field.
    rewrite <- (pow2_abs ((g_rabi g' - g_rabi g) * g_dur g)), Rabs_mult, (Rabs_pos_eq (g_dur g)) by lra.
    apply pow_incr; split; [apply Rmult_le_pos; [apply Rabs_pos|lra]|apply Rmult_le_compat_r; lra].
  - assert (L : Rabs (g_rabi g') <= g_rabi g + k) by (apply abs_le_inv in D; apply Rabs_le; lra).
    assert (Rabs (g_rabi g') * g_dur g <= (g_rabi g + k) * g_dur g) by (apply Rmult_le_compat_r; lra); lra.
Qed.

Lemma pushed_near_abs eps x y z g t0 w V E M : 0 <= w -> 0 <= E -> 0 <= M -> pushed eps x y z g t0 (t0 + w) V ->
  bounded_by eps E t0 (t0 + w) -> (forall t, t0 <= t <= t0 + w -> x t ^ 2 + y t ^ 2 + z t ^ 2 <= M ^ 2) ->
  exists v, V = qmat v /\ unit_quat v /\
    qnear ((M * w + E * (Rabs (g_rabi g) * w)) / 2) v (qseg (g_rabi g * cos (g_phi g)) (g_rabi g * sin (g_phi g)) (g_det g) w).
Proof.
  intros W E0 M0 D BE BM; destruct (Rle_dec 0 (g_rabi g)) as [P|P].
  - rewrite Rabs_pos_eq by auto; apply (pushed_near eps x y z g t0 w V E M); auto.
  - set (g1 := Seg (- g_rabi g) (g_phi g + PI) (g_det g) (g_dur g)).
    assert (D1 : pushed eps x y z g1 t0 (t0 + w) V).
    { destruct D as [U [U0 [D U1]]]; exists U; split; auto; split; auto; intros t; specialize (D t).
      cbn [g1 g_rabi g_phi g_det]; rewrite neg_cos, neg_sin.
      replace ((1 + eps t) * - g_rabi g * - cos (g_phi g)) with ((1 + eps t) * g_rabi g * cos (g_phi g)) by ring.
      replace ((1 + eps t) * - g_rabi g * - sin (g_phi g)) with ((1 + eps t) * g_rabi g * sin (g_phi g)) by ring; exact D. }
    destruct (pushed_near eps x y z g1 t0 w V E M W ltac:(cbn; lra) E0 M0 D1 BE BM) as [v [EV [U N]]].
    exists v; split; auto; split; auto; cbn [g1 g_rabi g_phi g_det] in N; rewrite neg_cos, neg_sin in N.
    rewrite Rabs_left1 by lra.
    replace (- g_rabi g * - cos (g_phi g)) with (g_rabi g * cos (g_phi g)) in N by ring.
    replace (- g_rabi g * - sin (g_phi g)) with (g_rabi g * sin (g_phi g)) in N by ring; exact N.
Qed.

Lemma pushed_idle eps x y z g t0 t1 V : g_rabi g = 0 -> g_det g = 0 -> pushed eps x y z g t0 t1 V -> wanders x y z t0 t1 V.
Proof.
  intros R0 D0 [U [U0 [D U1]]]; exists U; split; auto; split; auto; intros t.
  assert (H := D t); rewrite R0, D0 in H.
  replace ((1 + eps t) * 0 * cos (g_phi g) + x t) with (x t) in H by ring.
  replace ((1 + eps t) * 0 * sin (g_phi g) + y t) with (y t) in H by ring.
  rewrite Rplus_0_l in H; exact H.
Qed.

Definition active_width (g : seg) : R := if active g then g_dur g else 0.
Definition controls_cost (E M T m : R) (a b : list seg) : R :=
  M * total (map active_width b) + INR (List.length b) * (M * (T / 2 ^ 48) / 2) +
  E * (total (map (fun g => g_rabi g * g_dur g) a) / 2 + total (map (reread_cost m) a)) +
  total (map (reread_cost m) a) + total (map (angle_cost 0 0 T) b).

Lemma active_false g : active g = false -> g_rabi g = 0 /\ g_det g = 0.
Proof. unfold active; destruct (Req_EM_T (g_rabi g) 0); [destruct (Req_EM_T (g_det g) 0)|]; auto; discriminate. Qed.

Section Controls.
  Variables (eps x y z : R -> R) (E M T m : R) (q : R -> quat).
  Hypothesis E0 : 0 <= E.
  Hypothesis M0 : 0 <= M.
  Hypothesis T0 : 0 <= T.
  Hypothesis m0 : 0 <= m.
  Hypothesis HE : forall t, 0 <= t -> Rabs (eps t) <= E.
  Hypothesis HM : forall t, 0 <= t -> x t ^ 2 + y t ^ 2 + z t ^ 2 <= M ^ 2.
  Hypothesis Q : qsolves x y z 0 q.

  Lemma segment_step g' g g0 ta tb s V V0 : rounded_segment T g g0 -> reread m g' g ->
    0 < g_dur g /\ 0 <= g_rabi g -> 0 < g_dur g0 /\ 0 <= g_rabi g0 ->
    0 <= ta -> 0 <= tb -> Rabs (ta - tb) <= s ->
    pushed eps x y z g' ta (ta + g_dur g') V -> pushed (fun _ => 0) x y z g0 tb (tb + g_dur g0) V0 ->
    exists v v0, V = qmat v /\ V0 = qmat v0 /\ unit_quat v /\ unit_quat v0 /\
      qnear (controls_cost E M T m (g :: nil) (g0 :: nil) + M * (s + T / 2 ^ 48)) v v0.
  Proof.
    intros RS RR [P R] [P0 R0] TA TB S D D0.
    destruct (reread_quat m g' g m0 P R RR) as [C0 [CN CR]].
    assert (AN := rounded_near 0 0 T g g0 RS P P0 R0 T0); rewrite !qs_noisy in AN.
    assert (A0 : 0 <= angle_cost 0 0 T g0) by apply (proj1 AN).
    assert (S0 : 0 <= s) by (eapply Rle_trans; [apply Rabs_pos|exact S]).
    assert (RW : 0 <= g_rabi g * g_dur g) by (apply Rmult_le_pos; lra).
    assert (DL : 0 <= T / 2 ^ 48) by (unfold Rdiv; apply Rmult_le_pos; [auto|left; apply inv_pow_pos]).
    assert (MD : 0 <= M * (T / 2 ^ 48)) by (apply Rmult_le_pos; auto); assert (MS : 0 <= M * s) by (apply Rmult_le_pos; auto).
    assert (EW : 0 <= E * (g_rabi g * g_dur g / 2 + reread_cost m g)) by (apply Rmult_le_pos; lra).
    destruct RR as [R1 [R2 [R3 RR]]]; destruct RS as [_ [DU [RA [RD _]]]].
    unfold controls_cost; cbn [map total List.length INR]; rewrite !Rplus_0_r.
    unfold active_width; destruct (active g0) eqn:AC.
    - destruct (pushed_near_abs eps x y z g' ta (g_dur g') V E M ltac:(lra) E0 M0 D) as [v [-> [U N]]].
      { intros t I; apply HE; lra. }
      { intros t I; apply HM; lra. }
      destruct (pushed_near (fun _ => 0) x y z g0 tb (g_dur g0) V0 0 M ltac:(lra) R0 ltac:(lra) M0 D0) as [v0 [-> [U0 N0]]].
      { intros t I; rewrite Rabs_R0; lra. }
      { intros t I; apply HM; lra. }
      exists v, v0; split; auto; split; auto; split; auto; split; auto.
      fold (qs g') in N; fold (qs g0) in N0.
      eapply qnear_mono; [|eapply qnear_trans; [exact N|eapply qnear_trans; [exact CN|eapply qnear_trans; [exact AN|apply qnear_sym; exact N0]]]].
      apply abs_le_inv in DU; rewrite R3 in *.
      assert (M * g_dur g <= M * (g_dur g0 + T / 2 ^ 48)) by (apply Rmult_le_compat_l; lra).
      assert (E * (Rabs (g_rabi g') * g_dur g) <= E * (g_rabi g * g_dur g + 2 * reread_cost m g)) by (apply Rmult_le_compat_l; lra).
      lra.
    - apply active_false in AC; destruct AC as [Z1 Z2].
      assert (G1 : g_rabi g = 0).
      { rewrite Z1, Rminus_0_r in RA; unfold Rdiv in RA; rewrite !Rmult_0_l in RA.
        destruct (Req_dec (g_rabi g) 0) as [K|K]; auto; apply Rabs_pos_lt in K; lra. }
      assert (G2 : g_det g = 0).
      { rewrite Z2, Rminus_0_r, Rabs_R0 in RD; unfold Rdiv in RD; rewrite !Rmult_0_l in RD.
        destruct (Req_dec (g_det g) 0) as [K|K]; auto; apply Rabs_pos_lt in K; lra. }
      assert (G1' : g_rabi g' = 0) by (apply (proj2 (proj2 RR)); auto).
      apply pushed_idle in D; [|auto|congruence]; apply pushed_idle in D0; auto.
      apply (wanders_G x y z q Q) in D; [|lra]; apply (wanders_G x y z q Q) in D0; [|lra].
      exists (G q ta (ta + g_dur g')), (G q tb (tb + g_dur g0)).
      split; auto; split; auto; split; [apply (unit_G x y z q Q)|]; split; [apply (unit_G x y z q Q)|].
      eapply qnear_mono; [|apply (G_shift x y z M q M0 HM Q ta (ta + g_dur g') tb (tb + g_dur g0) s (s + T / 2 ^ 48)); try lra].
      + lra.
      + rewrite R3; replace (ta + g_dur g - (tb + g_dur g0)) with ((ta - tb) + (g_dur g - g_dur g0)) by ring.
        eapply Rle_trans; [apply Rabs_triang|lra].
  Qed.

  Lemma controls_near a b : Forall2 (rounded_segment T) a b -> forall a', Forall2 (reread m) a' a ->
    (forall g, In g a -> 0 < g_dur g /\ 0 <= g_rabi g) -> (forall g, In g b -> 0 < g_dur g /\ 0 <= g_rabi g) ->
    forall ta tb s V V0, 0 <= ta -> 0 <= tb -> Rabs (ta - tb) <= s ->
    vector_control eps x y z ta a' V -> vector_control (fun _ => 0) x y z tb b V0 ->
    exists v v0, V = qmat v /\ V0 = qmat v0 /\ unit_quat v /\ unit_quat v0 /\
      qnear (controls_cost E M T m a b + M * (INR (List.length b) * (s + INR (List.length b) * (T / 2 ^ 48)))) v v0.
  Proof.
    induction 1 as [|g g0 a b RS F IH]; intros a' H PA PB ta tb s V V0 TA TB S N N0; inversion H as [|g' x1 a1 x2 RR H']; subst.
    - cbn [vector_control] in N, N0; subst V V0; exists qone, qone; rewrite qmat_one; repeat (split; [auto; apply unit_one|]).
      unfold controls_cost; cbn [map total List.length INR].
      replace (M * 0 + 0 * (M * (T / 2 ^ 48) / 2) + E * (0 / 2 + 0) + 0 + 0 + M * (0 * (s + 0 * (T / 2 ^ 48)))) with 0 by field; apply qnear_refl.
    - cbn [vector_control] in N, N0; destruct N as [V1 [V2 [D [N ->]]]], N0 as [W1 [W2 [D0 [N0 ->]]]].
      assert (PG := PA g (or_introl eq_refl)); assert (PG0 := PB g0 (or_introl eq_refl)).
      destruct (segment_step g' g g0 ta tb s V1 W1 RS RR PG PG0 TA TB S D D0) as [v1 [w1 [-> [-> [U1 [U1' Q1]]]]]].
      assert (DU : g_dur g' = g_dur g) by apply RR.
      destruct (IH a1 H' (fun g I => PA g (or_intror I)) (fun g I => PB g (or_intror I))
        (ta + g_dur g') (tb + g_dur g0) (s + T / 2 ^ 48) V2 W2) as [v2 [w2 [-> [-> [U2 [U2' Q2]]]]]]; auto; try lra.
      { rewrite DU; replace (ta + g_dur g - (tb + g_dur g0)) with ((ta - tb) + (g_dur g - g_dur g0)) by ring.
        eapply Rle_trans; [apply Rabs_triang|]; destruct RS as [_ [RS _]]; lra. }
      exists (qmul v2 v1), (qmul w2 w1); rewrite !qmat_mul; split; auto; split; auto; split; [apply unit_mul; auto|]; split; [apply unit_mul; auto|].
      eapply qnear_mono; [|apply qnear_mul; [| |exact Q2|exact Q1]]; auto.
      assert (DL : 0 <= T / 2 ^ 48) by (unfold Rdiv; apply Rmult_le_pos; [auto|left; apply inv_pow_pos]).
      unfold controls_cost; cbn [map total List.length]; rewrite !S_INR; change (INR 0) with 0.
      set (n := INR (List.length b)); assert (n0 : 0 <= n) by apply pos_INR; set (d := T / 2 ^ 48) in *.
      assert (K : 0 <= M * (n * d)) by (apply Rmult_le_pos; [auto|apply Rmult_le_pos; auto]).
      lra.
  Qed.
End Controls.

(** ** The converted sequence *)

Lemma weave_total (h : seg -> R) (H : event -> R) maxr maxd mn T E : 0 <= mn -> (forall w, h (Seg 0 0 0 w) = 0) ->
  (forall e, In e E -> 0 <= H e /\ (0 < g_dur (pulse_seg maxr maxd mn e) -> h (pulse_seg maxr maxd mn e) <= H e)) ->
  total (map h (filter lasting (weave maxr maxd mn T E))) <= total (map H E).
Proof.
  intros Hm Z; induction E as [|e E IH]; intros P; cbn [weave filter map total]; [lra|].
  assert (I := IH (fun e I => P e (or_intror I))); destruct (P e (or_introl eq_refl)) as [P1 P2].
  assert (K : total (map h (if lasting (Seg 0 0 0 (gap_after maxr maxd mn T E e))
    then Seg 0 0 0 (gap_after maxr maxd mn T E e) :: filter lasting (weave maxr maxd mn T E) else filter lasting (weave maxr maxd mn T E))) =
    total (map h (filter lasting (weave maxr maxd mn T E)))).
  { destruct (lasting _); auto; cbn [map total]; rewrite Z; ring. }
  unfold lasting at 1; destruct (ltb 0 (g_dur (pulse_seg maxr maxd mn e))) eqn:L; cbn [map total].
  - apply ltb_true in L; rewrite K; specialize (P2 L); lra.
  - rewrite K; lra.
Qed.

Lemma converted_widths maxr maxd mn T l : convertible maxr maxd mn T l -> / 10 ^ 8 < T -> (forall e, In e l -> 0 <= e_time e <= T) ->
  total (map active_width (converted maxr maxd mn T l)) <= total (map (pulse_width maxr maxd mn) l).
Proof.
  intros C L B; assert (S0 : 0 < / 10 ^ 8) by apply small_pos; destruct C as [Hr [Hd [Hm C]]].
  rewrite converted_long by (auto; try lra; repeat (split; auto)).
  rewrite <- (with_ends_total (pulse_width maxr maxd mn) T l).
  - apply weave_total; auto.
    + intros w; unfold active_width, active; cbn [g_rabi g_det]; destruct (Req_EM_T 0 0); [|lra]; auto.
    + intros e _; split; [apply width_nonneg; auto|]; unfold active_width; rewrite pulse_seg_dur by auto; intros W.
      destruct (active _); lra.
  - intros t; apply width_idle; cbn [idle e_rabi e_det]; rewrite Rabs_R0; lra.
Qed.

Lemma qpul_pulse e : qpul e = qpulse e.
Proof. unfold qpul, qpulse; rewrite qseg_exp by lra; f_equal; ring. Qed.

(** ** The pulses of the request *)

Section Request.
  Variables (fsin fsquare : R -> R).
  Hypothesis Hsin : accurate_sine fsin.
  Hypothesis Hsquare : accurate_square fsquare.

  Lemma request_shifted r T pre name s l l0 :
    binary64_format T -> laboratory_duration T -> valid_request r -> moderate r -> separated r true ->
    fl_build_sequence binary64 fsin fsquare float_pi r T pre name = Ok s -> stored_angles s = sequence_of T name l ->
    build_sequence r T pre name = Ok (sequence_of T name l0) ->
    0 <= accuracy r /\ Forall2 (shifted (accuracy r * T) (4 / 10 ^ 16) T) l l0 /\ nondecreasing (map e_time l).
  Proof.
    intros FT HL V M X EB ES E0; assert (UT := T_low T HL); assert (OT := laboratory_ordinary T FT HL).
    destruct (fl_rounding fsin fsquare Hsin Hsquare r T OT V M) as [rel [flp [D [B [A0 [RO _]]]]]].
    rewrite B in EB; assert (EQ : s = sequence_of T name (with_pre_post pre T flp)) by congruence; clear EB; subst s.
    rewrite stored_sequence in ES; apply sequence_of_inj in ES; subst l.
    rewrite (D T pre name ltac:(lra)) in E0; assert (EQ : l0 = with_pre_post pre T (map (scale T) rel)) by (apply (sequence_of_inj T name l0 T name); congruence).
    subst l0; split; auto.
    destruct (request_good r V X) as [rel' [D' GT]]; rewrite (L_FloatRound.describes_unique _ _ _ D' D) in GT.
    destruct (accurate_separated r V M X) as [_ AS].
    destruct (good_rounding T (accuracy r) (spacing r) flp rel ltac:(lra) A0 AS GT (proj1 RO) (fun p I => proj2 (proj1 (proj2 RO) p I))) as [_ SI].
    assert (TM : forall ps, map e_time (map pi_pulse ps) = map snd ps) by (intros ps; rewrite map_map; apply map_ext; intros [[] t]; reflexivity).
    split.
    - assert (W : forall p, In p (map (scale T) rel) -> 0 <= snd p <= T).
      { destruct GT as [_ [_ [G2 _]]]; intros p I; apply in_map_iff in I; destruct I as [[a t] [<- I]]; cbn [scale snd].
        assert (J : 0 < t < 1) by (apply G2, in_map_iff; exists (a, t); auto); split; nra. }
      assert (W' : forall p, In p flp -> 0 <= snd p <= T) by (intros p I; apply (proj1 (proj2 RO) p I)).
      assert (AT : 0 <= accuracy r * T) by (apply Rmult_le_pos; lra).
      assert (SP := fun e => stored_pulse pre T flp e).
      assert (CA : closing_angle flp = closing_angle (map (scale T) rel)).
      { assert (K : List.length (filter not_y flp) = List.length (filter not_y (map (scale T) rel))).
        { destruct RO as [RO _]; clear - RO; induction RO as [|[u t] [u' t'] a b [H _] RO IH]; auto; cbn [fst] in H; subst u'.
          destruct u; cbn [filter not_y fst List.length]; rewrite ?IH; reflexivity. }
        unfold closing_angle; rewrite K; reflexivity. }
      assert (KK : forall e e0, In e (with_pre_post pre T flp) -> Rabs (e_time e - e_time e0) <= accuracy r * T ->
        qpulse e = qpulse e0 -> 0 <= e_time e <= T -> 0 <= e_time e0 <= T -> shifted (accuracy r * T) (4 / 10 ^ 16) T (stored e) e0).
      { intros e e0 I TT QQ B1 B2; split; [exact TT|split; [|split; [exact B1|exact B2]]]; rewrite (qpul_pulse (stored e)), (qpul_pulse e0), <- QQ; apply SP; auto. }
      assert (Z : forall t, Rabs (t - t) <= accuracy r * T) by (intros t; unfold Rminus; rewrite Rplus_opp_r, Rabs_R0; auto).
      assert (MID : forall a b, Forall2 (L_FloatRound.near_pulse (accuracy r * T)) a b ->
        (forall p, In p a -> In (pi_pulse p) (with_pre_post pre T flp) /\ 0 <= snd p <= T) -> (forall p, In p b -> 0 <= snd p <= T) ->
        Forall2 (shifted (accuracy r * T) (4 / 10 ^ 16) T) (map stored (map pi_pulse a)) (map pi_pulse b)).
      { clear - KK; induction 1 as [|[u t] [u' t'] a b [H1 H2] F IH]; intros HA HB; cbn [map]; constructor.
        - cbn [fst snd] in *; subst u'; destruct (HA (u, t) (or_introl eq_refl)) as [I1 I2]; assert (I3 := HB (u, t') (or_introl eq_refl)).
          cbn [snd] in *; apply KK; auto; destruct u; auto.
        - apply IH; intros; [apply HA|apply HB]; right; auto. }
      specialize (MID flp (map (scale T) rel) (proj1 RO)).
      unfold with_pre_post in *; destruct pre.
      + cbn [map]; rewrite map_app; cbn [map]; constructor; [|apply Forall2_app; [|constructor; [|constructor]]].
        * apply KK; auto; [left; auto|cbn; lra|cbn; lra].
        * apply MID; auto; intros p I; split; auto; right; apply in_or_app; left; apply in_map; auto.
        * apply KK; [right; apply in_or_app; right; left; auto|cbn [e_time]; auto|rewrite CA; reflexivity|cbn; lra|cbn; lra].
      + apply MID; auto; intros p I; split; auto; apply in_map; auto.
    - rewrite stored_times; apply increasing_nondecreasing; unfold with_pre_post; destruct pre.
      + cbn [map e_time]; rewrite map_app, TM; exact SI.
      + rewrite TM; destruct SI as [_ SI]; apply increasing_prefix in SI; exact SI.
  Qed.
End Request.

(** ** From the request to the experiment *)

Lemma filter_length {X} (f : X -> bool) l : INR (List.length (filter f l)) <= INR (List.length l).
Proof. apply le_INR, filter_length_le. Qed.

Section Files.
  Variables (fsin fsquare : R -> R).
  Hypothesis Hsin : accurate_sine fsin.
  Hypothesis Hsquare : accurate_square fsquare.

  Theorem vector_sequence_file hsin hcos r T pre name maxr maxd mn name' d f :
    binary64_format T -> laboratory_duration T -> valid_request r -> moderate r -> separated r true ->
    pipeline_rates r T maxr maxd mn -> drives r pre ->
    exists s c l0 l',
      fl_build_sequence binary64 fsin fsquare float_pi r T pre name = Ok s /\
      fl_convert binary64 (stored_angles s) maxr maxd mn name' = Ok c /\
      file_holds f (fl_export_to_file binary64 hsin hcos d c f FILE_FORMAT_QCTRL FILE_TYPE_JSON CYLINDRICAL) l' name' /\
      build_sequence r T pre name = Ok (sequence_of T name l0) /\
      forall eps x y z E M V X,
        (forall t, continuous x t) -> (forall t, continuous y t) -> (forall t, continuous z t) ->
        (forall t, 0 <= t -> Rabs (eps t) <= E) -> 0 <= M -> (forall t, 0 <= t -> x t ^ 2 + y t ^ 2 + z t ^ 2 <= M ^ 2) ->
        vector_control eps x y z 0 l' V -> vector_sequence x y z 0 T l0 X ->
        close_to (vector_file_error E M T (longest_pulse maxr maxd mn) (accuracy r) (INR (List.length l0))) V X.
  Proof.
    intros FT HL VR Mo X PR DR; assert (UT := T_low T HL).
    destruct (float_pipeline_pulses fsin fsquare Hsin Hsquare r T pre name maxr maxd mn name' FT HL VR Mo X PR)
      as [s [c [segs [l0 [l [A [B [D [E [[ES [ER [ST [CS [CV RS]]]]] _]]]]]]]]]].
    assert (OT := laboratory_ordinary T FT HL).
    assert (FP : forall e, In e l -> binary64_format (e_phi e)).
    { intros e I; apply (stored_format fsin fsquare Hsin Hsquare r T pre name s OT VR Mo A); rewrite ES.
      right; right; right; left; apply in_map; auto. }
    assert (EC := B); rewrite ES in EC; destruct PR as [_ [_ [_ [R1 [R2 _]]]]].
    assert (SM := segments_moderate T name l maxr maxd mn name' c segs HL FT ST CS CV RS R1 R2 FP EC D).
    assert (LN : List.length l = List.length l0) by (rewrite <- (map_length e_rabi l), ER; apply map_length).
    assert (PD : exists e, In e l /\ 0 < e_rabi e).
    { destruct (sequence_drives r T pre name l0 ltac:(lra) VR X DR E) as [e [I P]].
      assert (J : In (stored_angle (e_rabi e)) (map e_rabi l)) by (rewrite ER; apply (in_map (fun e => stored_angle (e_rabi e))); auto).
      apply in_map_iff in J; destruct J as [u [EX J]]; exists u; split; auto; rewrite EX; unfold stored_angle; fold pi_ratio.
      assert (K := proj1 pi_ratio_bounds); apply Rmult_lt_0_compat; lra. }
    destruct (segments_cost T name l maxr maxd mn name' c segs HL FT ST CS CV RS R1 R2 FP EC D PD) as [m [MM [m0 FC]]].
    assert (KC := fl_constructible _ _ _ _ _ _ _ EC).
    destruct (float_json_cylindrical hsin hcos d c segs m f KC D MM m0 (fun g I => proj1 (proj1 (SM g I)))) as [d' [file [l' [W1 [W2 [W3 [W4 [RR _]]]]]]]].
    assert (DF : forall e, In e l -> definite (e_rabi e) /\ definite (e_det e)).
    { intros e J; exact (conj (proj1 (pulse_facts l ST e J)) (proj1 (proj2 (pulse_facts l ST e J)))). }
    assert (NM : dc_name c = name').
    { destruct (float_conversion T name l maxr maxd mn name' CS HL DF CV RS)
        as [c' [c0 [s1 [s2 [E1 [_ [_ [_ [NM _]]]]]]]]]; rewrite EC in E1; injection E1 as <-; exact NM. }
    exists s, c, l0, l'; split; [auto|split; [auto|split; [exists d', file; rewrite <- NM; auto|split; [auto|]]]].
    destruct (float_segments T name l maxr maxd mn name' c segs CS HL DF CV RS EC D) as [c0 [E0 [D0 F]]].
    destruct (sequence_bounds _ _ _ CS) as [HT BT].
    assert (S8 : / 10 ^ 8 = / 100000000) by (f_equal; ring).
    assert (LT : / 10 ^ 8 < T) by lra.
    destruct (constructible_segments c KC) as [l2 [_ [U2 POS]]]; rewrite <- (U2 _ D) in POS; clear U2.
    assert (POS0 : forall g, In g (converted maxr maxd mn T l) -> 0 < g_dur g /\ 0 <= g_rabi g).
    { intros g I; apply (converted_valid maxr maxd mn T HT (proj1 CV) l); auto; apply CV. }
    destruct (request_shifted fsin fsquare Hsin Hsquare r T pre name s l l0 FT HL VR Mo X A ES E) as [AC [SH ND]].
    assert (DU : duration c0 = T).
    { destruct (conversion_duration T name l maxr maxd mn name' c0 CS E0) as [Q _]; apply Q; intros g I.
      apply Rle_trans with mn; [apply CV|apply RS; auto]. }
    assert (SF : forall e, In e l -> _) by (intros e I; exact (standard_facts pi_ratio e (proj1 pi_ratio_bounds) (proj1 (ST e I)))).
    assert (WID : total (map (pulse_width maxr maxd mn) l) <= INR (List.length l) * longest_pulse maxr maxd mn).
    { apply total_bound; intros e I; apply (standard_width maxr maxd mn pi_ratio e); try apply CV; [apply pi_ratio_bounds|apply (ST e I)]. }
    assert (ANG : total (map (angle_cost 0 0 T) (converted maxr maxd mn T l)) <= INR (List.length l) * PI / 2 ^ 54).
    { rewrite (converted_long maxr maxd mn T l CV HT BT) by auto.
      eapply Rle_trans; [apply weave_cost; auto; try apply CV; intros e Ie; apply (rabi_pos maxr maxd mn T l CV); auto|].
      eapply Rle_trans; [apply events_cost; auto; apply CV|].
      unfold rounding_cost; rewrite Rplus_0_r, Rabs_R1, Rabs_R0, Rmult_1_l, total_plus.
      replace (0 * (INR (List.length l) + 2) * T / 2 ^ 48) with 0 by (unfold Rdiv; ring); rewrite Rplus_0_r.
      unfold Rdiv; apply Rmult_le_compat_r; [left; apply inv_pow_pos|]; apply total_bound; intros e I; apply (SF e I). }
    assert (ROT : total (map (fun g => g_rabi g * g_dur g) segs) <= INR (List.length l) * (PI * (1 + / 2 ^ 53))).
    { rewrite total_active; eapply Rle_trans; [apply (total_performed (filter effective l))|].
      - intros e I; apply filter_In in I; apply (pulse_facts l ST e); apply I.
      - exact (float_pulses T name l maxr maxd mn name' c segs CS HL DF CV RS EC D).
      - apply Rmult_le_compat_r; [|apply filter_length]; assert (P := PI_RGT_0); assert (I53 := inv_pow_pos 53).
        apply Rmult_le_pos; lra. }
    assert (CWD := converted_widths maxr maxd mn T l CV LT BT).
    assert (CL := le_INR _ _ (converted_length maxr maxd mn T l)).
    assert (FC0 := FC 0); rewrite <- reread_total in FC0; unfold file_error in FC0; rewrite Rabs_R0, Rplus_0_r, Rmult_1_l in FC0.
    clear FC W1 W2 W3 W4 MM KC EC SM.
    intros eps x y z EE M V XX CX CY CZ HE M0 HM VC VS.
    assert (EE0 : 0 <= EE) by (eapply Rle_trans; [apply Rabs_pos|apply (HE 0); lra]).
    destruct (solution_exists x y z 0 CX CY CZ) as [q Q].
    destruct (vector_control_exists (fun _ => 0) x y z (converted maxr maxd mn T l) (fun t => continuous_const 0 t) CX CY CZ 0) as [V0 VC0].
    destruct (vector_exists x y z T l CX CY CZ 0) as [X1 VX1].
    assert (FIN := vector_pulses T name l maxr maxd mn name' c0 _ (fun _ => 0) x y z 0 M V0 X1 CS ND LT (fun e I => proj1 (SF e I)) E0 D0 DU
      CX CY CZ ltac:(intros t _; rewrite Rabs_R0; lra) M0 (strength_all x y z M HM T) VC0 VX1).
    destruct (controls_near eps x y z EE M T m q EE0 M0 ltac:(lra) ltac:(lra) HE HM Q segs _ F l' RR POS POS0 0 0 0 V V0
      ltac:(lra) ltac:(lra) ltac:(rewrite Rminus_0_r, Rabs_R0; lra) VC VC0) as [v [v0 [-> [-> [_ [_ N]]]]]].
    apply qnear_close in N.
    assert (G1 : X1 = qmat (gfrom T q 0 l)).
    { apply (gfrom_sequence T x y z q Q l 0 X1); [lra| |intros e I; apply BT; auto|exact VX1].
      destruct l as [|e l1]; [cbn; auto|]; split; [apply BT; left; auto|exact ND]. }
    destruct (request_validity r T pre name) as [[s' [Q' [CS' [_ [_ [ND' _]]]]]] _]; [split; auto; lra|].
    rewrite E in Q'; injection Q' as <-; destruct (sequence_bounds _ _ _ CS') as [_ BT'].
    assert (G2 : XX = qmat (gfrom T q 0 l0)).
    { apply (gfrom_sequence T x y z q Q l0 0 XX); [lra| |intros e I; apply BT'; auto|exact VS].
      destruct l0 as [|e l1]; [cbn; auto|]; split; [apply BT'; left; auto|exact ND']. }
    assert (P16 : 0 <= 4 / 10 ^ 16) by (unfold Rdiv; apply Rmult_le_pos; [lra|left; apply Rinv_0_lt_compat, pow_lt; lra]).
    assert (N2 := gfrom_near x y z M q M0 HM Q (accuracy r * T) (4 / 10 ^ 16) T l l0 ltac:(apply Rmult_le_pos; lra) P16 SH).
    apply qnear_close in N2; rewrite <- G1, <- G2 in N2.
    eapply close_mono; [|eapply L_FloatPipeline.close_trans; [exact N|eapply L_FloatPipeline.close_trans; [exact FIN|exact N2]]].
    unfold controls_cost, vector_file_error; rewrite LN in *.
    set (n := INR (List.length (converted maxr maxd mn T l))) in *; set (N0 := INR (List.length l0)) in *.
    set (w := total (map active_width (converted maxr maxd mn T l))) in *; set (w1 := total (map (pulse_width maxr maxd mn) l)) in *.
    set (ro := total (map (fun g => g_rabi g * g_dur g) segs)) in *; set (rc := total (map (reread_cost m) segs)) in *.
    set (an := total (map (angle_cost 0 0 T) (converted maxr maxd mn T l))) in *; set (L := longest_pulse maxr maxd mn) in *.
    assert (NN : 0 <= N0) by apply pos_INR; assert (nn : 0 <= n) by apply pos_INR.
    rewrite mult_INR, plus_INR in CL; fold N0 in CL; change (INR 2) with (1 + 1) in CL.
    assert (P := PI_RGT_0); assert (NP : 0 <= N0 * PI) by (apply Rmult_le_pos; lra).
    assert (DL : 0 <= T / 2 ^ 48) by (unfold Rdiv; apply Rmult_le_pos; [lra|left; apply inv_pow_pos]).
    assert (K1 : M * w + M * w1 <= M * (2 * N0 * L)).
    { rewrite <- Rmult_plus_distr_l; apply Rmult_le_compat_l; lra. }
    assert (K2 : n / 2 + n * n <= (2 * N0 + 5) ^ 2) by nra.
    assert (K3 : n * (M * (T / 2 ^ 48) / 2) + M * (n * (0 + n * (T / 2 ^ 48))) <= M * ((2 * N0 + 5) ^ 2 * T / 2 ^ 48)).
    { replace (n * (M * (T / 2 ^ 48) / 2) + M * (n * (0 + n * (T / 2 ^ 48)))) with (M * (T / 2 ^ 48) * (n / 2 + n * n)) by field.
      replace (M * ((2 * N0 + 5) ^ 2 * T / 2 ^ 48)) with (M * (T / 2 ^ 48) * (2 * N0 + 5) ^ 2) by field.
      apply Rmult_le_compat_l; [apply Rmult_le_pos; auto|auto]. }
    assert (I52 : / 2 ^ 53 = / 2 ^ 50 / 8) by field; assert (I54 : / 2 ^ 54 = / 2 ^ 52 / 4) by field; assert (I53 : / 2 ^ 53 = / 2 ^ 52 / 2) by field.
    assert (I50 := inv_pow_pos 50); assert (J52 := inv_pow_pos 52).
    assert (K4 : EE * (ro / 2 + rc) <= EE * N0 * PI * (1 + / 2 ^ 50) / 2).
    { replace (EE * N0 * PI * (1 + / 2 ^ 50) / 2) with (EE * (N0 * PI * (1 + / 2 ^ 50) / 2)) by field; apply Rmult_le_compat_l; auto.
      assert (0 <= N0 * PI * / 2 ^ 50) by (apply Rmult_le_pos; lra); unfold Rdiv in FC0; rewrite I52 in FC0, ROT; lra. }
    assert (K5 : rc + an <= N0 * PI / 2 ^ 52).
    { unfold Rdiv in FC0, ANG |- *; rewrite I53 in FC0; rewrite I54 in ANG.
      assert (0 <= N0 * PI * / 2 ^ 52) by (apply Rmult_le_pos; lra); lra. }
    unfold Rdiv in *; lra.
  Qed.

  Theorem vector_request_file hsin hcos r T pre name maxr maxd mn name' d f nx ny nz :
    binary64_format T -> laboratory_duration T -> valid_request r -> moderate r -> separated r true ->
    pipeline_rates r T maxr maxd mn -> drives r pre -> vector_orders r nx ny nz ->
    exists s c l0 l',
      fl_build_sequence binary64 fsin fsquare float_pi r T pre name = Ok s /\
      fl_convert binary64 (stored_angles s) maxr maxd mn name' = Ok c /\
      file_holds f (fl_export_to_file binary64 hsin hcos d c f FILE_FORMAT_QCTRL FILE_TYPE_JSON CYLINDRICAL) l' name' /\
      build_sequence r T pre name = Ok (sequence_of T name l0) /\
      forall eps x y z E M Kx Ky Kz V,
        smooth_detuning x nx Kx T -> smooth_detuning y ny Ky T -> smooth_detuning z nz Kz T ->
        (forall t, 0 <= t -> Rabs (eps t) <= E) -> 0 <= M -> (forall t, 0 <= t -> x t ^ 2 + y t ^ 2 + z t ^ 2 <= M ^ 2) ->
        vector_control eps x y z 0 l' V ->
        close_to (vector_file_error E M T (longest_pulse maxr maxd mn) (accuracy r) (INR (List.length l0)) +
                  ((M * T) ^ 2 / 8 + (residue nx Kx T + residue ny Ky T + residue nz Kz T))) V (pulse_product l0).
  Proof.
    intros FT HL VR Mo X PR DR VO; assert (UT := T_low T HL).
    destruct (vector_sequence_file hsin hcos r T pre name maxr maxd mn name' d f FT HL VR Mo X PR DR) as [s [c [l0 [l' [A [B [C [D H]]]]]]]].
    exists s, c, l0, l'; repeat (split; [assumption|]); intros eps x y z E M Kx Ky Kz V SX SY SZ HE M0 HM VC.
    destruct (request_vector r T pre name nx ny nz ltac:(lra) VR VO) as [l [Q2 K]]; rewrite D in Q2.
    assert (EL : l0 = l) by (apply (sequence_of_inj T name l0 T name); congruence); subst l.
    destruct (vector_exists x y z T l0 (proj1 SX) (proj1 SY) (proj1 SZ) 0) as [XX VX].
    eapply L_FloatPipeline.close_trans; [exact (H eps x y z E M V XX (proj1 SX) (proj1 SY) (proj1 SZ) HE M0 HM VC VX)|].
    apply (K x y z M Kx Ky Kz XX); auto; intros t I; apply HM; lra.
  Qed.
End Files.
