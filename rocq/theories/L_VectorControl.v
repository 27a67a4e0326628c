(** * Controls under noise along every direction: lemmas *)

From Verif Require Export L_DriveExists L_VectorNoise Spec_VectorControl.
From Verif Require Import L_NoiseExact L_Remainder.
From Verif Require L_FloatPipeline.
From Verif Require Import L_FirstOrder.
From Coq Require Import Lia.
Import ListNotations.
Set Bullet Behavior "Strict Subproofs".
Open Scope string_scope.
Open Scope list_scope.
Open Scope R_scope.

Lemma pushed_quat eps x y z g t0 t1 V : pushed eps x y z g t0 t1 V -> exists q,
  qsolves (fun t => (1 + eps t) * g_rabi g * cos (g_phi g) + x t) (fun t => (1 + eps t) * g_rabi g * sin (g_phi g) + y t)
    (fun t => g_det g + z t) t0 q /\ V = qmat (q t1).
Proof.
  intros [U [U0 [D U1]]].
  destruct (solution_quat (fun t => (1 + eps t) * g_rabi g * cos (g_phi g) + x t)
    (fun t => (1 + eps t) * g_rabi g * sin (g_phi g) + y t) (fun t => g_det g + z t) t0 U U0 D) as [q [Q E]].
  exists q; split; auto; rewrite <- U1; apply E.
Qed.

(** ** Bounds on a sum of vectors *)

Lemma sum_strength a1 a2 x y z A M : 0 <= A -> 0 <= M -> a1 ^ 2 + a2 ^ 2 <= A ^ 2 -> x ^ 2 + y ^ 2 + z ^ 2 <= M ^ 2 ->
  (a1 + x) ^ 2 + (a2 + y) ^ 2 + z ^ 2 <= (M + A) ^ 2.
Proof.
  intros A0 M0 HA HM.
  assert (C : a1 * x + a2 * y <= A * M).
  { apply Rsqr_incr_0_var; [|apply Rmult_le_pos; auto]; unfold Rsqr.
    assert (K1 := pow2_ge_0 (a1 * y - a2 * x)); assert (K2 := pow2_ge_0 z); assert (K3 := pow2_ge_0 x); assert (K4 := pow2_ge_0 y).
    assert (K5 : (a1 ^ 2 + a2 ^ 2) * (x ^ 2 + y ^ 2) <= A ^ 2 * M ^ 2).
    { apply Rmult_le_compat; try lra; assert (K6 := pow2_ge_0 a1); assert (K7 := pow2_ge_0 a2); lra. }
    nra. }
  nra.
Qed.

Lemma pushed_near eps x y z g t0 w V E M : 0 <= w -> 0 <= g_rabi g -> 0 <= E -> 0 <= M -> pushed eps x y z g t0 (t0 + w) V ->
  bounded_by eps E t0 (t0 + w) -> (forall t, t0 <= t <= t0 + w -> x t ^ 2 + y t ^ 2 + z t ^ 2 <= M ^ 2) ->
  exists v, V = qmat v /\ unit_quat v /\
    qnear ((M * w + E * (g_rabi g * w)) / 2) v (qseg (g_rabi g * cos (g_phi g)) (g_rabi g * sin (g_phi g)) (g_det g) w).
Proof.
  intros W R E0 M0 D BE BM; apply pushed_quat in D; destruct D as [q [S ->]].
  exists (q (t0 + w)); split; auto; split; [eapply qsolves_unit; eauto|].
  assert (K := constant_solves (g_rabi g * cos (g_phi g)) (g_rabi g * sin (g_phi g)) (g_det g) t0).
  assert (ER : 0 <= E * g_rabi g) by (apply Rmult_le_pos; auto).
  assert (N := qsolves_near _ _ _ _ _ _ t0 _ _ (M + E * g_rabi g) (t0 + w) S K ltac:(lra) ltac:(lra)).
  cbv beta in N; replace (t0 + w - t0) with w in N by ring.
  replace ((M * w + E * (g_rabi g * w)) / 2) with ((M + E * g_rabi g) * w / 2) by field; apply N.
  intros t I; assert (BE' := BE t I); assert (BM' := BM t I); set (r := g_rabi g) in *; set (ph := g_phi g).
  replace ((1 + eps t) * r * cos ph + x t - r * cos ph) with (eps t * r * cos ph + x t) by ring.
  replace ((1 + eps t) * r * sin ph + y t - r * sin ph) with (eps t * r * sin ph + y t) by ring.
  replace (g_det g + z t - g_det g) with (z t) by ring; apply sum_strength; auto.
  replace ((eps t * r * cos ph) ^ 2 + (eps t * r * sin ph) ^ 2) with ((eps t * r) ^ 2 * ((sin ph)² + (cos ph)²)) by (unfold Rsqr; ring).
  rewrite sin2_cos2, Rmult_1_r, <- (pow2_abs (eps t * r)), Rabs_mult, (Rabs_right r) by lra.
  apply pow_incr; split; [apply Rmult_le_pos; auto; apply Rabs_pos|apply Rmult_le_compat_r; auto].
Qed.

(** ** The propagator of the noise *)

Section Pulses.
  Variables (maxr maxd mn T : R) (eps x y z : R -> R) (E M : R).
  Hypothesis Hr : 0 < maxr.
  Hypothesis Hd : 0 < maxd.
  Hypothesis Hmn : 0 <= mn.
  Hypothesis E0 : 0 <= E.
  Hypothesis M0 : 0 <= M.
  Hypothesis HE : bounded_by eps E 0 T.
  Hypothesis HM : strength_below x y z M T.
  Notation W := (pulse_width maxr maxd mn).
  Notation win := (win maxr maxd mn T).
  Notation pulse_seg := (pulse_seg maxr maxd mn).
  Notation weave := (weave maxr maxd mn T).
  Variable (q : R -> quat).
  Hypothesis Q : qsolves x y z 0 q.

  Definition G (a b : R) : quat := qmul (q b) (qconj (q a)).
  Lemma q_unit t : unit_quat (q t).
  Proof. eapply qsolves_unit; eauto. Qed.
  Lemma unit_G a b : unit_quat (G a b).
  Proof. apply unit_mul; [apply q_unit|apply qconj_unit, q_unit]. Qed.
  Lemma G_self a : G a a = qone.
  Proof. apply qconj_inverse, q_unit. Qed.
  Lemma G_chain a b c : qmul (G b c) (G a b) = G a c.
  Proof.
    unfold G; rewrite <- qmul_assoc, (qmul_assoc (qconj (q b))); rewrite (proj2 (qconj_inverse (q b) (q_unit b))), qmul_1_l; reflexivity.
  Qed.
  Lemma G_solves a : qsolves x y z a (fun t => G a t).
  Proof.
    split; [apply G_self|]; intros t; destruct Q as [_ D]; unfold G.
    eapply qderive_eq; [apply (qderive_mul _ _ _ _ _ (D t) (qderive_const (qconj (q a)) t))|].
    apply q_eq; cbn; ring.
  Qed.
  Lemma wanders_G a b V : a <= b -> wanders x y z a b V -> V = qmat (G a b).
  Proof.
    intros L Wd; apply wanders_quat in Wd; destruct Wd as [p [P ->]]; f_equal; exact (qsolves_unique _ _ _ _ _ _ b L P (G_solves a)).
  Qed.
  Lemma G_near a b : 0 <= a -> a <= b -> b <= T -> qnear (M * (b - a) / 2) (G a b) qone.
  Proof. intros A AB BT; apply (free_first x y z a (fun t => G a t) (G_solves a)); auto; intros s I; apply HM; lra. Qed.

  Definition ran_with (t0 : R) (g : seg) (V : M2) : Prop :=
    (0 < g_dur g /\ pushed eps x y z g t0 (t0 + g_dur g) V) \/ (g_dur g = 0 /\ V = mone).
  Lemma vector_filter t0 g l V : 0 <= g_dur g -> vector_control eps x y z t0 (filter lasting (g :: l)) V ->
    exists V1 V2, ran_with t0 g V1 /\ vector_control eps x y z (t0 + g_dur g) (filter lasting l) V2 /\ V = mmul V2 V1.
  Proof.
    intros P N; cbn [filter] in N; unfold lasting in N at 1; destruct (ltb 0 (g_dur g)) eqn:L.
    - apply ltb_true in L; cbn [vector_control] in N; destruct N as [V1 [V2 [D [N ->]]]].
      exists V1, V2; split; auto; left; auto.
    - apply ltb_false in L; exists mone, V; rewrite mmul_1_r.
      assert (Z : g_dur g = 0) by lra; rewrite Z, Rplus_0_r; split; auto; right; auto.
  Qed.

  Lemma ran_with_idle t0 w V : ran_with t0 (Seg 0 0 0 w) V -> V = qmat (G t0 (t0 + w)).
  Proof.
    intros [[P D]|[Z ->]]; cbn [g_dur] in *.
    - apply wanders_G; [lra|]; destruct D as [U [U0 [D U1]]]; exists U; split; auto; split; auto; intros t.
      assert (H := D t); cbn [g_rabi g_phi g_det] in H.
      replace ((1 + eps t) * 0 * cos 0 + x t) with (x t) in H by ring.
      replace ((1 + eps t) * 0 * sin 0 + y t) with (y t) in H by ring.
      rewrite Rplus_0_l in H; exact H.
    - subst w; rewrite Rplus_0_r, G_self, qmat_one; auto.
  Qed.

  Lemma ran_with_pulse e ta tm tb V : clean e -> 0 <= e_rabi e -> 0 <= ta -> ta <= tm -> tm <= tb -> tb = ta + W e -> tb <= T ->
    ran_with ta (pulse_seg e) V ->
    exists v, V = qmat v /\ unit_quat v /\
      qnear (M * W e + E * e_rabi e / 2) v (qmul (G tm tb) (qmul (qpul e) (G ta tm))).
  Proof.
    intros K P TA TM TB EB BT Rn.
    assert (S0 : 0 < / 10 ^ 8) by (apply Rinv_0_lt_compat, pow_lt; lra).
    assert (QE : 0 < W e -> exists s, pulse_seg e = s /\ g_dur s = W e /\ 0 <= g_rabi s /\ g_rabi s * W e = e_rabi e /\
      qseg (g_rabi s * cos (g_phi s)) (g_rabi s * sin (g_phi s)) (g_det s) (W e) = qpul e).
    { intros WP; exists (pulse_seg e); split; auto; split; [apply pulse_seg_dur; auto|].
      unfold L_Convert.pulse_seg.
      destruct (Rle_dec (Rabs (e_rabi e)) (/ 10 ^ 8)) as [SR|SR].
      - assert (R0 : e_rabi e = 0).
        { destruct K as [[_ [K|K]]|[K _]]; auto; unfold negligible in K; lra. }
        destruct (Rle_dec (Rabs (e_det e)) (/ 10 ^ 8)) as [SD|SD].
        + rewrite (width_idle maxr maxd mn e SR SD) in WP; lra.
        + cbn [g_rabi g_phi g_det g_dur]; split; [lra|split; [rewrite R0; ring|]].
          rewrite qpul_idle, qseg_exp, !Rmult_0_l by auto; rewrite qexp_z; f_equal; field; lra.
      - assert (D : e_det e = 0).
        { destruct K as [[K _]|[K _]]; auto; rewrite K, Rabs_R0 in SR; lra. }
        cbn [g_rabi g_phi g_det g_dur]; split; [apply Rdiv_le_0_compat; lra|split; [field; lra|]].
        unfold qpul; rewrite !qseg_exp by lra; f_equal; [field; lra|field; lra|rewrite D; ring]. }
    destruct Rn as [[WP D]|[WZ ->]].
    - rewrite pulse_seg_dur in WP by auto; destruct (QE WP) as [s [ES [DS [RS [RW QS]]]]].
      rewrite ES, DS in D.
      destruct (pushed_near eps x y z s ta (W e) V E M ltac:(lra) RS E0 M0 D) as [v [-> [U N]]].
      { intros t I; apply HE; lra. }
      { intros t I; apply HM; lra. }
      rewrite QS, RW in N; exists v; split; auto; split; auto.
      assert (I1 := G_near ta tm TA TM ltac:(lra)); assert (I2 := G_near tm tb ltac:(lra) TB BT).
      apply qnear_sym in I1; apply qnear_sym in I2.
      eapply qnear_mono; [|eapply qnear_trans; [exact N|]].
      2:{ set (p := qpul e).
          replace p with (qmul qone (qmul p qone)) at 1 by (rewrite qmul_1_r, qmul_1_l; auto).
          assert (UQ : unit_quat p) by apply unit_qseg.
          apply qnear_mul; [apply unit_G|apply unit_mul; [auto|apply unit_one]|exact I2|].
          apply qnear_left; auto; exact I1. }
      subst tb; lra.
    - rewrite pulse_seg_dur in WZ by auto.
      assert (ET : tm = ta /\ tb = ta) by lra; destruct ET as [-> EB']; rewrite EB'.
      assert (QP : e_rabi e = 0 /\ qpul e = qone).
      { destruct (Rle_dec (Rabs (e_rabi e)) (/ 10 ^ 8)) as [SR|SR].
        - assert (R0 : e_rabi e = 0).
          { destruct K as [[_ [K|K]]|[K _]]; auto; unfold negligible in K; lra. }
          split; auto; rewrite qpul_idle by auto.
          destruct (Rle_dec (Rabs (e_det e)) (/ 10 ^ 8)) as [SD|SD].
          + assert (D : e_det e = 0).
            { destruct K as [[K _]|[_ K]]; auto; unfold negligible in K; lra. }
            rewrite D; apply qz_0.
          + destruct (width_det maxr maxd mn Hd e ltac:(lra) ltac:(lra)); lra.
        - destruct (width_rabi maxr maxd mn Hr e P ltac:(lra)); lra. }
      destruct QP as [R0 QP]; exists qone; split; [symmetry; apply qmat_one|]; split; [apply unit_one|].
      rewrite QP, R0, WZ, G_self, !qmul_1_l by auto.
      replace (M * 0 + E * 0 / 2) with 0 by field; apply qnear_refl.
  Qed.

  Fixpoint gfrom (t0 : R) (l : list event) : quat :=
    match l with
    | [] => G t0 T
    | e :: l' => qmul (gfrom (e_time e) l') (qmul (qpul e) (G t0 (e_time e)))
    end.
  Lemma unit_gfrom l : forall t0, unit_quat (gfrom t0 l).
  Proof. induction l as [|e l IH]; intros t0; cbn [gfrom]; [apply unit_G|]; apply unit_mul; auto; apply unit_mul; [apply unit_qseg|apply unit_G]. Qed.
  Lemma gfrom_sequence l : forall t0 V, t0 <= T -> nondecreasing (t0 :: map e_time l) -> (forall e, In e l -> e_time e <= T) ->
    vector_sequence x y z t0 T l V -> V = qmat (gfrom t0 l).
  Proof.
    induction l as [|e l IH]; intros t0 V L ND B VS; cbn [vector_sequence gfrom] in *; [apply wanders_G; auto|].
    destruct ND as [N1 N2]; cbn [map] in N1, N2; assert (LE : e_time e <= T) by (apply B; left; auto).
    destruct VS as [V1 [V2 [W1 [W2 ->]]]]; apply wanders_G in W1; auto; apply IH in W2; auto; [|intros; apply B; right; auto].
    rewrite W1, W2, !qmat_mul; unfold qpul; rewrite <- segment_unitary_qmat; reflexivity.
  Qed.
  Lemma qpul_still t : qpul (idle t) = qone.
  Proof. rewrite qpul_idle by reflexivity; apply qz_0. Qed.
  Lemma gfrom_ends l : gfrom 0 (with_ends T l) = gfrom 0 l.
  Proof.
    assert (K : forall m, gfrom 0 (idle 0 :: m) = gfrom 0 m).
    { intros m; cbn [gfrom]; rewrite qpul_still; cbn [idle e_time]; rewrite G_self, qmul_1_l, qmul_1_r; auto. }
    assert (K2 : gfrom 0 (l ++ (if Req_EM_T (e_time (last l (idle 0))) T then [] else idle T :: nil)) = gfrom 0 l).
    { destruct (Req_EM_T (e_time (last l (idle 0))) T) as [EQ|NE]; [rewrite app_nil_r; auto|].
      clear NE K; generalize 0; induction l as [|e l IH]; intros t0; cbn [app gfrom].
      - rewrite qpul_still; cbn [idle e_time]; rewrite G_self, !qmul_1_l; auto.
      - rewrite IH; auto. }
    unfold with_ends; destruct l as [|e l']; [|destruct (Req_EM_T (e_time e) 0)]; cbn [app]; rewrite ?K; auto.
  Qed.

  Definition vcost (e : event) : R := M * W e + E * e_rabi e / 2.

  Lemma weave_pushed F : forall e V, (forall f, In f (e :: F) -> clean f /\ 0 <= e_rabi f /\ 0 <= e_time f <= T) ->
    snd (win (last (e :: F) e)) = T -> 0 <= fst (win e) -> (forall g, In g (gaps (map win (e :: F))) -> 0 <= g) ->
    vector_control eps x y z (fst (win e)) (filter lasting (weave (e :: F))) V ->
    exists v, V = qmat v /\ unit_quat v /\ qnear (total (map vcost (e :: F))) v (gfrom (fst (win e)) (e :: F)).
  Proof.
    induction F as [|f F IH]; intros e V H L P GP N.
    - destruct (H e (or_introl eq_refl)) as [K [R0 BT]]; assert (WT := window_time maxr maxd mn T Hmn e BT).
      assert (WW := win_width maxr maxd mn T e); cbn [last] in L.
      cbn [L_Convert.weave gap_after] in N; apply vector_filter in N;
        [|rewrite pulse_seg_dur by auto; apply width_nonneg; auto].
      destruct N as [V1 [V2 [R1 [N ->]]]]; apply vector_filter in N; [|cbn; lra].
      destruct N as [V3 [V4 [[[Q1 _]|[_ ->]] [N ->]]]]; [cbn in Q1; lra|].
      cbn in N; subst V4; rewrite !mmul_1_l.
      destruct (ran_with_pulse e (fst (win e)) (e_time e) (snd (win e)) V1) as [v [-> [U NV]]]; auto; try lra.
      exists v; split; auto; split; auto; cbn [map total gfrom]; rewrite Rplus_0_r; rewrite L in NV; exact NV.
    - destruct (H e (or_introl eq_refl)) as [K [R0 BT]]; assert (WT := window_time maxr maxd mn T Hmn e BT).
      destruct (H f (or_intror (or_introl eq_refl))) as [_ [_ BF]]; assert (WF := window_time maxr maxd mn T Hmn f BF).
      assert (WW := win_width maxr maxd mn T e).
      assert (LE : forall d d' : event, last (f :: F) d = last (f :: F) d').
      { clear; intros d d'; revert f; induction F as [|g F IH]; intros f; auto; apply (IH g). }
      change (last (e :: f :: F) e) with (last (f :: F) e) in L; rewrite (LE e f) in L.
      set (g := fst (win f) - snd (win e)) in *.
      assert (GG : gaps (map win (e :: f :: F)) = g :: gaps (map win (f :: F))).
      { unfold g; cbn [map gaps]; destruct (win e), (win f); reflexivity. }
      rewrite GG in GP; assert (G0 : 0 <= g) by (apply GP; left; auto).
      change (weave (e :: f :: F)) with (pulse_seg e :: Seg 0 0 0 g :: weave (f :: F)) in N.
      apply vector_filter in N; [|rewrite pulse_seg_dur by auto; apply width_nonneg; auto].
      destruct N as [V1 [V2 [R1 [N ->]]]]; apply vector_filter in N; [|cbn; lra].
      destruct N as [V3 [V4 [R3 [N ->]]]].
      rewrite pulse_seg_dur, <- WW in R3, N by auto; cbn [g_dur] in N; apply ran_with_idle in R3.
      replace (snd (win e) + g) with (fst (win f)) in R3, N by (unfold g; ring).
      destruct (IH f V4 (fun h I => H h (or_intror I)) L ltac:(unfold g in *; lra) (fun h I => GP h (or_intror I)) N) as [v4 [-> [U4 N4]]].
      destruct (ran_with_pulse e (fst (win e)) (e_time e) (snd (win e)) V1) as [v1 [-> [U1 N1]]]; auto; try (unfold g in *; lra).
      subst V3; exists (qmul (qmul v4 (G (snd (win e)) (fst (win f)))) v1).
      split; [rewrite !qmat_mul; auto|]; split; [apply unit_mul; [apply unit_mul; [auto|apply unit_G]|auto]|].
      change (map vcost (e :: f :: F)) with (vcost e :: map vcost (f :: F)).
      change (total (vcost e :: map vcost (f :: F))) with (vcost e + total (map vcost (f :: F))).
      change (gfrom (fst (win e)) (e :: f :: F)) with
        (qmul (gfrom (e_time e) (f :: F)) (qmul (qpul e) (G (fst (win e)) (e_time e)))).
      assert (SH : gfrom (e_time e) (f :: F) = qmul (gfrom (fst (win f)) (f :: F)) (G (e_time e) (fst (win f)))).
      { cbn [gfrom]; rewrite <- !qmul_assoc, G_chain; reflexivity. }
      rewrite SH, <- (G_chain (e_time e) (snd (win e)) (fst (win f))).
      rewrite (Rplus_comm (vcost e)), (qmul_assoc (gfrom _ _)), <- (qmul_assoc _ (G (e_time e) (snd (win e)))).
      apply qnear_mul; [apply unit_mul; [apply unit_gfrom|apply unit_G]|auto| |exact N1].
      apply qnear_right; [apply unit_G|exact N4].
  Qed.

  Lemma vcost_total l : total (map vcost l) = M * total (map W l) + E * total (map e_rabi l) / 2.
  Proof. induction l as [|e l IH]; cbn [map total]; [field|]; rewrite IH; unfold vcost; field. Qed.
End Pulses.

Theorem vector_pulses T n0 l maxr maxd mn name c segs eps x y z E M V X :
  constructible_sequence (sequence_of T n0 l) -> nondecreasing (map e_time l) -> / 10 ^ 8 < T -> (forall e, In e l -> clean e) ->
  convert_dds_to_driven_control (sequence_of T n0 l) maxr maxd mn name = Ok c -> describes segs c -> duration c = T ->
  (forall t, continuous x t) -> (forall t, continuous y t) -> (forall t, continuous z t) ->
  bounded_by eps E 0 T -> 0 <= M -> strength_below x y z M T ->
  vector_control eps x y z 0 segs V -> vector_sequence x y z 0 T l X ->
  close_to (M * total (map (pulse_width maxr maxd mn) l) + E * total (map e_rabi l) / 2) V X.
Proof.
  intros CS ND LT K EC D' DU CX CY CZ HE M0 HM N NS; assert (S0 : 0 < / 10 ^ 8) by (apply Rinv_0_lt_compat, pow_lt; lra).
  destruct (conversion_duration T n0 l maxr maxd mn name c CS EC) as [_ [_ [OV _]]]; assert (OV' := OV LT).
  destruct (conversion_result _ _ _ _ _ _ _ _ CS EC) as [HT [B [C [D _]]]].
  assert (segs = converted maxr maxd mn T l) by (eapply describes_unique; eauto); subst segs.
  assert (E0 : 0 <= E) by (assert (H := HE 0); eapply Rle_trans; [apply Rabs_pos|apply H; lra]).
  destruct (solution_exists x y z 0 CX CY CZ) as [q Q].
  rewrite converted_long in N by auto.
  apply (gfrom_sequence T x y z q Q) in NS; [|lra| |intros e I; apply B; auto].
  2:{ destruct l as [|e l]; [cbn; auto|]; split; [apply B; left; auto|exact ND]. }
  rewrite <- (gfrom_ends T x y z q Q) in NS.
  destruct (first_last maxr maxd mn T l C HT B) as [e0 [F [S [A Z]]]].
  assert (QW := weave_pushed maxr maxd mn T eps x y z E M (proj1 C) (proj1 (proj2 C)) (proj1 (proj2 (proj2 C))) E0 M0 HE HM q Q F e0 V).
  rewrite S in NS; rewrite A in QW; rewrite S in N.
  destruct QW as [v [-> [_ QW]]]; auto.
  - rewrite <- S; intros f I; split; [|split].
    + apply with_ends_in in I; destruct I as [I|[->| ->]]; auto; apply clean_idle.
    + apply (rabi_pos maxr maxd mn T l C); auto.
    + apply with_ends_in in I; destruct I as [I|[->| ->]]; auto; cbn; lra.
  - lra.
  - rewrite <- S; apply overlap_none; fold (idle_times maxr maxd mn T l); unfold idle_times in OV'.
    change (map (fun e => window T (pulse_width maxr maxd mn e) (e_time e)) (with_ends T l))
      with (map (win maxr maxd mn T) (with_ends T l)) in OV'; lra.
  - rewrite NS; apply qnear_close; rewrite <- S in QW |- *.
    rewrite with_ends_total, vcost_total in QW; [exact QW|].
    intros t; unfold vcost; rewrite width_idle; cbn [idle e_rabi e_det]; [field| |]; rewrite Rabs_R0; lra.
Qed.

(** ** Predefined sequences *)

Theorem vector_predefined r T pre name s maxr maxd mn name' c segs nx ny nz :
  / 10 ^ 8 < T -> build_sequence r T pre name = Ok s -> vector_orders r nx ny nz ->
  convert_dds_to_driven_control s maxr maxd mn name' = Ok c -> describes segs c -> duration c = T ->
  exists l, s = sequence_of T name l /\
  forall eps x y z E M Kx Ky Kz V,
  smooth_detuning x nx Kx T -> smooth_detuning y ny Ky T -> smooth_detuning z nz Kz T ->
  bounded_by eps E 0 T -> 0 <= M -> strength_below x y z M T ->
  vector_control eps x y z 0 segs V ->
  close_to (M * total (map (pulse_width maxr maxd mn) l) + E * total (map e_rabi l) / 2 +
            ((M * T) ^ 2 / 8 + (residue nx Kx T + residue ny Ky T + residue nz Kz T))) V (pulse_product l).
Proof.
  intros LT B VO C D DU; assert (S0 : 0 < / 10 ^ 8) by (apply Rinv_0_lt_compat, pow_lt; lra).
  assert (VR : valid_request r).
  { destruct (valid_request_dec r) as [H|H]; auto; exfalso.
    destruct (request_invalid r T pre name) as [m [a [b X]]]; [tauto|congruence]. }
  destruct (request_pulses r VR) as [rel [DR _]].
  assert (CLEAN := predefined_clean pre T (map (scale T) rel)).
  assert (Q := DR T pre name ltac:(lra)); rewrite B in Q.
  destruct (request_validity r T pre name) as [[s' [Q' [CS [_ [_ [ND _]]]]]] _]; [split; auto; lra|].
  rewrite B in Q'; injection Q' as <-.
  destruct (request_vector r T pre name nx ny nz ltac:(lra) VR VO) as [l [Q2 H]]; rewrite B in Q2; injection Q2 as ->.
  assert (LL : l = with_pre_post pre T (map (scale T) rel)) by (apply (sequence_of_inj T name l T name); congruence).
  exists l; split; auto; intros eps x y z E M Kx Ky Kz V SX SY SZ BE M0 SB VC.
  destruct (vector_exists x y z T l (proj1 SX) (proj1 SY) (proj1 SZ) 0) as [X VX].
  assert (CL : forall e, In e l -> clean e) by (subst l; intros e I; apply (CLEAN e I)).
  eapply L_FloatPipeline.close_trans; [|apply (H x y z M Kx Ky Kz X); auto].
  exact (vector_pulses T name l maxr maxd mn name' c segs eps x y z E M V X CS ND LT CL C D DU
    (proj1 SX) (proj1 SY) (proj1 SZ) BE M0 SB VC VX).
Qed.

(** ** Solutions *)

Lemma pushed_exists eps x y z g t0 t1 : (forall t, continuous eps t) -> (forall t, continuous x t) -> (forall t, continuous y t) ->
  (forall t, continuous z t) -> exists V, pushed eps x y z g t0 t1 V.
Proof.
  intros CE CX CY CZ.
  assert (L : forall (k : R) (f : R -> R), (forall t, continuous f t) -> forall t, continuous (fun t => (1 + eps t) * g_rabi g * k + f t) t).
  { intros k f CF t; apply (continuous_plus (fun t => (1 + eps t) * g_rabi g * k) f); [|apply CF].
    apply (continuous_mult (fun t => (1 + eps t) * g_rabi g) (fun _ => k)); [|apply continuous_const].
    apply (continuous_mult (fun t => 1 + eps t) (fun _ => g_rabi g)); [|apply continuous_const].
    apply (continuous_plus (fun _ => 1) eps); [apply continuous_const|apply CE]. }
  destruct (solution_exists (fun t => (1 + eps t) * g_rabi g * cos (g_phi g) + x t)
    (fun t => (1 + eps t) * g_rabi g * sin (g_phi g) + y t) (fun t => g_det g + z t) t0) as [q Q].
  - apply (L (cos (g_phi g)) x CX).
  - apply (L (sin (g_phi g)) y CY).
  - intros t; apply (continuous_plus (fun _ => g_det g) z); [apply continuous_const|apply CZ].
  - apply qsolves_mat in Q; destruct Q as [Q D]; exists (qmat (q t1)), (fun t => qmat (q t)); auto.
Qed.
Theorem vector_control_exists eps x y z l : (forall t, continuous eps t) -> (forall t, continuous x t) -> (forall t, continuous y t) ->
  (forall t, continuous z t) -> forall t0, exists V, vector_control eps x y z t0 l V.
Proof.
  intros CE CX CY CZ; induction l as [|g l IH]; intros t0; cbn [vector_control]; [eauto|].
  destruct (pushed_exists eps x y z g t0 (t0 + g_dur g) CE CX CY CZ) as [V1 D]; destruct (IH (t0 + g_dur g)) as [V2 N].
  exists (mmul V2 V1), V1, V2; auto.
Qed.
Lemma pushed_unique eps x y z g t0 t1 V W : t0 <= t1 -> pushed eps x y z g t0 t1 V -> pushed eps x y z g t0 t1 W -> V = W.
Proof.
  intros L A B; apply pushed_quat in A, B; destruct A as [q [Q ->]], B as [p [P ->]]; f_equal; exact (qsolves_unique _ _ _ _ _ _ t1 L Q P).
Qed.
Theorem vector_control_unique eps x y z l : (forall g, In g l -> 0 <= g_dur g) -> forall t0 V W,
  vector_control eps x y z t0 l V -> vector_control eps x y z t0 l W -> V = W.
Proof.
  induction l as [|g l IH]; intros P t0 V W; cbn [vector_control]; [congruence|].
  intros [A [B [D [N ->]]]] [A' [B' [D' [N' ->]]]]; assert (P0 : 0 <= g_dur g) by (apply P; left; auto).
  assert (B = B') by (eapply IH; eauto; intros; apply P; right; auto).
  assert (A = A') by (apply (pushed_unique eps x y z g t0 (t0 + g_dur g)); auto; lra); subst; reflexivity.
Qed.
Lemma vector_control_detuning eps beta l : forall t0 V,
  vector_control eps (fun _ => 0) (fun _ => 0) beta t0 l V <-> noisy_control eps beta t0 l V.
Proof.
  assert (K : forall g t0 t1 V, pushed eps (fun _ => 0) (fun _ => 0) beta g t0 t1 V <-> driven eps beta g t0 t1 V).
  { intros g t0 t1 V; split; intros [U [U0 [D U1]]]; exists U; (split; [exact U0|split; [|exact U1]]); intros t; specialize (D t); cbv beta in D |- *.
    - rewrite !Rplus_0_r in D; exact D.
    - rewrite !Rplus_0_r; exact D. }
  induction l as [|g l IH]; intros t0 V; cbn [vector_control noisy_control]; [reflexivity|].
  split; intros [V1 [V2 [A [B ->]]]]; exists V1, V2.
  - split; [exact (proj1 (K _ _ _ _) A)|split; [exact (proj1 (IH _ _) B)|reflexivity]].
  - split; [exact (proj2 (K _ _ _ _) A)|split; [exact (proj2 (IH _ _) B)|reflexivity]].
Qed.
