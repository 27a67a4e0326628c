(** * Converted sequences under noise *)

From Coq Require Import Lia.
From Verif Require Export L_PreConvert L_QuatNorm.
Import ListNotations.
Open Scope string_scope.
Open Scope list_scope.
Open Scope R_scope.

(** ** Evolutions as quaternions *)

Definition qpulse (e : event) : quat := qexp (e_rabi e * cos (e_phi e)) (e_rabi e * sin (e_phi e)) (e_det e).
Lemma pulse_unitary_qmat e : pulse_unitary e = qmat (qpulse e).
Proof. apply segment_unitary_qmat. Qed.

Section Ideal.
  Variable delta : R.
  Fixpoint qideal (t0 T : R) (l : list event) : quat :=
    match l with
    | [] => qz (delta * T - delta * t0)
    | e :: l' => qmul (qideal (e_time e) T l') (qmul (qpulse e) (qz (delta * e_time e - delta * t0)))
    end.

  Lemma evolution_ideal T l : forall t0, evolution_from (fun t => delta * t) t0 T l = qmat (qideal t0 T l).
  Proof.
    induction l as [|e l IH]; intros t0; cbn [evolution_from qideal]; [apply z_rotation_qmat|].
    rewrite IH, pulse_unitary_qmat, z_rotation_qmat, <- !qmat_mul; auto.
  Qed.

  Lemma ideal_shift T l t0 s : qideal t0 T l = qmul (qideal s T l) (qz (delta * s - delta * t0)).
  Proof.
    destruct l as [|e l]; cbn [qideal].
    - rewrite qz_add; f_equal; ring.
    - rewrite <- !qmul_assoc, qz_add; do 3 f_equal; ring.
  Qed.

  Lemma unit_ideal T l : forall t0, unit_quat (qideal t0 T l).
  Proof.
    induction l as [|e l IH]; intros t0; cbn [qideal]; [apply unit_qz|].
    repeat apply unit_mul; auto; [apply unit_qexp|apply unit_qz].
  Qed.
End Ideal.

Lemma qexp_z z : qexp 0 0 z = qz z.
Proof.
  apply qmat_inj; rewrite <- z_rotation_qmat, <- (pulse_detuning 0 0 z), pulse_unitary_qmat; unfold qpulse; cbn [e_rabi e_phi e_det].
  rewrite !Rmult_0_l; auto.
Qed.

Section Pulses.
  Variables (maxr maxd mn T eps delta : R).
  Hypothesis Hr : 0 < maxr.
  Hypothesis Hd : 0 < maxd.
  Hypothesis Hmn : 0 <= mn.
  Notation W := (pulse_width maxr maxd mn).
  Notation win := (win maxr maxd mn T).
  Notation pulse_seg := (pulse_seg maxr maxd mn).
  Notation weave := (weave maxr maxd mn T).

  Definition once (g : seg) : quat := if lasting g then qnoisy eps delta g else qone.

  Lemma filter_once g l :
    qevolution eps delta (filter lasting (g :: l)) = qmul (qevolution eps delta (filter lasting l)) (once g).
  Proof. unfold once; cbn [filter]; destruct (lasting g); cbn [qevolution]; rewrite ?qmul_1_r; auto. Qed.

  Lemma unit_once g : unit_quat (once g).
  Proof.
    unfold once, lasting; destruct (ltb 0 (g_dur g)) eqn:L; [|apply unit_one].
    apply ltb_true in L; unfold qnoisy; rewrite qseg_exp by auto; apply unit_qexp.
  Qed.

  Lemma gap_near x : qnear (Rabs delta * Rmax 0 (- x) / 2) (once (Seg 0 0 0 x)) (qz (delta * x)).
  Proof.
    unfold once, lasting; cbn [g_dur]; destruct (ltb 0 x) eqn:L.
    - apply ltb_true in L; unfold qnoisy; cbn [g_rabi g_phi g_det g_dur]; rewrite qseg_exp by auto.
      rewrite !Rmult_0_r, !Rmult_0_l, Rplus_0_l, qexp_z, Rmax_left by lra.
      rewrite Rmult_0_r; replace (0 / 2) with 0 by field; apply qnear_refl.
    - apply ltb_false in L; rewrite Rmax_right by lra.
      replace (Rabs delta * - x / 2) with (Rabs (0 - delta * x) / 2).
      + rewrite <- qz_0; apply qz_near.
      + rewrite Rminus_0_l, Rabs_Ropp, Rabs_mult, (Rabs_left1 x) by auto; auto.
  Qed.

  Lemma pulse_near e a b : clean e -> 0 <= e_rabi e -> 0 <= a -> 0 <= b -> a + b = W e ->
    qnear (Rabs delta * W e + Rabs eps * e_rabi e / 2) (once (pulse_seg e))
      (qmul (qz (delta * b)) (qmul (qpulse e) (qz (delta * a)))).
  Proof.
    intros K P A B AB.
    assert (S0 : 0 < / 10 ^ 8) by (apply Rinv_0_lt_compat, pow_lt; lra).
    assert (D0 := Rabs_pos delta); assert (E0 := Rabs_pos eps).
    assert (W0 : 0 <= W e) by (apply width_nonneg; auto).
    assert (N0 : 0 <= Rabs delta * W e + Rabs eps * e_rabi e / 2).
    { assert (0 <= Rabs delta * W e) by (apply Rmult_le_pos; auto); assert (0 <= Rabs eps * e_rabi e) by (apply Rmult_le_pos; auto); lra. }
    assert (ZZ : forall z, qmul (qz (delta * b)) (qmul (qz z) (qz (delta * a))) = qz (z + delta * W e)).
    { intros z; rewrite !qz_add; f_equal; rewrite <- AB; ring. }
    destruct (Rle_dec (Rabs (e_rabi e)) (/ 10 ^ 8)) as [SR|SR].
    - assert (R0 : e_rabi e = 0).
      { destruct K as [[_ [K|K]]|[K _]]; auto; unfold negligible in K; lra. }
      assert (QP : qpulse e = qz (e_det e)).
      { unfold qpulse; rewrite R0, !Rmult_0_l; apply qexp_z. }
      rewrite QP, ZZ; eapply qnear_mono; [exact N0|].
      unfold once, L_Convert.pulse_seg, lasting.
      destruct (Rle_dec (Rabs (e_rabi e)) (/ 10 ^ 8)); [|lra].
      destruct (Rle_dec (Rabs (e_det e)) (/ 10 ^ 8)) as [SD|SD].
      + assert (D : e_det e = 0).
        { destruct K as [[K _]|[_ K]]; auto; unfold negligible in K; lra. }
        assert (WZ : W e = 0) by (apply width_idle; auto).
        cbn [g_dur]; destruct (ltb 0 0) eqn:L; [apply ltb_true in L; lra|].
        rewrite D, WZ, Rmult_0_r, Rplus_0_r, qz_0; apply qnear_refl.
      + destruct (width_det maxr maxd mn Hd e ltac:(lra) ltac:(lra)) as [_ WP].
        cbn [g_dur]; rewrite (proj2 (ltb_true 0 (W e)) WP); unfold qnoisy; cbn [g_rabi g_phi g_det g_dur].
        rewrite qseg_exp, !Rmult_0_r, !Rmult_0_l, qexp_z by auto.
        replace ((e_det e / W e + delta) * W e) with (e_det e + delta * W e) by (field; lra); apply qnear_refl.
    - assert (D : e_det e = 0).
      { destruct K as [[K _]|[K _]]; auto; rewrite K, Rabs_R0 in SR; lra. }
      destruct (width_rabi maxr maxd mn Hr e P ltac:(lra)) as [_ WP].
      assert (ON : once (pulse_seg e) =
        qexp ((1 + eps) * e_rabi e * cos (e_phi e)) ((1 + eps) * e_rabi e * sin (e_phi e)) (delta * W e)).
      { unfold once, L_Convert.pulse_seg, lasting.
        destruct (Rle_dec (Rabs (e_rabi e)) (/ 10 ^ 8)); [lra|].
        cbn [g_dur]; rewrite (proj2 (ltb_true 0 (W e)) WP); unfold qnoisy; cbn [g_rabi g_phi g_det g_dur].
        rewrite qseg_exp by auto; f_equal; field; lra. }
      rewrite ON; unfold qpulse; rewrite D.
      set (r := e_rabi e) in *; set (ph := e_phi e).
      replace (Rabs delta * W e + Rabs eps * r / 2) with
        ((Rabs eps * r + Rabs delta * W e) / 2 + (Rabs (0 - delta * b) / 2 + Rabs (0 - delta * a) / 2)).
      2:{ rewrite !Rminus_0_l, !Rabs_Ropp, !Rabs_mult, (Rabs_right a), (Rabs_right b) by lra; rewrite <- AB; field. }
      eapply qnear_trans.
      + apply (qexp_near _ _ _ (r * cos ph) (r * sin ph) 0).
        * assert (0 <= Rabs eps * r) by (apply Rmult_le_pos; auto); assert (0 <= Rabs delta * W e) by (apply Rmult_le_pos; auto); lra.
        * replace (((1 + eps) * r * cos ph - r * cos ph) ^ 2 + ((1 + eps) * r * sin ph - r * sin ph) ^ 2 + (delta * W e - 0) ^ 2)
            with ((eps * r) ^ 2 * ((sin ph)² + (cos ph)²) + (delta * W e) ^ 2) by (unfold Rsqr; ring).
          rewrite sin2_cos2, Rmult_1_r; replace (2 * ((Rabs eps * r + Rabs delta * W e) / 2)) with (Rabs eps * r + Rabs delta * W e) by field.
          rewrite <- (pow2_abs (eps * r)), <- (pow2_abs (delta * W e)), !Rabs_mult, (Rabs_right r), (Rabs_right (W e)) by lra.
          assert (0 <= Rabs eps * r) by (apply Rmult_le_pos; auto); assert (0 <= Rabs delta * W e) by (apply Rmult_le_pos; auto); nra.
      + set (q := qexp (r * cos ph) (r * sin ph) 0).
        replace q with (qmul (qz 0) (qmul q (qz 0))) at 1 by (rewrite qz_0, qmul_1_r, qmul_1_l; auto).
        assert (UQ : unit_quat q) by apply unit_qexp.
        apply qnear_mul; [apply unit_qz|apply unit_mul; [auto|apply unit_qz]|apply qz_near|].
        apply qnear_left; auto; apply qz_near.
  Qed.

  Definition cost (e : event) : R := Rabs delta * W e + Rabs eps * e_rabi e / 2.

  Lemma window_time e : 0 <= e_time e <= T -> fst (win e) <= e_time e <= snd (win e).
  Proof.
    intros B; assert (W0 := width_nonneg maxr maxd mn e Hmn).
    unfold L_Convert.win, window, centre; destruct (Req_EM_T (e_time e) 0); cbn [fst snd]; [lra|].
    destruct (Req_EM_T (e_time e) T); lra.
  Qed.

  Lemma weave_near F : forall e, (forall f, In f (e :: F) -> clean f /\ 0 <= e_rabi f /\ 0 <= e_time f <= T) ->
    snd (win (last (e :: F) e)) = T ->
    qnear (total (map cost (e :: F)) + Rabs delta * overlap (gaps (map win (e :: F))) / 2)
      (qevolution eps delta (filter lasting (weave (e :: F)))) (qideal delta (fst (win e)) T (e :: F)).
  Proof.
    induction F as [|f F IH]; intros e H L.
    - destruct (H e (or_introl eq_refl)) as [K [P B]]; assert (WT := window_time e B).
      assert (WW := win_width maxr maxd mn T e); cbn [last] in L.
      cbn [L_Convert.weave gap_after]; rewrite !filter_once; cbn [filter qevolution map total qideal].
      replace (gaps [win e]) with (@nil R) by (cbn; destruct (win e); auto).
      unfold overlap; cbn [map total].
      replace (cost e + 0 + Rabs delta * 0 / 2) with (cost e) by field.
      replace (once (Seg 0 0 0 0)) with qone.
      2:{ unfold once, lasting; cbn [g_dur]; destruct (ltb 0 0) eqn:Q; auto; apply ltb_true in Q; lra. }
      rewrite !qmul_1_l.
      replace (delta * T - delta * e_time e) with (delta * (T - e_time e)) by ring.
      replace (delta * e_time e - delta * fst (win e)) with (delta * (e_time e - fst (win e))) by ring.
      apply pulse_near; auto; lra.
    - destruct (H e (or_introl eq_refl)) as [K [P B]]; assert (WT := window_time e B).
      assert (WW := win_width maxr maxd mn T e).
      change (weave (e :: f :: F)) with (pulse_seg e :: Seg 0 0 0 (fst (win f) - snd (win e)) :: weave (f :: F)).
      rewrite !filter_once.
      assert (LE : forall d d' : event, last (f :: F) d = last (f :: F) d').
      { clear; intros d d'; revert f; induction F as [|g F IH]; intros f; auto; apply (IH g). }
      change (last (e :: f :: F) e) with (last (f :: F) e) in L; rewrite (LE e f) in L.
      assert (I := IH f (fun g G => H g (or_intror G)) L).
      set (g := fst (win f) - snd (win e)).
      assert (GG : gaps (map win (e :: f :: F)) = g :: gaps (map win (f :: F))).
      { unfold g; cbn [map gaps]; destruct (win e), (win f); reflexivity. }
      rewrite GG; change (map cost (e :: f :: F)) with (cost e :: map cost (f :: F)); unfold overlap; cbn [map]; cbn [total].
      fold (map cost F) (overlap (gaps (map win (f :: F)))).
      change (qideal delta (fst (win e)) T (e :: f :: F)) with
        (qmul (qideal delta (e_time e) T (f :: F)) (qmul (qpulse e) (qz (delta * e_time e - delta * fst (win e))))).
      rewrite (ideal_shift delta T (f :: F) (e_time e) (fst (win f))).
      replace (qz (delta * fst (win f) - delta * e_time e)) with (qmul (qz (delta * g)) (qz (delta * (snd (win e) - e_time e))))
        by (rewrite qz_add; f_equal; unfold g; ring).
      replace (delta * e_time e - delta * fst (win e)) with (delta * (e_time e - fst (win e))) by ring.
      rewrite <- !qmul_assoc; rewrite (qmul_assoc (qideal _ _ _ _) (qz _)).
      set (X := qideal delta (fst (win f)) T (f :: F)) in *.
      set (Y := qevolution eps delta (filter lasting (weave (f :: F)))) in *.
      rewrite qmul_assoc.
      eapply qnear_mono; [|apply qnear_mul;
        [apply unit_mul; [apply unit_ideal|apply unit_qz]|apply unit_once|
         apply qnear_mul; [apply unit_ideal|apply unit_once|exact I|apply gap_near]|
         apply (pulse_near e (e_time e - fst (win e)) (snd (win e) - e_time e)); auto; lra]].
      fold (cost e); unfold overlap; cbn [map total]; fold (gaps (map win (f :: F))); lra.
  Qed.
End Pulses.

(** ** The idle events at the ends *)

Lemma total_app a b : total (a ++ b) = total a + total b.
Proof. induction a as [|x a IH]; cbn [app total]; [ring|rewrite IH; ring]. Qed.

Lemma with_ends_total (f : event -> R) T l : (forall t, f (idle t) = 0) -> total (map f (with_ends T l)) = total (map f l).
Proof.
  intros H; unfold with_ends; rewrite !map_app, !total_app.
  assert (A : total (map f match l with [] => [idle 0] | e :: _ => if Req_EM_T (e_time e) 0 then [] else [idle 0] end) = 0).
  { destruct l as [|e l']; [|destruct (Req_EM_T (e_time e) 0)]; cbn [map total]; rewrite ?H; ring. }
  assert (Z : total (map f (if Req_EM_T (e_time (last l (idle 0))) T then [] else [idle T])) = 0).
  { destruct (Req_EM_T (e_time (last l (idle 0))) T); cbn [map total]; rewrite ?H; ring. }
  rewrite A, Z; ring.
Qed.

Lemma z_sum a b : mmul (z_rotation a) (z_rotation b) = z_rotation (a + b).
Proof. rewrite !z_rotation_qmat, <- qmat_mul, qz_add; auto. Qed.

Lemma evolution_idle_end B T l : forall t0, evolution_from B t0 T (l ++ [idle T]) = evolution_from B t0 T l.
Proof.
  induction l as [|e l IH]; intros t0; cbn [app evolution_from].
  - rewrite pulse_idle, mmul_1_l; cbn [idle e_time]; rewrite z_sum; f_equal; ring.
  - rewrite IH; auto.
Qed.

Lemma with_ends_evolution B T l : dephased_evolution B T (with_ends T l) = dephased_evolution B T l.
Proof.
  unfold dephased_evolution, with_ends.
  assert (K : forall m, evolution_from B 0 T (idle 0 :: m) = evolution_from B 0 T m).
  { intros m; cbn [evolution_from]; rewrite pulse_idle, mmul_1_l; cbn [idle e_time].
    replace (B 0 - B 0) with 0 by ring; rewrite z_rotation_0, mmul_1_r; auto. }
  assert (K2 : evolution_from B 0 T (l ++ (if Req_EM_T (e_time (last l (idle 0))) T then [] else [idle T])) = evolution_from B 0 T l).
  { destruct (Req_EM_T (e_time (last l (idle 0))) T); [rewrite app_nil_r; auto|apply evolution_idle_end]. }
  destruct l as [|e l']; [|destruct (Req_EM_T (e_time e) 0)]; cbn [app]; rewrite ?K; auto.
Qed.

Lemma cost_total maxr maxd mn eps delta l : total (map (cost maxr maxd mn eps delta) l) =
  Rabs delta * total (map (pulse_width maxr maxd mn) l) + Rabs eps * total (map e_rabi l) / 2.
Proof. induction l as [|e l IH]; cbn [map total]; [field|]; rewrite IH; unfold cost; field. Qed.

(** ** C67 *)

Lemma finite_pulses_overlap T n0 l maxr maxd mn name c segs eps delta :
  constructible_sequence (sequence_of T n0 l) -> / 10 ^ 8 < T -> (forall e, In e l -> clean e) ->
  convert_dds_to_driven_control (sequence_of T n0 l) maxr maxd mn name = Ok c -> describes segs c ->
  close_to (Rabs delta * (total (map (pulse_width maxr maxd mn) l) + overlap (idle_times maxr maxd mn T l) / 2) +
            Rabs eps * total (map e_rabi l) / 2)
    (noisy_evolution eps delta segs) (dephased_evolution (fun t => delta * t) T l).
Proof.
  intros CS LT K E D'; assert (S0 : 0 < / 10 ^ 8) by (apply Rinv_0_lt_compat, pow_lt; lra).
  destruct (conversion_result _ _ _ _ _ _ _ _ CS E) as [HT [B [C [D _]]]].
  assert (segs = converted maxr maxd mn T l) by (eapply describes_unique; eauto); subst segs.
  rewrite converted_long by auto; rewrite noisy_evolution_qmat, <- with_ends_evolution.
  destruct (first_last maxr maxd mn T l C HT B) as [e0 [F [S [A Z]]]].
  assert (Q := weave_near maxr maxd mn T eps delta (proj1 C) (proj1 (proj2 C)) (proj1 (proj2 (proj2 C))) F e0).
  unfold dephased_evolution; rewrite evolution_ideal, S; rewrite A in Q; apply qnear_close.
  eapply qnear_mono; [|apply Q; auto].
  - rewrite <- S; unfold idle_times; change (map (fun e => window T (pulse_width maxr maxd mn e) (e_time e)) (with_ends T l))
      with (map (win maxr maxd mn T) (with_ends T l)).
    rewrite with_ends_total; [rewrite cost_total; lra|].
    intros t; unfold cost; rewrite width_idle; cbn [idle e_rabi e_det]; [field| |]; rewrite Rabs_R0; lra.
  - rewrite <- S; intros f I; split; [|split].
    + apply with_ends_in in I; destruct I as [I|[->| ->]]; auto; apply clean_idle.
    + apply (rabi_pos maxr maxd mn T l C); auto.
    + apply with_ends_in in I; destruct I as [I|[->| ->]]; auto; cbn; lra.
Qed.

Theorem finite_pulses T n0 l maxr maxd mn name c segs eps delta :
  constructible_sequence (sequence_of T n0 l) -> / 10 ^ 8 < T -> (forall e, In e l -> clean e) ->
  convert_dds_to_driven_control (sequence_of T n0 l) maxr maxd mn name = Ok c -> describes segs c ->
  close_to (Rabs delta * (total (map (pulse_width maxr maxd mn) l) + (duration c - T) / 2) +
            Rabs eps * total (map e_rabi l) / 2)
    (noisy_evolution eps delta segs) (dephased_evolution (fun t => delta * t) T l).
Proof.
  intros CS LT K E D.
  destruct (conversion_duration T n0 l maxr maxd mn name c CS E) as [_ [_ [L _]]]; rewrite (L LT).
  replace (T + overlap (idle_times maxr maxd mn T l) - T) with (overlap (idle_times maxr maxd mn T l)) by ring.
  eapply finite_pulses_overlap; eauto.
Qed.

Theorem finite_decoupling T n0 l maxr maxd mn name c segs eps delta :
  constructible_sequence (sequence_of T n0 l) -> / 10 ^ 8 < T -> (forall e, In e l -> clean e) ->
  refocuses (sequence_of T n0 l) ->
  convert_dds_to_driven_control (sequence_of T n0 l) maxr maxd mn name = Ok c -> describes segs c ->
  close_to (Rabs delta * (total (map (pulse_width maxr maxd mn) l) + (duration c - T) / 2) +
            Rabs eps * total (map e_rabi l) / 2)
    (noisy_evolution eps delta segs) (pulse_product l).
Proof.
  intros CS LT K RF E D; assert (Q : dephased_evolution (fun t => delta * t) T l = pulse_product l) by (apply (RF l); auto).
  rewrite <- Q; eapply finite_pulses; eauto.
Qed.
