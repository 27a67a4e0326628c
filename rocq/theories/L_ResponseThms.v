(** * First-order response of a control: existence, linearity and derivatives *)

From Verif Require Import L_DriveExists L_DriveControl L_RemainderControl L_Remainder Spec_Remainder Spec_Drive Spec_Response.
From Verif Require Import L_FirstOrderFamilies L_FinitePulse L_PreConvert L_Requests L_FirstOrder L_Response.
From Coq Require Import Lia FunctionalExtensionality.
Import ListNotations.
Set Bullet Behavior "Strict Subproofs".
Open Scope list_scope.
Open Scope R_scope.

(** ** Uniqueness and existence *)

Lemma sight_unique eps beta g t0 w w' : qsight eps beta g t0 w -> qsight eps beta g t0 w' -> forall t, w t = w' t.
Proof.
  intros [W0 D] [W0' D'] t; apply q_eq.
  - apply (same_derive (fun t => qa (w t)) (fun t => qa (w' t)) _ t0 (fun t => proj1 (D t)) (fun t => proj1 (D' t))); rewrite W0, W0'; auto.
  - apply (same_derive (fun t => qb (w t)) (fun t => qb (w' t)) _ t0 (fun t => proj1 (proj2 (D t))) (fun t => proj1 (proj2 (D' t)))); rewrite W0, W0'; auto.
  - apply (same_derive (fun t => qc (w t)) (fun t => qc (w' t)) _ t0 (fun t => proj1 (proj2 (proj2 (D t)))) (fun t => proj1 (proj2 (proj2 (D' t))))); rewrite W0, W0'; auto.
  - apply (same_derive (fun t => qd (w t)) (fun t => qd (w' t)) _ t0 (fun t => proj2 (proj2 (proj2 (D t)))) (fun t => proj2 (proj2 (proj2 (D' t))))); rewrite W0, W0'; auto.
Qed.

Lemma response_unique eps beta l : forall t0 W W', response eps beta t0 l W -> response eps beta t0 l W' -> W = W'.
Proof.
  induction l as [|g l IH]; intros t0 W W'; cbn [response]; [congruence|].
  intros [A [B [D [N ->]]]] [A' [B' [D' [N' ->]]]]; rewrite (IH _ _ _ N N').
  apply response_quat in D, D'; destruct D as [w [S ->]], D' as [w' [S' ->]]; rewrite (sight_unique _ _ _ _ _ _ S S'); reflexivity.
Qed.

Lemma cplus (f g : R -> R) t : continuous f t -> continuous g t -> continuous (fun t => f t + g t) t.
Proof. intros; apply (continuous_plus f g); auto. Qed.
Lemma cminus (f g : R -> R) t : continuous f t -> continuous g t -> continuous (fun t => f t - g t) t.
Proof. intros; apply (continuous_minus f g); auto. Qed.
Lemma copp (f : R -> R) t : continuous f t -> continuous (fun t => - f t) t.
Proof. intros; apply (continuous_opp f); auto. Qed.
Lemma cmult (f g : R -> R) t : continuous f t -> continuous g t -> continuous (fun t => f t * g t) t.
Proof. intros; apply (continuous_mult f g); auto. Qed.

Definition qcontinuous (f : R -> quat) (t : R) : Prop :=
  continuous (fun t => qa (f t)) t /\ continuous (fun t => qb (f t)) t /\ continuous (fun t => qc (f t)) t /\ continuous (fun t => qd (f t)) t.
Lemma qcontinuous_mul f g t : qcontinuous f t -> qcontinuous g t -> qcontinuous (fun t => qmul (f t) (g t)) t.
Proof.
  intros [A1 [A2 [A3 A4]]] [B1 [B2 [B3 B4]]]; split; [|split; [|split]]; cbn [qmul qa qb qc qd];
    repeat match goal with
      | |- continuous (fun t => _ + _) _ => apply cplus
      | |- continuous (fun t => _ - _) _ => apply cminus
      | |- continuous (fun t => _ * _) _ => apply cmult; assumption
    end.
Qed.
Lemma qcontinuous_conj f t : qcontinuous f t -> qcontinuous (fun t => qconj (f t)) t.
Proof. intros [A1 [A2 [A3 A4]]]; split; [|split; [|split]]; cbn [qconj qa qb qc qd]; auto; apply copp; auto. Qed.
Lemma qderive_continuous f t d : qderive f t d -> qcontinuous f t.
Proof.
  intros [A1 [A2 [A3 A4]]]; split; [|split; [|split]]; apply @ex_derive_continuous; eexists; eassumption.
Qed.

Lemma sight_exists eps beta g t0 : (forall t, continuous eps t) -> (forall t, continuous beta t) -> exists w, qsight eps beta g t0 w.
Proof.
  intros CE CB.
  set (r := fun t => qmul (qconj (qafter g (t - t0))) (qmul (qnoise eps beta g t) (qafter g (t - t0)))).
  assert (CP : forall t, qcontinuous (fun t => qafter g (t - t0)) t).
  { intros t; eapply qderive_continuous; apply (proj2 (constant_solves (g_rabi g * cos (g_phi g)) (g_rabi g * sin (g_phi g)) (g_det g) t0)). }
  assert (CR : forall t, qcontinuous r t).
  { intros t; unfold r; apply qcontinuous_mul; [apply qcontinuous_conj, CP|apply qcontinuous_mul; [|apply CP]].
    unfold qnoise, qham; split; [|split; [|split]]; cbn [qa qb qc qd]; unfold Rdiv.
    - apply continuous_const.
    - repeat apply cmult; auto; apply continuous_const.
    - repeat apply cmult; auto; apply continuous_const.
    - apply cmult; auto; apply continuous_const. }
  exists (fun t => Q4 (RInt (fun t => qa (r t)) t0 t) (RInt (fun t => qb (r t)) t0 t) (RInt (fun t => qc (r t)) t0 t) (RInt (fun t => qd (r t)) t0 t)).
  split; [rewrite !RInt_point; reflexivity|].
  intros t; change (qderive (fun t => Q4 (RInt (fun t => qa (r t)) t0 t) (RInt (fun t => qb (r t)) t0 t) (RInt (fun t => qc (r t)) t0 t) (RInt (fun t => qd (r t)) t0 t)) t (r t)).
  split; [|split; [|split]]; cbn [qa qb qc qd]; (apply (cont_RInt (fun t => _ (r t))); intros s; apply (CR s)).
Qed.

Lemma response_exists eps beta l : (forall t, continuous eps t) -> (forall t, continuous beta t) -> forall t0, exists W, response eps beta t0 l W.
Proof.
  intros CE CB; induction l as [|g l IH]; intros t0; cbn [response]; [eexists; reflexivity|].
  destruct (sight_exists eps beta g t0 CE CB) as [w S]; destruct (IH (t0 + g_dur g)) as [W2 R].
  eexists; exists (qmat (w (t0 + g_dur g))), W2; split; [apply response_quat; eauto|split; [exact R|reflexivity]].
Qed.

(** ** Linearity *)

Definition qmix (a b : R) (p q : quat) : quat := Q4 (a * qa p + b * qa q) (a * qb p + b * qb q) (a * qc p + b * qc q) (a * qd p + b * qd q).
Lemma qmix_qmat a b p q : qmat (qmix a b p q) = madd (mscale (RtoC a) (qmat p)) (mscale (RtoC b) (qmat q)).
Proof. unfold qmix; m_real; ring. Qed.

Lemma sight_linear a b e1 b1 e2 b2 g t0 w1 w2 : qsight e1 b1 g t0 w1 -> qsight e2 b2 g t0 w2 ->
  qsight (fun t => a * e1 t + b * e2 t) (fun t => a * b1 t + b * b2 t) g t0 (fun t => qmix a b (w1 t) (w2 t)).
Proof.
  intros [A0 A] [B0 B]; split; [rewrite A0, B0; apply q_eq; unfold qmix, qzero; cbn [qa qb qc qd]; ring|].
  intros t; destruct (A t) as [A1 [A2 [A3 A4]]], (B t) as [B1 [B2 [B3 B4]]]; set (p := qafter g (t - t0)) in *.
  split; [|split; [|split]]; cbn [qmix qa qb qc qd].
  - eapply is_derive_eq; [apply sum_derive; apply is_derive_scaleR; [exact A1|exact B1]|].
    unfold qham, qconj; cbn [qmul qa qb qc qd]; match goal with |- ?a = ?b => change (@eq R a b) end; field.
  - eapply is_derive_eq; [apply sum_derive; apply is_derive_scaleR; [exact A2|exact B2]|].
    unfold qham, qconj; cbn [qmul qa qb qc qd]; match goal with |- ?a = ?b => change (@eq R a b) end; field.
  - eapply is_derive_eq; [apply sum_derive; apply is_derive_scaleR; [exact A3|exact B3]|].
    unfold qham, qconj; cbn [qmul qa qb qc qd]; match goal with |- ?a = ?b => change (@eq R a b) end; field.
  - eapply is_derive_eq; [apply sum_derive; apply is_derive_scaleR; [exact A4|exact B4]|].
    unfold qham, qconj; cbn [qmul qa qb qc qd]; match goal with |- ?a = ?b => change (@eq R a b) end; field.
Qed.

Lemma response_linear a b e1 b1 e2 b2 l : forall t0 W1 W2, response e1 b1 t0 l W1 -> response e2 b2 t0 l W2 ->
  response (fun t => a * e1 t + b * e2 t) (fun t => a * b1 t + b * b2 t) t0 l (madd (mscale (RtoC a) W1) (mscale (RtoC b) W2)).
Proof.
  induction l as [|g l IH]; intros t0 W1 W2; cbn [response].
  - intros -> ->; m_real; ring.
  - intros [X1 [Y1 [S1 [R1 ->]]]] [X2 [Y2 [S2 [R2 ->]]]]; assert (I := IH _ _ _ R1 R2).
    apply response_quat in S1, S2; destruct S1 as [w1 [S1 ->]], S2 as [w2 [S2 ->]].
    assert (L := sight_linear a b _ _ _ _ _ _ _ _ S1 S2).
    eexists; eexists; split; [apply response_quat; eexists; split; [exact L|reflexivity]|split; [exact I|]].
    cbv beta; rewrite qmix_qmat; generalize (qmat (w1 (t0 + g_dur g))) (qmat (w2 (t0 + g_dur g))) (madj (segment_after g (g_dur g))) (segment_after g (g_dur g)).
    intros Z1 Z2 A U; apply m_eq; simpl; ring.
Qed.

(** ** Derivatives *)

Lemma quadratic_derive (f : R -> R) a b C : (forall s, Rabs (f s - (a + s * b)) <= C * s ^ 2) -> is_derive f 0 b.
Proof.
  intros H; assert (F0 : f 0 = a).
  { assert (K := H 0); replace (a + 0 * b) with a in K by ring; replace (C * 0 ^ 2) with 0 in K by ring.
    assert (P := Rabs_pos (f 0 - a)); assert (Z : Rabs (f 0 - a) = 0) by lra.
    destruct (Req_dec (f 0 - a) 0); [lra|]; apply Rabs_no_R0 in H0; lra. }
  apply is_derive_Reals; intros e E.
  assert (C0 : 0 <= C) by (assert (K := H 1); assert (P := Rabs_pos (f 1 - (a + 1 * b))); lra).
  assert (D : 0 < e / (C + 1)) by (apply Rdiv_lt_0_compat; lra).
  exists (mkposreal _ D); intros h H0 HB; cbn [pos] in HB; rewrite Rplus_0_l, F0.
  replace ((f h - a) / h - b) with ((f h - (a + h * b)) * / h) by (field; auto).
  assert (PH := Rabs_pos_lt _ H0); rewrite Rabs_mult, Rabs_inv.
  apply Rle_lt_trans with (C * h ^ 2 * / Rabs h); [apply Rmult_le_compat_r; [left; apply Rinv_0_lt_compat; auto|apply H]|].
  rewrite <- pow2_abs; replace (C * Rabs h ^ 2 * / Rabs h) with (C * Rabs h) by (field; lra).
  apply Rle_lt_trans with ((C + 1) * Rabs h); [apply Rmult_le_compat_r; lra|].
  apply Rlt_le_trans with ((C + 1) * (e / (C + 1))); [apply Rmult_lt_compat_l; lra|apply Req_le; field; lra].
Qed.

Lemma component_near e p q : qnear e p q -> Rabs (qa p - qa q) <= e /\ Rabs (qb p - qb q) <= e /\ Rabs (qc p - qc q) <= e /\ Rabs (qd p - qd q) <= e.
Proof.
  intros [E H]; unfold qnorm2, qsub in H; cbn [qa qb qc qd] in H.
  assert (K : forall x, x * x <= e ^ 2 -> Rabs x <= e).
  { intros x X; rewrite <- (Rabs_right e) by lra; apply Rsqr_le_abs_0; unfold Rsqr; cbn [pow] in X; lra. }
  assert (A := Rle_0_sqr (qa p - qa q)); assert (B := Rle_0_sqr (qb p - qb q));
    assert (C0 := Rle_0_sqr (qc p - qc q)); assert (D := Rle_0_sqr (qd p - qd q)); unfold Rsqr in *.
  split; [|split; [|split]]; apply K; lra.
Qed.

Lemma quadratic_qderive v u d C : (forall s, qnear (C * s ^ 2) (v s) (qmix 1 s u d)) -> qderive v 0 d.
Proof.
  intros H; split; [|split; [|split]].
  - apply (quadratic_derive _ (qa u) _ C); intros s; destruct (component_near _ _ _ (H s)) as [K _]; cbn [qmix qa] in K; rewrite Rmult_1_l in K; auto.
  - apply (quadratic_derive _ (qb u) _ C); intros s; destruct (component_near _ _ _ (H s)) as [_ [K _]]; cbn [qmix qb] in K; rewrite Rmult_1_l in K; auto.
  - apply (quadratic_derive _ (qc u) _ C); intros s; destruct (component_near _ _ _ (H s)) as [_ [_ [K _]]]; cbn [qmix qc] in K; rewrite Rmult_1_l in K; auto.
  - apply (quadratic_derive _ (qd u) _ C); intros s; destruct (component_near _ _ _ (H s)) as [_ [_ [_ K]]]; cbn [qmix qd] in K; rewrite Rmult_1_l in K; auto.
Qed.

Lemma qmat_inj p q : qmat p = qmat q -> p = q.
Proof. unfold qmat; intros H; injection H; intros; apply q_eq; lra. Qed.

Definition qof (X : M2) : quat := Q4 (fst (m00 X)) (- snd (m10 X)) (fst (m10 X)) (snd (m11 X)).
Lemma qof_qmat q : qof (qmat q) = q.
Proof. unfold qof, qmat; cbn [m00 m10 m11 fst snd]; apply q_eq; cbn [qa qb qc qd]; ring. Qed.

Lemma family_derivative eps beta E M l t0 (V : R -> M2) W : (forall g, In g l -> 0 <= g_rabi g /\ 0 <= g_dur g) -> 0 <= E -> 0 <= M ->
  bounded_by eps E t0 (t0 + total (map g_dur l)) -> bounded_by beta M t0 (t0 + total (map g_dur l)) ->
  (forall s, noisy_control (fun t => s * eps t) (fun t => s * beta t) t0 l (V s)) -> response eps beta t0 l W ->
  exists v w, (forall s, V s = qmat (v s)) /\ W = qmat w /\ qderive v 0 (qmul (qevolution 0 0 l) w).
Proof.
  intros P E0 M0 BE BM N RS.
  set (K := (M * total (map g_dur l) + E * turned l) / 2); set (u := qevolution 0 0 l).
  assert (Z : W = qmat (qof W)).
  { destruct (control_response (fun t => 1 * eps t) (fun t => 1 * beta t) E M l P E0 M0 t0 (V 1) W) as [v [w [_ [-> _]]]]; auto.
    - intros t I; rewrite Rmult_1_l; auto.
    - intros t I; rewrite Rmult_1_l; auto.
    - replace (fun t => 1 * eps t) with eps by (extensionality t; ring); replace (fun t => 1 * beta t) with beta by (extensionality t; ring); auto.
    - rewrite qof_qmat; auto. }
  set (w := qof W) in *.
  assert (H : forall s, V s = qmat (qof (V s)) /\ qnear (K ^ 2 / 2 * s ^ 2) (qof (V s)) (qmix 1 s u (qmul u w))).
  { intros s; assert (PS := Rabs_pos s).
    assert (R1 := response_linear s 0 _ _ _ _ l t0 W W RS RS).
    replace (fun t => s * eps t + 0 * eps t) with (fun t => s * eps t) in R1 by (extensionality t; ring).
    replace (fun t => s * beta t + 0 * beta t) with (fun t => s * beta t) in R1 by (extensionality t; ring).
    rewrite Z, <- qmix_qmat in R1.
    destruct (control_response (fun t => s * eps t) (fun t => s * beta t) (Rabs s * E) (Rabs s * M) l P) with (t0 := t0) (V := V s) (W := qmat (qmix s 0 w w))
      as [v [w' [EV [EW [_ [_ [NV _]]]]]]]; auto.
    - apply Rmult_le_pos; auto.
    - apply Rmult_le_pos; auto.
    - intros t I; rewrite Rabs_mult; apply Rmult_le_compat_l; auto.
    - intros t I; rewrite Rabs_mult; apply Rmult_le_compat_l; auto.
    - apply qmat_inj in EW; subst w'; rewrite EV, qof_qmat; split; auto; fold u in NV.
      replace (qmix 1 s u (qmul u w)) with (qadd u (qmul u (qmix s 0 w w))) by (apply q_eq; unfold qmix; cbn [qadd qmul qa qb qc qd]; ring).
      replace (K ^ 2 / 2 * s ^ 2) with (((Rabs s * M * total (map g_dur l) + Rabs s * E * turned l) / 2) ^ 2 / 2); auto.
      rewrite <- (pow2_abs s); unfold K; field. }
  exists (fun s => qof (V s)), w; split; [intros s; apply H|split; [auto|]].
  apply (quadratic_qderive _ u _ (K ^ 2 / 2)); intros s; apply H.
Qed.

Theorem change_derivative eps beta E M l t0 (V : R -> M2) W : (forall g, In g l -> 0 <= g_rabi g /\ 0 <= g_dur g) ->
  bounded_by eps E t0 (t0 + total (map g_dur l)) -> bounded_by beta M t0 (t0 + total (map g_dur l)) ->
  (forall s, noisy_control (fun t => s * eps t) (fun t => s * beta t) t0 l (V s)) -> response eps beta t0 l W ->
  m_derive V 0 (mmul (evolution l) W).
Proof.
  intros P BE BM N RS; destruct (total_positive l P) as [TP _].
  assert (E0 : 0 <= E) by (assert (H := BE t0); eapply Rle_trans; [apply Rabs_pos|apply H; lra]).
  assert (M0 : 0 <= M) by (assert (H := BM t0); eapply Rle_trans; [apply Rabs_pos|apply H; lra]).
  destruct (family_derivative eps beta E M l t0 V W P E0 M0 BE BM N RS) as [v [w [EV [-> D]]]].
  unfold evolution; rewrite noisy_evolution_qmat, <- qmat_mul.
  replace V with (fun s => qmat (v s)) by (extensionality s; auto); apply qmat_derive; auto.
Qed.

Theorem first_order eps beta E M l t0 V W : (forall g, In g l -> 0 <= g_rabi g /\ 0 <= g_dur g) ->
  bounded_by eps E t0 (t0 + total (map g_dur l)) -> bounded_by beta M t0 (t0 + total (map g_dur l)) ->
  noisy_control eps beta t0 l V -> response eps beta t0 l W ->
  close_to ((M * total (map g_dur l) + E * turned l) ^ 2 / 8) V (mmul (evolution l) (madd mone W)) /\
  exists x y z, W = mscale (0, -1) (hamiltonian x y z) /\ x ^ 2 + y ^ 2 + z ^ 2 <= (M * total (map g_dur l) + E * turned l) ^ 2.
Proof.
  intros P BE BM N RS; destruct (total_positive l P) as [TP _].
  assert (E0 : 0 <= E) by (assert (H := BE t0); eapply Rle_trans; [apply Rabs_pos|apply H; lra]).
  assert (M0 : 0 <= M) by (assert (H := BM t0); eapply Rle_trans; [apply Rabs_pos|apply H; lra]).
  destruct (control_response eps beta E M l P E0 M0 t0 V W BE BM N RS) as [v [w [-> [-> [U [Z [NV [_ NW]]]]]]]]; split.
  - unfold evolution; rewrite noisy_evolution_qmat, <- qmat_one, madd_qmat, <- qmat_mul; apply qnear_close.
    replace (qmul (qevolution 0 0 l) (qadd qone w)) with (qadd (qevolution 0 0 l) (qmul (qevolution 0 0 l) w))
      by (apply q_eq; cbn [qone qadd qmul qa qb qc qd]; ring).
    replace ((M * total (map g_dur l) + E * turned l) ^ 2 / 8) with (((M * total (map g_dur l) + E * turned l) / 2) ^ 2 / 2) by field; auto.
  - exists (2 * qb w), (2 * qc w), (2 * qd w); split.
    + destruct w as [a b c d]; cbn [qa qb qc qd] in *; subst a; unfold hamiltonian, pauli_vector; m_real; field.
    + destruct NW as [_ NW]; unfold qnorm2, qsub, qzero in NW; cbn [qa qb qc qd] in NW; rewrite Z in NW.
      set (k := M * total (map g_dur l) + E * turned l) in *; replace ((k / 2) ^ 2) with (k ^ 2 / 4) in NW by field; lra.
Qed.

(** ** Constant errors *)

Theorem constant_criterion l : (forall g, In g l -> 0 <= g_rabi g /\ 0 <= g_dur g) -> forall W,
  (response (fun _ => 0) (fun _ => 1) 0 l W -> dephasing_robust 1 l <-> W = mzero) /\
  (response (fun _ => 1) (fun _ => 0) 0 l W -> amplitude_robust 1 l <-> W = mzero).
Proof.
  intros P W.
  assert (U : unit_quat (qevolution 0 0 l)).
  { clear; induction l as [|g l IH]; cbn [qevolution]; [apply unit_one|apply unit_mul; auto; apply unit_qseg]. }
  assert (B : forall (c M a b : R), Rabs c <= M -> bounded_by (fun _ => c) M a b) by (intros c M a b H t I; auto).
  assert (Z0 : Rabs 0 <= 0) by (rewrite Rabs_R0; lra); assert (Z1 : Rabs 1 <= 1) by (rewrite Rabs_R1; lra).
  split; intros RS.
  - assert (N : forall s, noisy_control (fun t => s * (fun _ => 0) t) (fun t => s * (fun _ => 1) t) 0 l (noisy_evolution (s * 0) (s * 1) l)) by (intros s; apply control_constant).
    destruct (family_derivative (fun _ => 0) (fun _ => 1) 0 1 l 0 (fun s => noisy_evolution (s * 0) (s * 1) l) W P ltac:(lra) ltac:(lra)
      (B _ _ _ _ Z0) (B _ _ _ _ Z1) N RS) as [v [w [EV [-> D]]]].
    unfold dephasing_robust; replace (fun delta => noisy_evolution 0 delta l) with (fun s => qmat (v s)).
    + rewrite (flat_iff v (qevolution 0 0 l) w U D); rewrite mzero_qmat; split; [congruence|apply qmat_inj].
    + extensionality s; rewrite <- EV; f_equal; ring.
  - assert (N : forall s, noisy_control (fun t => s * (fun _ => 1) t) (fun t => s * (fun _ => 0) t) 0 l (noisy_evolution (s * 1) (s * 0) l)) by (intros s; apply control_constant).
    destruct (family_derivative (fun _ => 1) (fun _ => 0) 1 0 l 0 (fun s => noisy_evolution (s * 1) (s * 0) l) W P ltac:(lra) ltac:(lra)
      (B _ _ _ _ Z1) (B _ _ _ _ Z0) N RS) as [v [w [EV [-> D]]]].
    unfold amplitude_robust; replace (fun e => noisy_evolution e 0 l) with (fun s => qmat (v s)).
    + rewrite (flat_iff v (qevolution 0 0 l) w U D); rewrite mzero_qmat; split; [congruence|apply qmat_inj].
    + extensionality s; rewrite <- EV; f_equal; ring.
Qed.

(** any noise *)
Theorem noise_criterion (eps beta : R -> R) E M l V W : (forall g, In g l -> 0 <= g_rabi g /\ 0 <= g_dur g) ->
  bounded_by eps E 0 (total (map g_dur l)) -> bounded_by beta M 0 (total (map g_dur l)) ->
  (forall s, noisy_control (fun t => s * eps t) (fun t => s * beta t) 0 l (V s)) -> response eps beta 0 l W ->
  flat 1 V <-> W = mzero.
Proof.
  intros P BE BM N RS; destruct (total_positive l P) as [TP _].
  assert (E0 : 0 <= E) by (assert (H := BE 0); eapply Rle_trans; [apply Rabs_pos|apply H; lra]).
  assert (M0 : 0 <= M) by (assert (H := BM 0); eapply Rle_trans; [apply Rabs_pos|apply H; lra]).
  assert (U : unit_quat (qevolution 0 0 l)).
  { clear; induction l as [|g l IH]; cbn [qevolution]; [apply unit_one|apply unit_mul; auto; apply unit_qseg]. }
  rewrite <- (Rplus_0_l (total (map g_dur l))) in BE, BM.
  destruct (family_derivative eps beta E M l 0 V W P E0 M0 BE BM N RS) as [v [w [EV [-> D]]]].
  replace V with (fun s => qmat (v s)) by (extensionality s; auto).
  rewrite (flat_iff v (qevolution 0 0 l) w U D); rewrite mzero_qmat; split; [congruence|apply qmat_inj].
Qed.

Lemma frame_1 w : mmul (madj mone) (mmul w mone) = w.
Proof. m_real; ring. Qed.
Lemma frame_0 u : mmul (madj u) (mmul mzero u) = mzero.
Proof. m_real; ring. Qed.
Lemma frame_add u a b : mmul (madj u) (mmul (madd a b) u) = madd (mmul (madj u) (mmul a u)) (mmul (madj u) (mmul b u)).
Proof. m_real; ring. Qed.
Lemma frame_mul u v a : mmul (madj u) (mmul (mmul (madj v) (mmul a v)) u) = mmul (madj (mmul v u)) (mmul a (mmul v u)).
Proof. m_real; ring. Qed.
Lemma madd_assoc_m a b c : madd a (madd b c) = madd (madd a b) c.
Proof. m_real; ring. Qed.
Lemma madd_0_m a : madd mzero a = a.
Proof. m_real; ring. Qed.
Lemma segment_after_end g : segment_after g (g_dur g) = noisy_segment 0 0 g.
Proof. unfold segment_after, noisy_segment; f_equal; ring. Qed.

(** the response of two parts, one after the other *)
Theorem response_app eps beta l1 : forall t0 l2 W,
  response eps beta t0 (l1 ++ l2) W <->
  exists W1 W2, response eps beta t0 l1 W1 /\ response eps beta (t0 + total (map g_dur l1)) l2 W2 /\
    W = madd W1 (mmul (madj (evolution l1)) (mmul W2 (evolution l1))).
Proof.
  induction l1 as [|g l1 IH]; intros t0 l2 W; cbn [app map total response].
  - rewrite Rplus_0_r; split.
    + intros H; exists mzero, W; split; [reflexivity|split; [exact H|]].
      change (evolution []) with mone; rewrite frame_1, madd_0_m; reflexivity.
    + intros [W1 [W2 [-> [H ->]]]]; change (evolution []) with mone; rewrite frame_1, madd_0_m; exact H.
  - change (evolution (g :: l1)) with (mmul (evolution l1) (noisy_segment 0 0 g)).
    rewrite <- Rplus_assoc; split.
    + intros [A [B [HA [HB ->]]]]; apply IH in HB; destruct HB as [B1 [C [H1 [HC ->]]]].
      exists (madd A (mmul (madj (segment_after g (g_dur g))) (mmul B1 (segment_after g (g_dur g))))), C.
      split; [exists A, B1; auto|split; [exact HC|]].
      rewrite segment_after_end, frame_add, frame_mul, madd_assoc_m; reflexivity.
    + intros [W1 [C [[A [B1 [HA [H1 ->]]]] [HC ->]]]].
      exists A, (madd B1 (mmul (madj (evolution l1)) (mmul C (evolution l1)))); split; [exact HA|split; [apply IH; exists B1, C; auto|]].
      rewrite segment_after_end, frame_add, frame_mul, madd_assoc_m; reflexivity.
Qed.
