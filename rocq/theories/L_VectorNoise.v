(** * Noise along every direction: lemmas *)

From Verif Require Import L_NoiseExact L_Remainder L_DriveExists.
From Verif Require Export Spec_VectorNoise.
From Coq Require Import Lia Factorial.
Import ListNotations.
Set Bullet Behavior "Strict Subproofs".
Open Scope string_scope.
Open Scope list_scope.
Open Scope R_scope.

(** ** Free evolution to second order *)

Lemma still_solves t0 : qsolves (fun _ => 0) (fun _ => 0) (fun _ => 0) t0 (fun _ => qone).
Proof.
  split; [reflexivity|]; intros t; unfold qderive, qham, qone; cbn [qmul qa qb qc qd].
  assert (C : forall k : R, is_derive (fun _ : R => k) t 0) by (intros; apply (is_derive_const (K := R_AbsRing) (V := R_NormedModule))).
  split; [|split; [|split]]; (eapply is_derive_eq; [exact (C 1) || exact (C 0)|simpl; field]).
Qed.

Section Free.
  Variables (x y z : R -> R) (t0 : R) (q : R -> quat).
  Hypothesis (CX : forall t, continuous x t) (CY : forall t, continuous y t) (CZ : forall t, continuous z t).
  Hypothesis (S : qsolves x y z t0 q).
  Definition first_order (t : R) : quat := Q4 0 (RInt x t0 t / 2) (RInt y t0 t / 2) (RInt z t0 t / 2).

  Lemma free_first M t : 0 <= M -> t0 <= t -> (forall s, t0 <= s <= t -> x s ^ 2 + y s ^ 2 + z s ^ 2 <= M ^ 2) ->
    qnear (M * (t - t0) / 2) (q t) qone.
  Proof.
    intros M0 LE B; apply (qsolves_near _ _ _ _ _ _ _ _ _ M t S (still_solves t0)); auto.
    intros s I; rewrite !Rminus_0_r; auto.
  Qed.

  Lemma free_second M w : 0 <= M -> 0 <= w -> (forall s, t0 <= s <= t0 + w -> x s ^ 2 + y s ^ 2 + z s ^ 2 <= M ^ 2) ->
    qsmall ((M * w) ^ 2 / 8) (qsub (q (t0 + w)) (qadd qone (first_order (t0 + w)))).
  Proof.
    intros M0 W B.
    set (f := fun s => qsub (q (t0 + s)) (qadd qone (first_order (t0 + s)))).
    set (f' := fun s => qmul (qham (x (t0 + s)) (y (t0 + s)) (z (t0 + s))) (qsub (q (t0 + s)) qone)).
    apply (qsmall_integral f f' (fun s => (M * s) ^ 2 / 8) (fun s => M / 2 * (M * s / 2)) w W).
    - unfold f, first_order; rewrite Rplus_0_r, (proj1 S), !RInt_point; apply q_eq; cbn; field.
    - cbn; field.
    - intros s _.
      assert (C : forall (k u : R), is_derive (fun _ : R => k) u 0) by (intros; apply (is_derive_const (K := R_AbsRing) (V := R_NormedModule))).
      assert (HF : forall (g : R -> R) (u d : R), is_derive g u d -> is_derive (fun t => 0 + g t / 2) u (d / 2)).
      { intros g u d H; eapply is_derive_eq; [apply is_derive_addR; [apply C|apply (is_derive_scal_l g u d (/ 2)); exact H]|].
        unfold scal; cbn; unfold mult; cbn; field. }
      assert (SH : forall (g : R -> R) (d : R), is_derive g (t0 + s) d -> is_derive (fun s => g (t0 + s)) s d).
      { intros g d H; eapply is_derive_eq; [apply (is_derive_comp g (fun s => t0 + s) s d 1); [exact H|auto_derive; auto; ring]|].
        unfold scal; cbn; unfold mult; cbn; ring. }
      destruct (proj2 S (t0 + s)) as [A1 [A2 [A3 A4]]].
      assert (IX := cont_RInt x t0 (t0 + s) CX); assert (IY := cont_RInt y t0 (t0 + s) CY); assert (IZ := cont_RInt z t0 (t0 + s) CZ).
      unfold f, f', qderive, first_order, qham; cbn [qsub qadd qone qmul qa qb qc qd] in *.
      split; [|split; [|split]].
      + eapply is_derive_eq; [apply is_derive_subR; [apply (SH (fun u => qa (q u)) _ A1)|apply C]|cbn; ring].
      + eapply is_derive_eq; [apply is_derive_subR; [apply (SH (fun u => qb (q u)) _ A2)|apply (SH (fun u => 0 + RInt x t0 u / 2)), HF, IX]|cbn; field].
      + eapply is_derive_eq; [apply is_derive_subR; [apply (SH (fun u => qc (q u)) _ A3)|apply (SH (fun u => 0 + RInt y t0 u / 2)), HF, IY]|cbn; field].
      + eapply is_derive_eq; [apply is_derive_subR; [apply (SH (fun u => qd (q u)) _ A4)|apply (SH (fun u => 0 + RInt z t0 u / 2)), HF, IZ]|cbn; field].
    - intros s _; auto_derive; auto; field.
    - intros s I; unfold f'; apply qsmall_mul.
      + split; [lra|]; unfold qnorm2, qham; cbn [qa qb qc qd].
        assert (BB := B (t0 + s) ltac:(lra)).
        replace (0 * 0 + x (t0 + s) / 2 * (x (t0 + s) / 2) + y (t0 + s) / 2 * (y (t0 + s) / 2) + z (t0 + s) / 2 * (z (t0 + s) / 2))
          with ((x (t0 + s) ^ 2 + y (t0 + s) ^ 2 + z (t0 + s) ^ 2) / 4) by field.
        replace ((M / 2) ^ 2) with (M ^ 2 / 4) by field; lra.
      + assert (N := free_first M (t0 + s) M0 ltac:(lra) ltac:(intros u U; apply B; lra)).
        replace (t0 + s - t0) with s in N by ring; apply N.
  Qed.
End Free.

(** ** Pulses *)

Lemma wanders_quat x y z t0 t1 V : wanders x y z t0 t1 V -> exists q, qsolves x y z t0 q /\ V = qmat (q t1).
Proof.
  intros [U [U0 [D U1]]]; destruct (solution_quat x y z t0 U U0 D) as [q [Q E]]; exists q; split; auto.
  rewrite <- U1; apply E.
Qed.

(** the sign that a pulse about [b] gives to noise along [a] *)
Definition turn (a b : axis) : R := if axis_eqb a b then 1 else -1.
Fixpoint walk (a : axis) (B : R -> R) (t0 T : R) (ps : list (axis * R)) : R :=
  match ps with
  | [] => B T - B t0
  | (b, t) :: ps' => (B t - B t0) + turn a b * walk a B t T ps'
  end.
Definition tilted (u v w : R) : quat := Q4 0 (u / 2) (v / 2) (w / 2).
Lemma toggle b u v w : qmul (tilted u v w) (qaxis b) = qmul (qaxis b) (tilted (turn AX b * u) (turn AY b * v) (turn AZ b * w)).
Proof. unfold tilted, turn; destruct b; apply q_eq; cbn; field. Qed.
Lemma unit_qaxis a : unit_quat (qaxis a).
Proof. unfold unit_quat, qnorm2; destruct a; cbn; ring. Qed.
Lemma unit_qprod ps : unit_quat (qprod ps).
Proof. induction ps as [|[a t] ps IH]; cbn [qprod fst]; [apply unit_one|apply unit_mul; auto using unit_qaxis]. Qed.

Section Walk.
  Variables (x y z : R -> R) (M T : R).
  Hypothesis (CX : forall t, continuous x t) (CY : forall t, continuous y t) (CZ : forall t, continuous z t).
  Hypothesis (M0 : 0 <= M) (B : strength_below x y z M T).
  Let X (t : R) := RInt x 0 t.
  Let Y (t : R) := RInt y 0 t.
  Let Z (t : R) := RInt z 0 t.

  Lemma chasles (f : R -> R) (a b : R) : (forall t, continuous f t) -> RInt f a b = RInt f 0 b - RInt f 0 a.
  Proof.
    intros C; assert (I : forall u v, ex_RInt f u v) by (intros; apply (ex_RInt_continuous f); intros; apply C).
    assert (E : RInt f 0 b = RInt f 0 a + RInt f a b) by (symmetry; apply (RInt_Chasles f 0 a b); auto).
    rewrite E; change (RInt f a b = RInt f 0 a + RInt f a b - RInt f 0 a)%R; generalize (RInt f 0 a : R) (RInt f a b : R); intros u v; change (@eq R v (u + v - u)); ring.
  Qed.

  Lemma free_step t0 t1 V : 0 <= t0 <= t1 -> t1 <= T -> wanders x y z t0 t1 V -> exists w, V = qmat w /\ unit_quat w /\
    qsmall (M * (t1 - t0) / 2) (qsub w qone) /\
    qsmall ((M * (t1 - t0)) ^ 2 / 8) (qsub w (qadd qone (tilted (X t1 - X t0) (Y t1 - Y t0) (Z t1 - Z t0)))).
  Proof.
    intros H HT W; destruct (wanders_quat _ _ _ _ _ _ W) as [q [Q ->]]; exists (q t1); split; auto.
    split; [eapply qsolves_unit; eauto|].
    assert (BB : forall s, t0 <= s <= t1 -> x s ^ 2 + y s ^ 2 + z s ^ 2 <= M ^ 2) by (intros s I; apply B; lra).
    split; [apply (free_first x y z t0 q Q M t1); auto; lra|].
    assert (F := free_second x y z t0 q CX CY CZ Q M (t1 - t0) M0 ltac:(lra) ltac:(replace (t0 + (t1 - t0)) with t1 by ring; auto)).
    replace (t0 + (t1 - t0)) with t1 in F by ring; unfold first_order in F; rewrite !(chasles _ t0 t1) in F by auto; exact F.
  Qed.

  Definition drift (t0 : R) (ps : list (axis * R)) : quat := tilted (walk AX X t0 T ps) (walk AY Y t0 T ps) (walk AZ Z t0 T ps).

  Lemma pulse_steps ps : forall t0 V, 0 <= t0 <= T -> nondecreasing (t0 :: map snd ps) -> (forall p, In p ps -> snd p <= T) ->
    vector_sequence x y z t0 T (map pi_pulse ps) V -> exists v, V = qmat v /\ unit_quat v /\
    qsmall (M * (T - t0) / 2) (qsub v (qprod ps)) /\
    qsmall ((M * (T - t0)) ^ 2 / 8) (qsub v (qmul (qprod ps) (qadd qone (drift t0 ps)))).
  Proof.
    induction ps as [|[b t] ps IH]; intros t0 V H0 ND BT VS.
    - cbn [map vector_sequence] in VS; destruct (free_step t0 T V ltac:(lra) ltac:(lra) VS) as [w [-> [U [A C]]]].
      exists w; split; auto; split; auto; cbn [qprod]; split; auto.
      replace (qmul qone (qadd qone (drift t0 []))) with (qadd qone (drift t0 [])) by (apply q_eq; cbn; ring); exact C.
    - destruct ND as [N1 N2]; cbn [map snd] in N1, N2; assert (TT : t <= T) by (apply (BT (b, t)); left; auto).
      cbn [map vector_sequence] in VS; destruct VS as [V1 [V2 [W1 [W2 ->]]]].
      replace (e_time (pi_pulse (b, t))) with t in W1, W2 by (destruct b; reflexivity).
      destruct (free_step t0 t V1 ltac:(lra) TT W1) as [w [-> [U [A C]]]].
      destruct (IH t V2 ltac:(lra) N2 ltac:(intros; apply BT; right; auto) W2) as [v [-> [U' [A' C']]]].
      rewrite pi_pulse_qmat, <- !qmat_mul; exists (qmul v (qmul (qaxis b) w)); split; auto.
      split; [apply unit_mul; auto; apply unit_mul; auto using unit_qaxis|].
      cbn [qprod fst]; set (P := qprod ps) in *; set (p := qaxis b).
      set (A0 := tilted (X t - X t0) (Y t - Y t0) (Z t - Z t0)) in *.
      assert (Up : qsmall 1 p) by (apply qsmall_unit, unit_qaxis).
      assert (UP : qsmall 1 P) by (apply qsmall_unit, unit_qprod).
      assert (Uv : qsmall 1 v) by (apply qsmall_unit; auto).
      split.
      + replace (qsub (qmul v (qmul p w)) (qmul P p)) with
          (qadd (qmul (qmul v p) (qsub w qone)) (qmul (qsub v P) p)) by (apply q_eq; cbn; ring).
        replace (M * (T - t0) / 2) with (1 * 1 * (M * (t - t0) / 2) + M * (T - t) / 2 * 1) by field.
        apply qsmall_add; apply qsmall_mul; auto; apply qsmall_mul; auto.
      + assert (E : qmul (qmul P p) (qadd qone (drift t0 ((b, t) :: ps))) =
                    qadd (qmul (qmul P p) (qadd qone A0)) (qmul P (qmul (drift t ps) p))).
        { unfold p, drift; cbn [walk]; rewrite toggle; unfold A0, tilted; apply q_eq; cbn; field. }
        rewrite E; set (F := drift t ps) in *.
        replace (qsub (qmul v (qmul p w)) (qadd (qmul (qmul P p) (qadd qone A0)) (qmul P (qmul F p)))) with
          (qadd (qadd (qmul (qsub v (qmul P (qadd qone F))) p) (qmul (qmul (qsub v P) p) (qsub w qone)))
                (qmul (qmul P p) (qsub w (qadd qone A0)))) by (apply q_eq; cbn; ring).
        replace ((M * (T - t0)) ^ 2 / 8) with
          ((M * (T - t)) ^ 2 / 8 * 1 + M * (T - t) / 2 * 1 * (M * (t - t0) / 2) + 1 * 1 * ((M * (t - t0)) ^ 2 / 8)) by field.
        repeat apply qsmall_add; repeat apply qsmall_mul; auto.
  Qed.
End Walk.

(** ** Rotations before and after *)

Lemma sequence_last x y z T e l : e_time e = T -> forall t0 V, vector_sequence x y z t0 T (l ++ e :: nil) V ->
  exists V', vector_sequence x y z t0 T l V' /\ V = mmul (pulse_unitary e) V'.
Proof.
  intros ET; induction l as [|f l IH]; intros t0 V VS; cbn [app vector_sequence] in VS.
  - destruct VS as [V1 [V2 [W1 [W2 ->]]]]; rewrite ET in W1, W2; exists V1; split; auto.
    destruct (wanders_quat _ _ _ _ _ _ W2) as [q [[Q _] ->]]; rewrite Q, qmat_one, mmul_1_l; reflexivity.
  - destruct VS as [V1 [V2 [W1 [W2 ->]]]]; destruct (IH _ _ W2) as [V' [S' ->]].
    exists (mmul V' (mmul (pulse_unitary f) V1)); split; [cbn [vector_sequence]; eauto|rewrite !mmul_assoc; reflexivity].
Qed.
Lemma pulse_unit e : exists u, pulse_unitary e = qmat u /\ unit_quat u.
Proof. eexists; split; [apply segment_unitary_qmat|apply unit_qseg]. Qed.

(** the evolution is the product of the pulses, tilted, up to second order *)
Lemma vector_first_order x y z M T pre ps V : (forall t, continuous x t) -> (forall t, continuous y t) -> (forall t, continuous z t) ->
  0 <= M -> strength_below x y z M T -> 0 <= T -> nondecreasing (0 :: map snd ps) -> (forall p, In p ps -> snd p <= T) ->
  vector_sequence x y z 0 T (with_pre_post pre T ps) V -> exists a b v, unit_quat a /\ unit_quat b /\
  V = qmat (qmul (qmul a v) b) /\ pulse_product (with_pre_post pre T ps) = qmat (qmul (qmul a (qprod ps)) b) /\ unit_quat v /\
  qsmall ((M * T) ^ 2 / 8) (qsub v (qmul (qprod ps) (qadd qone (drift x y z T 0 ps)))).
Proof.
  intros CX CY CZ M0 B T0 ND BT VS; unfold with_pre_post in *; destruct pre.
  - cbn [vector_sequence e_time] in VS; destruct VS as [V1 [V2 [W1 [W2 ->]]]].
    destruct (wanders_quat _ _ _ _ _ _ W1) as [q [[Q _] ->]]; rewrite Q, qmat_one, mmul_1_r.
    destruct (sequence_last x y z T (Event T (PI / 2) (closing_angle ps) 0) (map pi_pulse ps) eq_refl _ _ W2) as [V' [S' ->]].
    destruct (pulse_steps x y z M T CX CY CZ M0 B ps 0 V' ltac:(lra) ND BT S') as [v [-> [U [_ C]]]].
    destruct (pulse_unit (Event T (PI / 2) (closing_angle ps) 0)) as [a [EA UA]]; destruct (pulse_unit (Event 0 (PI / 2) 0 0)) as [b [EB UB]].
    exists a, b, v; split; auto; split; auto; rewrite Rminus_0_r in C.
    cbn [pulse_product]; rewrite pulse_product_app; cbn [pulse_product]; rewrite EA, EB, pulse_product_qmat, mmul_1_l, !qmat_mul; auto.
  - destruct (pulse_steps x y z M T CX CY CZ M0 B ps 0 V ltac:(lra) ND BT VS) as [v [-> [U [_ C]]]].
    exists qone, qone, v; split; [apply unit_one|split; [apply unit_one|]]; rewrite Rminus_0_r in C.
    rewrite pulse_product_qmat; split; [f_equal; apply q_eq; cbn; ring|split; [f_equal; apply q_eq; cbn; ring|auto]].
Qed.

(** ** Moments *)

Definition flips (a : axis) (ps : list (axis * R)) : list R := map snd (filter (fun p => negb (axis_eqb a (fst p))) ps).
Lemma switched_split B s t T ts : forall t0, switched_from B s t0 T ts = s * (B t - B t0) + switched_from B s t T ts.
Proof. intros t0; destruct ts; cbn [switched_from]; ring. Qed.
Lemma switched_sign B T ts : forall s t0, switched_from B s t0 T ts = s * switched_from B 1 t0 T ts.
Proof.
  induction ts as [|t ts IH]; intros s t0; cbn [switched_from]; [ring|].
  rewrite (IH (- s)), (IH (- (1))); ring.
Qed.
Lemma walk_switched a B T ps : forall t0, walk a B t0 T ps = switched_from B 1 t0 T (flips a ps).
Proof.
  induction ps as [|[b t] ps IH]; intros t0; unfold flips; cbn [walk filter map fst]; [cbn; ring|].
  rewrite IH; unfold turn; destruct (axis_eqb a b); cbn [negb map snd switched_from]; fold (flips a ps).
  - rewrite (switched_split B 1 t T (flips a ps) t0); ring.
  - rewrite (switched_sign B T (flips a ps) (- (1)) t); ring.
Qed.
Lemma walk_near a B P G T ps : (forall u v, 0 <= u <= v -> v <= T -> Rabs ((B v - P v) - (B u - P u)) <= G v - G u) ->
  forall t0, 0 <= t0 <= T -> nondecreasing (t0 :: map snd ps) -> (forall p, In p ps -> snd p <= T) ->
  Rabs (walk a B t0 T ps - walk a P t0 T ps) <= G T - G t0.
Proof.
  intros D; induction ps as [|[b t] ps IH]; intros t0 H0 ND BT; cbn [walk].
  - replace (B T - B t0 - (P T - P t0)) with (B T - P T - (B t0 - P t0)) by ring; apply D; lra.
  - destruct ND as [N1 N2]; cbn [map snd] in N1, N2; assert (TT : t <= T) by (apply (BT (b, t)); left; auto).
    assert (I := IH t ltac:(lra) N2 ltac:(intros; apply BT; right; auto)); assert (J := D t0 t ltac:(lra) TT).
    replace (B t - B t0 + turn a b * walk a B t T ps - (P t - P t0 + turn a b * walk a P t T ps)) with
      (B t - P t - (B t0 - P t0) + turn a b * (walk a B t T ps - walk a P t T ps)) by ring.
    eapply Rle_trans; [apply Rabs_triang|]; rewrite Rabs_mult.
    replace (Rabs (turn a b)) with 1 by (unfold turn; destruct (axis_eqb a b); [rewrite Rabs_R1|rewrite Rabs_left]; lra); lra.
Qed.
Lemma walk_small a beta n K T ps : smooth_detuning beta n K T -> 0 <= T -> nondecreasing (0 :: map snd ps) -> (forall p, In p ps -> snd p <= T) ->
  (forall m, (1 <= m <= n)%nat -> switched (fun t => t ^ m) T (flips a ps) = 0) ->
  Rabs (walk a (fun t => RInt beta 0 t) 0 T ps / 2) <= residue n K T.
Proof.
  intros SM T0 ND BT MO.
  assert (Z : walk a (fun t => RInt (polynomial (taylor beta n)) 0 t) 0 T ps = 0).
  { rewrite walk_switched; apply (switched_polynomial n); auto; unfold taylor; rewrite map_length, seq_length; lia. }
  assert (N := walk_near a (fun t => RInt beta 0 t) (fun t => RInt (polynomial (taylor beta n)) 0 t) (fun t => K * t ^ (n + 1) / INR (fact (n + 1))) T ps
    (fun u v H H' => accumulated_remainder beta n K T u v SM H H') 0 ltac:(lra) ND BT).
  rewrite Z, Rminus_0_r, pow_i in N by lia; assert (F := INR_fact_lt_0 (n + 1)).
  unfold Rdiv; rewrite Rabs_mult, (Rabs_pos_eq (/ 2)) by lra; unfold residue.
  replace (K * T ^ (n + 1) / (2 * INR (fact (n + 1)))) with ((K * T ^ (n + 1) / INR (fact (n + 1)) - K * 0 / INR (fact (n + 1))) * / 2) by (field; lra).
  apply Rmult_le_compat_r; [lra|exact N].
Qed.
Lemma pure_small u v w e f g : Rabs u <= e -> Rabs v <= f -> Rabs w <= g -> qsmall (e + f + g) (Q4 0 u v w).
Proof.
  intros U V W; assert (0 <= Rabs u) by apply Rabs_pos; assert (0 <= Rabs v) by apply Rabs_pos; assert (0 <= Rabs w) by apply Rabs_pos.
  assert (S : forall a b, Rabs a <= b -> a * a <= b * b).
  { intros a b L; assert (P := Rabs_pos a); replace (a * a) with (Rabs a * Rabs a) by (rewrite <- Rabs_mult, Rabs_pos_eq; [ring|apply Rle_0_sqr]); apply Rmult_le_compat; auto. }
  apply S in U as U2; apply S in V as V2; apply S in W as W2; split; [lra|].
  unfold qnorm2; cbn [qa qb qc qd pow].
  assert (0 <= e * f) by (apply Rmult_le_pos; lra); assert (0 <= e * g) by (apply Rmult_le_pos; lra); assert (0 <= f * g) by (apply Rmult_le_pos; lra).
  nra.
Qed.

Theorem vector_bound x y z M T pre ps V nx ny nz Kx Ky Kz :
  smooth_detuning x nx Kx T -> smooth_detuning y ny Ky T -> smooth_detuning z nz Kz T ->
  0 <= M -> strength_below x y z M T -> 0 <= T -> nondecreasing (0 :: map snd ps) -> (forall p, In p ps -> snd p <= T) ->
  (forall m, (1 <= m <= nx)%nat -> switched (fun t => t ^ m) T (flips AX ps) = 0) ->
  (forall m, (1 <= m <= ny)%nat -> switched (fun t => t ^ m) T (flips AY ps) = 0) ->
  (forall m, (1 <= m <= nz)%nat -> switched (fun t => t ^ m) T (flips AZ ps) = 0) ->
  vector_sequence x y z 0 T (with_pre_post pre T ps) V ->
  close_to ((M * T) ^ 2 / 8 + (residue nx Kx T + residue ny Ky T + residue nz Kz T)) V (pulse_product (with_pre_post pre T ps)).
Proof.
  intros SX SY SZ M0 B T0 ND BT MX MY MZ VS.
  destruct (vector_first_order x y z M T pre ps V (proj1 SX) (proj1 SY) (proj1 SZ) M0 B T0 ND BT VS) as [a [b [v [UA [UB [-> [-> [U C]]]]]]]].
  apply qnear_close, qnear_right, qnear_left; auto; apply qnear_small.
  replace (qsub v (qprod ps)) with (qadd (qsub v (qmul (qprod ps) (qadd qone (drift x y z T 0 ps)))) (qmul (qprod ps) (drift x y z T 0 ps)))
    by (apply q_eq; cbn; ring).
  apply qsmall_add; auto; rewrite <- (Rmult_1_l (residue nx Kx T + residue ny Ky T + residue nz Kz T)).
  apply qsmall_mul; [apply qsmall_unit, unit_qprod|].
  unfold drift, tilted; apply pure_small; apply walk_small; auto.
Qed.

(** ** Moments of the predefined sequences *)

Definition decouples (a : axis) (n : nat) (T : R) (ps : list (axis * R)) : Prop :=
  forall m, (1 <= m <= n)%nat -> switched (fun t => t ^ m) T (flips a ps) = 0.

Lemma flips_app a l1 l2 : flips a (l1 ++ l2) = flips a l1 ++ flips a l2.
Proof. unfold flips; rewrite filter_app, map_app; reflexivity. Qed.
Lemma flips_uniform a b ts : flips a (map (fun t => (b, t)) ts) = if axis_eqb a b then [] else ts.
Proof.
  unfold flips; induction ts as [|t ts IH]; cbn [map filter fst]; [destruct (axis_eqb a b); auto|].
  destruct (axis_eqb a b); cbn [negb map snd]; auto; rewrite IH; auto.
Qed.
Lemma flips_seq a b (f : nat -> R) l : flips a (map (fun i => (b, f i)) l) = if axis_eqb a b then [] else map f l.
Proof. rewrite <- flips_uniform, map_map; reflexivity. Qed.

Lemma switched_append B c T l1 l2 : forall s t0,
  switched_from B s t0 T (l1 ++ l2) = switched_from B s t0 c l1 + switched_from B (s * (-1) ^ List.length l1) c T l2.
Proof.
  induction l1 as [|t l1 IH]; intros s t0; cbn [app switched_from List.length pow].
  - rewrite Rmult_1_r; apply switched_split.
  - rewrite IH; replace (s * (-1 * (-1) ^ List.length l1)) with (- s * (-1) ^ List.length l1) by ring; ring.
Qed.
Lemma switched_translate B c T ts : forall s t0,
  switched_from B s (c + t0) (c + T) (map (Rplus c) ts) = switched_from (fun t => B (c + t)) s t0 T ts.
Proof. induction ts as [|t ts IH]; intros s t0; cbn [map switched_from]; auto; rewrite IH; auto. Qed.

Lemma uhrig_shift c w n j : forall k, (k + j <= n)%nat ->
  switched (fun t => t ^ k * (c + t) ^ j) w (map (uhrig_time w n) (seq 1 n)) = 0.
Proof.
  induction j as [|j IH]; intros k L.
  - rewrite <- (uhrig_moments n w k ltac:(lia)); apply switched_from_ext; intros; simpl; ring.
  - transitivity (switched (fun t => c * (t ^ k * (c + t) ^ j) + t ^ S k * (c + t) ^ j) w (map (uhrig_time w n) (seq 1 n))).
    + apply switched_from_ext; intros; simpl; ring.
    + rewrite switched_plus, switched_scale, !IH by lia; ring.
Qed.
Lemma uhrig_block m n s c d : (m <= n)%nat ->
  switched_from (fun t => t ^ m) s c d (map (fun i => c + uhrig_time (d - c) n i) (seq 1 n)) = 0.
Proof.
  intros L; replace (map (fun i => c + uhrig_time (d - c) n i) (seq 1 n)) with (map (Rplus c) (map (uhrig_time (d - c) n) (seq 1 n)))
    by (rewrite map_map; reflexivity).
  assert (E : switched_from (fun t => t ^ m) s (c + 0) (c + (d - c)) (map (Rplus c) (map (uhrig_time (d - c) n) (seq 1 n))) = 0).
  { rewrite switched_translate, switched_sign.
    assert (U := uhrig_shift c (d - c) n m 0 ltac:(lia)); unfold switched in U.
    rewrite (switched_from_ext _ (fun t => t ^ 0 * (c + t) ^ m)) by (intros; simpl; ring); rewrite U; ring. }
  rewrite Rplus_0_r in E; replace (c + (d - c)) with d in E by ring; exact E.
Qed.
Lemma quadratic_inner a T n1 n2 m : a <> AZ -> (m <= n1)%nat -> switched (fun t => t ^ m) T (flips a (quadratic_pulses T n1 n2)) = 0.
Proof.
  intros NZ L; unfold quadratic_pulses, switched.
  assert (G : forall k, (k <= n2 + 1)%nat -> forall s,
    switched_from (fun t => t ^ m) s 0 (uhrig_time T n2 k) (flips a (List.concat (map (quadratic_block T n1 n2) (seq 0 k)))) = 0).
  { induction k as [|k IH]; intros K s.
    - cbn; rewrite uhrig_time_0; ring.
    - rewrite seq_S, map_app, concat_app, flips_app, (switched_append _ (uhrig_time T n2 k)), IH, Rplus_0_l by lia.
      cbn [Nat.add map List.concat]; rewrite app_nil_r; unfold quadratic_block; cbv zeta; rewrite Nat.add_1_r, flips_app.
      rewrite (flips_seq a AZ (fun i => uhrig_time T n2 k + uhrig_time (uhrig_time T n2 (S k) - uhrig_time T n2 k) n1 i)).
      replace (axis_eqb a AZ) with false by (destruct a; auto; congruence).
      rewrite (switched_append _ (uhrig_time T n2 (S k))), uhrig_block by auto.
      destruct (k <? n2)%nat; [|cbn; ring].
      destruct a; cbn; [ring|ring|congruence]. }
  rewrite <- (uhrig_time_end T n2) at 1; replace (S n2) with (n2 + 1)%nat by lia; apply G; auto.
Qed.

(** ** XY concatenation *)

Definition zturns (a : axis) (l : list (axis * Z)) : list Z := map snd (filter (fun p => negb (axis_eqb a (fst p))) l).
Fixpoint zpower (m : nat) (s t0 T : Z) (l : list Z) : Z :=
  match l with
  | [] => s * (T ^ Z.of_nat m - t0 ^ Z.of_nat m)
  | t :: l' => s * (t ^ Z.of_nat m - t0 ^ Z.of_nat m) + zpower m (- s) t T l'
  end%Z.
Lemma zpower_real u m l : forall s t0 T,
  switched_from (fun t => t ^ m) (IZR s) (IZR t0 * u) (IZR T * u) (map (fun z => IZR z * u) l) = IZR (zpower m s t0 T l) * u ^ m.
Proof.
  induction l as [|t l IH]; intros s t0 T; cbn [map switched_from zpower].
  - rewrite mult_IZR, minus_IZR, <- !pow_IZR, !Rpow_mult_distr; ring.
  - rewrite <- opp_IZR, IH, plus_IZR, mult_IZR, minus_IZR, <- !pow_IZR, !Rpow_mult_distr; ring.
Qed.
Lemma turns_scale a u l : flips a (map (scale_z u) l) = map (fun z => IZR z * u) (zturns a l).
Proof.
  unfold flips, zturns; induction l as [|[b z] l IH]; cbn [map filter scale_z fst]; auto.
  destruct (axis_eqb a b); cbn [negb map snd]; auto; rewrite IH; auto.
Qed.
Lemma xy_power a T l m ps : switched (fun t => t ^ m) T (flips a (map (scale_z (T / 2 ^ (l * 2))) ps)) =
  IZR (zpower m 1 0 (4 ^ Z.of_nat l) (zturns a ps)) * (T / 2 ^ (l * 2)) ^ m.
Proof. unfold switched; rewrite turns_scale, <- zpower_real, <- unit_total; f_equal; ring. Qed.
Lemma xy_decouples a n T l : forallb (fun m => Z.eqb (zpower m 1 0 (4 ^ Z.of_nat l) (zturns a (xy_small l))) 0) (seq 1 n) = true ->
  decouples a n T (map (scale_z (T / 2 ^ (l * 2))) (xy_small l)).
Proof.
  intros H m M; rewrite forallb_forall in H; specialize (H m ltac:(apply in_seq; lia)); apply Z.eqb_eq in H.
  rewrite xy_power, H; ring.
Qed.

(** ** Every request *)

Definition given_by (r : request) (T : R) (ps : list (axis * R)) : Prop :=
  forall pre name, build_sequence r T pre name = Ok (sequence_of T name (with_pre_post pre T ps)).

Lemma given_ordered r T ps : 0 < T -> valid_request r -> given_by r T ps ->
  nondecreasing (0 :: map snd ps) /\ (forall p, In p ps -> snd p <= T).
Proof.
  intros HT V G; destruct (proj1 (request_validity r T false None) (conj HT V)) as [s [E [_ [_ [_ [ND [B _]]]]]]].
  assert (ES : s = sequence_of T None (with_pre_post false T ps)) by (specialize (G false None); congruence); subst s.
  assert (O : offsets (sequence_of T None (with_pre_post false T ps)) = map snd ps).
  { cbn [with_pre_post sequence_of offsets]; rewrite map_map; apply map_ext; intros [[] t]; reflexivity. }
  rewrite O in ND, B; specialize (B eq_refl); split.
  - destruct ps as [|p ps]; [cbn; auto|]; split; [left; apply B; left; auto|exact ND].
  - intros p I; apply B, in_map, I.
Qed.

Lemma none_decouples a T ps : decouples a 0 T ps.
Proof. intros m M; lia. Qed.
Lemma uniform_decouples a b n T ts : a <> b -> (forall m, (1 <= m <= n)%nat -> switched (fun t => t ^ m) T ts = 0) ->
  decouples a n T (map (fun t => (b, t)) ts).
Proof. intros N H m M; rewrite flips_uniform; replace (axis_eqb a b) with false by (destruct a, b; auto; congruence); auto. Qed.

(** single-axis sequences *)
Lemma single_axis r T n a : 0 < T -> valid_request r -> pulse_axis r = Some a -> suppressed_order r n ->
  exists ts, given_by r T (map (fun t => (a, t)) ts) /\ forall m, (1 <= m <= n)%nat -> switched (fun t => t ^ m) T ts = 0.
Proof.
  intros HT HV HA HO; destruct r as [| |x|x|x|x|x|x y|x|x]; cbn [pulse_axis] in HA; try discriminate; injection HA as <-;
    cbn [valid_request suppressed_order] in *.
  - subst n; exists []; split; [intros pre name; cbn [build_sequence map]; apply ramsey_timing; auto|intros; lia].
  - subst n; exists (T / 2 :: nil); split; [intros pre name; cbn [build_sequence map]; apply spin_echo_timing; auto|].
    intros m M; assert (m = 1)%nat as -> by lia; unfold switched; cbn [switched_from]; field.
  - destruct HO as [k [K ->]]; assert (P := truncates_pos _ _ HV K); exists (cpmg_times T k); split; [|intros; apply cpmg_moments; auto].
    intros pre name; cbn [build_sequence]; rewrite (carr_purcell_timing T x k) by auto; unfold cpmg_times; rewrite map_map; reflexivity.
  - destruct HO as [k [K ->]]; assert (P := truncates_pos _ _ HV K); exists (cpmg_times T k); split; [|intros; apply cpmg_moments; auto].
    intros pre name; cbn [build_sequence]; rewrite (cpmg_timing T x k) by auto; unfold cpmg_times; rewrite map_map; reflexivity.
  - assert (P := truncates_pos _ _ HV HO); exists (map (uhrig_time T n) (seq 1 n)); split; [|intros; apply uhrig_moments; lia].
    intros pre name; cbn [build_sequence]; rewrite (uhrig_timing T x n) by auto; rewrite map_map; reflexivity.
  - destruct HO as [k [K ->]]; assert (P := truncates_pos _ _ HV K); exists (map (fun i => INR i * T / (INR k + 1)) (seq 1 k)); split.
    + intros pre name; cbn [build_sequence]; rewrite (periodic_timing T x k) by auto; rewrite map_map; reflexivity.
    + intros m M; destruct (Nat.even k) eqn:EV; [lia|]; assert (m = 1)%nat as -> by lia.
      apply first_moment_power; rewrite periodic_first_moment, EV; auto.
  - destruct HO as [k [K ->]]; exists (walsh_times T k); split; [|intros; apply walsh_moments; lia].
    intros pre name; cbn [build_sequence]; apply (walsh_model T x k); auto.
  - assert (P := truncates_pos _ _ HV HO); exists (x_times T n); split; [|intros; apply x_moments; lia].
    intros pre name; cbn [build_sequence]; apply (x_model T x n); auto.
Qed.

Lemma request_decouples r T nx ny nz : 0 < T -> valid_request r -> vector_orders r nx ny nz ->
  exists ps, given_by r T ps /\ decouples AX nx T ps /\ decouples AY ny T ps /\ decouples AZ nz T ps.
Proof.
  intros HT HV HO.
  assert (SX : forall n, pulse_axis r = Some AX -> suppressed_order r n -> nx = 0%nat -> ny = n -> nz = n ->
    exists ps, given_by r T ps /\ decouples AX nx T ps /\ decouples AY ny T ps /\ decouples AZ nz T ps).
  { intros n PA SO -> -> ->; destruct (single_axis r T n AX HT HV PA SO) as [ts [G M]]; eexists; split; [exact G|].
    split; [apply none_decouples|split; apply uniform_decouples; auto; discriminate]. }
  assert (SY : forall n, pulse_axis r = Some AY -> suppressed_order r n -> nx = n -> ny = 0%nat -> nz = n ->
    exists ps, given_by r T ps /\ decouples AX nx T ps /\ decouples AY ny T ps /\ decouples AZ nz T ps).
  { intros n PA SO -> -> ->; destruct (single_axis r T n AY HT HV PA SO) as [ts [G M]]; eexists; split; [exact G|].
    split; [apply uniform_decouples; auto; discriminate|split; [apply none_decouples|apply uniform_decouples; auto; discriminate]]. }
  destruct r as [| |x|x|x|x|x|x y|x|x]; cbn [vector_orders] in HO;
    try (destruct HO as [A [B C]]; solve [apply (SX ny); auto | apply (SY nx); auto]); clear SX SY; cbn [valid_request] in HV.
  - destruct HO as [A [-> C]]; destruct HV as [V1 V2].
    assert (P1 := truncates_pos _ _ V1 A); assert (P2 := truncates_pos _ _ V2 C).
    exists (quadratic_pulses T nx nz); split; [intros pre name; cbn [build_sequence]; apply quadratic_timing; auto|].
    split; [intros m M; apply quadratic_inner; [discriminate|lia]|split; [intros m M; apply quadratic_inner; [discriminate|lia]|]].
    intros m M; replace (flips AZ (quadratic_pulses T nx nz)) with (flip_times (quadratic_pulses T nx nz));
      [rewrite quadratic_flips; apply uhrig_moments; lia|].
    generalize (quadratic_pulses T nx nz); intros l; unfold flips; induction l as [|[[] t] l IH]; cbn; auto; rewrite IH; auto.
  - assert (Q : forall l, small l -> truncates_to x l -> given_by (XYConcatenated x) T (map (scale_z (T / 2 ^ (l * 2))) (xy_small l))).
    { intros l SM TR pre name; cbn [build_sequence]; apply (xy_model T x l pre name (xy_small l) HT TR);
        [destruct SM; lia|apply xy_small_slots; auto|intros; apply xy_small_bounds; auto]. }
    destruct HO as [[A [-> [-> ->]]]|[A [-> [-> ->]]]]; eexists;
      (split; [apply Q; [|exact A]; unfold small; auto|]);
      split; [|split| |split]; apply xy_decouples; vm_compute; reflexivity.
Qed.

Theorem request_vector r T pre name nx ny nz : 0 < T -> valid_request r -> vector_orders r nx ny nz ->
  exists l, build_sequence r T pre name = Ok (sequence_of T name l) /\
  forall x y z M Kx Ky Kz V,
  smooth_detuning x nx Kx T -> smooth_detuning y ny Ky T -> smooth_detuning z nz Kz T ->
  0 <= M -> strength_below x y z M T -> vector_sequence x y z 0 T l V ->
  close_to ((M * T) ^ 2 / 8 + (residue nx Kx T + residue ny Ky T + residue nz Kz T)) V (pulse_product l).
Proof.
  intros HT HV HO; destruct (request_decouples r T nx ny nz HT HV HO) as [ps [G [DX [DY DZ]]]].
  destruct (given_ordered r T ps HT HV G) as [ND B].
  exists (with_pre_post pre T ps); split; [apply G|]; intros x y z M Kx Ky Kz V SX SY SZ M0 SB VS.
  apply vector_bound with x y z; auto; lra.
Qed.

(** ** Static noise *)

Lemma constant_smooth c n T : (1 <= n)%nat -> smooth_detuning (fun _ => c) n 0 T.
Proof.
  intros N; split; [intros; apply continuous_const|]; intros t _; split.
  - intros k _; apply ex_derive_n_const.
  - destruct n as [|n]; [lia|]; rewrite Derive_n_const, Rabs_R0; lra.
Qed.
Theorem request_static r T pre name nx ny nz : 0 < T -> valid_request r -> vector_orders r nx ny nz ->
  (1 <= nx)%nat -> (1 <= ny)%nat -> (1 <= nz)%nat ->
  exists l, build_sequence r T pre name = Ok (sequence_of T name l) /\
  forall x y z V, vector_sequence (fun _ => x) (fun _ => y) (fun _ => z) 0 T l V ->
  close_to ((x ^ 2 + y ^ 2 + z ^ 2) * T ^ 2 / 8) V (pulse_product l).
Proof.
  intros HT HV HO NX NY NZ; destruct (request_vector r T pre name nx ny nz HT HV HO) as [l [E H]]; exists l; split; auto.
  intros x y z V VS.
  assert (S0 : 0 <= x ^ 2 + y ^ 2 + z ^ 2) by (assert (A := pow2_ge_0 x); assert (B := pow2_ge_0 y); assert (C := pow2_ge_0 z); lra).
  assert (SQ : sqrt (x ^ 2 + y ^ 2 + z ^ 2) ^ 2 = x ^ 2 + y ^ 2 + z ^ 2) by (rewrite <- Rsqr_pow2, Rsqr_sqrt; auto).
  specialize (H (fun _ => x) (fun _ => y) (fun _ => z) (sqrt (x ^ 2 + y ^ 2 + z ^ 2)) 0 0 0 V
    (constant_smooth x nx T NX) (constant_smooth y ny T NY) (constant_smooth z nz T NZ) (sqrt_pos _)
    ltac:(intros t _; rewrite SQ; lra) VS).
  replace ((x ^ 2 + y ^ 2 + z ^ 2) * T ^ 2 / 8) with
    ((sqrt (x ^ 2 + y ^ 2 + z ^ 2) * T) ^ 2 / 8 + (residue nx 0 T + residue ny 0 T + residue nz 0 T)); auto.
  rewrite Rpow_mult_distr, SQ; unfold residue, Rdiv; rewrite !Rmult_0_l; ring.
Qed.

(** ** Noise along the axis of the pulses *)

Lemma qsolves_unique x y z t0 q p t1 : t0 <= t1 -> qsolves x y z t0 q -> qsolves x y z t0 p -> q t1 = p t1.
Proof.
  intros L Sq Sp.
  assert (N : qnear (0 * (t1 - t0) / 2) (q t1) (p t1)) by (eapply qsolves_near; eauto; [lra|]; intros t _; apply Req_le; ring).
  destruct N as [_ N]; replace ((0 * (t1 - t0) / 2) ^ 2) with 0 in N by field.
  unfold qnorm2, qsub in N; cbn [qa qb qc qd] in N.
  destruct (sumsq8 (qa (q t1) - qa (p t1)) (qb (q t1) - qb (p t1)) (qc (q t1) - qc (p t1)) (qd (q t1) - qd (p t1)) 0 0 0 0)
    as [A1 [A2 [A3 [A4 _]]]].
  { assert (K := fun u => Rle_0_sqr u); unfold Rsqr in K.
    assert (K1 := K (qa (q t1) - qa (p t1))); assert (K2 := K (qb (q t1) - qb (p t1)));
      assert (K3 := K (qc (q t1) - qc (p t1))); assert (K4 := K (qd (q t1) - qd (p t1))); lra. }
  apply q_eq; lra.
Qed.
Lemma wanders_unique x y z t0 t1 V W : t0 <= t1 -> wanders x y z t0 t1 V -> wanders x y z t0 t1 W -> V = W.
Proof.
  intros L A B; apply wanders_quat in A, B; destruct A as [q [Q ->]], B as [p [P ->]]; f_equal; eapply qsolves_unique; eauto.
Qed.
Lemma wanders_exists x y z t0 t1 : (forall t, continuous x t) -> (forall t, continuous y t) -> (forall t, continuous z t) ->
  exists V, wanders x y z t0 t1 V.
Proof.
  intros CX CY CZ; destruct (solution_exists x y z t0 CX CY CZ) as [q Q]; apply qsolves_mat in Q; destruct Q as [Q D].
  exists (qmat (q t1)), (fun t => qmat (q t)); auto.
Qed.
Theorem vector_exists x y z T l : (forall t, continuous x t) -> (forall t, continuous y t) -> (forall t, continuous z t) ->
  forall t0, exists V, vector_sequence x y z t0 T l V.
Proof.
  intros CX CY CZ; induction l as [|e l IH]; intros t0; cbn [vector_sequence]; [apply wanders_exists; auto|].
  destruct (wanders_exists x y z t0 (e_time e) CX CY CZ) as [V1 W]; destruct (IH (e_time e)) as [V2 S].
  exists (mmul V2 (mmul (pulse_unitary e) V1)), V1, V2; auto.
Qed.
Theorem vector_unique x y z T l : (forall e, In e l -> e_time e <= T) -> forall t0 V W, t0 <= T -> nondecreasing (t0 :: map e_time l) ->
  vector_sequence x y z t0 T l V -> vector_sequence x y z t0 T l W -> V = W.
Proof.
  intros B; induction l as [|e l IH]; intros t0 V W L ND; cbn [vector_sequence]; [apply wanders_unique; auto|].
  intros [A [C [D [E ->]]]] [A' [C' [D' [E' ->]]]]; destruct ND as [N1 N2]; cbn [map] in N1, N2.
  assert (e_time e <= T) by (apply B; left; auto).
  assert (C = C') by (apply (IH (fun f I => B f (or_intror I)) (e_time e)); auto).
  assert (A = A') by (apply (wanders_unique x y z t0 (e_time e)); auto; lra); subst; reflexivity.
Qed.
Lemma vector_dephasing beta T l : forall t0 V, vector_sequence (fun _ => 0) (fun _ => 0) beta t0 T l V <-> noisy_sequence beta t0 T l V.
Proof.
  induction l as [|e l IH]; intros t0 V; cbn [vector_sequence noisy_sequence]; [reflexivity|].
  split; intros [V1 [V2 [A [B ->]]]]; exists V1, V2; (split; [exact A|split; [apply IH; exact B|reflexivity]]).
Qed.

Definition about (a : axis) (h : R) : quat :=
  Q4 (cos (h / 2)) (component a AX (sin (h / 2))) (component a AY (sin (h / 2))) (component a AZ (sin (h / 2))).
Lemma about_solves a b t0 : qsolves (fun _ => component a AX b) (fun _ => component a AY b) (fun _ => component a AZ b) t0
  (fun t => about a (b * (t - t0))).
Proof.
  split; [unfold about; rewrite Rminus_eq_0, Rmult_0_r; replace (0 / 2) with 0 by field; rewrite cos_0, sin_0; destruct a; reflexivity|].
  intros t.
  assert (C : is_derive (fun t => cos (b * (t - t0) / 2)) t (- (b / 2) * sin (b * (t - t0) / 2)))
    by (auto_derive; auto; field_simplify; f_equal; try f_equal; unfold Rdiv; ring).
  assert (S : is_derive (fun t => sin (b * (t - t0) / 2)) t (b / 2 * cos (b * (t - t0) / 2)))
    by (auto_derive; auto; field_simplify; f_equal; try f_equal; unfold Rdiv; ring).
  assert (Z : is_derive (fun _ : R => 0) t 0) by (apply (is_derive_const (K := R_AbsRing) (V := R_NormedModule))).
  unfold qderive, about, qham; destruct a; cbn [component qmul qa qb qc qd];
    (split; [|split; [|split]]); (eapply is_derive_eq; [exact C || exact S || exact Z|simpl; field]).
Qed.
Lemma about_add a g h : qmul (about a g) (about a h) = about a (g + h).
Proof.
  unfold about; replace ((g + h) / 2) with (g / 2 + h / 2) by field; rewrite cos_plus, sin_plus.
  destruct a; apply q_eq; cbn; ring.
Qed.
Lemma about_axis a h : qmul (about a h) (qaxis a) = qmul (qaxis a) (about a h).
Proof. unfold about; destruct a; apply q_eq; cbn; ring. Qed.

Lemma exposed_steps a b T ts : forall t0 V, t0 <= T -> nondecreasing (t0 :: ts) -> (forall t, In t ts -> t <= T) ->
  vector_sequence (fun _ => component a AX b) (fun _ => component a AY b) (fun _ => component a AZ b) t0 T
    (map pi_pulse (map (fun t => (a, t)) ts)) V ->
  V = qmat (qmul (qprod (map (fun t => (a, t)) ts)) (about a (b * (T - t0)))).
Proof.
  assert (F : forall t0 t1 V, t0 <= t1 -> wanders (fun _ => component a AX b) (fun _ => component a AY b) (fun _ => component a AZ b) t0 t1 V ->
    V = qmat (about a (b * (t1 - t0)))).
  { intros t0 t1 V L W; apply wanders_quat in W; destruct W as [q [Q ->]]; f_equal.
    apply (qsolves_unique _ _ _ _ _ _ t1 L Q (about_solves a b t0)). }
  induction ts as [|t ts IH]; intros t0 V L ND B VS; cbn [map vector_sequence] in VS.
  - apply F in VS; auto; rewrite VS; f_equal; cbn [map qprod]; apply q_eq; cbn; ring.
  - destruct ND as [N1 N2]; assert (TT : t <= T) by (apply B; left; auto).
    destruct VS as [V1 [V2 [W1 [W2 ->]]]].
    replace (e_time (pi_pulse (a, t))) with t in W1, W2 by (destruct a; reflexivity).
    apply F in W1; auto; apply IH in W2; auto; [|intros; apply B; right; auto].
    rewrite W1, W2, pi_pulse_qmat, <- !qmat_mul; f_equal; cbn [map qprod fst].
    set (P := qprod (map (fun t1 => (a, t1)) ts)).
    replace (b * (T - t0)) with (b * (T - t) + b * (t - t0)) by ring; rewrite <- about_add.
    transitivity (qmul P (qmul (qmul (about a (b * (T - t))) (qaxis a)) (about a (b * (t - t0))))); [apply q_eq; cbn; ring|].
    rewrite about_axis; apply q_eq; cbn; ring.
Qed.

Lemma close_component e p q : close_to e (qmat p) (qmat q) -> qnorm2 (qsub p q) <= 4 * e ^ 2.
Proof.
  intros [A [B [C [D _]]]]; unfold qmat in A, B, C, D; cbn in A, B, C, D.
  assert (S : forall u, Rabs u <= e -> u * u <= e ^ 2).
  { intros u U; assert (P := Rabs_pos u); replace (u * u) with (Rabs u * Rabs u) by (rewrite <- Rabs_mult, Rabs_pos_eq; [ring|apply Rle_0_sqr]).
    cbn [pow]; rewrite Rmult_1_r; apply Rmult_le_compat; auto. }
  apply S in A; apply S in B; apply S in C; apply S in D.
  unfold qnorm2, qsub; cbn [qa qb qc qd]; nra.
Qed.
Lemma about_distance a h : qnorm2 (qsub (about a h) qone) = 4 * sin (h / 4) ^ 2.
Proof.
  unfold qnorm2, qsub, about; replace (h / 2) with (2 * (h / 4)) by field.
  assert (S := sin2_cos2 (2 * (h / 4))); unfold Rsqr in S.
  assert (Cc : cos (2 * (h / 4)) = 1 - 2 * sin (h / 4) * sin (h / 4)) by apply cos_2a_sin.
  destruct a; cbn [component qa qb qc qd qone]; nra.
Qed.

Theorem request_exposed r T pre name a n : 0 < T -> valid_request r -> pulse_axis r = Some a -> suppressed_order r n ->
  exists l, build_sequence r T pre name = Ok (sequence_of T name l) /\
  forall b V d, vector_sequence (fun _ => component a AX b) (fun _ => component a AY b) (fun _ => component a AZ b) 0 T l V ->
  close_to d V (pulse_product l) -> Rabs (sin (b * T / 4)) <= d.
Proof.
  intros HT HV PA SO; destruct (single_axis r T n a HT HV PA SO) as [ts [G _]].
  destruct (given_ordered r T _ HT HV G) as [ND B]; exists (with_pre_post pre T (map (fun t => (a, t)) ts)); split; [apply G|].
  rewrite map_map in ND; cbn [snd] in ND; rewrite map_id in ND.
  assert (BT : forall t, In t ts -> t <= T) by (intros t I; apply (B (a, t)), in_map_iff; eauto).
  intros b V d VS CL.
  set (ps := map (fun t => (a, t)) ts) in *.
  assert (Q : exists u w, unit_quat u /\ unit_quat w /\ V = qmat (qmul (qmul u (qmul (qprod ps) (about a (b * T)))) w) /\
    pulse_product (with_pre_post pre T ps) = qmat (qmul (qmul u (qprod ps)) w)).
  { unfold with_pre_post in *; destruct pre.
    - cbn [vector_sequence e_time] in VS; destruct VS as [V1 [V2 [W1 [W2 ->]]]].
      destruct (wanders_quat _ _ _ _ _ _ W1) as [q [[Q _] ->]]; rewrite Q, qmat_one, mmul_1_r.
      destruct (sequence_last _ _ _ T (Event T (PI / 2) (closing_angle ps) 0) (map pi_pulse ps) eq_refl _ _ W2) as [V' [S' ->]].
      apply exposed_steps in S'; auto; [|lra]; rewrite Rminus_0_r in S'; subst V'.
      destruct (pulse_unit (Event T (PI / 2) (closing_angle ps) 0)) as [u [EA UA]]; destruct (pulse_unit (Event 0 (PI / 2) 0 0)) as [w [EB UB]].
      exists u, w; split; auto; split; auto.
      cbn [pulse_product]; rewrite pulse_product_app; cbn [pulse_product]; rewrite EA, EB, pulse_product_qmat, mmul_1_l, !qmat_mul; auto.
    - apply exposed_steps in VS; auto; [|lra]; rewrite Rminus_0_r in VS; subst V.
      exists qone, qone; split; [apply unit_one|split; [apply unit_one|]].
      rewrite pulse_product_qmat; fold ps; generalize (qprod ps) (about a (b * T)); intros g h.
      split; apply (f_equal qmat); apply q_eq; cbn; ring. }
  destruct Q as [u [w [U [W [-> PP]]]]]; rewrite PP in CL.
  assert (D0 : 0 <= d) by (destruct CL as [A _]; eapply Rle_trans; [apply Rabs_pos|exact A]); apply close_component in CL.
  replace (qsub (qmul (qmul u (qmul (qprod ps) (about a (b * T)))) w) (qmul (qmul u (qprod ps)) w)) with
    (qmul (qmul (qmul u (qprod ps)) (qsub (about a (b * T)) qone)) w) in CL by (generalize (qprod ps) (about a (b * T)); intros g h; apply q_eq; cbn; ring).
  rewrite !qnorm2_mul, U, W, (unit_qprod ps), about_distance in CL.
  rewrite <- (Rabs_pos_eq d) by auto; apply Rsqr_le_abs_0; unfold Rsqr; cbn [pow] in CL; lra.
Qed.
