(** * Solutions of the Schroedinger equation exist *)

From Coq Require Import Lia.
From Verif Require Export L_DrivePulse.
Import ListNotations.
Open Scope string_scope.
Open Scope list_scope.
Open Scope R_scope.

Definition coord (p : quat -> R) : Prop := p = qa \/ p = qb \/ p = qc \/ p = qd.

Lemma cont_RInt (f : R -> R) a t : (forall s, continuous f s) -> is_derive (fun u => RInt f a u) t (f t).
Proof.
  intros C; apply (is_derive_RInt f _ a); [|apply C].
  apply filter_forall; intros u; apply (RInt_correct f), (ex_RInt_continuous f); intros; apply C.
Qed.

Lemma exp_bound_pos (f : R -> R) L K t : 0 < L -> 0 <= t -> (forall s, continuous f s) ->
  (forall s, 0 <= s <= t -> Rabs (f s) <= K * L * exp (2 * L * s)) -> 0 <= K -> Rabs (RInt f 0 t) <= K * exp (2 * L * t) / 2.
Proof.
  intros L0 T0 C B K0.
  assert (IF : forall u v, ex_RInt f u v) by (intros; apply (ex_RInt_continuous f); intros; apply C).
  assert (IR : is_RInt (fun s => K * L * exp (2 * L * s)) 0 t (K / 2 * exp (2 * L * t) - K / 2 * exp (2 * L * 0))).
  { apply (is_RInt_derive (fun s => K / 2 * exp (2 * L * s)) (fun s => K * L * exp (2 * L * s))).
    - intros s _; auto_derive; auto; field.
    - intros s _; apply @ex_derive_continuous; auto_derive; auto. }
  eapply Rle_trans; [apply abs_RInt_le; [auto|apply IF]|].
  eapply Rle_trans; [apply RInt_le; [auto|apply (ex_RInt_norm f), IF|eexists; exact IR|intros s S; apply B; lra]|].
  rewrite (is_RInt_unique _ _ _ _ IR), Rmult_0_r, exp_0; lra.
Qed.

Lemma exp_bound (f : R -> R) L K t : 0 < L -> (forall s, continuous f s) -> 0 <= K ->
  (forall s, Rabs s <= Rabs t -> Rabs (f s) <= K * L * exp (2 * L * Rabs s)) -> Rabs (RInt f 0 t) <= K * exp (2 * L * Rabs t) / 2.
Proof.
  intros L0 C K0 B; destruct (Rle_dec 0 t) as [T|T].
  - rewrite (Rabs_right t) in * by lra; apply exp_bound_pos; auto.
    intros s S; assert (Q := B s); rewrite (Rabs_right s) in Q by lra; apply Q; lra.
  - rewrite (Rabs_left t) in * by lra.
    assert (E : RInt f 0 t = - RInt (fun s => f (- s)) 0 (- t)).
    { assert (X := RInt_comp_lin f (-1) 0 0 (- t)).
      replace (-1 * 0 + 0) with 0 in X by ring; replace (-1 * - t + 0) with t in X by ring.
      rewrite <- X by (apply (ex_RInt_continuous f); intros; apply C).
      assert (Y := RInt_opp (fun s => f (- s)) 0 (- t)).
      etransitivity; [|apply Y].
      - apply RInt_ext; intros s _; unfold scal, opp; cbn; unfold mult; cbn; replace (-1 * s + 0) with (- s) by ring; ring.
      - apply (ex_RInt_continuous (fun s => f (- s))); intros s _.
        apply (continuous_comp (fun s => - s) f); [apply (continuous_opp (fun s : R => s)), continuous_id|apply C]. }
    rewrite E, Rabs_Ropp; apply exp_bound_pos; auto; [lra| |].
    + intros s; apply (continuous_comp (fun s => - s) f); [apply (continuous_opp (fun s : R => s)), continuous_id|apply C].
    + intros s S; assert (Q := B (- s)); rewrite Rabs_Ropp, (Rabs_right s) in Q by lra; apply Q; lra.
Qed.

Section Existence.
  Variables x y z : R -> R.
  Hypothesis Cx : forall t, continuous x t.
  Hypothesis Cy : forall t, continuous y t.
  Hypothesis Cz : forall t, continuous z t.

  Definition rate (s : R) (q : quat) : quat := qmul (qham (x s) (y s) (z s)) q.

  Lemma rate_cont (q : R -> quat) : (forall p, coord p -> forall t, continuous (fun s => p (q s)) t) ->
    forall p, coord p -> forall t, continuous (fun s => p (rate s (q s))) t.
  Proof.
    intros C.
    assert (HA := C qa (or_introl eq_refl)); assert (HB := C qb (or_intror (or_introl eq_refl))).
    assert (HC := C qc (or_intror (or_intror (or_introl eq_refl)))); assert (HD := C qd (or_intror (or_intror (or_intror eq_refl)))).
    assert (Z0 : forall f : R -> R, forall t, continuous f t -> continuous (fun s => f s / 2) t).
    { intros f t H; apply (continuous_scal_l f (/ 2)) in H.
      eapply continuous_ext; [|exact H]; intros s; unfold scal; cbn; unfold mult; cbn; field. }
    assert (MU : forall (f g : R -> R) t, continuous f t -> continuous g t -> continuous (fun s => f s * g s) t).
    { intros f g t; apply (continuous_mult f g). }
    assert (PL : forall (f g : R -> R) t, continuous f t -> continuous g t -> continuous (fun s => f s + g s) t).
    { intros f g t; apply (continuous_plus f g). }
    assert (MI : forall (f g : R -> R) t, continuous f t -> continuous g t -> continuous (fun s => f s - g s) t).
    { intros f g t; apply (continuous_minus f g). }
    assert (OP : forall (f : R -> R) t, continuous f t -> continuous (fun s => - f s) t).
    { intros f t; apply (continuous_opp f). }
    intros p [->|[->|[->| ->]]] t; unfold rate, qmul, qham; cbn [qa qb qc qd];
      repeat match goal with
        | |- continuous (fun s => _ + _) _ => apply PL
        | |- continuous (fun s => _ - _) _ => apply MI
        | |- continuous (fun s => _ * _) _ => apply MU
        | |- continuous (fun s => - _) _ => apply OP
        | |- continuous (fun s => _ / 2) _ => apply Z0
        | |- continuous (fun s => 0) _ => apply continuous_const
        end; auto.
  Qed.

  Fixpoint iterate (n : nat) (t : R) : quat :=
    match n with
    | O => qone
    | S n' =>
        Q4 (1 + RInt (fun s => qa (rate s (iterate n' s))) 0 t) (0 + RInt (fun s => qb (rate s (iterate n' s))) 0 t)
           (0 + RInt (fun s => qc (rate s (iterate n' s))) 0 t) (0 + RInt (fun s => qd (rate s (iterate n' s))) 0 t)
    end.

  Lemma iterate_S n p t : coord p -> p (iterate (S n) t) = p qone + RInt (fun s => p (rate s (iterate n s))) 0 t.
  Proof. intros [->|[->|[->| ->]]]; reflexivity. Qed.

  Lemma iterate_cont n : forall p, coord p -> forall t, continuous (fun s => p (iterate n s)) t.
  Proof.
    induction n as [|n IH]; intros p P t; [apply continuous_const|].
    eapply continuous_ext; [intros s; symmetry; apply iterate_S; auto|].
    apply (continuous_plus (fun _ => p qone)); [apply continuous_const|].
    apply @ex_derive_continuous; eexists; apply cont_RInt, rate_cont; auto.
  Qed.

  Lemma rate_linear s q r p : coord p -> p (rate s q) - p (rate s r) = p (rate s (qsub q r)).
  Proof. intros [->|[->|[->| ->]]]; unfold rate, qmul, qham, qsub; cbn [qa qb qc qd]; ring. Qed.
  Lemma sub_coord q r p : coord p -> p (qsub q r) = p q - p r.
  Proof. intros [->|[->|[->| ->]]]; reflexivity. Qed.

  Lemma rate_bound s q K L : Rabs (x s) + Rabs (y s) + Rabs (z s) <= 2 * L -> (forall p, coord p -> Rabs (p q) <= K) ->
    forall p, coord p -> Rabs (p (rate s q)) <= L * K.
  Proof.
    intros B H.
    assert (HA := H qa (or_introl eq_refl)); assert (HB := H qb (or_intror (or_introl eq_refl))).
    assert (HC := H qc (or_intror (or_intror (or_introl eq_refl)))); assert (HD := H qd (or_intror (or_intror (or_intror eq_refl)))).
    assert (K0 : 0 <= K) by (eapply Rle_trans; [apply Rabs_pos|exact HA]).
    assert (TT : forall u v w, Rabs u <= K -> Rabs v <= K -> Rabs w <= K ->
      Rabs (x s / 2 * u) + Rabs (y s / 2 * v) + Rabs (z s / 2 * w) <= L * K).
    { intros u v w U V W; rewrite !Rabs_mult; unfold Rdiv; rewrite !Rabs_mult, (Rabs_right (/ 2)) by lra.
      assert (A1 := Rabs_pos (x s)); assert (A2 := Rabs_pos (y s)); assert (A3 := Rabs_pos (z s)).
      assert (M1 : Rabs (x s) * / 2 * Rabs u <= Rabs (x s) * / 2 * K) by (apply Rmult_le_compat_l; lra).
      assert (M2 : Rabs (y s) * / 2 * Rabs v <= Rabs (y s) * / 2 * K) by (apply Rmult_le_compat_l; lra).
      assert (M3 : Rabs (z s) * / 2 * Rabs w <= Rabs (z s) * / 2 * K) by (apply Rmult_le_compat_l; lra).
      assert (Rabs (x s) * / 2 * K + Rabs (y s) * / 2 * K + Rabs (z s) * / 2 * K <= L * K); [|lra].
      rewrite <- !Rmult_plus_distr_r; apply Rmult_le_compat_r; lra. }
    assert (N3 : forall a b c r, (r = - a - b - c \/ r = a + b - c \/ r = a - b + c \/ r = - a + b + c \/ r = a + b + c) ->
      Rabs r <= Rabs a + Rabs b + Rabs c).
    { intros a b c r E.
      assert (X1 := Rle_abs a); assert (X2 := Rle_abs b); assert (X3 := Rle_abs c).
      assert (Y1 := Rle_abs (- a)); assert (Y2 := Rle_abs (- b)); assert (Y3 := Rle_abs (- c)); rewrite Rabs_Ropp in Y1, Y2, Y3.
      apply Rabs_le; destruct E as [->|[->|[->|[->| ->]]]]; lra. }
    intros p [->|[->|[->| ->]]]; unfold rate, qmul, qham; cbn [qa qb qc qd].
    - eapply Rle_trans; [|apply (TT (qb q) (qc q) (qd q)); auto]; apply N3; left; ring.
    - eapply Rle_trans; [|apply (TT (qa q) (qd q) (qc q)); auto]; apply N3; right; left; ring.
    - eapply Rle_trans; [|apply (TT (qd q) (qa q) (qb q)); auto]; apply N3; right; right; right; left; ring.
    - eapply Rle_trans; [|apply (TT (qc q) (qb q) (qa q)); auto]; apply N3; right; right; left; ring.
  Qed.

  Section Interval.
    Variables A L : R.
    Hypothesis L0 : 0 < L.
    Hypothesis HL : forall s, Rabs s <= A -> Rabs (x s) + Rabs (y s) + Rabs (z s) <= 2 * L.

    Lemma diff_bound n : forall t p, coord p -> Rabs t <= A ->
      Rabs (p (iterate (S n) t) - p (iterate n t)) <= (/ 2) ^ n * exp (2 * L * Rabs t).
    Proof.
      induction n as [|n IH]; intros t p P T.
      - rewrite iterate_S by auto; cbn [iterate pow]; unfold Rminus; rewrite Rplus_comm, <- Rplus_assoc, Rplus_opp_l, Rplus_0_l, Rmult_1_l.
        eapply Rle_trans; [apply (exp_bound _ L 1); auto; [|lra|]|].
        + apply rate_cont; auto; intros; apply continuous_const.
        + intros s S; eapply Rle_trans; [apply (rate_bound s qone 1 L); auto|].
          * apply HL; lra.
          * clear; intros p [->|[->|[->| ->]]]; cbn; rewrite ?Rabs_R1, ?Rabs_R0; lra.
          * assert (X := exp_ineq1_le (2 * L * Rabs s)); assert (Y := Rabs_pos s).
            assert (0 <= 2 * L * Rabs s) by (apply Rmult_le_pos; lra); nra.
        + assert (X := exp_pos (2 * L * Rabs t)); lra.
      - rewrite !iterate_S by auto.
        assert (CT : forall m, forall t, continuous (fun s => p (rate s (iterate m s))) t).
        { intros m; apply rate_cont; auto; apply iterate_cont. }
        assert (EX : forall m u v, ex_RInt (fun s => p (rate s (iterate m s))) u v).
        { intros m u v; apply (ex_RInt_continuous (fun s => p (rate s (iterate m s)))); intros; apply CT. }
        assert (E : p qone + RInt (fun s => p (rate s (iterate (S n) s))) 0 t - (p qone + RInt (fun s => p (rate s (iterate n s))) 0 t) =
          RInt (fun s => p (rate s (iterate (S n) s)) - p (rate s (iterate n s))) 0 t).
        { assert (X := RInt_minus _ _ 0 t (EX (S n) 0 t) (EX n 0 t)); unfold minus, plus, opp in X; cbn [RInt] in X.
          etransitivity; [|symmetry; exact X]; cbn; ring. }
        rewrite E; assert (P0 : 0 <= (/ 2) ^ n) by (apply pow_le; lra).
        replace ((/ 2) ^ S n * exp (2 * L * Rabs t)) with ((/ 2) ^ n * exp (2 * L * Rabs t) / 2) by (cbn [pow]; field).
        apply exp_bound; auto.
        + intros s; apply (continuous_minus (fun s => p (rate s (iterate (S n) s)))); apply CT.
        + intros s S; rewrite rate_linear by auto.
          eapply Rle_trans; [apply (rate_bound s _ ((/ 2) ^ n * exp (2 * L * Rabs s)) L); auto; [apply HL; lra|]|apply Req_le; ring].
          intros r R; rewrite sub_coord by auto; apply IH; auto; lra.
    Qed.

    Notation K := (exp (2 * L * A)).
    Lemma step_bound n t p : coord p -> Rabs t <= A -> Rabs (p (iterate (S n) t) - p (iterate n t)) <= (/ 2) ^ n * K.
    Proof.
      intros P T; eapply Rle_trans; [apply diff_bound; auto|]; apply Rmult_le_compat_l; [apply pow_le; lra|].
      assert (E : 2 * L * Rabs t <= 2 * L * A) by (apply Rmult_le_compat_l; lra).
      destruct E as [E|E]; [left; apply exp_increasing; auto|rewrite E; apply Rle_refl].
    Qed.
    Lemma far_bound m n t p : coord p -> Rabs t <= A -> Rabs (p (iterate (n + m) t) - p (iterate n t)) <= 2 * K * (/ 2) ^ n - 2 * K * (/ 2) ^ (n + m).
    Proof.
      intros P T; induction m as [|m IH].
      - rewrite Nat.add_0_r, !Rminus_diag_eq, Rabs_R0 by auto; lra.
      - rewrite Nat.add_succ_r; assert (S1 := step_bound (n + m) t p P T).
        replace (p (iterate (S (n + m)) t) - p (iterate n t)) with
          ((p (iterate (S (n + m)) t) - p (iterate (n + m) t)) + (p (iterate (n + m) t) - p (iterate n t))) by ring.
        eapply Rle_trans; [apply Rabs_triang|].
        change ((/ 2) ^ S (n + m)) with (/ 2 * (/ 2) ^ (n + m)); lra.
    Qed.
    Lemma cauchy_bound m n t p : coord p -> Rabs t <= A -> (n <= m)%nat -> Rabs (p (iterate m t) - p (iterate n t)) <= 2 * K * (/ 2) ^ n.
    Proof.
      intros P T LE; replace m with (n + (m - n))%nat by lia.
      eapply Rle_trans; [apply far_bound; auto|].
      assert (0 <= 2 * K * (/ 2) ^ (n + (m - n))); [|lra].
      apply Rmult_le_pos; [assert (H := exp_pos (2 * L * A)); lra|apply pow_le; lra].
    Qed.
    Lemma tail_small (e : posreal) : exists N, forall n, (N <= n)%nat -> 2 * K * (/ 2) ^ n < e.
    Proof.
      assert (K0 := exp_pos (2 * L * A)).
      destruct (pow_lt_1_zero (/ 2) ltac:(rewrite Rabs_right; lra) (e / (2 * K))) as [N H].
      { apply Rdiv_lt_0_compat; [apply e|lra]. }
      exists N; intros n LE; assert (Q := H n LE); rewrite Rabs_right in Q by (apply Rle_ge, pow_le; lra).
      apply (Rmult_lt_compat_l (2 * K)) in Q; [|lra]; replace (2 * K * (e / (2 * K))) with (pos e) in Q by (field; lra); auto.
    Qed.
    Lemma iterate_lim t p : coord p -> Rabs t <= A -> ex_finite_lim_seq (fun n => p (iterate n t)).
    Proof.
      intros P T; apply ex_lim_seq_cauchy_corr; intros e; destruct (tail_small e) as [N H]; exists N; intros n m Ln Lm.
      destruct (Nat.le_ge_cases n m) as [LE|LE].
      - rewrite Rabs_minus_sym; eapply Rle_lt_trans; [apply cauchy_bound; auto|apply H; auto].
      - eapply Rle_lt_trans; [apply cauchy_bound; auto|apply H; auto].
    Qed.
  End Interval.

  Definition limit (t : R) : quat :=
    Q4 (real (Lim_seq (fun n => qa (iterate n t)))) (real (Lim_seq (fun n => qb (iterate n t))))
       (real (Lim_seq (fun n => qc (iterate n t)))) (real (Lim_seq (fun n => qd (iterate n t)))).
  Lemma limit_coord p t : coord p -> p (limit t) = real (Lim_seq (fun n => p (iterate n t))).
  Proof. intros [->|[->|[->| ->]]]; reflexivity. Qed.

  Lemma bounded_rate A : 0 < A -> exists L, 0 < L /\ forall s, Rabs s <= A -> Rabs (x s) + Rabs (y s) + Rabs (z s) <= 2 * L.
  Proof.
    intros A0.
    set (h := fun s => Rabs (x s) + Rabs (y s) + Rabs (z s)).
    assert (CA : forall f : R -> R, (forall t, continuous f t) -> forall t, continuous (fun s => Rabs (f s)) t).
    { intros f C t; apply (continuous_comp f Rabs); [apply C|apply continuous_Rabs]. }
    assert (C : forall s, continuous h s).
    { intros s; apply (continuous_plus (fun s => Rabs (x s) + Rabs (y s))); [apply (continuous_plus (fun s => Rabs (x s)))|]; apply CA; auto. }
    destruct (continuity_ab_maj h (- A) A ltac:(lra)) as [M [H _]].
    { intros c _; apply continuity_pt_filterlim, C. }
    exists (h M + 1); assert (P : forall s, 0 <= h s).
    { intros s; unfold h; assert (A1 := Rabs_pos (x s)); assert (A2 := Rabs_pos (y s)); assert (A3 := Rabs_pos (z s)); lra. }
    assert (PM := P M); split; [lra|]; intros s S; apply Rabs_le_between in S; assert (Q := H s ltac:(lra)); fold (h s); lra.
  Qed.

  Lemma limit_bound A : 0 < A -> exists K, 0 < K /\ forall n t p, coord p -> Rabs t <= A -> Rabs (p (limit t) - p (iterate n t)) <= K * (/ 2) ^ n.
  Proof.
    intros A0; destruct (bounded_rate A A0) as [L [L0 HL]]; exists (2 * exp (2 * L * A)); split; [assert (H := exp_pos (2 * L * A)); lra|].
    intros n t p P T; rewrite limit_coord by auto.
    assert (IL := Lim_seq_correct' _ (iterate_lim A L L0 HL t p P T)).
    assert (I1 : is_lim_seq (fun m => Rabs (p (iterate (n + m) t) - p (iterate n t)))
      (Rabs (real (Lim_seq (fun n => p (iterate n t))) - p (iterate n t)))).
    { apply (is_lim_seq_abs _ (Finite _)); apply (is_lim_seq_minus' _ (fun _ => p (iterate n t))); [|apply is_lim_seq_const].
      assert (IN := proj1 (is_lim_seq_incr_n _ n _) IL); eapply is_lim_seq_ext; [|exact IN]; intros m; rewrite Nat.add_comm; auto. }
    exact (is_lim_seq_le _ (fun _ => 2 * exp (2 * L * A) * (/ 2) ^ n) _ _
      (fun m => cauchy_bound A L L0 HL (n + m) n t p P T ltac:(lia)) I1 (is_lim_seq_const _)).
  Qed.

  Lemma limit_cont p t : coord p -> continuous (fun s => p (limit s)) t.
  Proof.
    intros P; set (A := Rabs t + 1); assert (T0 := Rabs_pos t).
    destruct (limit_bound A ltac:(unfold A; lra)) as [K [K0 B]].
    apply filterlim_locally; intros e.
    destruct (pow_lt_1_zero (/ 2) ltac:(rewrite Rabs_right; lra) (e / 3 / K)) as [N H].
    { assert (E := cond_pos e); repeat apply Rdiv_lt_0_compat; lra. }
    assert (Q := H N (le_n N)); rewrite Rabs_right in Q by (apply Rle_ge, pow_le; lra).
    apply (Rmult_lt_compat_l K) in Q; auto; replace (K * (e / 3 / K)) with (e / 3) in Q by (field; lra).
    assert (E3 : 0 < e / 3) by (assert (E := cond_pos e); lra).
    assert (CT := proj1 (filterlim_locally _ _) (iterate_cont N p P t) (mkposreal _ E3)).
    assert (NB : locally t (fun s : R => Rabs s <= A)).
    { exists (mkposreal 1 Rlt_0_1); intros s S; change (Rabs (s - t) < 1) in S.
      replace s with ((s - t) + t) by ring; eapply Rle_trans; [apply Rabs_triang|]; unfold A; lra. }
    eapply filter_imp; [|apply filter_and; [exact CT|exact NB]].
    intros s [S1 S2]; change (Rabs (p (iterate N s) - p (iterate N t)) < e / 3) in S1; change (Rabs (p (limit s) - p (limit t)) < e).
    assert (B1 := B N s p P S2); assert (B2 := B N t p P ltac:(unfold A; lra)).
    apply Rabs_le_between in B1, B2; apply Rabs_def2 in S1; apply Rabs_def1; lra.
  Qed.

  Lemma limit_integral p t : coord p -> p (limit t) = p qone + RInt (fun s => p (rate s (limit s))) 0 t.
  Proof.
    intros P; set (A := Rabs t + 1); assert (T0 := Rabs_pos t).
    assert (A0 : 0 < A) by (unfold A; lra).
    destruct (limit_bound A A0) as [K [K0 B]]; destruct (bounded_rate A A0) as [L [L0 HL]].
    set (r := p qone + RInt (fun s => p (rate s (limit s))) 0 t).
    assert (HP : is_lim_seq (fun n => (/ 2) ^ n) 0) by (apply is_lim_seq_geom; rewrite Rabs_right; lra).
    assert (SQ : forall v (u : nat -> R) c, 0 <= c -> (forall n, Rabs (u n - v) <= c * (/ 2) ^ n) -> is_lim_seq u v).
    { intros v u c C0 H; apply (is_lim_seq_le_le (fun n => v - c * (/ 2) ^ n) u (fun n => v + c * (/ 2) ^ n)).
      - intros n; assert (Q := H n); apply Rabs_le_between in Q; lra.
      - replace (Finite v) with (Finite (v - c * 0)) by (f_equal; ring).
        apply is_lim_seq_minus'; [apply is_lim_seq_const|apply is_lim_seq_mult'; [apply is_lim_seq_const|exact HP]].
      - replace (Finite v) with (Finite (v + c * 0)) by (f_equal; ring).
        apply is_lim_seq_plus'; [apply is_lim_seq_const|apply is_lim_seq_mult'; [apply is_lim_seq_const|exact HP]]. }
    assert (I1 : is_lim_seq (fun n => p (iterate (S n) t)) (p (limit t))).
    { apply (SQ _ _ K); [lra|]; intros n; rewrite Rabs_minus_sym; eapply Rle_trans; [apply B; auto; unfold A; lra|].
      apply Rmult_le_compat_l; [lra|]; cbn [pow]; assert (0 <= (/ 2) ^ n) by (apply pow_le; lra); lra. }
    assert (I2 : is_lim_seq (fun n => p (iterate (S n) t)) r).
    { apply (SQ _ _ (Rabs t * (L * K))); [apply Rmult_le_pos; auto; apply Rmult_le_pos; lra|]; intros n; rewrite iterate_S by auto; unfold r.
      assert (CT : forall t, continuous (fun s => p (rate s (iterate n s))) t) by (apply rate_cont; auto; apply iterate_cont).
      assert (CL : forall t, continuous (fun s => p (rate s (limit s))) t) by (apply rate_cont; auto; intros; apply limit_cont; auto).
      assert (X := RInt_minus _ _ 0 t (ex_RInt_continuous (fun s => p (rate s (iterate n s))) 0 t (fun u _ => CT u))
        (ex_RInt_continuous (fun s => p (rate s (limit s))) 0 t (fun u _ => CL u))).
      assert (E : p qone + RInt (fun s => p (rate s (iterate n s))) 0 t - (p qone + RInt (fun s => p (rate s (limit s))) 0 t) =
        RInt (fun s => p (rate s (iterate n s)) - p (rate s (limit s))) 0 t).
      { etransitivity; [|symmetry; exact X]; unfold minus, plus, opp; cbn; ring. }
      rewrite E; set (f := fun s => p (rate s (iterate n s)) - p (rate s (limit s))).
      assert (CF : forall u v, ex_RInt f u v).
      { intros u v; apply (ex_RInt_continuous f); intros s _; apply (continuous_minus (fun s => p (rate s (iterate n s)))); auto. }
      assert (FB : forall s, Rabs s <= Rabs t -> Rabs (f s) <= L * (K * (/ 2) ^ n)).
      { intros s S; unfold f; rewrite rate_linear by auto; apply rate_bound; auto; [apply HL; unfold A; lra|].
        intros q Q; rewrite sub_coord, Rabs_minus_sym by auto; apply B; auto; unfold A; lra. }
      replace (Rabs t * (L * K) * (/ 2) ^ n) with (Rabs t * (L * (K * (/ 2) ^ n))) by ring.
      destruct (Rle_dec 0 t) as [T|T].
      - assert (Y := abs_RInt_le_const f 0 t (L * (K * (/ 2) ^ n)) T (CF 0 t)).
        rewrite Rminus_0_r in Y; rewrite (Rabs_right t) in * by lra; apply Y; intros s S; apply FB; rewrite Rabs_right; lra.
      - assert (Y := abs_RInt_le_const f t 0 (L * (K * (/ 2) ^ n)) ltac:(lra) (CF t 0)).
        assert (SW : RInt f 0 t = - RInt f t 0) by (symmetry; apply (opp_RInt_swap f t 0); apply CF).
        rewrite SW, Rabs_Ropp.
        rewrite Rminus_0_l in Y; rewrite (Rabs_left t) in * by lra; apply Y; intros s S; apply FB; rewrite Rabs_left1; lra. }
    apply is_lim_seq_unique in I1, I2; rewrite I1 in I2; injection I2; auto.
  Qed.

  Lemma limit_solves : qsolves x y z 0 limit.
  Proof.
    split.
    - assert (H : forall p, coord p -> p (limit 0) = p qone).
      { intros p P; rewrite limit_integral by auto; rewrite RInt_point; unfold zero; cbn; ring. }
      apply q_eq; apply H; unfold coord; auto.
    - intros t; change (qmul (qham (x t) (y t) (z t)) (limit t)) with (rate t (limit t)).
      assert (H : forall p, coord p -> is_derive (fun s => p (limit s)) t (p (rate t (limit t)))).
      { intros p P; eapply is_derive_ext; [intros s; symmetry; apply limit_integral; auto|].
        rewrite <- (Rplus_0_l (p (rate t (limit t)))).
        apply (is_derive_plus (fun _ => p qone)); [apply @is_derive_const|].
        apply cont_RInt, rate_cont; auto; intros; apply limit_cont; auto. }
      split; [|split; [|split]]; apply H; unfold coord; auto.
  Qed.
End Existence.

(** ** Any starting time *)

Lemma solution_exists x y z t0 : (forall t, continuous x t) -> (forall t, continuous y t) -> (forall t, continuous z t) ->
  exists q, qsolves x y z t0 q.
Proof.
  intros Cx Cy Cz.
  assert (SC : forall f : R -> R, (forall t, continuous f t) -> forall t, continuous (fun s => f (s + t0)) t).
  { intros f C t; apply (continuous_comp (fun s => s + t0) f); [|apply C].
    apply (continuous_plus (fun s : R => s) (fun _ => t0)); [apply continuous_id|apply continuous_const]. }
  assert (LS := limit_solves _ _ _ (SC x Cx) (SC y Cy) (SC z Cz)).
  destruct (ex_intro (fun q => qsolves _ _ _ 0 q) _ LS) as [q [S D]]; clear LS.
  exists (fun t => q (t - t0)); split; [replace (t0 - t0) with 0 by ring; exact S|].
  intros t; assert (Q := D (t - t0)); cbv beta in Q; replace (t - t0 + t0) with t in Q by ring.
  assert (H : forall (f : R -> R) d, is_derive f (t - t0) d -> is_derive (fun t => f (t - t0)) t d).
  { intros f d F; assert (X := is_derive_comp f (fun t => t - t0) t d 1 F).
    rewrite <- (Rmult_1_l d); apply X; auto_derive; auto; ring. }
  destruct Q as [A [B [C0 E]]]; split; [exact (H _ _ A)|split; [exact (H _ _ B)|split; [exact (H _ _ C0)|exact (H _ _ E)]]].
Qed.

Lemma driven_exists eps beta g t0 t1 : (forall t, continuous eps t) -> (forall t, continuous beta t) -> exists V, driven eps beta g t0 t1 V.
Proof.
  intros Ce Cb.
  assert (K : forall c t, continuous (fun s => (1 + eps s) * g_rabi g * c) t).
  { intros c t.
    apply (continuous_mult (fun s => (1 + eps s) * g_rabi g) (fun _ => c)); [|apply continuous_const].
    apply (continuous_mult (fun s => 1 + eps s) (fun _ => g_rabi g)); [|apply continuous_const].
    apply (continuous_plus (fun _ => 1) eps); [apply continuous_const|apply Ce]. }
  destruct (solution_exists (fun t => (1 + eps t) * g_rabi g * cos (g_phi g)) (fun t => (1 + eps t) * g_rabi g * sin (g_phi g))
    (fun t => g_det g + beta t) t0) as [q S]; auto.
  - intros t; apply (continuous_plus (fun _ => g_det g) beta); [apply continuous_const|apply Cb].
  - eexists; eapply quat_driven; exact S.
Qed.

Theorem control_exists eps beta l : (forall t, continuous eps t) -> (forall t, continuous beta t) ->
  forall t0, exists V, noisy_control eps beta t0 l V.
Proof.
  intros Ce Cb; induction l as [|g l IH]; intros t0; cbn [noisy_control]; [eauto|].
  destruct (driven_exists eps beta g t0 (t0 + g_dur g) Ce Cb) as [V1 D]; destruct (IH (t0 + g_dur g)) as [V2 N].
  exists (mmul V2 V1), V1, V2; auto.
Qed.

Theorem varying_predefined r T pre name s maxr maxd mn name' c segs n eps beta E M K V :
  / 10 ^ 8 < T -> build_sequence r T pre name = Ok s -> suppressed_order r n ->
  convert_dds_to_driven_control s maxr maxd mn name' = Ok c -> describes segs c -> duration c = T ->
  smooth_detuning beta n K T -> bounded_by eps E 0 T -> bounded_by beta M 0 T ->
  noisy_control eps beta 0 segs V ->
  exists l, s = sequence_of T name l /\
    close_to (M * total (map (pulse_width maxr maxd mn) l) + E * total (map e_rabi l) / 2 +
              K * T ^ (n + 1) / (2 * INR (fact (n + 1)))) V (pulse_product l).
Proof.
  intros LT B SO C D DU SM HE HM N; assert (S0 := small_pos).
  assert (VR : valid_request r).
  { destruct (valid_request_dec r) as [H|H]; auto; exfalso.
    destruct (request_invalid r T pre name) as [m [a [b X]]]; [tauto|congruence]. }
  destruct (request_pulses r VR) as [rel [DR _]].
  assert (Q := DR T pre name ltac:(lra)); rewrite B in Q; injection Q as ->.
  destruct (request_validity r T pre name) as [[s [Q [CS _]]] _]; [split; auto; lra|].
  rewrite B in Q; injection Q as <-.
  destruct (request_suppression r T pre name n ltac:(lra) VR SO) as [s [Q SU]]; rewrite B in Q; injection Q as <-.
  eexists; split; [reflexivity|].
  eapply varying_suppression; eauto; intros e I; apply (predefined_clean _ _ _ _ I).
Qed.
