(** * Numerical bounds on PI, sin and cos (mathematics only) *)

From Coq Require Import Reals Lra Lia Machin.
From Coquelicot Require Import Coquelicot.
Open Scope R_scope.

Lemma PI_bounds : 3.14159265 < PI < 3.14159266.
Proof.
  destruct (PI_2_3_7_ineq 4) as [A B].
  unfold sum_f_R0, tg_alt, PI_2_3_7_tg, Ratan_seq in A, B; simpl in A, B; lra.
Qed.

(** sin and cos are 1-Lipschitz *)
Lemma sin_lipschitz x y : Rabs (sin x - sin y) <= Rabs (x - y).
Proof.
  destruct (MVT_gen sin y x cos) as [c [_ E]].
  - intros z _; auto_derive; auto; ring.
  - intros z _; apply derivable_continuous_pt, derivable_pt_sin.
  - rewrite E, Rabs_mult.
    rewrite <- (Rmult_1_l (Rabs (x - y))) at 2; apply Rmult_le_compat_r; [apply Rabs_pos|].
    apply Rabs_le; apply COS_bound.
Qed.
Lemma cos_lipschitz x y : Rabs (cos x - cos y) <= Rabs (x - y).
Proof.
  rewrite !cos_sin; eapply Rle_trans; [apply sin_lipschitz|].
  right; f_equal; ring.
Qed.

(** elementary bounds *)
Lemma sin_lt_x x : 0 < x -> sin x < x.
Proof. exact (sin_lt_x x). Qed.

Lemma sin_ge_cubic x : 0 <= x <= PI -> x - x ^ 3 / 6 <= sin x.
Proof.
  intros H; destruct (sin_bound x 0) as [A _]; try lra.
  unfold sin_approx, sin_term in A; simpl in A; lra.
Qed.
