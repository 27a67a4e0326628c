(** * Basic lemmas about PyBase *)

From Verif Require Export PyBase.
From Coq Require Export Lra Lia.
Open Scope R_scope.

(** ** Reflection of boolean comparisons *)

Lemma ltb_true x y : ltb x y = true <-> x < y.
Proof. unfold ltb; destruct (Rlt_dec x y); split; intros; auto; try discriminate; contradiction. Qed.
Lemma ltb_false x y : ltb x y = false <-> y <= x.
Proof. unfold ltb; destruct (Rlt_dec x y); split; intros; auto; try discriminate; lra. Qed.
Lemma leb_true x y : leb x y = true <-> x <= y.
Proof. unfold leb; destruct (Rle_dec x y); split; intros; auto; try discriminate; contradiction. Qed.
Lemma leb_false x y : leb x y = false <-> y < x.
Proof. unfold leb; destruct (Rle_dec x y); split; intros; auto; try discriminate; lra. Qed.
Lemma eqb_true x y : eqb x y = true <-> x = y.
Proof. unfold eqb; destruct (Req_EM_T x y); split; intros; auto; try discriminate; contradiction. Qed.
Lemma eqb_false x y : eqb x y = false <-> x <> y.
Proof. unfold eqb; destruct (Req_EM_T x y); split; intros; auto; try discriminate; contradiction. Qed.
Lemma neqb_true x y : neqb x y = true <-> x <> y.
Proof. unfold neqb; rewrite negb_true_iff; apply eqb_false. Qed.
Lemma neqb_false x y : neqb x y = false <-> x = y.
Proof. unfold neqb; rewrite negb_false_iff; apply eqb_true. Qed.

(** turn boolean facts about comparisons into propositions *)
Ltac breflect :=
  repeat match goal with
  | H : ltb _ _ = true |- _ => apply ltb_true in H
  | H : ltb _ _ = false |- _ => apply ltb_false in H
  | H : leb _ _ = true |- _ => apply leb_true in H
  | H : leb _ _ = false |- _ => apply leb_false in H
  | H : eqb _ _ = true |- _ => apply eqb_true in H
  | H : eqb _ _ = false |- _ => apply eqb_false in H
  | H : neqb _ _ = true |- _ => apply neqb_true in H
  | H : neqb _ _ = false |- _ => apply neqb_false in H
  | H : (_ && _)%bool = true |- _ => apply andb_true_iff in H; destruct H
  | H : (_ || _)%bool = false |- _ => apply orb_false_iff in H; destruct H
  | H : negb _ = true |- _ => apply negb_true_iff in H
  | H : negb _ = false |- _ => apply negb_false_iff in H
  end.

Lemma forallb_Forall {A} (f : A -> bool) (P : A -> Prop) l :
  (forall x, f x = true <-> P x) -> forallb f l = true <-> Forall P l.
Proof.
  intros Hf; rewrite forallb_forall, Forall_forall; split; intros H x Hx; apply Hf; auto.
Qed.

Lemma Forall_pos_forallb l : forallb (fun d => ltb 0 d) l = true <-> Forall (fun d => 0 < d) l.
Proof. apply forallb_Forall; intros; apply ltb_true. Qed.
Lemma Forall_nonneg_forallb l : forallb (fun d => leb 0 d) l = true <-> Forall (fun d => 0 <= d) l.
Proof. apply forallb_Forall; intros; apply leb_true. Qed.

Lemma forallb_false_Exists {A} (f : A -> bool) (P : A -> Prop) l :
  (forall x, f x = false <-> P x) -> forallb f l = false <-> Exists P l.
Proof.
  intros Hf; induction l as [|a l IH]; simpl; split; intros H; try discriminate.
  - inversion H.
  - apply andb_false_iff in H; destruct H as [H|H].
    + left; apply Hf; auto.
    + right; apply IH; auto.
  - apply andb_false_iff; inversion H; subst; [left; apply Hf | right; apply IH]; auto.
Qed.

(** ** Monad *)

Lemma bind_Ok {A B} (x : result A) (f : A -> result B) b :
  bind x f = Ok b <-> exists a, x = Ok a /\ f a = Ok b.
Proof.
  destruct x as [a|e]; simpl; split; intros H.
  - exists a; auto.
  - destruct H as [a' [E H]]; injection E as ->; exact H.
  - discriminate.
  - destruct H as [a' [E H]]; discriminate.
Qed.

Lemma bind_Raise {A B} (x : result A) (f : A -> result B) e :
  bind x f = Raise e <-> x = Raise e \/ exists a, x = Ok a /\ f a = Raise e.
Proof.
  destruct x as [a|e']; simpl; split; intros H.
  - right; exists a; auto.
  - destruct H as [H|[a' [E H]]]; [discriminate|injection E as ->; exact H].
  - left; congruence.
  - destruct H as [H|[a' [E H]]]; [congruence|discriminate].
Qed.

(** ** py_max / py_min *)

Lemma py_max_Rmax a b : py_max a b = Rmax a b.
Proof.
  unfold py_max; destruct (ltb a b) eqn:E; breflect.
  - rewrite Rmax_right; lra.
  - rewrite Rmax_left; lra.
Qed.
Lemma py_min_Rmin a b : py_min a b = Rmin a b.
Proof.
  unfold py_min; destruct (ltb b a) eqn:E; breflect.
  - rewrite Rmin_right; lra.
  - rewrite Rmin_left; lra.
Qed.

(** ** isclose *)

Lemma isclose0 x : np_isclose x 0 = true <-> Rabs x <= / 100000000.
Proof.
  unfold np_isclose, np_isclose_tol; rewrite leb_true, Rabs_R0, Rminus_0_r; split; lra.
Qed.
Lemma isclose0_false x : np_isclose x 0 = false <-> / 100000000 < Rabs x.
Proof.
  unfold np_isclose, np_isclose_tol; rewrite leb_false, Rabs_R0, Rminus_0_r; split; lra.
Qed.
Lemma isclose_refl x : np_isclose x x = true.
Proof.
  unfold np_isclose, np_isclose_tol; apply leb_true.
  replace (x - x) with 0 by ring; rewrite Rabs_R0; generalize (Rabs_pos x); lra.
Qed.

(** ** cumsum, sum *)

Lemma cumsum_from_length acc l : List.length (cumsum_from acc l) = List.length l.
Proof. revert acc; induction l; simpl; intros; auto. Qed.

Lemma np_sum_app a b : np_sum (a ++ b) = np_sum a + np_sum b.
Proof. induction a; simpl; [lra|rewrite IHa; lra]. Qed.

Lemma np_sum_nonneg l : Forall (fun x => 0 <= x) l -> 0 <= np_sum l.
Proof. induction 1; simpl; lra. Qed.

Lemma np_sum_map_scale k l : np_sum (map (fun x => k * x) l) = k * np_sum l.
Proof. induction l; simpl; [ring|rewrite IHl; ring]. Qed.

Lemma np_sum_map_div k l : np_sum (map (fun x => x / k) l) = np_sum l / k.
Proof. induction l; simpl; [unfold Rdiv; ring|rewrite IHl; unfold Rdiv; ring]. Qed.

Lemma np_sum_repeat v n : np_sum (repeat v n) = INR n * v.
Proof.
  induction n; [simpl; ring|].
  change (np_sum (repeat v (S n))) with (v + np_sum (repeat v n)).
  rewrite IHn, S_INR; ring.
Qed.

Lemma last_cumsum_from acc l d : last (acc :: cumsum_from acc l) d = acc + np_sum l.
Proof.
  revert acc; induction l as [|x l IH]; intros acc.
  - simpl; ring.
  - change (last (acc :: cumsum_from acc (x :: l)) d)
      with (last ((acc + x) :: cumsum_from (acc + x) l) d).
    rewrite IH; simpl; ring.
Qed.

Lemma np_diff_cumsum_from acc l : np_diff (acc :: cumsum_from acc l) = l.
Proof.
  revert acc; induction l as [|x l IH]; intros acc; [reflexivity|].
  change (np_diff (acc :: cumsum_from acc (x :: l)))
    with ((acc + x - acc) :: np_diff ((acc + x) :: cumsum_from (acc + x) l)).
  rewrite IH; f_equal; ring.
Qed.

(** ** amax / amin *)

Lemma fold_left_Rmax_ge l x : x <= fold_left Rmax l x.
Proof.
  revert x; induction l; simpl; intros; [lra|].
  eapply Rle_trans; [apply Rmax_l|apply IHl].
Qed.
Lemma fold_left_Rmax_ub l x y : In y l -> y <= fold_left Rmax l x.
Proof.
  revert x; induction l as [|z l IH]; simpl; intros x H; [contradiction|].
  destruct H as [->|H]; auto.
  eapply Rle_trans; [apply (Rmax_r x y)|apply fold_left_Rmax_ge].
Qed.
Lemma fold_left_Rmax_in l x : In (fold_left Rmax l x) (x :: l).
Proof.
  revert x; induction l as [|z l IH]; simpl; intros x; [auto|].
  destruct (IH (Rmax x z)) as [H|H]; auto.
  rewrite <- H; destruct (Rle_dec x z).
  - rewrite Rmax_right; auto.
  - rewrite Rmax_left; auto; lra.
Qed.
Lemma fold_left_Rmin_le l x : fold_left Rmin l x <= x.
Proof.
  revert x; induction l; simpl; intros; [lra|].
  eapply Rle_trans; [apply IHl|apply Rmin_l].
Qed.
Lemma fold_left_Rmin_lb l x y : In y l -> fold_left Rmin l x <= y.
Proof.
  revert x; induction l as [|z l IH]; simpl; intros x H; [contradiction|].
  destruct H as [->|H]; auto.
  eapply Rle_trans; [apply fold_left_Rmin_le|apply (Rmin_r x y)].
Qed.
Lemma fold_left_Rmin_in l x : In (fold_left Rmin l x) (x :: l).
Proof.
  revert x; induction l as [|z l IH]; simpl; intros x; [auto|].
  destruct (IH (Rmin x z)) as [H|H]; auto.
  rewrite <- H; destruct (Rle_dec x z).
  - rewrite Rmin_left; auto.
  - rewrite Rmin_right; auto; lra.
Qed.

Lemma np_amax_spec l m : np_amax l = Ok m -> In m l /\ forall x, In x l -> x <= m.
Proof.
  destruct l as [|x l]; simpl; intros H; [discriminate|injection H as <-].
  split; [apply (fold_left_Rmax_in l x)|].
  intros y [<-|Hy]; [apply fold_left_Rmax_ge|apply fold_left_Rmax_ub; auto].
Qed.
Lemma np_amin_spec l m : np_amin l = Ok m -> In m l /\ forall x, In x l -> m <= x.
Proof.
  destruct l as [|x l]; simpl; intros H; [discriminate|injection H as <-].
  split; [apply (fold_left_Rmin_in l x)|].
  intros y [<-|Hy]; [apply fold_left_Rmin_le|apply fold_left_Rmin_lb; auto].
Qed.
Lemma np_amax_ok l : l <> [] -> exists m, np_amax l = Ok m.
Proof. destruct l; [congruence|simpl; eauto]. Qed.
Lemma np_amin_ok l : l <> [] -> exists m, np_amin l = Ok m.
Proof. destruct l; [congruence|simpl; eauto]. Qed.

Lemma np_amax_unique l m : In m l -> (forall x, In x l -> x <= m) -> np_amax l = Ok m.
Proof.
  intros Hin Hub; destruct (np_amax_ok l) as [m' Hm]; [intros ->; contradiction|].
  rewrite Hm; f_equal; destruct (np_amax_spec _ _ Hm) as [H1 H2].
  apply Rle_antisym; auto.
Qed.

(** ** truncation *)

Lemma Int_part_unique x n : IZR n <= x < IZR n + 1 -> Int_part x = n.
Proof.
  intros H; destruct (base_Int_part x) as [H1 H2].
  assert (A : IZR (Int_part x) < IZR (n + 1)) by (rewrite plus_IZR; lra).
  assert (B : IZR n < IZR (Int_part x + 1)) by (rewrite plus_IZR; lra).
  apply lt_IZR in A; apply lt_IZR in B; lia.
Qed.

Lemma py_int_nat x n : INR n <= x < INR n + 1 -> Z.to_nat (py_int x) = n.
Proof.
  intros H; assert (0 <= x) by (generalize (pos_INR n); lra).
  unfold py_int; destruct (Rle_dec 0 x); [|lra].
  rewrite (Int_part_unique x (Z.of_nat n)); [apply Nat2Z.id|rewrite <- INR_IZR_INZ; lra].
Qed.

Lemma py_int_INR n : Z.to_nat (py_int (INR n)) = n.
Proof. apply py_int_nat; lra. Qed.

(** every real >= 1 truncates to a positive integer *)
Lemma trunc_exists x : 1 <= x -> exists n, (1 <= n)%nat /\ INR n <= x < INR n + 1.
Proof.
  intros H; exists (Z.to_nat (Int_part x)).
  destruct (base_Int_part x) as [H1 H2].
  assert (A : (0 < Int_part x)%Z) by (apply lt_IZR; lra).
  split; [lia|].
  rewrite INR_IZR_INZ, Z2Nat.id by lia; lra.
Qed.
