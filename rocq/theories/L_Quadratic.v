(** * Quadratic sequences *)

From Verif Require Export L_Walsh.
From Coq Require Import Lia.
Import ListNotations.
Open Scope string_scope.
Open Scope list_scope.
Open Scope R_scope.

Lemma np_diff_seq (o : nat -> R) n : forall a,
  np_diff (map o (seq a (S n))) = map (fun j => o (S j) - o j) (seq a n).
Proof.
  induction n; intros a; [reflexivity|].
  change (o (S a) - o a :: np_diff (map o (seq (S a) (S n))) = (o (S a) - o a) :: map (fun j => o (S j) - o j) (seq (S a) n)).
  rewrite IHn; reflexivity.
Qed.

Lemma combine_seq {A B} (f : nat -> A) (g : nat -> B) n m : forall a, (n <= m)%nat ->
  combine (map f (seq a n)) (map g (seq a m)) = map (fun j => (f j, g j)) (seq a n).
Proof.
  revert m; induction n; intros m a H; [reflexivity|].
  destruct m; [lia|]; cbn [seq map combine]; rewrite IHn by lia; reflexivity.
Qed.

(** every row keeps its final X pulse *)
Definition full_block (T : R) (n1 n2 j : nat) : list (axis * R) :=
  map (fun i => (AZ, uhrig_time T n2 j + uhrig_time (uhrig_time T n2 (j + 1) - uhrig_time T n2 j) n1 i)) (seq 1 n1) ++
  [(AX, uhrig_time T n2 (j + 1))].

Lemma outer_offsets_seq T n :
  np_insert_ends (uhrig_single_axis_offsets T n) 0 T = map (uhrig_time T n) (seq 0 (n + 2)).
Proof.
  unfold np_insert_ends; rewrite uhrig_model; unfold uhrig_times.
  replace (n + 2)%nat with (S (n + 1)) by lia; cbn [seq map]; rewrite uhrig_time_0.
  rewrite seq_app, map_app; cbn [seq map]; rewrite Nat.add_comm, uhrig_time_end; reflexivity.
Qed.

Lemma quadratic_offsets_model T n1 n2 :
  List.concat (quadratic_offset_rows T n1 n2) =
  map snd (List.concat (map (full_block T n1 n2) (seq 0 (n2 + 1)))).
Proof.
  unfold quadratic_offset_rows; cbv zeta; rewrite outer_offsets_seq.
  replace (n2 + 2)%nat with (S (n2 + 1)) by lia.
  rewrite np_diff_seq.
  assert (TL : tl (map (uhrig_time T n2) (seq 0 (S (n2 + 1)))) = map (fun j => uhrig_time T n2 (S j)) (seq 0 (n2 + 1))).
  { cbn [seq map tl]; rewrite <- seq_shift, map_map; reflexivity. }
  rewrite TL, !combine_seq by lia.
  rewrite concat_map, !map_map; f_equal; apply map_ext; intros j.
  unfold full_block; rewrite map_app, map_map; cbn [map snd]; rewrite Nat.add_1_r.
  f_equal; rewrite uhrig_model; unfold uhrig_times; rewrite map_map; apply map_ext; intros; ring.
Qed.

Lemma repeat_map_const {A} (k : A) (n a : nat) : map (fun _ => k) (seq a n) = repeat k n.
Proof. revert a; induction n; simpl; intros; [auto|rewrite IHn; auto]. Qed.

Lemma quadratic_detuning_model T n1 n2 :
  List.concat (quadratic_detuning_rows n1 n2) =
  map (fun p => e_det (pi_pulse p)) (List.concat (map (full_block T n1 n2) (seq 0 (n2 + 1)))).
Proof.
  unfold quadratic_detuning_rows; rewrite concat_map, !map_map.
  rewrite <- (repeat_map_const _ (n2 + 1) 0); f_equal; apply map_ext; intros j.
  unfold full_block, np_full; rewrite map_app, map_map; cbn [map pi_pulse e_det].
  rewrite repeat_map_const; auto.
Qed.

Lemma quadratic_rabi_model T n1 n2 :
  removelast (List.concat (quadratic_rabi_rows n1 n2)) =
  removelast (map (fun p => e_rabi (pi_pulse p)) (List.concat (map (full_block T n1 n2) (seq 0 (n2 + 1))))).
Proof.
  unfold quadratic_rabi_rows.
  rewrite concat_map, map_map, seq_app, map_app, !concat_app; cbn [seq map List.concat].
  assert (E : forall j, map (fun p => e_rabi (pi_pulse p)) (full_block T n1 n2 j) = np_zeros n1 ++ [PI]).
  { intros j; unfold full_block, np_zeros, np_full; rewrite map_app, map_map; cbn [map pi_pulse e_rabi].
    rewrite repeat_map_const; auto. }
  rewrite E, !app_nil_r.
  assert (F : List.concat (map (fun x => map (fun p => e_rabi (pi_pulse p)) (full_block T n1 n2 x)) (seq 0 n2)) =
              List.concat (repeat (np_zeros n1 ++ [PI]) n2)).
  { rewrite <- (repeat_map_const _ n2 0); f_equal; apply map_ext; auto. }
  rewrite F, !app_assoc, !removelast_app by discriminate; cbn [removelast]; reflexivity.
Qed.

Lemma quadratic_full T n1 n2 :
  List.concat (map (full_block T n1 n2) (seq 0 (n2 + 1))) = quadratic_pulses T n1 n2 ++ [(AX, T)].
Proof.
  unfold quadratic_pulses; rewrite seq_app, !map_app, !concat_app; cbn [seq map List.concat].
  rewrite !app_nil_r, <- app_assoc; f_equal.
  - f_equal; apply map_ext_in; intros j J; apply in_seq in J.
    unfold full_block, quadratic_block; cbv zeta; rewrite (proj2 (Nat.ltb_lt j n2)) by lia; reflexivity.
  - unfold full_block, quadratic_block; cbv zeta; cbn [Nat.add]; rewrite Nat.ltb_irrefl, app_nil_r, uhrig_time_end; reflexivity.
Qed.

Lemma azimuth_zero T n1 n2 : forall p, In p (quadratic_pulses T n1 n2) -> e_phi (pi_pulse p) = 0.
Proof.
  intros p H; unfold quadratic_pulses in H; apply in_concat in H; destruct H as [b [B P]].
  apply in_map_iff in B; destruct B as [j [<- _]]; unfold quadratic_block in P; apply in_app_or in P.
  destruct P as [P|P].
  - apply in_map_iff in P; destruct P as [i [<- _]]; reflexivity.
  - destruct (j <? n2)%nat; [destruct P as [<-|[]]; reflexivity|destruct P].
Qed.

Lemma quadratic_arrays T n1 n2 :
  {| a_offsets := drop_last (List.concat (quadratic_offset_rows T n1 n2));
     a_rabi := drop_last (List.concat (quadratic_rabi_rows n1 n2));
     a_azimuthal := np_zeros (List.length (drop_last (List.concat (quadratic_offset_rows T n1 n2))));
     a_detuning := drop_last (List.concat (quadratic_detuning_rows n1 n2)) |} =
  arrays_of (quadratic_pulses T n1 n2).
Proof.
  unfold drop_last.
  rewrite quadratic_offsets_model, (quadratic_rabi_model T), (quadratic_detuning_model T), quadratic_full.
  rewrite !map_app; cbn [map snd pi_pulse e_rabi e_det]; rewrite !removelast_last.
  unfold arrays_of; rewrite !map_map; f_equal.
  - apply map_ext; intros [[] t]; reflexivity.
  - rewrite map_length; symmetry; apply map_const_repeat; apply azimuth_zero.
Qed.

(** ** Order of the pulses *)

Lemma increasing_app l1 l2 b : strictly_increasing l1 -> strictly_increasing l2 ->
  (forall x, In x l1 -> x < b) -> (forall x, In x l2 -> b <= x) -> strictly_increasing (l1 ++ l2).
Proof.
  induction l1 as [|a l1 IH]; intros H1 H2 U V; cbn [app]; auto.
  destruct H1 as [H1 H1']; split.
  - destruct l1; cbn [app] in *; auto.
    destruct l2; auto.
    assert (a < b) by (apply U; left; auto); assert (b <= r) by (apply V; left; auto); lra.
  - apply IH; auto; intros; apply U; right; auto.
Qed.

Lemma increasing_seq (f : nat -> R) n : forall a,
  (forall i, (a <= i)%nat -> (S i < a + n)%nat -> f i < f (S i)) -> strictly_increasing (map f (seq a n)).
Proof.
  induction n; intros a H; cbn [seq map strictly_increasing]; auto; split; [|apply IHn; intros; apply H; lia].
  destruct n; cbn [seq map]; auto; apply H; lia.
Qed.

Lemma quadratic_block_times T n1 n2 j : 0 < T -> (j <= n2)%nat ->
  let b := map snd (quadratic_block T n1 n2 j) in
  strictly_increasing b /\
  (forall t, In t b -> uhrig_time T n2 j < t <= uhrig_time T n2 (j + 1) /\ (j = n2 -> t < T)).
Proof.
  intros HT HJ; cbv zeta; unfold quadratic_block; cbv zeta.
  assert (L : uhrig_time T n2 j < uhrig_time T n2 (j + 1)) by (apply uhrig_increasing; auto; lia).
  set (t0 := uhrig_time T n2 j) in *; set (t1 := uhrig_time T n2 (j + 1)) in *.
  rewrite map_app, map_map; cbn [snd].
  assert (W : forall x, In x (map (fun i => t0 + uhrig_time (t1 - t0) n1 i) (seq 1 n1)) -> t0 < x < t1).
  { intros x X; apply in_map_iff in X; destruct X as [i [<- I]]; apply in_seq in I.
    assert (U := uhrig_within (t1 - t0) n1 i ltac:(lra) ltac:(lia)); lra. }
  split.
  - apply (increasing_app _ _ t1).
    + apply increasing_seq; intros i A B; apply Rplus_lt_compat_l, uhrig_increasing; [lra|lia|lia].
    + destruct (j <? n2)%nat; cbn; auto.
    + intros x X; apply W in X; lra.
    + intros x X; destruct (j <? n2)%nat; cbn in X; [destruct X as [<-|[]]; lra|destruct X].
  - intros t I; apply in_app_or in I; destruct I as [I|I].
    + apply W in I; split; [lra|]; intros ->; unfold t1 in *; rewrite uhrig_time_end in *; lra.
    + destruct (Nat.ltb_spec j n2); cbn in I; [|destruct I].
      destruct I as [<-|[]]; split; [lra|lia].
Qed.

Lemma quadratic_times T n1 n2 : 0 < T ->
  strictly_increasing (map snd (quadratic_pulses T n1 n2)) /\
  (forall p, In p (quadratic_pulses T n1 n2) -> 0 < snd p < T).
Proof.
  intros HT; unfold quadratic_pulses.
  assert (G : forall m, (m <= n2 + 1)%nat ->
    strictly_increasing (map snd (List.concat (map (quadratic_block T n1 n2) (seq 0 m)))) /\
    (forall t, In t (map snd (List.concat (map (quadratic_block T n1 n2) (seq 0 m)))) ->
       0 < t <= uhrig_time T n2 m /\ t < T)).
  { induction m as [|m IH]; intros M.
    - cbn; split; auto; intros t [].
    - destruct IH as [A B]; [lia|].
      rewrite seq_S, map_app, concat_app, map_app; cbn [Nat.add map List.concat]; rewrite app_nil_r.
      destruct (quadratic_block_times T n1 n2 m HT ltac:(lia)) as [C D].
      assert (U0 : 0 <= uhrig_time T n2 m).
      { destruct m; [rewrite uhrig_time_0; lra|]. rewrite <- (uhrig_time_0 T n2); left; apply uhrig_increasing; auto; lia. }
      assert (U1 : uhrig_time T n2 m < uhrig_time T n2 (S m)) by (apply uhrig_increasing; auto; lia).
      rewrite Nat.add_1_r in D.
      assert (U2 : (m < n2)%nat -> uhrig_time T n2 (S m) < T).
      { intros; rewrite <- (uhrig_time_end T n2) at 2; apply uhrig_increasing; auto; lia. }
      split.
      + destruct (map snd (quadratic_block T n1 n2 m)) as [|y ys] eqn:E; [rewrite app_nil_r; auto|].
        apply (increasing_app _ _ y); auto.
        * intros x X; apply B in X; assert (uhrig_time T n2 m < y) by (apply D; left; auto); lra.
        * intros x X; destruct X as [<-|X]; [lra|].
          clear - C X; revert y C; induction ys as [|z ys IH]; intros y C; [destruct X|].
          destruct C as [C1 C2]; destruct X as [<-|X]; [lra|].
          apply Rle_trans with z; [lra|apply IH; auto].
      + intros t I; apply in_app_or in I; destruct I as [I|I]; [apply B in I; lra|].
        destruct (D t I) as [D1 D2].
        destruct (Nat.eq_dec m n2) as [->|NE]; [specialize (D2 eq_refl); lra|].
        assert (uhrig_time T n2 (S m) < T) by (apply U2; lia); lra. }
  destruct (G (n2 + 1)%nat ltac:(lia)) as [A B]; split; auto.
  intros p I; assert (X : In (snd p) (map snd (List.concat (map (quadratic_block T n1 n2) (seq 0 (n2 + 1)))))) by (apply in_map; auto).
  apply B in X; lra.
Qed.

Lemma quadratic_flips T n1 n2 : flip_times (quadratic_pulses T n1 n2) = map (uhrig_time T n2) (seq 1 n2).
Proof.
  assert (A : forall l1 l2, flip_times (l1 ++ l2) = flip_times l1 ++ flip_times l2).
  { induction l1 as [|[[] t] l1 IH]; intros l2; cbn; auto; rewrite IH; auto. }
  assert (Z : forall f n a, flip_times (map (fun i : nat => (AZ, f i : R)) (seq a n)) = []).
  { intros f n; induction n; intros a; cbn; auto. }
  unfold quadratic_pulses; rewrite seq_app, map_app, concat_app, A; cbn [seq map List.concat Nat.add].
  rewrite app_nil_r.
  assert (L : flip_times (quadratic_block T n1 n2 n2) = []).
  { unfold quadratic_block; cbv zeta; rewrite A, Z, Nat.ltb_irrefl; reflexivity. }
  rewrite L, app_nil_r.
  assert (G : forall m, (m <= n2)%nat ->
    flip_times (List.concat (map (quadratic_block T n1 n2) (seq 0 m))) = map (uhrig_time T n2) (seq 1 m)).
  { induction m as [|m IH]; intros M; [reflexivity|].
    rewrite !seq_S, !map_app, concat_app, A, IH by lia; cbn [Nat.add map List.concat]; rewrite app_nil_r; f_equal.
    unfold quadratic_block; cbv zeta; rewrite A, Z, (proj2 (Nat.ltb_lt m n2)) by lia.
    cbn [app flip_times]; rewrite Nat.add_1_r; reflexivity. }
  apply G; auto.
Qed.

Lemma quadratic_length T n1 n2 : List.length (quadratic_pulses T n1 n2) = (n1 + n2 * (n1 + 1))%nat.
Proof.
  assert (E := f_equal (@List.length (axis * R)) (quadratic_full T n1 n2)).
  rewrite app_length in E; cbn [List.length] in E.
  assert (X : forall m a, List.length (List.concat (map (full_block T n1 n2) (seq a m))) = (m * (n1 + 1))%nat).
  { induction m; intros a; cbn [seq map List.concat]; [auto|]. rewrite app_length, IHm.
    unfold full_block; rewrite app_length, map_length, seq_length; cbn; lia. }
  rewrite X in E; lia.
Qed.

(** C38 *)
Theorem quadratic_timing T x1 x2 n1 n2 pre name :
  (0 < T -> truncates_to x1 n1 -> truncates_to x2 n2 -> (1 <= n1)%nat -> (1 <= n2)%nat ->
   new_quadratic_sequence T x1 x2 pre name =
     Ok (sequence_of T name (with_pre_post pre T (quadratic_pulses T n1 n2))) /\
   strictly_increasing (map snd (quadratic_pulses T n1 n2)) /\
   List.length (quadratic_pulses T n1 n2) = (n1 + n2 * (n1 + 1))%nat) /\
  (~ (0 < T /\ 1 <= x1 /\ 1 <= x2) -> argument_error (new_quadratic_sequence T x1 x2 pre name)).
Proof.
  split.
  - intros HT T1 T2 N1 N2; split; [|split; [apply quadratic_times; auto|apply quadratic_length]].
    unfold new_quadratic_sequence; rewrite check_duration_ok by auto; cbn [bind].
    rewrite check_true by (apply leb_true; destruct T1; apply (le_INR 1) in N1; simpl in N1; lra); cbn [bind].
    rewrite check_true by (apply leb_true; destruct T2; apply (le_INR 1) in N2; simpl in N2; lra); cbn [bind].
    rewrite (int_count_truncates x1 n1 T1), (int_count_truncates x2 n2 T2); cbv zeta.
    rewrite quadratic_arrays; apply finish_ok; auto.
    intros p P; apply quadratic_times in P; auto; lra.
  - intros H; unfold new_quadratic_sequence; destruct (Rlt_dec 0 T) as [HT|HT].
    + rewrite check_duration_ok by auto; cbn [bind].
      destruct (Rle_dec 1 x1) as [X1|X1].
      * rewrite check_true by (apply leb_true; auto); cbn [bind].
        rewrite check_false by (apply leb_false; lra); do 3 eexists; reflexivity.
      * rewrite check_false by (apply leb_false; lra); do 3 eexists; reflexivity.
    + destruct (check_duration_bad T HT) as [s [a [b ->]]]; do 3 eexists; reflexivity.
Qed.

(** the outer X pulses cancel detunings that are polynomial in time *)
Theorem quadratic_cancels T x1 x2 n1 n2 pre name :
  0 < T -> truncates_to x1 n1 -> truncates_to x2 n2 -> (1 <= n1)%nat -> (1 <= n2)%nat ->
  exists s, new_quadratic_sequence T x1 x2 pre name = Ok s /\ refocuses s /\
    forall c, (List.length c <= n2)%nat -> cancels c s.
Proof.
  intros HT T1 T2 N1 N2; eexists; split; [apply (quadratic_timing T x1 x2 n1 n2); auto|].
  assert (M : forall m, (1 <= m <= n2)%nat -> switched (fun t => t ^ m) T (flip_times (quadratic_pulses T n1 n2)) = 0).
  { intros m H; rewrite quadratic_flips; apply uhrig_moments; lia. }
  split.
  - apply refocuses_intro; rewrite <- (M 1%nat) by lia; apply switched_from_ext; intros; simpl; ring.
  - intros c L; apply (cancels_intro n2); auto.
Qed.
