(** * The predefined sequences in floating point *)

From Coq Require Import ZArith.
From Flocq Require Import Core.
From Verif Require Export L_FloatRound.
Import ListNotations.
Open Scope string_scope.
Open Scope list_scope.
Open Scope R_scope.

Lemma forall2_map {A B X} (P : A -> B -> Prop) (f : X -> A) (g : X -> B) l :
  (forall x, In x l -> P (f x) (g x)) -> Forall2 P (map f l) (map g l).
Proof. induction l as [|x l IH]; intros H; cbn [map]; constructor; [apply H; left; auto|apply IH; intros; apply H; right; auto]. Qed.

Lemma acc_near a k e T x y : 0 <= T -> 0 <= y <= 1 -> 0 <= k -> k * eps <= e -> acc k x (T * y) ->
  near_pulse (e * T) (a, x) (scale T (a, y)).
Proof.
  intros HT Y K E A; split; [reflexivity|]; cbn [scale fst snd]; eapply Rle_trans; [exact A|].
  assert (P := eps_pos); assert (0 <= k * eps) by (apply Rmult_le_pos; lra).
  apply Rmult_le_compat; auto; [apply Rmult_le_pos; lra|].
  rewrite <- (Rmult_1_r T) at 2; apply Rmult_le_compat_l; lra.
Qed.

Lemma spaced_lower d ts : 0 < d -> forall a, spaced d (a :: ts ++ [1]) -> forall t, In t ts -> a + d <= t.
Proof.
  intros D; induction ts as [|x ts IH]; intros a S t I; [destruct I|].
  change (d <= x - a /\ spaced d (x :: ts ++ [1])) in S; destruct S as [S1 S2].
  destruct I as [<-|I]; [lra|]; assert (Q := IH x S2 t I); lra.
Qed.
Lemma good_lower d ts : good_times d ts -> forall t, In t ts -> d <= t.
Proof. intros [D [_ [_ S]]] t I; assert (Q := spaced_lower d ts D 0 S t I); lra. Qed.
Lemma good_unit d (rel : list (axis * R)) : good_times d (map snd rel) -> forall p, In p rel -> 0 <= snd p <= 1.
Proof. intros [_ [_ [G _]]] p I; assert (0 < snd p < 1) by (apply G, in_map; auto); lra. Qed.

Section Library.
  Variables (fsin fsquare : R -> R).
  Hypothesis Hsin : accurate_sine fsin.
  Hypothesis Hsquare : accurate_square fsquare.

  Definition fl_request (r : request) (T : R) (rel flp : list (axis * R)) : Prop :=
    describes_request r rel /\
    (forall pre name, fl_build_sequence binary64 fsin fsquare float_pi r T pre name = finish T (arrays_of flp) pre name) /\
    Forall2 (near_pulse (accuracy r * T)) flp (map (scale T) rel) /\
    (forall p, In p flp -> binary64_format (snd p)).

  Lemma fl_count_arrays (a : axis) T x n (offs : R -> nat -> list R) pre name phi : 0 < T -> truncates_to x n -> (1 <= n)%nat ->
    a <> AZ -> phi = e_phi (pi_pulse (a, 0)) ->
    fl_count_sequence offs phi T x pre name = finish T (arrays_of (map (fun t => (a, t)) (offs T n))) pre name.
  Proof.
    intros HT TR N NZ ->; unfold fl_count_sequence.
    rewrite (count_builder T x (fun n => finish T (uniform_arrays (offs T n) PI (e_phi (pi_pulse (a, 0))) 0) pre name) n) by auto.
    rewrite <- uniform_arrays_of; destruct a; try congruence; reflexivity.
  Qed.

  Lemma formats (a : axis) {X} (f : X -> R) l : (forall x, binary64_format (f x)) ->
    forall p, In p (map (fun t => (a, t)) (map f l)) -> binary64_format (snd p).
  Proof. intros F p I; rewrite map_map in I; apply in_map_iff in I; destruct I as [x [<- _]]; apply F. Qed.

  Lemma pow_40 : 2 ^ 40 = 1099511627776. Proof. lra. Qed.

  Lemma fl_carr_purcell T x : / 2 ^ 900 <= T -> 1 <= x <= 2 ^ 40 ->
    exists rel flp, fl_request (CarrPurcell x) T rel flp.
  Proof.
    intros HT [X1 X2]; assert (P := inv_pow_pos 900); destruct (trunc x X1) as [n [N [TR NX]]].
    exists (map (fun i => (AX, 1 / INR n * (INR i + 1 / 2))) (seq 0 n)).
    exists (map (fun t => (AX, t)) (fl_carr_purcell_offsets binary64 T n)).
    split; [|split; [|split]].
    - intros T' pre name HT'; cbn [build_sequence]; rewrite (carr_purcell_timing T' x n pre name) by auto.
      rewrite map_map, <- seq_shift, map_map; do 3 f_equal; apply map_ext; intros i; unfold scale; cbn [fst snd]; rewrite S_INR; f_equal; field; lra.
    - intros pre name; cbn [fl_build_sequence]; apply fl_count_arrays; auto; [lra|discriminate].
    - unfold fl_carr_purcell_offsets, range; cbv zeta; rewrite !map_map; apply forall2_map; intros i I; apply in_seq in I.
      apply (acc_near _ 5); [lra| |lra|cbn [accuracy]; unfold eps; lra|apply carr_purcell_acc; auto; lra].
      assert (I1 : INR i + 1 <= INR n) by (rewrite <- S_INR; apply le_INR; lia); assert (I0 := pos_INR i).
      assert (C : 1 / INR n * INR n = 1) by (field; lra).
      assert (0 <= 1 / INR n) by (apply Rlt_le, Rdiv_lt_0_compat; lra); split; [apply Rmult_le_pos; lra|].
      apply (Rle_trans _ (1 / INR n * INR n)); [apply Rmult_le_compat_l; lra|lra].
    - apply formats; intros; apply format_rnd.
  Qed.

  Lemma fl_cpmg T x : / 2 ^ 900 <= T -> 1 <= x <= 2 ^ 40 ->
    exists rel flp, fl_request (CPMG x) T rel flp.
  Proof.
    intros HT [X1 X2]; assert (P := inv_pow_pos 900); destruct (trunc x X1) as [n [N [TR NX]]].
    exists (map (fun i => (AY, 1 / INR n * (INR i + 1 / 2))) (seq 0 n)).
    exists (map (fun t => (AY, t)) (fl_carr_purcell_offsets binary64 T n)).
    split; [|split; [|split]].
    - intros T' pre name HT'; cbn [build_sequence]; rewrite (cpmg_timing T' x n pre name) by auto.
      rewrite map_map, <- seq_shift, map_map; do 3 f_equal; apply map_ext; intros i; unfold scale; cbn [fst snd]; rewrite S_INR; f_equal; field; lra.
    - intros pre name; cbn [fl_build_sequence]; apply fl_count_arrays; auto; [lra|discriminate].
    - unfold fl_carr_purcell_offsets, range; cbv zeta; rewrite !map_map; apply forall2_map; intros i I; apply in_seq in I.
      apply (acc_near _ 5); [lra| |lra|cbn [accuracy]; unfold eps; lra|apply carr_purcell_acc; auto; lra].
      assert (I1 : INR i + 1 <= INR n) by (rewrite <- S_INR; apply le_INR; lia); assert (I0 := pos_INR i).
      assert (C : 1 / INR n * INR n = 1) by (field; lra).
      assert (0 <= 1 / INR n) by (apply Rlt_le, Rdiv_lt_0_compat; lra); split; [apply Rmult_le_pos; lra|].
      apply (Rle_trans _ (1 / INR n * INR n)); [apply Rmult_le_compat_l; lra|lra].
    - apply formats; intros; apply format_rnd.
  Qed.

  Lemma fl_periodic T x : / 2 ^ 900 <= T -> 1 <= x <= 2 ^ 40 ->
    exists rel flp, fl_request (Periodic x) T rel flp.
  Proof.
    intros HT [X1 X2]; assert (P := inv_pow_pos 900); destruct (trunc x X1) as [n [N [TR NX]]].
    exists (map (fun i => (AX, INR i / (INR n + 1))) (seq 1 n)).
    exists (map (fun t => (AX, t)) (fl_periodic_offsets binary64 T n)).
    split; [|split; [|split]].
    - intros T' pre name HT'; cbn [build_sequence]; rewrite (periodic_timing T' x n pre name) by auto.
      rewrite map_map; do 3 f_equal; apply map_ext; intros i; unfold scale; cbn [fst snd]; f_equal; unfold Rdiv; ring.
    - intros pre name; cbn [fl_build_sequence]; apply fl_count_arrays; auto; [lra|discriminate].
    - unfold fl_periodic_offsets, range; cbv zeta; rewrite !map_map; apply forall2_map; intros i I; apply in_seq in I.
      apply (acc_near _ 4); [lra| |lra|cbn [accuracy]; unfold eps; lra|apply periodic_acc; auto; [lra|lia]].
      assert (I1 : INR i <= INR n) by (apply le_INR; lia); assert (I0 := pos_INR i).
      split; [apply Rmult_le_pos; [lra|apply Rlt_le, Rinv_0_lt_compat; lra]|].
      apply (Rmult_le_reg_r (INR n + 1)); [lra|]; unfold Rdiv; rewrite Rmult_assoc, Rinv_l; lra.
    - apply formats; intros; apply format_rnd.
  Qed.

  Lemma fl_uhrig T x : / 2 ^ 900 <= T -> 1 <= x -> x + 1 <= 2 ^ 20 ->
    exists rel flp, fl_request (Uhrig x) T rel flp.
  Proof.
    intros HT X1 X2; assert (P := inv_pow_pos 900); destruct (trunc x X1) as [n [N [TR NX]]].
    exists (map (fun i => (AY, uhrig_time 1 n i)) (seq 1 n)).
    exists (map (fun t => (AY, t)) (fl_uhrig_offsets binary64 fsin fsquare float_pi T n)).
    split; [|split; [|split]].
    - intros T' pre name HT'; cbn [build_sequence]; rewrite (uhrig_timing T' x n pre name) by auto.
      rewrite map_map; do 3 f_equal; apply map_ext; intros i; unfold scale; cbn [fst snd]; f_equal; unfold uhrig_time; ring.
    - intros pre name; cbn [fl_build_sequence]; apply fl_count_arrays; auto; [lra|discriminate].
    - unfold fl_uhrig_offsets, range; cbv zeta; rewrite !map_map; apply forall2_map; intros i I; apply in_seq in I.
      apply (acc_near _ 37); [lra|apply uhrig_unit; lia|lra|cbn [accuracy]; unfold eps; lra|].
      rewrite <- uhrig_scale; apply fl_uhrig_acc; auto; [lra|lia|lra|].
      apply not_tiny_time; auto; apply (above_100 43); [lia|lra].
    - apply formats; intros; apply format_rnd.
  Qed.

  Lemma fl_walsh T x : / 2 ^ 900 <= T -> 1 <= x <= 2000 ->
    exists rel flp, fl_request (Walsh x) T rel flp.
  Proof.
    intros HT [X1 X2]; assert (P := inv_pow_pos 900); destruct (trunc x X1) as [k [N [TR NX]]].
    assert (K : (k <= 2000)%nat).
    { apply INR_le; rewrite (INR_IZR_INZ 2000); cbn [Z.of_nat Pos.of_succ_nat Pos.succ]; lra. }
    exists (map (fun t => (AX, t)) (walsh_relative_offsets k)).
    exists (map (fun t => (AX, t)) (fl_walsh_offsets binary64 fsin float_pi T k)).
    assert (D : describes_request (Walsh x) (map (fun t => (AX, t)) (walsh_relative_offsets k))).
    { intros T' pre name HT'; cbn [build_sequence]; rewrite (walsh_model T' x k pre name) by auto.
      rewrite map_scale, walsh_offsets_model; auto. }
    split; auto; split; [|split].
    - intros pre name; cbn [fl_build_sequence]; unfold fl_walsh_sequence.
      rewrite check_duration_ok by lra; cbn [bind].
      rewrite check_true by (apply andb_true_intro; split; apply leb_true; lra); cbn [bind].
      rewrite (int_count_truncates x k TR); rewrite <- (uniform_arrays_of AX); reflexivity.
    - destruct (request_single (Walsh x)) as [rel [D' G]]; [cbn; lra|reflexivity|].
      rewrite (describes_unique _ _ _ D' D) in G.
      rewrite fl_walsh_offsets_exact, !map_map by (auto; lia); apply forall2_map; intros t I.
      assert (U := good_unit _ _ G (AX, t) (in_map (fun t => (AX, t)) _ _ I)); cbn [snd] in U.
      assert (Q : / 2 ^ 100 <= t).
      { apply (Rle_trans _ (1 / (2 * x))).
        - apply (above_100 12); [lia|]; unfold Rdiv; rewrite Rmult_1_l; apply inv_pow_bound; lra.
        - apply (good_lower _ _ G); rewrite in_pair; auto. }
      apply (acc_near _ 1); auto; try lra; [cbn [accuracy]; unfold eps; lra|].
      apply acc_rnd; assert (Z := not_tiny_time T t HT Q); assert (0 < tiny) by apply inv_pow_pos; lra.
    - rewrite fl_walsh_offsets_exact by (auto; lia); apply formats; intros; apply format_rnd.
  Qed.

  (** ** Quadratic *)

  Definition fl_block (T : R) (n1 n2 j : nat) : list (axis * R) :=
    map (fun i => (AZ, binary64 (binary64 (binary64 (fl_outer fsin fsquare T n2 (j + 1) - fl_outer fsin fsquare T n2 j) *
                                 fl_delta fsin fsquare n1 i) + fl_outer fsin fsquare T n2 j))) (seq 1 n1) ++
    (if (j <? n2)%nat then [(AX, fl_outer fsin fsquare T n2 (j + 1))] else []).
  Definition fl_quadratic_pulses (T : R) (n1 n2 : nat) : list (axis * R) :=
    List.concat (map (fl_block T n1 n2) (seq 0 (n2 + 1))).

  Lemma fl_outer_seq T n :
    np_insert_ends (fl_uhrig_offsets binary64 fsin fsquare float_pi T n) 0 T = map (fl_outer fsin fsquare T n) (seq 0 (n + 2)).
  Proof.
    unfold np_insert_ends, fl_uhrig_offsets, range; cbv zeta.
    replace (n + 2)%nat with (S (n + 1)) by lia; cbn [seq map].
    rewrite seq_app, map_app; cbn [seq map]; unfold fl_outer at 1; cbn [Nat.eqb app]; f_equal; f_equal.
    - apply map_ext_in; intros i I; apply in_seq in I; unfold fl_outer, fl_delta.
      destruct (Nat.eqb_spec i 0); [lia|]; destruct (Nat.eqb_spec i (n + 1)); [lia|]; reflexivity.
    - unfold fl_outer; destruct (Nat.eqb_spec (1 + n) 0); [lia|]; destruct (Nat.eqb_spec (1 + n) (n + 1)); [reflexivity|lia].
  Qed.

  Definition fl_full_block (T : R) (n1 n2 j : nat) : list (axis * R) :=
    map (fun i => (AZ, binary64 (binary64 (binary64 (fl_outer fsin fsquare T n2 (j + 1) - fl_outer fsin fsquare T n2 j) *
                                 fl_delta fsin fsquare n1 i) + fl_outer fsin fsquare T n2 j))) (seq 1 n1) ++
    [(AX, fl_outer fsin fsquare T n2 (j + 1))].

  Lemma fl_quadratic_offsets T n1 n2 :
    List.concat (fl_quadratic_rows binary64 fsin fsquare float_pi T n1 n2) =
    map snd (List.concat (map (fl_full_block T n1 n2) (seq 0 (n2 + 1)))).
  Proof.
    unfold fl_quadratic_rows; cbv zeta; rewrite fl_outer_seq.
    replace (n2 + 2)%nat with (S (n2 + 1)) by lia.
    rewrite np_diff_seq.
    assert (TL : tl (map (fl_outer fsin fsquare T n2) (seq 0 (S (n2 + 1)))) =
                 map (fun j => fl_outer fsin fsquare T n2 (S j)) (seq 0 (n2 + 1))).
    { cbn [seq map tl]; rewrite <- seq_shift, map_map; reflexivity. }
    rewrite TL, map_map, !combine_seq by lia.
    rewrite concat_map, !map_map; f_equal; apply map_ext; intros j.
    unfold fl_full_block; rewrite map_app, map_map; cbn [map snd]; rewrite Nat.add_1_r.
    f_equal; unfold fl_uhrig_offsets, range; cbv zeta; rewrite map_map; reflexivity.
  Qed.

  Lemma fl_quadratic_full T n1 n2 :
    List.concat (map (fl_full_block T n1 n2) (seq 0 (n2 + 1))) = fl_quadratic_pulses T n1 n2 ++ [(AX, T)].
  Proof.
    unfold fl_quadratic_pulses; rewrite seq_app, !map_app, !concat_app; cbn [seq map List.concat].
    rewrite !app_nil_r, <- app_assoc; f_equal.
    - f_equal; apply map_ext_in; intros j J; apply in_seq in J.
      unfold fl_full_block, fl_block; rewrite (proj2 (Nat.ltb_lt j n2)) by lia; reflexivity.
    - unfold fl_full_block, fl_block; cbn [Nat.add]; rewrite Nat.ltb_irrefl, app_nil_r; do 3 f_equal.
      unfold fl_outer; destruct (Nat.eqb_spec (n2 + 1) 0); [lia|]; rewrite Nat.eqb_refl; reflexivity.
  Qed.

  (** the axes do not depend on the times *)
  Lemma quadratic_axes T n1 n2 : map fst (fl_quadratic_pulses T n1 n2) = map fst (quadratic_pulses T n1 n2).
  Proof.
    unfold fl_quadratic_pulses, quadratic_pulses; rewrite !concat_map, !map_map; f_equal; apply map_ext; intros j.
    unfold fl_block, quadratic_block; cbv zeta; rewrite !map_app, !map_map; f_equal.
    destruct (j <? n2)%nat; reflexivity.
  Qed.

  Lemma map_axes {X} (f : axis * R -> X) : (forall a t t', f (a, t) = f (a, t')) ->
    forall l m, map fst l = map fst m -> map f l = map f m.
  Proof.
    intros F; induction l as [|[a t] l IH]; intros [|[b u] m] E; try discriminate; auto.
    cbn [map fst] in *; injection E as -> E; rewrite (F b t u), (IH m E); auto.
  Qed.

  Lemma fl_quadratic_arrays T n1 n2 :
    {| a_offsets := drop_last (List.concat (fl_quadratic_rows binary64 fsin fsquare float_pi T n1 n2));
       a_rabi := drop_last (List.concat (quadratic_rabi_rows n1 n2));
       a_azimuthal := np_zeros (List.length (drop_last (List.concat (fl_quadratic_rows binary64 fsin fsquare float_pi T n1 n2))));
       a_detuning := drop_last (List.concat (quadratic_detuning_rows n1 n2)) |} =
    arrays_of (fl_quadratic_pulses T n1 n2).
  Proof.
    assert (QA := quadratic_arrays T n1 n2); injection QA as Q1 Q2 Q3 Q4.
    assert (A := quadratic_axes T n1 n2).
    assert (O : drop_last (List.concat (fl_quadratic_rows binary64 fsin fsquare float_pi T n1 n2)) = map snd (fl_quadratic_pulses T n1 n2)).
    { unfold drop_last; rewrite fl_quadratic_offsets, fl_quadratic_full, map_app; cbn [map]; apply removelast_last. }
    rewrite O; unfold arrays_of; f_equal.
    - rewrite map_map; apply map_ext; intros p; symmetry; apply event_time.
    - rewrite Q2, !map_map; apply map_axes; auto; intros []; reflexivity.
    - rewrite map_length; unfold np_zeros, np_full; rewrite !map_map; symmetry; apply map_const_repeat; intros [a t] I.
      assert (J : In a (map fst (quadratic_pulses T n1 n2))) by (rewrite <- A; apply (in_map fst) in I; exact I).
      apply in_map_iff in J; destruct J as [[b u] [E J]]; cbn [fst] in E; subst b; apply azimuth_zero in J.
      destruct a; auto.
    - rewrite Q4, !map_map; apply map_axes; auto; intros []; reflexivity.
  Qed.

  Lemma forall2_concat {X Y} (P : X -> Y -> Prop) a b : Forall2 (Forall2 P) a b -> Forall2 P (List.concat a) (List.concat b).
  Proof. induction 1; cbn [List.concat]; [constructor|apply Forall2_app; auto]. Qed.

  Lemma fl_quadratic T x y : binary64_format T -> / 2 ^ 900 <= T -> 1 <= x -> 1 <= y -> (x + 1) * (y + 1) <= 2 ^ 20 ->
    exists rel flp, fl_request (Quadratic x y) T rel flp.
  Proof.
    intros FT HT X1 Y1 XY; assert (P := inv_pow_pos 900).
    destruct (trunc x X1) as [n1 [N1 [TR1 NX1]]]; destruct (trunc y Y1) as [n2 [N2 [TR2 NX2]]].
    assert (B1 : INR n1 + 1 <= 2 ^ 20) by nra; assert (B2 : INR n2 + 1 <= 2 ^ 20) by nra.
    exists (quadratic_pulses 1 n1 n2), (fl_quadratic_pulses T n1 n2).
    split; [|split; [|split]].
    - intros T' pre name HT'; cbn [build_sequence]; rewrite <- quadratic_scale; apply quadratic_timing; auto.
    - intros pre name; cbn [fl_build_sequence]; unfold fl_quadratic_sequence.
      rewrite check_duration_ok by lra; cbn [bind].
      rewrite check_true by (apply leb_true; lra); cbn [bind]; rewrite check_true by (apply leb_true; lra); cbn [bind].
      rewrite (int_count_truncates x n1 TR1), (int_count_truncates y n2 TR2); cbv zeta; rewrite fl_quadratic_arrays; reflexivity.
    - rewrite <- quadratic_scale; unfold fl_quadratic_pulses, quadratic_pulses.
      apply forall2_concat, forall2_map; intros j J; apply in_seq in J.
      assert (V : accuracy (Quadratic x y) = 256 * eps) by (cbn [accuracy]; unfold eps; lra); rewrite V.
      unfold fl_block, quadratic_block; cbv zeta; apply Forall2_app.
      + apply forall2_map; intros i I; apply in_seq in I; split; [reflexivity|]; cbn [snd].
        apply quadratic_acc; auto; lia.
      + destruct (Nat.ltb_spec j n2); [|constructor]; constructor; [|constructor]; split; [reflexivity|]; cbn [snd].
        eapply Rle_trans; [apply fl_outer_acc; auto; lia|]; assert (E := eps_pos).
        apply Rmult_le_compat_r; lra.
    - assert (FO : forall j, binary64_format (fl_outer fsin fsquare T n2 j)).
      { intros j; unfold fl_outer; destruct (Nat.eqb j 0); [apply format_0|]; destruct (Nat.eqb j (n2 + 1)); auto; apply format_rnd. }
      intros p I; apply in_concat in I; destruct I as [b [B I]]; apply in_map_iff in B; destruct B as [j [<- _]].
      unfold fl_block in I; apply in_app_or in I; destruct I as [I|I].
      + apply in_map_iff in I; destruct I as [i [<- _]]; apply format_rnd.
      + destruct (j <? n2)%nat; [destruct I as [<-|[]]; apply FO|destruct I].
  Qed.

  (** ** X concatenated *)

  Lemma x_slots_bounds l i : In i (x_slots l) -> (1 <= i < 2 ^ l)%nat.
  Proof.
    intros I; apply in_map_iff in I; destruct I as [k [<- I]]; apply filter_In in I; destruct I as [I _]; apply in_seq in I; lia.
  Qed.

  Lemma sums_close T u (N k n : nat) : 2 * tiny <= u -> INR N <= 2 ^ 26 -> T = INR n * u -> (k <= n)%nat -> (k <= N)%nat ->
    Rabs (sums u N k - INR k * u) <= INR n * eps * T.
  Proof.
    intros U HN ET KN KK; destruct (sums_spec u N U HN k KK) as [A _].
    eapply Rle_trans; [exact A|]; rewrite ET; assert (E := eps_pos); assert (UP := u_pos u U).
    replace (INR n * eps * (INR n * u)) with (INR n ^ 2 * eps * u) by ring.
    apply Rmult_le_compat_r; [lra|]; apply Rmult_le_compat_r; [lra|]; apply pow_incr; split; [apply pos_INR|apply le_INR; auto].
  Qed.

  Lemma power_of_two x l k : INR l <= x -> (k <= 53)%nat -> 2 ^ (l * k) * eps <= Rpower 2 (INR k * x - 53).
  Proof.
    intros H K; replace (2 ^ (l * k) * eps) with (Rpower 2 (INR k * INR l - 53)).
    - apply Rle_Rpower; [lra|]; assert (0 <= INR k) by apply pos_INR; assert (INR k * INR l <= INR k * x) by (apply Rmult_le_compat_l; auto); lra.
    - unfold Rminus; rewrite Rpower_plus, Rpower_Ropp; f_equal.
      + rewrite <- mult_INR, Rpower_pow, Nat.mul_comm by lra; reflexivity.
      + replace 53 with (INR 53) by (rewrite INR_IZR_INZ; reflexivity); rewrite Rpower_pow by lra; unfold eps; lra.
  Qed.

  Lemma fl_x T x : binary64_format T -> / 2 ^ 900 <= T -> 1 <= x < 26 ->
    exists rel flp, fl_request (XConcatenated x) T rel flp.
  Proof.
    intros FT HT [X1 X2]; assert (P := inv_pow_pos 900); destruct (trunc x X1) as [l [N [TR NX]]].
    assert (L : (l <= 25)%nat) by (apply Nat.lt_succ_r, INR_lt; rewrite (INR_IZR_INZ 26); cbn [Z.of_nat Pos.of_succ_nat Pos.succ]; lra).
    set (u := T / 2 ^ l).
    assert (P2 : 0 < 2 ^ l) by (apply pow_lt; lra); assert (Q2 : 2 ^ l <= 2 ^ 25) by (apply Rle_pow; [lra|auto]).
    assert (UE : binary64 u = u) by (apply unit_exact; auto; lia).
    assert (U : 2 * tiny <= u).
    { apply not_tiny_time; auto; apply (above_100 l); [lia|lra]. }
    assert (HN : INR (2 ^ l) <= 2 ^ 26) by (rewrite pow2_INR; eapply Rle_trans; [exact Q2|apply Rle_pow; [lra|lia]]).
    assert (TU : T = INR (2 ^ l) * u) by (unfold u; rewrite pow2_INR; field; lra).
    exists (map (fun t => (AX, t)) (map (fun i => INR i / INR (2 ^ l)) (x_slots l))).
    exists (map (fun t => (AX, t)) (map (sums u (2 ^ l)) (x_slots l))).
    split; [|split; [|split]].
    - intros T' pre name HT'; cbn [build_sequence]; rewrite (x_model T' x l pre name) by auto.
      rewrite map_scale; do 4 f_equal; unfold x_times, change_times, x_slots; rewrite !map_map; apply map_ext; intros i; unfold Rdiv; ring.
    - intros pre name; cbn [fl_build_sequence]; unfold fl_x_concatenated_sequence.
      rewrite check_duration_ok by lra; cbn [bind]; unfold check_concatenation_order.
      rewrite check_true by (apply leb_true; lra); cbn [bind]; rewrite (int_count_truncates x l TR); cbv zeta; fold u; rewrite UE.
      rewrite (x_offsets_slots (sums u (2 ^ l))); auto.
      + rewrite <- (uniform_arrays_of AX); reflexivity.
      + intros i j H; apply sums_mono; auto.
      + change 0 with (sums u (2 ^ l) 0) at 1; apply running_sums; auto; rewrite marks_length; lia.
    - rewrite !map_map; apply forall2_map; intros i I; apply x_slots_bounds in I; split; [reflexivity|]; cbn [scale fst snd].
      replace (T * (INR i / INR (2 ^ l))) with (INR i * u) by (unfold u; rewrite pow2_INR; field; lra).
      eapply Rle_trans; [apply (sums_close T u (2 ^ l) i (2 ^ l)); auto; lia|].
      apply Rmult_le_compat_r; [lra|]; cbn [accuracy]; rewrite pow2_INR.
      assert (Q := power_of_two x l 1 ltac:(lra) ltac:(lia)); rewrite Nat.mul_1_r in Q; cbn [INR] in Q; rewrite Rmult_1_l in Q; exact Q.
    - intros p I; rewrite map_map in I; apply in_map_iff in I; destruct I as [i [<- I]]; apply x_slots_bounds in I.
      apply sums_spec; auto; lia.
  Qed.

  (** ** XY concatenated *)

  Lemma xy_last l : (1 <= l)%nat -> exists ps,
    xy_slots 0%Z 1%Z Z.add Z.leb Z.eqb Z.ltb l = map slot_of ps /\
    forall p, In p ps -> (1 <= snd p <= 4 ^ Z.of_nat l)%Z /\ (snd p = 4 ^ Z.of_nat l -> l = 1%nat)%Z.
  Proof.
    intros L; destruct (le_lt_dec l 2) as [L2|L3].
    - assert (SM : small l) by (unfold small; lia).
      exists (xy_small l); split; [apply xy_small_slots; auto|]; intros p I; split; [apply xy_small_bounds; auto|].
      intros E; destruct SM as [->| ->]; auto; exfalso; cbn [xy_small In] in I.
      repeat (destruct I as [<-|I]; [cbn in E; lia|]); destruct I.
    - destruct (xy_pulses l L) as [ps [E [_ B]]]; exists ps; split; auto; intros p I; apply B in I.
      assert (K := units_short l ltac:(lia)); split; lia.
  Qed.

  Lemma same_order_map (f g : Z -> R) zs :
    (forall x y, In x zs -> In y zs -> (f x < f y <-> (x < y)%Z)) ->
    (forall x y, In x zs -> In y zs -> (g x < g y <-> (x < y)%Z)) -> same_order (map f zs) (map g zs).
  Proof.
    intros F G i j I J; rewrite map_length in I, J.
    assert (E : forall (h : Z -> R) k, (k < List.length zs)%nat -> nth k (map h zs) 0 = h (nth k zs 0%Z)).
    { intros h k K; rewrite (nth_indep _ 0 (h 0%Z)) by (rewrite map_length; auto); apply map_nth. }
    rewrite !E by auto; assert (I' := nth_In zs 0%Z I); assert (J' := nth_In zs 0%Z J).
    rewrite F, G by auto; tauto.
  Qed.

  Lemma fl_xy T x : binary64_format T -> / 2 ^ 900 <= T -> 1 <= x < 13 ->
    exists rel flp, describes_request (XYConcatenated x) rel /\
    (forall pre name, fl_build_sequence binary64 fsin fsquare float_pi (XYConcatenated x) T pre name = finish T (arrays_of flp) pre name) /\
    rounding (accuracy (XYConcatenated x) * T) T flp (map (scale T) rel).
  Proof.
    intros FT HT [X1 X2]; assert (P := inv_pow_pos 900); destruct (trunc x X1) as [l [N [TR NX]]].
    assert (L : (l <= 12)%nat) by (apply Nat.lt_succ_r, INR_lt; rewrite (INR_IZR_INZ 13); cbn [Z.of_nat Pos.of_succ_nat Pos.succ]; lra).
    set (u := T / 2 ^ (l * 2)); set (M := (4 ^ Z.of_nat l)%Z); set (n := Z.to_nat M).
    assert (M0 : (0 < M)%Z) by (apply Z.pow_pos_nonneg; lia).
    assert (P2 : 0 < 2 ^ (l * 2)) by (apply pow_lt; lra).
    assert (Q2 : 2 ^ (l * 2) <= 2 ^ 24) by (apply Rle_pow; [lra|lia]).
    assert (MR : IZR M = 2 ^ (l * 2)) by apply pow4_IZR.
    assert (NR : INR n = 2 ^ (l * 2)) by (rewrite INR_IZR_INZ; unfold n; rewrite Z2Nat.id by lia; auto).
    assert (UE : binary64 u = u) by (apply unit_exact; auto; lia).
    assert (U : 2 * tiny <= u).
    { apply not_tiny_time; auto; apply (above_100 (l * 2)); [lia|lra]. }
    assert (UP := u_pos u U).
    assert (HN : INR n <= 2 ^ 26) by (rewrite NR; eapply Rle_trans; [exact Q2|apply Rle_pow; [lra|lia]]).
    assert (TU : T = INR n * u) by (unfold u; rewrite NR; field; lra).
    destruct (xy_last l N) as [ps [EP BP]]; fold M in BP.
    set (f := sums_z u n).
    assert (F1 : forall z, (1 <= z <= M)%Z -> Rabs (f z - IZR z * u) <= INR n * eps * T).
    { intros z [Z1 Z2]; unfold f, sums_z; rewrite (proj2 (Z.ltb_ge z 0)) by lia.
      replace (IZR z) with (INR (Z.to_nat z)) by (rewrite INR_IZR_INZ, Z2Nat.id by lia; auto).
      apply (sums_close T u n (Z.to_nat z) n); auto; unfold n; lia. }
    assert (F2 : forall z, (1 <= z < M)%Z -> 0 < f z < T).
    { intros z [Z1 Z2]; split; [change 0 with (f 0%Z); apply sums_z_lt; auto; lia|].
      assert (Q := F1 z ltac:(lia)); apply Rabs_le_inv in Q.
      assert (D : IZR z + 1 <= IZR M) by (rewrite <- plus_IZR; apply IZR_le; lia).
      assert (D2 : (IZR z + 1) * u <= IZR M * u) by (apply Rmult_le_compat_r; lra).
      assert (D3 : INR n * eps * T < u).
      { rewrite TU; replace (INR n * eps * (INR n * u)) with ((INR n * INR n * eps) * u) by ring.
        rewrite <- (Rmult_1_l u) at 2; apply Rmult_lt_compat_r; auto.
        assert (INR n * INR n <= 2 ^ 24 * 2 ^ 24) by (rewrite NR; apply Rmult_le_compat; lra).
        unfold eps; lra. }
      assert (T = IZR M * u) by (rewrite TU, NR, MR; auto); lra. }
    assert (F3 : l = 1%nat -> f M = T).
    { intros E; destruct (four_quarters T FT HT) as [Q1 [Q2' Q3]].
      assert (EU : u = T / 4) by (unfold u; rewrite E; cbn; lra).
      assert (EM : M = 4%Z) by (unfold M; rewrite E; reflexivity).
      unfold f, sums_z, n; rewrite EM; cbn [Z.ltb Z.compare]; change (Z.to_nat 4) with 4%nat; cbn [sums Nat.ltb Nat.leb].
      rewrite EU, Q1, Q2'; exact Q3. }
    exists (map (scale_z (1 / 2 ^ (l * 2))) ps), (map (fun p => (fst p, f (snd p))) ps).
    split; [|split].
    - intros T' pre name HT'; cbn [build_sequence].
      rewrite (xy_model T' x l pre name ps) by (auto; intros p I; apply BP; auto).
      rewrite map_map; do 3 f_equal; apply map_ext; intros [a z]; unfold scale, scale_z; cbn [fst snd]; f_equal; unfold Rdiv; ring.
    - intros pre name; cbn [fl_build_sequence]; unfold fl_xy_concatenated_sequence.
      rewrite check_duration_ok by lra; cbn [bind]; unfold check_concatenation_order.
      rewrite check_true by (apply leb_true; lra); cbn [bind]; rewrite (int_count_truncates x l TR); cbv zeta; fold u; rewrite UE.
      rewrite (xy_slots_sums u n U HN), EP, !map_map by (assert (K := units_bound l N); unfold n; fold M in K; lia).
      fold f; f_equal; unfold arrays_of; rewrite !map_map; f_equal; apply map_ext; intros [[] z]; reflexivity.
    - assert (SC : map (scale T) (map (scale_z (1 / 2 ^ (l * 2))) ps) = map (scale_z u) ps).
      { rewrite map_map; apply map_ext; intros [a z]; unfold scale, scale_z, u; cbn [fst snd]; f_equal; unfold Rdiv; ring. }
      rewrite SC; split; [|split].
      + apply forall2_map; intros [a z] I; apply BP in I; split; [reflexivity|]; cbn [scale_z fst snd] in *.
        eapply Rle_trans; [apply F1; lia|]; apply Rmult_le_compat_r; [lra|]; cbn [accuracy]; rewrite NR.
        assert (Q := power_of_two x l 2 ltac:(lra) ltac:(lia)); replace (INR 2) with 2 in Q by (cbn; lra); exact Q.
      + intros p I; apply in_map_iff in I; destruct I as [[a z] [<- I]]; apply BP in I; cbn [fst snd] in *; split.
        * destruct (Z.eq_dec z M) as [->|NE]; [rewrite F3 by (apply I; auto); lra|].
          assert (Q := F2 z ltac:(lia)); lra.
        * unfold f, sums_z; rewrite (proj2 (Z.ltb_ge z 0)) by lia; apply sums_spec; auto; unfold n; lia.
      + set (g := fun z => if Z.eqb z M then T else f z).
        assert (E1 : 0 :: map snd (map (fun p => (fst p, f (snd p))) ps) ++ [T] = map g (0%Z :: map snd ps ++ [M])).
        { cbn [map]; rewrite map_app; cbn [map]; rewrite !map_map; f_equal; [|f_equal].
          - unfold g; rewrite (proj2 (Z.eqb_neq 0 M)) by lia; reflexivity.
          - apply map_ext_in; intros p I; cbn [snd]; unfold g; destruct (Z.eqb_spec (snd p) M) as [E|E]; auto.
            rewrite E; apply F3; apply BP in I; apply I; auto.
          - unfold g; rewrite Z.eqb_refl; reflexivity. }
        assert (E2 : 0 :: map snd (map (scale_z u) ps) ++ [T] = map (fun z => IZR z * u) (0%Z :: map snd ps ++ [M])).
        { cbn [map]; rewrite map_app; cbn [map]; rewrite !map_map; f_equal; [ring|f_equal].
          rewrite TU, NR, MR; auto. }
        rewrite E1, E2.
        assert (BZ : forall z, In z (0%Z :: map snd ps ++ [M]) -> (0 <= z <= M)%Z).
        { intros z [<-|I]; [lia|]; apply in_app_or in I; destruct I as [I|[<-|[]]]; [|lia].
          apply in_map_iff in I; destruct I as [p [<- I]]; apply BP in I; lia. }
        assert (GM : forall a b, (0 <= a)%Z -> (b <= M)%Z -> (a < b)%Z -> g a < g b).
        { intros a b A B AB; unfold g; rewrite (proj2 (Z.eqb_neq a M)) by lia.
          destruct (Z.eqb_spec b M); [|apply sums_z_lt; auto].
          destruct (Z.eq_dec a 0) as [->|NE]; [change (f 0%Z) with 0; lra|apply F2; lia]. }
        apply same_order_map; intros a b A B; apply BZ in A; apply BZ in B; split.
        * intros H; destruct (Z.lt_trichotomy a b) as [Q|[Q|Q]]; auto; [rewrite Q in H; lra|].
          apply GM in Q; try lia; lra.
        * apply GM; lia.
        * intros H; apply Rmult_lt_reg_r in H; auto; apply lt_IZR; auto.
        * intros H; apply Rmult_lt_compat_r; auto; apply IZR_lt; auto.
  Qed.
End Library.
