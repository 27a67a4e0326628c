(** * Proofs about DrivenControl *)

From Verif Require Export L_Qubit L_Base Spec_DrivenControl.
Import ListNotations.
Open Scope string_scope.
Open Scope list_scope.
Open Scope R_scope.

(** ** C01: construction *)

Lemma nodup_one (l : list nat) n :
  List.length (nodup Nat.eq_dec (l ++ [n])) = 1%nat <-> (forall x, In x l -> x = n).
Proof.
  split; intros H.
  - assert (Hn : In n (nodup Nat.eq_dec (l ++ [n]))).
    { apply nodup_In, in_or_app; right; left; auto. }
    intros x Hx.
    assert (Hx' : In x (nodup Nat.eq_dec (l ++ [n]))).
    { apply nodup_In, in_or_app; left; auto. }
    destruct (nodup Nat.eq_dec (l ++ [n])) as [|a [|b r]]; simpl in H; try discriminate.
    destruct Hn as [->|[]]; destruct Hx' as [->|[]]; auto.
  - induction l as [|a l IH]; [reflexivity|].
    assert (a = n) by (apply H; left; auto); subst a.
    simpl; destruct (in_dec Nat.eq_dec n (l ++ [n])) as [I|I].
    + apply IH; intros x Hx; apply H; right; auto.
    + exfalso; apply I, in_or_app; right; left; auto.
Qed.

Lemma input_lengths_one ts r a d :
  List.length (input_lengths [r; a; d; Some ts]) = 1%nat <->
  fits (List.length ts) r /\ fits (List.length ts) a /\ fits (List.length ts) d.
Proof.
  unfold input_lengths.
  replace (map (@List.length R) (flat_map opt_list [r; a; d; Some ts]))
    with (map (@List.length R) (flat_map opt_list [r; a; d]) ++ [List.length ts])%list.
  2:{ destruct r, a, d; reflexivity. }
  rewrite nodup_one; unfold fits; split.
  - intros H; repeat split; intros l ->; apply H; apply in_map; simpl;
      repeat rewrite in_app_iff; simpl; tauto.
  - intros [H1 [H2 H3]] x Hx; apply in_map_iff in Hx; destruct Hx as [l [<- Hl]].
    simpl in Hl; repeat rewrite in_app_iff in Hl.
    destruct Hl as [Hl|[Hl|[Hl|[]]]].
    + destruct r as [r|]; [destruct Hl as [->|[]]; auto|contradiction].
    + destruct a as [a|]; [destruct Hl as [->|[]]; auto|contradiction].
    + destruct d as [d|]; [destruct Hl as [->|[]]; auto|contradiction].
Qed.

Lemma all_positive_b ts : forallb (fun d => ltb 0 d) ts = true <-> all_positive ts.
Proof.
  rewrite Forall_pos_forallb, Forall_forall; reflexivity.
Qed.

Lemma zeros_nonneg n : forallb (fun r => leb 0 r) (np_zeros n) = true.
Proof.
  unfold np_zeros, np_full; induction n; simpl; auto.
  rewrite IHn, andb_true_r; apply leb_true; lra.
Qed.

Lemma all_nonnegative_b n r :
  forallb (fun x => leb 0 x) (opt_default (np_zeros n) r) = true <-> all_nonnegative r.
Proof.
  destruct r as [l|]; simpl.
  - rewrite Forall_nonneg_forallb, Forall_forall; unfold all_nonnegative; split.
    + intros H l' E; injection E as <-; exact H.
    + intros H; apply (H l); auto.
  - rewrite zeros_nonneg; split; auto; intros _ l E; discriminate.
Qed.

Lemma check_true b s a e : b = true -> check_arguments b s a e = Ok tt.
Proof. intros ->; reflexivity. Qed.
Lemma check_false b s a e : b = false -> check_arguments b s a e = Raise (ArgumentsValueError s a e).
Proof. intros ->; reflexivity. Qed.

Lemma DrivenControl_ok ts r a d name :
  valid_inputs ts r a d ->
  DrivenControl ts r a d name =
  Ok {| rabi_rates := opt_default (np_zeros (List.length ts)) r;
        azimuthal_angles := opt_default (np_zeros (List.length ts)) a;
        detunings := opt_default (np_zeros (List.length ts)) d;
        durations := ts; dc_name := name |}.
Proof.
  intros [H1 [H2 [H3 [H4 H5]]]]; unfold DrivenControl.
  rewrite check_true by (apply all_positive_b; auto); cbn [bind].
  rewrite check_true by (apply Nat.eqb_eq, input_lengths_one; auto); cbn [bind].
  cbv zeta; rewrite check_true by (apply all_nonnegative_b; auto); reflexivity.
Qed.

Lemma DrivenControl_raise ts r a d name :
  ~ valid_inputs ts r a d ->
  exists s args, DrivenControl ts r a d name = Raise (ArgumentsValueError s args []) /\
    blames ts r a d args.
Proof.
  intros H; unfold DrivenControl.
  destruct (forallb (fun d => ltb 0 d) ts) eqn:E1.
  2:{ cbn [check_arguments bind]; do 2 eexists; split; [reflexivity|left; split; auto].
      intros C; apply all_positive_b in C; congruence. }
  cbn [check_arguments bind].
  destruct (Nat.eqb (List.length (input_lengths [r; a; d; Some ts])) 1) eqn:E2.
  2:{ cbn [check_arguments bind]; do 2 eexists; split; [reflexivity|right; left; split; auto].
      intros C; apply input_lengths_one in C; apply Nat.eqb_neq in E2; contradiction. }
  cbn [check_arguments bind]; cbv zeta.
  destruct (forallb (fun x => leb 0 x) (opt_default (np_zeros (List.length ts)) r)) eqn:E3.
  2:{ cbn [check_arguments bind]; do 2 eexists; split; [reflexivity|right; right; split; auto].
      intros C; apply (all_nonnegative_b (List.length ts)) in C; congruence. }
  exfalso; apply H; unfold valid_inputs.
  apply all_positive_b in E1; apply Nat.eqb_eq, input_lengths_one in E2;
    apply all_nonnegative_b in E3; tauto.
Qed.

Lemma supplied_or_zeros_default n o : supplied_or_zeros n o (opt_default (np_zeros n) o).
Proof.
  destruct o; simpl; auto; unfold np_zeros, np_full; split; [apply repeat_length|].
  intros x Hx; apply repeat_spec in Hx; auto.
Qed.

Lemma fits_default n o : fits n o -> List.length (opt_default (np_zeros n) o) = n.
Proof. destruct o; simpl; intros H; [apply H; auto|apply repeat_length]. Qed.

Theorem driven_control_accepts ts r a d name :
  (valid_inputs ts r a d ->
     exists c, DrivenControl ts r a d name = Ok c /\
       durations c = ts /\ dc_name c = name /\
       supplied_or_zeros (List.length ts) r (rabi_rates c) /\
       supplied_or_zeros (List.length ts) a (azimuthal_angles c) /\
       supplied_or_zeros (List.length ts) d (detunings c) /\
       List.length (rabi_rates c) = List.length ts /\
       List.length (azimuthal_angles c) = List.length ts /\
       List.length (detunings c) = List.length ts) /\
  (~ valid_inputs ts r a d ->
     exists s args, DrivenControl ts r a d name = Raise (ArgumentsValueError s args []) /\
       blames ts r a d args).
Proof.
  split; [|apply DrivenControl_raise].
  intros H; eexists; split; [apply DrivenControl_ok; auto|].
  destruct H as [H1 [H2 [H3 [H4 H5]]]]; cbn.
  repeat split; try apply supplied_or_zeros_default; apply fits_default; auto.
Qed.

(** every constructible control is a list of segments *)

Definition segs_of (c : driven_control) : list seg :=
  map (fun p => Seg (fst (fst (fst p))) (snd (fst (fst p))) (snd (fst p)) (snd p))
    (combine (combine (combine (rabi_rates c) (azimuthal_angles c)) (detunings c)) (durations c)).

Definition wf (c : driven_control) : Prop :=
  List.length (rabi_rates c) = List.length (durations c) /\
  List.length (azimuthal_angles c) = List.length (durations c) /\
  List.length (detunings c) = List.length (durations c) /\
  all_positive (durations c) /\ (forall x, In x (rabi_rates c) -> 0 <= x).

Lemma constructible_wf c : constructible c <-> wf c.
Proof.
  split.
  - intros [ts [r [a [d [name H]]]]].
    destruct (driven_control_accepts ts r a d name) as [A B].
    assert (V : valid_inputs ts r a d).
    { apply Classical_Prop.NNPP; intros N; destruct (B N) as [s [args [E _]]]; congruence. }
    rewrite (DrivenControl_ok _ _ _ _ name V) in H; injection H as <-.
    destruct V as [H1 [H2 [H3 [H4 H5]]]].
    unfold wf; cbn [rabi_rates azimuthal_angles detunings durations].
    repeat split; try (apply fits_default; auto); auto.
    intros x Hx; assert (E := proj2 (all_nonnegative_b (List.length ts) r) H5).
    rewrite forallb_forall in E; apply leb_true, E; auto.
  - intros [H1 [H2 [H3 [H4 H5]]]]; destruct c as [r a d ts name]; cbn in *.
    exists ts, (Some r), (Some a), (Some d), name.
    rewrite DrivenControl_ok; [reflexivity|].
    unfold valid_inputs, fits, all_nonnegative; repeat split; auto;
      intros l E; injection E as <-; auto.
Qed.

Lemma describes_segs_of c : wf c -> describes (segs_of c) c.
Proof.
  intros [H1 [H2 [H3 _]]]; destruct c as [r a d ts name]; cbn in *; unfold describes, segs_of; cbn.
  revert a d ts H1 H2 H3; induction r as [|x r IH]; intros [|y a] [|z d] [|t ts] H1 H2 H3;
    cbn in *; try discriminate; auto.
  destruct (IH a d ts) as [E1 [E2 [E3 E4]]]; auto.
  rewrite <- E1, <- E2, <- E3, <- E4; auto.
Qed.

Lemma describes_unique c l l' : describes l c -> describes l' c -> l = l'.
Proof.
  intros [A1 [A2 [A3 A4]]] [B1 [B2 [B3 B4]]]; rewrite A1, A2, A3, A4 in *; clear A1 A2 A3 A4.
  revert l' B1 B2 B3 B4; induction l as [|[r a d t] l IH]; intros [|[r' a' d' t'] l'] B1 B2 B3 B4;
    cbn in *; try discriminate; auto.
  injection B1 as ? ?; injection B2 as ? ?; injection B3 as ? ?; injection B4 as ? ?; subst.
  f_equal; apply IH; auto.
Qed.

Theorem constructible_segments c :
  constructible c ->
  exists l, describes l c /\ (forall l', describes l' c -> l' = l) /\
    (forall g, In g l -> 0 < g_dur g /\ 0 <= g_rabi g).
Proof.
  intros H; apply constructible_wf in H; exists (segs_of c).
  assert (D := describes_segs_of c H); split; [auto|split].
  - intros l' D'; eapply describes_unique; eauto.
  - destruct H as [_ [_ [_ [H4 H5]]]]; destruct D as [D1 [_ [_ D4]]].
    rewrite D1 in H5; rewrite D4 in H4.
    intros g Hg; split; [apply H4|apply H5]; apply in_map; auto.
Qed.

Theorem segments_constructible l name :
  (forall g, In g l -> 0 < g_dur g /\ 0 <= g_rabi g) ->
  exists c, DrivenControl (map g_dur l) (Some (map g_rabi l)) (Some (map g_phi l))
              (Some (map g_det l)) name = Ok c /\ describes l c /\ dc_name c = name.
Proof.
  intros H; rewrite DrivenControl_ok.
  - eexists; split; [reflexivity|unfold describes; cbn; auto].
  - unfold valid_inputs, fits, all_nonnegative, all_positive; repeat split;
      try (intros x E; injection E as <-; rewrite !map_length; auto).
    + intros x Hx; apply in_map_iff in Hx; destruct Hx as [g [<- Hg]]; apply H; auto.
    + intros x E y Hx; injection E as <-.
      apply in_map_iff in Hx; destruct Hx as [g [<- Hg]]; apply H; auto.
Qed.

(** ** C02: times *)

Lemma np_sum_total l : np_sum l = total l.
Proof. induction l; simpl; auto; rewrite IHl; auto. Qed.

Lemma total_app a b : total (a ++ b) = total a + total b.
Proof. induction a; simpl; [ring|rewrite IHa; ring]. Qed.

Lemma cumsum_increasing acc l : all_positive l -> strictly_increasing (acc :: cumsum_from acc l).
Proof.
  revert acc; induction l as [|x l IH]; intros acc H; simpl; auto.
  assert (0 < x) by (apply H; left; auto).
  split; [lra|]. apply (IH (acc + x)); intros y Hy; apply H; right; auto.
Qed.

Lemma np_diff_nth l i a b :
  nth_error l i = Some a -> nth_error l (S i) = Some b -> nth_error (np_diff l) i = Some (b - a).
Proof.
  revert i; induction l as [|x l IH]; intros [|i] Ha Hb; simpl in *; try discriminate.
  - injection Ha as ->; destruct l as [|y l]; [discriminate|]; simpl in *; injection Hb as ->; auto.
  - destruct l as [|y l]; [destruct i; discriminate|].
    change (nth_error ((y - x) :: np_diff (y :: l)) (S i)) with (nth_error (np_diff (y :: l)) i).
    apply IH; auto.
Qed.

Lemma nth_cumsum acc l i v :
  nth_error (acc :: cumsum_from acc l) i = Some v -> v = acc + total (firstn i l).
Proof.
  revert acc i; induction l as [|x l IH]; intros acc [|i] H.
  - simpl in H; injection H as <-; simpl; ring.
  - destruct i; discriminate.
  - simpl in H; injection H as <-; simpl; ring.
  - change (nth_error ((acc + x) :: cumsum_from (acc + x) l) i = Some v) in H.
    apply IH in H; rewrite H; simpl; ring.
Qed.

Theorem times_spec c :
  constructible c ->
  List.length (times c) = S (number_of_segments c) /\
  nth_error (times c) 0 = Some 0 /\
  strictly_increasing (times c) /\
  (forall i a b, nth_error (times c) i = Some a -> nth_error (times c) (S i) = Some b ->
     nth_error (durations c) i = Some (b - a)) /\
  (forall i t, nth_error (times c) i = Some t -> t = total (firstn i (durations c))) /\
  nth_error (times c) (number_of_segments c) = Some (duration c) /\
  duration c = total (durations c).
Proof.
  intros H; apply constructible_wf in H; destruct H as [H1 [H2 [H3 [H4 H5]]]].
  unfold times, np_cumsum, number_of_segments, duration.
  assert (L : List.length (0 :: cumsum_from 0 (durations c)) = S (List.length (durations c))).
  { simpl; rewrite cumsum_from_length; auto. }
  assert (N : nth_error (0 :: cumsum_from 0 (durations c)) (List.length (rabi_rates c))
              = Some (np_sum (durations c))).
  { destruct (nth_error (0 :: cumsum_from 0 (durations c)) (List.length (rabi_rates c))) as [v|] eqn:E.
    - apply nth_cumsum in E; rewrite H1, firstn_all in E; rewrite np_sum_total, E; f_equal; ring.
    - apply nth_error_None in E; lia. }
  split; [rewrite H1; exact L|]. split; [reflexivity|].
  split; [apply cumsum_increasing; auto|].
  split. { intros i a b Ha Hb. rewrite <- (np_diff_cumsum_from 0 (durations c)).
           apply np_diff_nth; auto. }
  split. { intros i t E; apply nth_cumsum in E; rewrite E; ring. }
  split; [exact N|apply np_sum_total].
Qed.

(** ** C03: extrema *)

Lemma total_bounds l m M :
  (forall x, In x l -> m <= x) -> (forall x, In x l -> x <= M) ->
  INR (List.length l) * m <= total l <= INR (List.length l) * M.
Proof.
  induction l as [|x l IH]; intros Hm HM.
  - simpl; lra.
  - change (List.length (x :: l)) with (S (List.length l)); rewrite S_INR; simpl total.
    assert (m <= x) by (apply Hm; left; auto).
    assert (x <= M) by (apply HM; left; auto).
    destruct IH; [intros y Hy; apply Hm; right; auto|intros y Hy; apply HM; right; auto|lra].
Qed.

Lemma amax_is_maximum l m : np_amax l = Ok m <-> is_maximum m l.
Proof.
  split; [apply np_amax_spec|intros [H1 H2]; apply np_amax_unique; auto].
Qed.

Lemma amin_is_minimum l m : np_amin l = Ok m -> is_minimum m l.
Proof. apply np_amin_spec. Qed.

Theorem extrema_spec c :
  constructible c ->
  (number_of_segments c <> 0%nat ->
   exists mr md tM tm,
     maximum_rabi_rate c = Ok mr /\ is_maximum mr (rabi_rates c) /\
     maximum_detuning c = Ok md /\ is_maximum md (detunings c) /\
     maximum_duration c = Ok tM /\ is_maximum tM (durations c) /\
     minimum_duration c = Ok tm /\ is_minimum tm (durations c) /\
     0 < tm /\
     INR (number_of_segments c) * tm <= duration c <= INR (number_of_segments c) * tM) /\
  (number_of_segments c = 0%nat ->
     (exists s, maximum_rabi_rate c = Raise (ValueError s)) /\
     (exists s, maximum_detuning c = Raise (ValueError s)) /\
     (exists s, maximum_duration c = Raise (ValueError s)) /\
     (exists s, minimum_duration c = Raise (ValueError s))).
Proof.
  intros H; apply constructible_wf in H; destruct H as [H1 [H2 [H3 [H4 H5]]]].
  unfold number_of_segments, maximum_rabi_rate, maximum_detuning, maximum_duration,
    minimum_duration, duration.
  split; intros N.
  - assert (T : durations c <> []) by (intros E; rewrite E in H1; auto).
    destruct (np_amax_ok (rabi_rates c)) as [mr Hr]; [intros E; rewrite E in N; auto|].
    destruct (np_amax_ok (detunings c)) as [md Hd]; [intros E; rewrite E, <- H1 in H3; auto|].
    destruct (np_amax_ok (durations c)) as [tM HM]; auto.
    destruct (np_amin_ok (durations c)) as [tm Hm]; auto.
    exists mr, md, tM, tm.
    destruct (np_amax_spec _ _ HM) as [IM UM]; destruct (np_amin_spec _ _ Hm) as [Im Um].
    repeat split; auto; try (apply np_amax_spec; auto).
    + rewrite np_sum_total, H1; apply (total_bounds _ tm tM); auto.
    + rewrite np_sum_total, H1; apply (total_bounds _ tm tM); auto.
  - rewrite N in H1.
    destruct (rabi_rates c); [|discriminate]; destruct (durations c); [|discriminate];
      destruct (detunings c); [|discriminate]; simpl; repeat split; eexists; reflexivity.
Qed.

(** ** C04: amplitudes and angles *)

Lemma zip_with_map {A B C X} (f : A -> B -> C) (g : X -> A) (h : X -> B) l :
  zip_with f (map g l) (map h l) = map (fun x => f (g x) (h x)) l.
Proof. unfold zip_with; induction l; simpl; auto; rewrite IHl; auto. Qed.

Lemma combine_map {A B X} (g : X -> A) (h : X -> B) l :
  combine (map g l) (map h l) = map (fun x => (g x, h x)) l.
Proof. induction l; simpl; auto; rewrite IHl; auto. Qed.

Lemma amplitude_x_desc l c : describes l c -> amplitude_x c = map seg_x l.
Proof. intros [E1 [E2 _]]; unfold amplitude_x; rewrite E1, E2, zip_with_map; reflexivity. Qed.
Lemma amplitude_y_desc l c : describes l c -> amplitude_y c = map seg_y l.
Proof. intros [E1 [E2 _]]; unfold amplitude_y; rewrite E1, E2, zip_with_map; reflexivity. Qed.

Lemma seg_norm_pow g : sqrt (seg_x g ^ 2 + seg_y g ^ 2 + g_det g ^ 2) = seg_norm g.
Proof. unfold seg_norm, norm3; f_equal; ring. Qed.

Lemma amplitudes_desc l c : describes l c -> amplitudes c = map seg_norm l.
Proof.
  intros D; unfold amplitudes; rewrite (amplitude_x_desc l c D), (amplitude_y_desc l c D).
  destruct D as [_ [_ [E3 _]]]; rewrite E3, combine_map, zip_with_map; apply map_ext.
  intros g; apply seg_norm_pow.
Qed.

Lemma angles_desc l c : describes l c -> angles c = map (fun g => seg_norm g * g_dur g) l.
Proof.
  intros D; unfold angles; rewrite (amplitudes_desc l c D).
  destruct D as [_ [_ [_ E4]]]; rewrite E4, zip_with_map; reflexivity.
Qed.

Lemma cos2_sin2 p : cos p * cos p + sin p * sin p = 1.
Proof. generalize (sin2_cos2 p); unfold Rsqr; lra. Qed.

Lemma seg_norm_rabi g : seg_norm g = sqrt (g_rabi g * g_rabi g + g_det g * g_det g).
Proof.
  unfold seg_norm, norm3, seg_x, seg_y; f_equal.
  replace (g_rabi g * cos (g_phi g) * (g_rabi g * cos (g_phi g)) +
           g_rabi g * sin (g_phi g) * (g_rabi g * sin (g_phi g)))
    with (g_rabi g * g_rabi g * (cos (g_phi g) * cos (g_phi g) + sin (g_phi g) * sin (g_phi g)))
    by ring.
  rewrite cos2_sin2; ring.
Qed.

Lemma sumsq3_pos x y z : 0 <= x * x + y * y + z * z.
Proof. nra. Qed.

Lemma norm3_0 x y z : norm3 x y z = 0 -> x = 0 /\ y = 0 /\ z = 0.
Proof.
  unfold norm3; intros H; apply sqrt_eq_0 in H; [|nra].
  repeat split; nra.
Qed.
Lemma norm3_sq x y z : norm3 x y z * norm3 x y z = x * x + y * y + z * z.
Proof. unfold norm3; apply sqrt_sqrt, sumsq3_pos. Qed.
Lemma norm3_pos x y z : 0 <= norm3 x y z.
Proof. apply sqrt_pos. Qed.

Lemma bloch_rotation_0 x y z : bloch_rotation 0 x y z = mone.
Proof.
  unfold bloch_rotation; replace (0 / 2) with 0 by field; rewrite cos_0, sin_0.
  apply m_eq; apply c_eq; simpl; ring.
Qed.

(** the rotation of a segment about its direction *)
Lemma segment_rotation x y z t :
  exists ux uy uz,
    ux * ux + uy * uy + uz * uz = 1 /\
    x = norm3 x y z * ux /\ y = norm3 x y z * uy /\ z = norm3 x y z * uz /\
    segment_unitary x y z t = bloch_rotation (norm3 x y z * t) ux uy uz.
Proof.
  assert (E : sqrt (x ^ 2 + y ^ 2 + z ^ 2) = norm3 x y z) by (unfold norm3; f_equal; ring).
  unfold segment_unitary; rewrite E; cbv zeta.
  destruct (Req_dec (norm3 x y z) 0) as [Z|Z].
  - exists 1, 0, 0; destruct (norm3_0 _ _ _ Z) as [Ex [Ey Ez]].
    rewrite Z, !Rmult_0_l, !bloch_rotation_0; subst; repeat split; ring.
  - exists (x / norm3 x y z), (y / norm3 x y z), (z / norm3 x y z).
    assert (S := norm3_sq x y z).
    repeat split; try (field; auto).
    replace (x / norm3 x y z * (x / norm3 x y z) + y / norm3 x y z * (y / norm3 x y z) +
             z / norm3 x y z * (z / norm3 x y z))
      with ((x * x + y * y + z * z) / (norm3 x y z * norm3 x y z)) by (field; auto).
    rewrite <- S; field; auto.
Qed.

Theorem amplitudes_and_angles c l i g :
  constructible c -> describes l c -> nth_error l i = Some g ->
  exists x y a,
    nth_error (amplitude_x c) i = Some x /\ nth_error (amplitude_y c) i = Some y /\
    nth_error (angles c) i = Some a /\
    x = g_rabi g * cos (g_phi g) /\ y = g_rabi g * sin (g_phi g) /\
    x * x + y * y = g_rabi g * g_rabi g /\
    a = sqrt (g_rabi g * g_rabi g + g_det g * g_det g) * g_dur g /\
    exists ux uy uz,
      ux * ux + uy * uy + uz * uz = 1 /\
      x = norm3 x y (g_det g) * ux /\ y = norm3 x y (g_det g) * uy /\
      g_det g = norm3 x y (g_det g) * uz /\
      forall V, evolves (hamiltonian x y (g_det g)) (g_dur g) V <-> V = bloch_rotation a ux uy uz.
Proof.
  intros _ D N.
  exists (seg_x g), (seg_y g), (seg_norm g * g_dur g).
  rewrite (amplitude_x_desc l c D), (amplitude_y_desc l c D), (angles_desc l c D).
  split; [apply map_nth_error; auto|]. split; [apply map_nth_error; auto|].
  split; [apply (map_nth_error (fun g => seg_norm g * g_dur g)); auto|].
  split; [reflexivity|]. split; [reflexivity|].
  split.
  { unfold seg_x, seg_y.
    transitivity (g_rabi g * g_rabi g * (cos (g_phi g) * cos (g_phi g) + sin (g_phi g) * sin (g_phi g)));
      [ring|rewrite cos2_sin2; ring]. }
  split; [rewrite seg_norm_rabi; reflexivity|].
  destruct (segment_rotation (seg_x g) (seg_y g) (g_det g) (g_dur g)) as [ux [uy [uz [U [X [Y [Z E]]]]]]].
  exists ux, uy, uz; repeat split; auto.
  - intros H; apply evolves_iff in H; rewrite H, E; reflexivity.
  - intros ->; apply evolves_iff; rewrite E; reflexivity.
Qed.

(** ** C05: directions *)

Lemma directions_desc l c :
  describes l c ->
  directions c =
  (let* m := np_amax (map seg_norm l) in
   Ok (map (fun g => (seg_x g / safe_amplitude (direction_tolerance m) (seg_norm g),
                      seg_y g / safe_amplitude (direction_tolerance m) (seg_norm g),
                      g_det g / safe_amplitude (direction_tolerance m) (seg_norm g))) l)).
Proof.
  intros D; unfold directions; rewrite (amplitudes_desc l c D), (amplitude_x_desc l c D),
    (amplitude_y_desc l c D).
  destruct D as [_ [_ [E3 _]]]; rewrite E3.
  destruct (np_amax (map seg_norm l)) as [m|e]; cbn [bind]; [|reflexivity].
  cbv zeta; rewrite map_map, !zip_with_map, !combine_map; reflexivity.
Qed.

Lemma direction_tolerance_threshold m : direction_tolerance m = threshold m.
Proof.
  unfold direction_tolerance, threshold; rewrite py_min_Rmin.
  f_equal; unfold Rdiv; ring.
Qed.

Lemma safe_amplitude_far t a : 0 <= a -> t < a -> safe_amplitude t a = a.
Proof.
  intros Ha Ht; unfold safe_amplitude, np_isclose_tol.
  replace (leb (Rabs (a - 0)) (t + / 100000 * Rabs 0)) with false; auto.
  symmetry; apply leb_false; rewrite Rabs_R0, Rminus_0_r, Rabs_right; lra.
Qed.
Lemma safe_amplitude_near t a : 0 <= a -> a <= t -> safe_amplitude t a = 1.
Proof.
  intros Ha Ht; unfold safe_amplitude, np_isclose_tol.
  replace (leb (Rabs (a - 0)) (t + / 100000 * Rabs 0)) with true; auto.
  symmetry; apply leb_true; rewrite Rabs_R0, Rminus_0_r, Rabs_right; lra.
Qed.

Theorem directions_spec c l :
  constructible c -> describes l c -> l <> [] ->
  exists m ds,
    is_maximum m (map seg_norm l) /\ directions c = Ok ds /\
    List.length ds = number_of_segments c /\
    forall i g, nth_error l i = Some g ->
      exists dx dy dz, nth_error ds i = Some (dx, dy, dz) /\
        (threshold m < seg_norm g ->
           dx = seg_x g / seg_norm g /\ dy = seg_y g / seg_norm g /\ dz = g_det g / seg_norm g /\
           dx * dx + dy * dy + dz * dz = 1) /\
        (seg_norm g <= threshold m -> dx = seg_x g /\ dy = seg_y g /\ dz = g_det g).
Proof.
  intros _ D NE.
  rewrite (directions_desc l c D).
  destruct (np_amax_ok (map seg_norm l)) as [m Hm].
  { intros E; apply map_eq_nil in E; auto. }
  exists m; rewrite Hm; cbn [bind]; eexists; split; [apply np_amax_spec; auto|].
  split; [reflexivity|]. split.
  { unfold number_of_segments; destruct D as [E1 _]; rewrite E1, !map_length; auto. }
  intros i g Hi; do 3 eexists; split; [apply (map_nth_error (fun g => (seg_x g / safe_amplitude (direction_tolerance m) (seg_norm g),
                      seg_y g / safe_amplitude (direction_tolerance m) (seg_norm g),
                      g_det g / safe_amplitude (direction_tolerance m) (seg_norm g)))); eauto|].
  rewrite direction_tolerance_threshold.
  assert (P : 0 <= seg_norm g) by apply sqrt_pos.
  split; intros H.
  - rewrite safe_amplitude_far by auto.
    assert (P' : seg_norm g <> 0).
    { intros Z; rewrite Z in H. unfold threshold in H.
      assert (0 <= m).
      { destruct (np_amax_spec _ _ Hm) as [I _]; apply in_map_iff in I; destruct I as [g' [<- _]].
        apply sqrt_pos. }
      unfold Rmin in H; destruct (Rle_dec (m / 10 ^ 20) (/ 10 ^ 8)); [|lra].
      assert (0 <= m / 10 ^ 20); [|lra].
      apply Rmult_le_pos; [auto|lra]. }
    repeat split; auto.
    assert (S : seg_norm g * seg_norm g = seg_x g * seg_x g + seg_y g * seg_y g + g_det g * g_det g)
      by apply norm3_sq.
    transitivity ((seg_x g * seg_x g + seg_y g * seg_y g + g_det g * g_det g)
                  / (seg_norm g * seg_norm g)); [field; auto|].
    rewrite <- S; field; auto.
  - rewrite safe_amplitude_near by auto; repeat split; field.
Qed.

Definition tiny_control : list seg := [Seg 1 0 0 1; Seg (/ 10 ^ 30) 0 0 1].

Lemma tiny_norm r : 0 <= r -> seg_norm (Seg r 0 0 1) = r.
Proof.
  intros H; rewrite seg_norm_rabi; simpl.
  replace (r * r + 0 * 0) with (r * r) by ring; apply sqrt_square; auto.
Qed.

Theorem directions_refuted :
  exists c l g i dx dy dz,
    constructible c /\ describes l c /\ nth_error l i = Some g /\
    seg_norm g <> 0 /\
    (exists ds, directions c = Ok ds /\ nth_error ds i = Some (dx, dy, dz)) /\
    dx * dx + dy * dy + dz * dz <> 1.
Proof.
  destruct (segments_constructible tiny_control None) as [c [Hc [D _]]].
  { intros g [<-|[<-|[]]]; simpl; split; try lra. }
  assert (K : constructible c) by (do 5 eexists; exact Hc).
  destruct (directions_spec c tiny_control K D) as [m [ds [Hm [Hds [_ Hi]]]]]; [discriminate|].
  assert (P : 0 < / 10 ^ 30) by (apply Rinv_0_lt_compat, pow_lt; lra).
  assert (N : seg_norm (Seg (/ 10 ^ 30) 0 0 1) = / 10 ^ 30) by (apply tiny_norm; lra).
  assert (S : / 10 ^ 30 < 1).
  { rewrite <- Rinv_1; apply Rinv_lt_contravar; [rewrite Rmult_1_l; apply pow_lt; lra|].
    apply Rlt_pow_R1; [lra|lia]. }
  assert (M : m = 1).
  { destruct Hm as [I U].
    assert (1 <= m) by (rewrite <- (tiny_norm 1) by lra; apply U; left; auto).
    destruct I as [I|[I|[]]].
    - rewrite <- I; apply tiny_norm; lra.
    - rewrite N in I; lra. }
  destruct (Hi 1%nat (Seg (/ 10 ^ 30) 0 0 1)) as [dx [dy [dz [E [_ H]]]]]; [reflexivity|].
  exists c, tiny_control, (Seg (/ 10 ^ 30) 0 0 1), 1%nat, dx, dy, dz.
  repeat (split; [solve [auto | discriminate | reflexivity]|]).
  split; [rewrite N; lra|]. split; [exists ds; auto|].
  destruct H as [-> [-> ->]].
  - rewrite N, M; unfold threshold.
    apply Rmin_glb.
    + unfold Rdiv; rewrite Rmult_1_l; apply Rinv_le_contravar; [apply pow_lt; lra|].
      apply Rle_pow; [lra|lia].
    + apply Rinv_le_contravar; [apply pow_lt; lra|]. apply Rle_pow; [lra|lia].
  - unfold seg_x, seg_y; simpl g_rabi; simpl g_phi; simpl g_det.
    rewrite cos_0, sin_0; set (e := / 10 ^ 30) in *; clearbody e; nra.
Qed.
