(** * Conversion at infinite rates; values in converted controls *)

From Coq Require Import Lia.
From Verif Require Export L_Extended.
Import ListNotations.
Open Scope string_scope.
Open Scope list_scope.
Open Scope R_scope.

(** ** Infinite rates without a minimum duration drop every pulse *)

Definition emptied (o : operation) : operation := null_operation (op_offset o).

Lemma pad_emptied T ops : pad_operations T (map emptied ops) = map emptied (pad_operations T ops).
Proof.
  unfold pad_operations.
  assert (A : pad_empty T (map emptied ops) = map emptied (pad_empty T ops)) by (destruct ops; auto).
  assert (B : forall l, pad_front (map emptied l) = map emptied (pad_front l)).
  { intros [|o l]; auto; cbn [map pad_front]; change (op_offset (emptied o)) with (op_offset o); destruct (neqb (op_offset o) 0); auto. }
  assert (L : forall l, op_offset (last (map emptied l) (null_operation 0)) = op_offset (last l (null_operation 0))).
  { induction l as [|a [|b l] IH]; auto; apply IH. }
  assert (C : forall l, pad_back T (map emptied l) = map emptied (pad_back T l)).
  { intros l; unfold pad_back; rewrite L; destruct (neqb _ T); auto; rewrite map_app; auto. }
  rewrite A, B, C; auto.
Qed.

Lemma zero_windows T ops p : In p (pulse_start_ends (fun _ => 0) T ops) -> snd p = fst p.
Proof.
  unfold pulse_start_ends.
  assert (A : forall p, In p (map (start_end (fun _ => 0)) ops) -> snd p = fst p).
  { intros q I; apply in_map_iff in I; destruct I as [o [<- _]]; cbn; ring. }
  revert A; generalize (map (start_end (fun _ => 0)) ops); intros l A.
  assert (B : forall p, In p (shift_first l) -> snd p = fst p).
  { destruct l as [|[s e] l]; auto; cbn [shift_first]; assert (Q := A _ (or_introl eq_refl)); cbn in Q; subst e.
    destruct (ltb s 0); auto; intros q [<-|I]; [reflexivity|apply A; right; auto]. }
  revert B; generalize (shift_first l); clear; intros l B.
  induction l as [|[s e] l IH]; [intros []|].
  destruct l as [|q l].
  - cbn [shift_last]; assert (Q := B _ (or_introl eq_refl)); cbn in Q; subst e.
    destruct (ltb T s); intros [<-|[]]; reflexivity.
  - intros [<-|I]; [apply B; left; auto|]; apply IH; auto; intros r J; apply B; right; auto.
Qed.

Lemma interleave_zero ops : forall ses, (forall p, In p ses -> snd p = fst p) ->
  interleave ops ses = interleave (map emptied ops) ses.
Proof.
  induction ops as [|o ops IH]; intros [|p ses] Z; auto; cbn [map interleave].
  rewrite <- IH by (intros q I; apply Z; right; auto); f_equal.
  unfold pulse_segment; rewrite (Z p (or_introl eq_refl)), Rminus_eq_0.
  destruct (ltb 0 0) eqn:L; auto; apply ltb_true in L; lra.
Qed.

Definition emptied_event (e : event) : event := idle (e_time e).

Lemma infinite_rates_emptied T n0 l name :
  (forall e, In e l -> 0 <= e_rabi e) -> (forall e, In e l -> ~ (0 < e_rabi e /\ 0 < e_det e)) ->
  xconvert (fin_sequence (sequence_of T n0 l)) (Inf false) (Inf false) (Fin 0) name =
  map_result fin_control (convert_dds_to_driven_control (sequence_of T n0 (map emptied_event l)) 1 1 0 name).
Proof.
  intros P V; rewrite (xconvert_general _ _ _ 0 1 1 (fun _ => 0)); try reflexivity; try lra.
  2:{ intros o _; unfold xhalf_pulse_duration; cbn [xop xop_rabi xop_detuning xisclose xabs xdivide].
      assert (M : xscale (xmax (Fin 0) (Fin 0)) (5 / 10) = Fin 0) by (unfold xmax; cbn [xlt]; destruct (ltb 0 0); cbn [xscale]; f_equal; ring).
      rewrite !M; destruct (negb _); auto; destruct (negb _); auto. }
  f_equal; unfold convert_dds_to_driven_control.
  rewrite !(check_true (ltb 0 1)) by (apply ltb_true; lra); rewrite !(check_true (leb 0 0)) by (apply leb_true; lra); cbn [bind].
  cbn [sequence_of rabi_rotations detuning_rotations seq_duration].
  rewrite (check_true (forallb (fun r => leb 0 r) (map e_rabi l))) by (apply forallb_rabi; auto).
  rewrite (check_true (check_valid_operation (map e_rabi l) (map e_det l))) by (apply check_valid_spec; auto).
  rewrite (check_true (forallb (fun r => leb 0 r) (map e_rabi (map emptied_event l))))
    by (apply forallb_rabi; intros e I; apply in_map_iff in I; destruct I as [e' [<- _]]; cbn; lra).
  rewrite (check_true (check_valid_operation (map e_rabi (map emptied_event l)) (map e_det (map emptied_event l))))
    by (apply check_valid_spec; intros e I; apply in_map_iff in I; destruct I as [e' [<- _]]; cbn; lra).
  cbn [bind]; cbv zeta.
  change (MkDDS T (map e_time l) (map e_rabi l) (map e_phi l) (map e_det l) n0) with (sequence_of T n0 l).
  set (m := map emptied_event l).
  change (MkDDS T (map e_time m) (map e_rabi m) (map e_phi m) (map e_det m) n0) with (sequence_of T n0 m).
  rewrite !dds_operations_of; unfold m.
  replace (map op_of (map emptied_event l)) with (map emptied (map op_of l)) by (rewrite !map_map; auto).
  rewrite pad_emptied; set (ops := pad_operations T (map op_of l)).
  replace (map op_offset (map emptied ops)) with (map op_offset ops) by (rewrite !map_map; auto).
  destruct (negb _); cbn [check_arguments bind]; auto.
  unfold body; cbv zeta.
  assert (W : pulse_start_ends (half_pulse_duration 1 1 0) T (map emptied ops) = pulse_start_ends (fun _ => 0) T ops).
  { unfold pulse_start_ends; do 2 f_equal; rewrite map_map; apply map_ext; intros o; unfold start_end; cbn [emptied null_operation op_offset].
    replace (half_pulse_duration 1 1 0 (emptied o)) with 0; auto.
    unfold half_pulse_duration; cbn [emptied null_operation op_rabi op_detuning].
    assert (I : np_isclose 0 0 = true) by (unfold np_isclose, np_isclose_tol; apply leb_true; rewrite Rminus_0_r, Rabs_R0; lra).
    rewrite I; auto. }
  rewrite W, <- (interleave_zero ops) by (intros p I; apply (zero_windows T ops p I)); auto.
Qed.

Lemma converted_emptied T l g : In g (converted 1 1 0 T (map emptied_event l)) -> g_rabi g = 0 /\ g_det g = 0.
Proof.
  unfold converted; destruct (allclose0 _); [intros [<-|[]]; auto|].
  intros I; apply filter_In in I; destruct I as [I _]; revert I.
  assert (Z : forall e, In e (with_ends T (map emptied_event l)) -> e_rabi e = 0 /\ e_det e = 0).
  { intros e I; apply with_ends_in in I; destruct I as [I|[->| ->]]; auto.
    apply in_map_iff in I; destruct I as [e' [<- _]]; auto. }
  revert Z; generalize (with_ends T (map emptied_event l)); induction l0 as [|e l0 IH]; intros Z; [intros []|].
  intros [<-|[<-|I]]; auto.
  - destruct (Z e (or_introl eq_refl)) as [A B]; unfold pulse_seg; rewrite A, B, !Rabs_R0.
    assert (S0 := small_pos); destruct (Rle_dec 0 (/ 10 ^ 8)); [auto|lra].
  - apply IH; auto; intros e' J; apply Z; right; auto.
Qed.

Lemma increasing_gaps T E : (forall e, In e E -> e_rabi e = 0 /\ e_det e = 0) -> strictly_increasing (map e_time E) ->
  forall g, In g (gaps (map (fun e => window T (pulse_width 1 1 0 e) (e_time e)) E)) -> 0 <= g.
Proof.
  intros Z I.
  assert (W : forall e, In e E -> window T (pulse_width 1 1 0 e) (e_time e) = (e_time e, e_time e)).
  { intros e J; destruct (Z e J) as [A B]; assert (S0 := small_pos); rewrite width_idle; [|rewrite A, Rabs_R0; lra|rewrite B, Rabs_R0; lra].
    unfold window, centre; destruct (Req_EM_T (e_time e) 0); [|destruct (Req_EM_T (e_time e) T)]; cbn; f_equal; lra. }
  clear Z; induction E as [|e [|f E] IH]; intros g; [intros []|cbn; intros []|].
  cbn [map]; rewrite (W e (or_introl eq_refl)), (W f (or_intror (or_introl eq_refl))); cbn [gaps]; intros [<-|G].
  - cbn [map strictly_increasing] in I; lra.
  - apply IH; [apply I|intros e' J; apply W; right; auto|].
    cbn [map]; rewrite (W f (or_intror (or_introl eq_refl))); exact G.
Qed.

Theorem infinite_rates_drop T n0 l name :
  constructible_sequence (sequence_of T n0 l) ->
  (forall e, In e l -> 0 <= e_rabi e) -> (forall e, In e l -> ~ (0 < e_rabi e /\ 0 < e_det e)) ->
  strictly_increasing (map e_time l) ->
  exists c segs, xconvert (fin_sequence (sequence_of T n0 l)) (Inf false) (Inf false) (Fin 0) name = Ok (fin_control c) /\
    describes segs c /\ duration c = T /\ forall g, In g segs -> g_rabi g = 0 /\ g_det g = 0.
Proof.
  intros CS P V I; rewrite infinite_rates_emptied by auto.
  destruct (sequence_bounds _ _ _ CS) as [HT B].
  set (m := map emptied_event l).
  assert (BM : forall e, In e m -> 0 <= e_time e <= T).
  { intros e J; apply in_map_iff in J; destruct J as [e' [<- J]]; apply (B e' J). }
  assert (CM : constructible_sequence (sequence_of T n0 m)).
  { apply constructible_well_formed; split; [exact HT|split].
    - cbn; intros t J; apply in_map_iff in J; destruct J as [e [<- J]]; auto.
    - cbn; rewrite !map_length; auto. }
  assert (IM : strictly_increasing (map e_time m)) by (unfold m; rewrite map_map; exact I).
  assert (G : forall g, In g (idle_times 1 1 0 T m) -> 0 <= g).
  { unfold idle_times; apply increasing_gaps; [|apply with_ends_increasing; auto].
    intros e J; apply with_ends_in in J; destruct J as [J|[->| ->]]; auto.
    apply in_map_iff in J; destruct J as [e' [<- _]]; auto. }
  assert (CV : convertible 1 1 0 T m).
  { split; [lra|split; [lra|split; [lra|split; [|split; [|split; [exact IM|]]]]]].
    - intros e J; apply in_map_iff in J; destruct J as [e' [<- _]]; cbn; lra.
    - intros e J; apply in_map_iff in J; destruct J as [e' [<- _]]; cbn; lra.
    - intros g J; apply nonneg_long; auto. }
  destruct (proj1 (proj1 (conversion_acceptance T n0 m 1 1 0 name CM)) CV) as [c E].
  destruct (conversion_result _ _ _ _ _ _ _ _ CM E) as [_ [_ [_ [D _]]]].
  exists c, (converted 1 1 0 T m); rewrite E; split; [reflexivity|]; split; auto; split.
  - destruct (conversion_duration T n0 m 1 1 0 name c CM E) as [A _]; apply A; auto.
  - intros g J; apply (converted_emptied T l g J).
Qed.

(** ** No new special values *)

(** ends and starts of windows that are next to an acceptable gap *)
Definition ends_well (x : xfloat) : Prop := match x with Fin _ | Inf true => True | _ => False end.
Definition starts_well (x : xfloat) : Prop := match x with Fin _ | Inf false => True | _ => False end.

Lemma acceptable_gap mn s e : nonnegative mn -> xlt mn (xsub s e) || xisclose (xsub s e) mn = true -> ends_well e /\ starts_well s.
Proof.
  destruct mn as [r|[]|], s as [a|[]|], e as [b|[]|]; cbn; intuition discriminate.
Qed.

Lemma acceptable_gaps mn w ws : nonnegative mn -> xgaps_ok mn (xgap_durations (w :: ws)) = true ->
  (forall p, In p (removelast (w :: ws)) -> ends_well (snd p)) /\ (forall p, In p ws -> starts_well (fst p)).
Proof.
  intros N; revert w; induction ws as [|v ws IH]; intros w H; [split; intros p []|].
  destruct w as [s e], v as [s' e']; cbn [xgap_durations xgaps_ok forallb] in H; apply andb_true_iff in H; destruct H as [H1 H2].
  destruct (acceptable_gap mn s' e N H1) as [A B]; destruct (IH (s', e') H2) as [C D].
  split; intros p I.
  - change (removelast ((s, e) :: (s', e') :: ws)) with ((s, e) :: removelast ((s', e') :: ws)) in I; destruct I as [<-|I]; auto.
  - destruct I as [<-|I]; auto.
Qed.

(** operations of a sequence: times in the extended interval [0, T] *)
Definition timely (T : xfloat) (o : xoperation) : Prop := nonnegative (xop_offset o) /\ at_most (xop_offset o) T.

Section Finite.
  Variables (maxr maxd mn T : xfloat).
  Hypothesis Hr : positive maxr.
  Hypothesis Hd : positive maxd.
  Hypothesis Hmn : nonnegative mn.
  Hypothesis HT : positive T.
  Notation half := (xhalf_pulse_duration maxr maxd mn).

  (** the half width is finite only if the rotation in use is *)
  Lemma finite_half o : nonnegative (xop_rabi o) -> finite (half o) ->
    (xisclose (xop_rabi o) (Fin 0) = false -> finite (xop_rabi o)) /\
    (xisclose (xop_rabi o) (Fin 0) = true -> xisclose (xop_detuning o) (Fin 0) = false -> finite (xop_detuning o)).
  Proof.
    intros N F; split.
    - intros E; unfold xhalf_pulse_duration in F; rewrite E in F; cbn [negb] in F.
      destruct (xop_rabi o) as [r|[]|]; [exists r; auto|cbn in N; discriminate| |destruct N].
      exfalso; destruct F as [x F].
      destruct maxr as [a|[]|]; cbn in Hr; try discriminate; try tauto; destruct mn as [b|[]|]; cbn in Hmn; try discriminate; try tauto;
        cbn [xdivide] in F; unfold xmax in F; cbn [xlt xscale] in F; try discriminate;
        try (rewrite (proj2 (ltb_false a 0)) in F by lra); cbn [xorb] in F; cbn [xlt xscale andb negb] in F; revert F; destruct (eqb (5 / 10) 0); intros F; discriminate.
    - intros E E2; unfold xhalf_pulse_duration in F; rewrite E, E2 in F; cbn [negb] in F.
      destruct (xop_detuning o) as [r|n|]; [exists r; auto| |].
      + exfalso; destruct F as [x F]; cbn [xabs] in F.
        destruct maxd as [a|[]|]; cbn in Hd; try discriminate; try tauto; destruct mn as [b|[]|]; cbn in Hmn; try discriminate; try tauto;
          cbn [xdivide] in F; unfold xmax in F; cbn [xlt xscale] in F; try discriminate;
          try (rewrite (proj2 (ltb_false a 0)) in F by lra); cbn [xorb] in F; cbn [xlt xscale andb negb] in F; revert F; destruct (eqb (5 / 10) 0); intros F; discriminate.
      + exfalso; destruct F as [x F]; cbn [xabs xdivide] in F; unfold xmax in F; cbn [xlt xscale] in F; discriminate.
  Qed.

  (** half widths are finite, +inf or NaN *)
  Lemma half_scale a : a <> Inf true -> let h := xscale (xmax a mn) (5 / 10) in finite h \/ h = Inf false \/ h = NaN.
  Proof.
    intros A; cbv zeta.
    assert (K : forall b, b <> Inf true -> finite (xscale b (5 / 10)) \/ xscale b (5 / 10) = Inf false \/ xscale b (5 / 10) = NaN).
    { intros [b|[]|] B; cbn [xscale]; auto; [left; eexists; reflexivity|congruence|].
      rewrite (proj2 (eqb_false (5 / 10) 0)), (proj2 (ltb_false (5 / 10) 0)) by lra; auto. }
    apply K; unfold xmax; destruct (xlt a mn); auto.
    intros E; rewrite E in Hmn; cbn in Hmn; discriminate.
  Qed.

  Lemma quotient_sign a b : nonnegative a -> positive b -> xdivide a b <> Inf true.
  Proof.
    destruct a as [x|[]|], b as [y|[]|]; cbn; intros A B; try discriminate; try tauto.
    - unfold xdiv; rewrite (proj2 (eqb_false y 0)) by lra; discriminate.
    - rewrite (proj2 (ltb_false y 0)) by lra; discriminate.
  Qed.

  Lemma half_cases o : nonnegative (xop_rabi o) -> finite (half o) \/ half o = Inf false \/ half o = NaN.
  Proof.
    intros N; unfold xhalf_pulse_duration; destruct (negb _); [|destruct (negb _); [|left; eexists; reflexivity]].
    - apply half_scale, quotient_sign; auto.
    - destruct (xop_detuning o) as [d|n|] eqn:D; cbn [xabs].
      + apply half_scale, quotient_sign; auto; cbn; apply Rabs_pos.
      + apply half_scale, quotient_sign; auto; reflexivity.
      + apply half_scale; cbn [xdivide]; discriminate.
  Qed.

  Definition moved_first (p : xfloat * xfloat) : xfloat * xfloat :=
    if xlt (fst p) (Fin 0) then (xadd (fst p) (xsub (Fin 0) (fst p)), xadd (snd p) (xsub (Fin 0) (fst p))) else p.
  Definition moved_last (p : xfloat * xfloat) : xfloat * xfloat :=
    if xlt T (snd p) then (xsub (fst p) (xsub (snd p) T), xsub (snd p) (xsub (snd p) T)) else p.

  Lemma last_windows ops : Forall2 (fun o p => p = xstart_end half o \/ p = moved_last (xstart_end half o)) ops
    (xshift_last T (map (xstart_end half) ops)).
  Proof.
    induction ops as [|o ops IH]; [constructor|]; destruct ops as [|o' ops].
    - cbn [map]; destruct (xstart_end half o) as [b e] eqn:E; cbn [xshift_last].
      destruct (xlt T e) eqn:L; (constructor; [|constructor]); rewrite ?E; auto; right; unfold moved_last; rewrite ?E; cbn [fst snd]; rewrite L; auto.
    - change (xshift_last T (map (xstart_end half) (o :: o' :: ops)))
        with (xstart_end half o :: xshift_last T (map (xstart_end half) (o' :: ops))).
      constructor; auto.
  Qed.

  Lemma windows_shape o o' ops : exists ws,
    xpulse_start_ends half T (o :: o' :: ops) = moved_first (xstart_end half o) :: ws /\
    Forall2 (fun o p => p = xstart_end half o \/ p = moved_last (xstart_end half o)) (o' :: ops) ws.
  Proof.
    exists (xshift_last T (map (xstart_end half) (o' :: ops))); split; [|apply last_windows].
    unfold xpulse_start_ends; cbn [map]; unfold moved_first.
    unfold xstart_end at 1; cbn [xshift_first fst snd].
    change (xsub (xop_offset o) (half o)) with (fst (xstart_end half o)); change (xadd (xop_offset o) (half o)) with (snd (xstart_end half o)).
    destruct (xlt (fst (xstart_end half o)) (Fin 0)); auto.
  Qed.

  Lemma first_finite o : timely T o -> nonnegative (xop_rabi o) -> ends_well (snd (moved_first (xstart_end half o))) -> finite (half o).
  Proof.
    intros [P _] N E; destruct (half_cases o N) as [F|[H|H]]; auto; exfalso; revert E; unfold moved_first, xstart_end; rewrite H; cbn [fst snd].
    - destruct (xop_offset o) as [t|[]|]; cbn in P; try discriminate; try tauto; cbn; auto.
    - destruct (xop_offset o) as [t|[]|]; cbn; auto.
  Qed.

  Lemma later_finite o p : timely T o -> nonnegative (xop_rabi o) -> p = xstart_end half o \/ p = moved_last (xstart_end half o) ->
    starts_well (fst p) -> finite (half o).
  Proof.
    intros [P A] N E S; destruct (half_cases o N) as [F|[H|H]]; auto; exfalso; destruct E as [-> | ->];
      revert S; unfold moved_last, xstart_end; rewrite H; cbn [fst snd].
    - destruct (xop_offset o) as [t|[]|]; cbn in P; try discriminate; try tauto; cbn; auto.
    - destruct (xop_offset o) as [t|[]|]; cbn in P; try discriminate; try tauto; destruct T as [u|[]|]; cbn in *; auto.
    - destruct (xop_offset o) as [t|[]|]; cbn; auto.
    - destruct (xop_offset o) as [t|[]|]; destruct T as [u|[]|]; cbn in *; auto.
  Qed.

  (** windows of finite width *)
  Definition proper (p : xfloat * xfloat) : Prop :=
    (exists a b, p = (Fin a, Fin b)) \/ (p = (Inf false, Inf false) /\ T = Inf false).

  Lemma first_proper o : timely T o -> finite (half o) -> proper (moved_first (xstart_end half o)).
  Proof.
    intros [P A] [h H]; unfold moved_first, xstart_end; rewrite H; unfold proper.
    destruct (xop_offset o) as [t|[]|]; cbn in P; try discriminate; try tauto; destruct T as [u|[]|]; cbn in A, HT; try discriminate; try tauto; cbn [fst snd xsub xopp xadd xlt].
    - destruct (ltb _ 0); left; do 2 eexists; reflexivity.
    - destruct (ltb _ 0); left; do 2 eexists; reflexivity.
  Qed.

  Lemma later_proper o p : timely T o -> finite (half o) -> p = xstart_end half o \/ p = moved_last (xstart_end half o) -> proper p.
  Proof.
    intros [P A] [h H] E; unfold moved_last, xstart_end in E; rewrite H in E; unfold proper.
    destruct (xop_offset o) as [t|[]|]; cbn in P; try discriminate; try tauto; destruct T as [u|[]|]; cbn in A, HT; try discriminate; try tauto;
      cbn [fst snd xsub xopp xadd xlt] in E.
    - destruct (ltb _ _); left; destruct E as [-> | ->]; do 2 eexists; reflexivity.
    - cbn in E; left; destruct E as [-> | ->]; do 2 eexists; reflexivity.
  Qed.

  Lemma all_proper o o' ops : (forall q, In q (o :: o' :: ops) -> timely T q /\ nonnegative (xop_rabi q)) ->
    xgaps_ok mn (xgap_durations (xpulse_start_ends half T (o :: o' :: ops))) = true ->
    Forall2 (fun q p => finite (half q) /\ proper p) (o :: o' :: ops) (xpulse_start_ends half T (o :: o' :: ops)).
  Proof.
    intros H G; destruct (windows_shape o o' ops) as [ws [E F]]; rewrite E in *.
    destruct (acceptable_gaps mn _ _ Hmn G) as [A B].
    constructor.
    - destruct (H o (or_introl eq_refl)) as [X Y].
      assert (Z : finite (half o)).
      { apply first_finite; auto; apply A; destruct ws; [inversion F|left; auto]. }
      split; auto; apply first_proper; auto.
    - assert (H' : forall q, In q (o' :: ops) -> timely T q /\ nonnegative (xop_rabi q)) by (intros q I; apply H; right; auto).
      revert H' B; clear - F Hmn Hr Hd HT; induction F as [|q p l ws E F IH]; intros H B; constructor.
      + destruct (H q (or_introl eq_refl)) as [X Y].
        assert (Z : finite (half q)) by (apply (later_finite q p); auto; apply B; left; auto).
        split; auto; apply (later_proper q p); auto.
      + apply IH; [intros q' I; apply H; right; auto|intros p' I; apply B; right; auto].
  Qed.

  Lemma proper_segment q p : nonnegative (xop_rabi q) -> finite (half q) -> proper p -> let g := xpulse_segment q p in
    finite (xseg_rabi g) /\ finite (xseg_detuning g) /\ (xseg_azimuthal g = Fin 0 \/ xseg_azimuthal g = xop_azimuthal q) /\
    (finite (xseg_duration g) \/ xseg_duration g = NaN).
  Proof.
    intros N F P g; assert (Z : finite (Fin 0)) by (eexists; reflexivity).
    destruct (finite_half q N F) as [A B].
    unfold g, xpulse_segment; destruct P as [[a [b ->]]|[-> _]]; cbn [fst snd].
    - rewrite xsub_fin; cbn [xlt].
      destruct (ltb 0 (b - a)) eqn:L; [apply ltb_true in L|cbn; split; auto; split; auto; split; auto; left; eexists; reflexivity].
      assert (D : forall x, finite x -> finite (xdivide x (Fin (b - a)))).
      { intros x [y ->]; cbn [xdivide]; unfold xdiv; rewrite (proj2 (eqb_false (b - a) 0)) by lra; eexists; reflexivity. }
      destruct (xisclose (xop_rabi q) (Fin 0)) eqn:E1; cbn [negb].
      + destruct (xisclose (xop_detuning q) (Fin 0)) eqn:E2; cbn [negb]; cbn; (split; [auto|split; [auto|split; [auto|left; eexists; reflexivity]]]).
      + cbn; split; [auto|split; [auto|split; [auto|left; eexists; reflexivity]]].
    - cbn; split; auto.
  Qed.

  Lemma proper_interleave ops ses : Forall2 (fun q p => finite (half q) /\ proper p) ops ses ->
    (forall q, In q ops -> nonnegative (xop_rabi q)) ->
    forall g, In g (xinterleave ops ses) ->
      finite (xseg_rabi g) /\ finite (xseg_detuning g) /\
      (xseg_azimuthal g = Fin 0 \/ exists q, In q ops /\ xseg_azimuthal g = xop_azimuthal q) /\
      (finite (xseg_duration g) \/ xseg_duration g = NaN \/ T = Inf false).
  Proof.
    intros F; assert (Z : finite (Fin 0)) by (eexists; reflexivity).
    induction F as [|q p ops ses [A B] F IH]; intros N g; [intros []|].
    cbn [xinterleave]; intros [<-|[<-|I]].
    - destruct (proper_segment q p (N q (or_introl eq_refl)) A B) as [X [Y [V W]]]; split; auto; split; auto; split.
      + destruct V as [V|V]; auto; right; exists q; split; auto; left; auto.
      + tauto.
    - cbn; split; auto; split; auto; split; auto.
      destruct F as [|q' p' ops' ses' [_ B'] F']; auto.
      destruct B as [[a [b ->]]|[_ ->]]; auto; destruct B' as [[a' [b' ->]]|[_ ->]]; auto.
      cbn; left; eexists; reflexivity.
    - destruct (IH (fun q' J => N q' (or_intror J)) g I) as [X [Y [[V|[q' [V W]]] U]]]; split; auto; split; auto; split; auto.
      right; exists q'; split; auto; right; auto.
  Qed.
End Finite.

(** the padded operations *)
Lemma xpad_shape T ops : positive T -> exists o o' l, xpad_operations T ops = o :: o' :: l.
Proof.
  intros P; unfold xpad_operations.
  assert (A : exists o l, xpad_front (xpad_empty T ops) = o :: l /\ xop_offset o = Fin 0).
  { assert (B : exists o l, xpad_empty T ops = o :: l) by (destruct ops as [|o l]; cbn; eauto).
    destruct B as [o [l ->]]; cbn [xpad_front]; destruct (xeq (xop_offset o) (Fin 0)) eqn:E; cbn [negb].
    - exists o, l; split; auto; destruct (xop_offset o); cbn in E; try discriminate; apply eqb_true in E; subst; auto.
    - do 2 eexists; split; reflexivity. }
  destruct A as [o [l [-> E]]]; unfold xpad_back; destruct l as [|o' l].
  - cbn [last]; rewrite E; destruct (xeq (Fin 0) T) eqn:X; cbn [negb]; [|do 3 eexists; reflexivity].
    exfalso; destruct T as [t|n|]; cbn in X, P; try discriminate; apply eqb_true in X; lra.
  - destruct (negb _); cbn [app]; eauto.
Qed.

Lemma xpad_in T ops o : In o (xpad_operations T ops) -> In o ops \/ o = xnull_operation (Fin 0) \/ o = xnull_operation T.
Proof.
  unfold xpad_operations, xpad_back; intros I.
  assert (J : In o (xpad_front (xpad_empty T ops)) \/ o = xnull_operation T).
  { destruct (negb _); auto; apply in_app_or in I; destruct I as [I|[<-|[]]]; auto. }
  destruct J as [J| ->]; auto; clear I.
  assert (K : In o (xpad_empty T ops) \/ o = xnull_operation (Fin 0)).
  { unfold xpad_front in J; destruct (xpad_empty T ops) as [|p q]; auto; destruct (negb _); auto; destruct J as [<-|J]; auto. }
  destruct K as [K| ->]; auto.
  destruct ops; auto; destruct K as [<-|[<-|[]]]; auto.
Qed.

Lemma check_ok {X} b s a e (k : unit -> result X) c : bind (check_arguments b s a e) k = Ok c -> b = true /\ k tt = Ok c.
Proof. destruct b; cbn; intros H; [auto|discriminate]. Qed.

Lemma xcontrol_fields ts r a d name c : xDrivenControl ts (Some r) (Some a) (Some d) name = Ok c ->
  x_durations c = ts /\ x_rabi_rates c = r /\ x_azimuthal_angles c = a /\ x_detunings c = d /\ x_dc_name c = name /\
  (forall t, In t ts -> positive t) /\ xconstructible c.
Proof.
  intros E; assert (E0 := E); unfold xDrivenControl in E; apply check_ok in E; destruct E as [P E].
  apply check_ok in E; destruct E as [_ E]; cbv zeta in E; apply check_ok in E; destruct E as [_ E].
  injection E as <-; cbn; repeat split; auto; [|do 5 eexists; exact E0].
  rewrite forallb_forall in P; intros t I; apply xlt_0, P; auto.
Qed.

Theorem xconvert_values s maxr maxd mn name c :
  xconstructible_sequence s -> xconvert s maxr maxd mn name = Ok c ->
  xconstructible c /\ x_dc_name c = name /\
  (forall x, In x (x_rabi_rates c) -> finite x) /\ (forall x, In x (x_detunings c) -> finite x) /\
  (forall x, In x (x_azimuthal_angles c) -> x = Fin 0 \/ In x (x_seq_azimuthal_angles s)) /\
  (forall x, In x (x_durations c) -> positive x) /\
  (finite (x_seq_duration s) -> forall x, In x (x_durations c) -> finite x).
Proof.
  intros [T [ts [r [a [d [n CS]]]]]] E.
  assert (Z : finite (Fin 0)) by (eexists; reflexivity).
  destruct (xsequence_accepts T ts r a d n) as [S1 S2].
  assert (W : positive T /\ (forall t, In t ts -> nonnegative t /\ at_most t T) /\
   List.length r = List.length ts /\ List.length a = List.length ts /\ List.length d = List.length ts).
  { apply Classical_Prop.NNPP; intros N; destruct (S2 N) as [x [y [z X]]]; congruence. }
  rewrite (S1 W) in CS; injection CS as <-; destruct W as [PT [TT _]].
  unfold xconvert in E; apply check_ok in E; destruct E as [PD E]; apply check_ok in E; destruct E as [PR E].
  apply check_ok in E; destruct E as [PM E]; apply check_ok in E; destruct E as [RN E]; apply check_ok in E; destruct E as [_ E].
  cbv zeta in E; apply check_ok in E; destruct E as [_ E]; apply check_ok in E; destruct E as [G E].
  cbn [x_seq_duration x_rabi_rotations] in *; apply xlt_0 in PD; apply xlt_0 in PR; apply xle_0 in PM.
  set (s := MkXDDS T ts r a d n) in *.
  set (ops := xpad_operations T (xdds_operations s)) in *.
  assert (OPS : forall q, In q (xdds_operations s) -> In (xop_offset q) ts /\ In (xop_rabi q) r /\ In (xop_azimuthal q) a).
  { unfold xdds_operations, s; cbn [x_offsets x_rabi_rotations x_seq_azimuthal_angles x_detuning_rotations].
    intros q I; apply in_map_iff in I; destruct I as [[[[t' r'] a'] d'] [<- I]].
    assert (I1 := in_combine_l _ _ _ _ I); assert (I2 := in_combine_l _ _ _ _ I1).
    cbn; split; [apply (in_combine_l _ _ _ _ I2)|split; [apply (in_combine_r _ _ _ _ I2)|apply (in_combine_r _ _ _ _ I1)]]. }
  assert (H : forall q, In q ops -> timely T q /\ nonnegative (xop_rabi q)).
  { intros q I; apply xpad_in in I; unfold timely; destruct I as [I|[->| ->]].
    - destruct (OPS q I) as [A [B _]]; split; [apply TT; auto|]; apply xle_0; rewrite forallb_forall in RN; auto.
    - cbn; split; [split; [lra|]|lra]; destruct T as [u|[]|]; cbn in *; try discriminate; auto; lra.
    - cbn; split; [|lra]; destruct T as [u|[]|]; cbn in *; try discriminate; try tauto; split; lra. }
  destruct (xpad_shape T (xdds_operations s) PT) as [o [o' [l SH]]]; fold ops in SH.
  assert (AP : Forall2 (fun q p => finite (xhalf_pulse_duration maxr maxd mn q) /\ proper T p) ops
    (xpulse_start_ends (xhalf_pulse_duration maxr maxd mn) T ops)).
  { rewrite SH in *; apply all_proper; auto. }
  destruct (xallclose0 _).
  - apply xcontrol_fields in E; destruct E as [-> [-> [-> [-> [-> [P C]]]]]].
    repeat split; auto; try (intros x [<-|[]]; auto); intros F x [<-|[]]; auto.
  - unfold xcontrol_of_segments in E; apply xcontrol_fields in E; destruct E as [-> [-> [-> [-> [-> [P C]]]]]].
    assert (K := proper_interleave maxr maxd mn T PR PD PM PT ops _ AP (fun q I => proj2 (H q I))).
    set (segs := filter _ _) in *.
    assert (K' : forall g, In g segs -> In g (xinterleave ops (xpulse_start_ends (xhalf_pulse_duration maxr maxd mn) T ops)))
      by (intros g I; apply filter_In in I; tauto).
    split; auto; split; auto; split; [|split; [|split; [|split; auto]]].
    + intros x I; apply in_map_iff in I; destruct I as [g [<- I]]; apply (K g (K' g I)).
    + intros x I; apply in_map_iff in I; destruct I as [g [<- I]]; apply (K g (K' g I)).
    + intros x I; apply in_map_iff in I; destruct I as [g [<- I]]; destruct (K g (K' g I)) as [_ [_ [[->|[q [Q ->]]] _]]]; auto.
      apply xpad_in in Q; destruct Q as [Q|[->| ->]]; auto; right; apply (OPS q Q).
    + intros [u FT] x I; cbn [x_seq_duration s] in FT; assert (P' := P x I); apply in_map_iff in I; destruct I as [g [<- I]].
      destruct (K g (K' g I)) as [_ [_ [_ [F|[F|F]]]]]; auto; [rewrite F in P'; destruct P'|].
      rewrite F in FT; discriminate.
Qed.

(** every failure is an ArgumentsValueError *)
Theorem xconvert_total s maxr maxd mn name : (exists c, xconvert s maxr maxd mn name = Ok c) \/ argument_error (xconvert s maxr maxd mn name).
Proof.
  assert (CB : forall X b t a e (k : unit -> result X), ((exists c, k tt = Ok c) \/ argument_error (k tt)) ->
    (exists c, bind (check_arguments b t a e) k = Ok c) \/ argument_error (bind (check_arguments b t a e) k)).
  { intros X [] t a e k H; auto; right; do 3 eexists; reflexivity. }
  assert (DC : forall ts r a d n, (exists c, xDrivenControl ts r a d n = Ok c) \/ argument_error (xDrivenControl ts r a d n)).
  { intros; unfold xDrivenControl; repeat (cbv zeta; apply CB); left; eauto. }
  unfold xconvert; do 7 (cbv zeta; apply CB); destruct (xallclose0 _); [|unfold xcontrol_of_segments]; apply DC.
Qed.

(** ** Free evolution without end *)

Theorem xconvert_endless maxr maxd mn n0 name :
  positive maxr -> positive maxd -> nonnegative mn ->
  xconvert (MkXDDS (Inf false) [] [] [] [] n0) maxr maxd mn name =
  Ok (MkXControl [Fin 0] [Fin 0] [Fin 0] [Inf false] name).
Proof.
  intros R D M; unfold xconvert; cbn [x_seq_duration x_rabi_rotations x_detuning_rotations]; cbv zeta.
  rewrite (check_true (xlt _ maxd)) by (apply xlt_0; auto); cbn [bind].
  rewrite (check_true (xlt _ maxr)) by (apply xlt_0; auto); cbn [bind].
  rewrite (check_true (xle _ mn)) by (apply xle_0; auto); cbn [bind].
  rewrite check_true by reflexivity; cbn [bind]; rewrite check_true by reflexivity; cbn [bind].
  assert (E0 : eqb 0 0 = true) by (apply eqb_true; auto).
  assert (O : xpad_operations (Inf false) (xdds_operations (MkXDDS (Inf false) [] [] [] [] n0)) =
              [xnull_operation (Fin 0); xnull_operation (Inf false)]).
  { unfold xpad_operations, xdds_operations, xpad_empty, xpad_front, xpad_back; cbn; rewrite E0; reflexivity. }
  rewrite O; rewrite check_true by reflexivity; cbn [bind].
  assert (C0 : np_isclose 0 0 = true) by (rewrite isclose0_dec, Rabs_R0; assert (S := small_pos); destruct (Rle_dec _ _); auto; lra).
  assert (W : xpulse_start_ends (xhalf_pulse_duration maxr maxd mn) (Inf false)
      [xnull_operation (Fin 0); xnull_operation (Inf false)] = [(Fin 0, Fin 0); (Inf false, Inf false)]).
  { assert (H : forall t, xhalf_pulse_duration maxr maxd mn (xnull_operation t) = Fin 0)
      by (intros t; unfold xhalf_pulse_duration; cbn; rewrite C0; reflexivity).
    unfold xpulse_start_ends; cbn [map]; unfold xstart_end; rewrite !H; cbn.
    replace (0 + - 0) with 0 by ring; rewrite Rplus_0_r.
    assert (L0 : ltb 0 0 = false) by (apply ltb_false; lra); rewrite L0; reflexivity. }
  rewrite W; rewrite check_true; cbn [bind].
  2:{ destruct mn as [r|[]|]; cbn in *; try tauto; try discriminate; reflexivity. }
  assert (A : xallclose0 [(Fin 0, Fin 0); (Inf false, Inf false)] = false)
    by (unfold xallclose0; cbn; rewrite C0; reflexivity).
  rewrite A.
  assert (L0 : ltb 0 (0 + - 0) = false) by (apply ltb_false; lra).
  assert (L1 : ltb 0 0 = false) by (apply ltb_false; lra).
  assert (F : filter (fun g => xlt (Fin 0) (xseg_duration g))
      (xinterleave [xnull_operation (Fin 0); xnull_operation (Inf false)] [(Fin 0, Fin 0); (Inf false, Inf false)]) =
      [MkXSeg (Fin 0) (Fin 0) (Fin 0) (Inf false)]).
  { unfold xinterleave, xpulse_segment; cbn; rewrite L0; cbn; rewrite L0, L1; reflexivity. }
  rewrite F; unfold xcontrol_of_segments, xDrivenControl.
  rewrite check_true by reflexivity; cbn [bind]; rewrite check_true by reflexivity; cbn [bind]; cbv zeta.
  rewrite check_true; [reflexivity|]; cbn; assert (L2 : leb 0 0 = true) by (apply leb_true; lra); rewrite L2; reflexivity.
Qed.
