(** * Symmetries of conversion *)

From Coq Require Import Lia.
From Verif Require Import L_ConvertThms.
From Verif Require Export Spec_ConvertSymmetry.
Import ListNotations.
Set Bullet Behavior "Strict Subproofs".
Open Scope string_scope.
Open Scope list_scope.
Open Scope R_scope.

(** ** Transfer *)

Lemma transfer F T n0 l maxr maxd mn T' n0' l' maxr' maxd' mn' name :
  constructible_sequence (sequence_of T n0 l) -> constructible_sequence (sequence_of T' n0' l') ->
  (convertible maxr maxd mn T l <-> convertible maxr' maxd' mn' T' l') ->
  (convertible maxr maxd mn T l -> converted maxr' maxd' mn' T' l' = F (converted maxr maxd mn T l)) ->
  corresponds F (convert_dds_to_driven_control (sequence_of T n0 l) maxr maxd mn name)
                (convert_dds_to_driven_control (sequence_of T' n0' l') maxr' maxd' mn' name).
Proof.
  intros C1 C2 I K.
  destruct (conversion_acceptance T n0 l maxr maxd mn name C1) as [A1 [_ N1]].
  destruct (conversion_acceptance T' n0' l' maxr' maxd' mn' name C2) as [A2 [_ N2]].
  destruct (convert_dds_to_driven_control (sequence_of T n0 l) maxr maxd mn name) as [c|e] eqn:E1.
  - assert (V : convertible maxr maxd mn T l) by (apply A1; eexists; reflexivity).
    assert (V' := proj1 I V); destruct (proj1 A2 V') as [c' E2]; rewrite E2.
    destruct (conversion_result _ _ _ _ _ _ _ _ C1 E1) as [_ [_ [_ [D1 M1]]]].
    destruct (conversion_result _ _ _ _ _ _ _ _ C2 E2) as [_ [_ [_ [D2 M2]]]].
    split; [|congruence]; intros segs D; rewrite (describes_unique _ _ _ D D1), <- K; auto.
  - assert (V : ~ convertible maxr maxd mn T l) by (intros V; destruct (proj1 A1 V); discriminate).
    assert (V' : ~ convertible maxr' maxd' mn' T' l') by tauto; specialize (N2 V').
    destruct (convert_dds_to_driven_control (sequence_of T' n0' l') maxr' maxd' mn' name) as [c'|e'];
      [destruct N2 as [? [? [? N2]]]; discriminate|split; auto].
Qed.

Lemma constructible_events T n0 l : constructible_sequence (sequence_of T n0 l) <->
  0 < T /\ forall e, In e l -> 0 <= e_time e <= T.
Proof.
  split; [apply sequence_bounds|]; intros [HT B]; apply constructible_well_formed; split; [exact HT|split].
  - intros t I; apply in_map_iff in I; destruct I as [e [<- I]]; apply B; auto.
  - cbn [sequence_of rabi_rotations offsets seq_azimuthal_angles detuning_rotations]; rewrite !map_length; auto.
Qed.

Lemma filter_map_comm (F : seg -> seg) l : (forall g, lasting (F g) = lasting g) ->
  filter lasting (map F l) = map F (filter lasting l).
Proof. intros H; induction l as [|g l IH]; cbn [map filter]; auto; rewrite H, IH; destruct (lasting g); auto. Qed.

(** ** Time reversal *)

Section Reversal.
  Variables (maxr maxd mn T : R).
  Hypothesis HT : 0 < T.
  Notation win := (win maxr maxd mn T).
  Notation pulse_seg := (pulse_seg maxr maxd mn).
  Notation weave := (weave maxr maxd mn T).
  Notation mir := (mirror T).
  Notation W E := (filter lasting (weave E)).
  Notation F E := (filter lasting E).

  Lemma mirror_win e : win (mir e) = (T - snd (win e), T - fst (win e)).
  Proof.
    unfold L_Convert.win, window; change (pulse_width maxr maxd mn (mir e)) with (pulse_width maxr maxd mn e).
    set (w := pulse_width maxr maxd mn e); unfold centre; cbn [mirror e_time fst snd].
    destruct (Req_EM_T (T - e_time e) 0), (Req_EM_T (T - e_time e) T), (Req_EM_T (e_time e) 0), (Req_EM_T (e_time e) T);
      try lra; f_equal; lra.
  Qed.
  Lemma mirror_seg e : pulse_seg (mir e) = pulse_seg e.
  Proof. reflexivity. Qed.
  Lemma empty_lasts : lasting (Seg 0 0 0 0) = false.
  Proof. unfold lasting; cbn [g_dur]; apply ltb_false; lra. Qed.

  Lemma weave_snoc l x y : W (l ++ [x; y]) = W (l ++ [x]) ++ F [Seg 0 0 0 (fst (win y) - snd (win x)); pulse_seg y].
  Proof.
    induction l as [|e l IH].
    - cbn [app L_Convert.weave gap_after filter]; rewrite empty_lasts.
      destruct (lasting (pulse_seg x)), (lasting (Seg 0 0 0 (fst (win y) - snd (win x)))), (lasting (pulse_seg y)); reflexivity.
    - assert (G : gap_after maxr maxd mn T (l ++ [x; y]) e = gap_after maxr maxd mn T (l ++ [x]) e) by (destruct l; reflexivity).
      cbn [app]; change (weave (e :: l ++ [x; y])) with (pulse_seg e :: Seg 0 0 0 (gap_after maxr maxd mn T (l ++ [x; y]) e) :: weave (l ++ [x; y])).
      change (weave (e :: l ++ [x])) with (pulse_seg e :: Seg 0 0 0 (gap_after maxr maxd mn T (l ++ [x]) e) :: weave (l ++ [x])).
      rewrite G; set (g := Seg 0 0 0 _); change (F (pulse_seg e :: g :: weave (l ++ [x; y]))) with (F ([pulse_seg e; g] ++ weave (l ++ [x; y]))).
      change (F (pulse_seg e :: g :: weave (l ++ [x]))) with (F ([pulse_seg e; g] ++ weave (l ++ [x]))).
      rewrite !filter_app, <- app_assoc; f_equal; rewrite IH; auto.
  Qed.
  Lemma weave_cons x y l : W (x :: y :: l) = F [pulse_seg x; Seg 0 0 0 (fst (win y) - snd (win x))] ++ W (y :: l).
  Proof.
    change (weave (x :: y :: l)) with ([pulse_seg x; Seg 0 0 0 (fst (win y) - snd (win x))] ++ weave (y :: l)).
    apply filter_app.
  Qed.

  Lemma weave_reversed l : W (backwards T l) = rev (W l).
  Proof.
    unfold backwards; induction l as [|x l IH]; [reflexivity|]; destruct l as [|y l].
    - cbn [map rev app L_Convert.weave gap_after filter]; rewrite empty_lasts, mirror_seg; destruct (lasting (pulse_seg x)); reflexivity.
    - rewrite weave_cons, rev_app_distr, <- IH; cbn [map rev]; rewrite <- app_assoc; cbn [app].
      rewrite weave_snoc, !mirror_win, mirror_seg; cbn [fst snd]; f_equal.
      replace (T - snd (win x) - (T - fst (win y))) with (fst (win y) - snd (win x)) by ring.
      cbn [filter]; destruct (lasting (pulse_seg x)), (lasting (Seg 0 0 0 (fst (win y) - snd (win x)))); reflexivity.
  Qed.

  Lemma mirror_idle t : mir (idle t) = idle (T - t).
  Proof. reflexivity. Qed.
  Lemma last_snoc {A} (l : list A) x d : last (l ++ [x]) d = x.
  Proof. apply last_last. Qed.
  Lemma ends_reversed l : with_ends T (backwards T l) = backwards T (with_ends T l).
  Proof.
    unfold with_ends, backwards.
    destruct l as [|x l]; [|destruct (exists_last (l := x :: l)) as [m [y E]]; [discriminate|]].
    - cbn [map rev app last idle e_time]; destruct (Req_EM_T 0 T); [lra|]; cbn [map rev app].
      rewrite !mirror_idle; do 2 f_equal; try (f_equal; unfold idle; f_equal; ring); unfold idle; f_equal; ring.
    - assert (B : exists q, rev (map mir (x :: l)) = mir y :: q /\ last (rev (map mir (x :: l))) (idle 0) = mir x).
      { split with (rev (map mir m)); split; [rewrite E, map_app, rev_app_distr; reflexivity|].
        cbn [map rev]; apply last_last. }
      destruct B as [q [Q L]]; rewrite L, Q.
      assert (LY : last (x :: l) (idle 0) = y) by (rewrite E; apply last_last); rewrite LY.
      rewrite !map_app, !rev_app_distr, Q, <- app_assoc; cbn [e_time mirror].
      f_equal; [|f_equal].
      + destruct (Req_EM_T (T - e_time y) 0), (Req_EM_T (e_time y) T); try lra; auto.
        cbn [map rev app]; rewrite mirror_idle; unfold idle; do 2 f_equal; ring.
      + destruct (Req_EM_T (T - e_time x) T), (Req_EM_T (e_time x) 0); try lra; auto.
        cbn [map rev app]; rewrite mirror_idle; unfold idle; do 2 f_equal; ring.
  Qed.

  Lemma gaps_snoc l x y : gaps (l ++ [x; y]) = gaps (l ++ [x]) ++ [fst y - snd x].
  Proof.
    induction l as [|a l IH]; [destruct x, y; reflexivity|].
    destruct l as [|b l]; [destruct a, x, y; reflexivity|].
    cbn [app] in *; destruct a as [a1 a2], b as [b1 b2]; cbn [gaps] in *; rewrite IH; reflexivity.
  Qed.
  Lemma gaps_reversed l : gaps (map win (backwards T l)) = rev (gaps (map win l)).
  Proof.
    unfold backwards; induction l as [|x l IH]; [reflexivity|]; destruct l as [|y l].
    - cbn [map rev app]; destruct (win (mir x)), (win x); reflexivity.
    - assert (G : gaps (map win (x :: y :: l)) = (fst (win y) - snd (win x)) :: gaps (map win (y :: l)))
        by (cbn [map]; destruct (win x), (win y); reflexivity).
      rewrite G; cbn [rev]; rewrite <- IH; cbn [map rev]; rewrite <- app_assoc, !map_app; cbn [app map].
      rewrite gaps_snoc, !mirror_win; cbn [fst snd]; do 2 f_equal; ring.
  Qed.

  Lemma in_backwards e l : In e (backwards T l) <-> exists e', In e' l /\ e = mir e'.
  Proof.
    unfold backwards; rewrite <- in_rev, in_map_iff; split; intros [e' [A B]]; exists e'; auto.
  Qed.
  Lemma backwards_twice l : backwards T (backwards T l) = l.
  Proof.
    unfold backwards; rewrite map_rev, rev_involutive, map_map; rewrite <- (map_id l) at 2; apply map_ext.
    intros [t r p d]; unfold mirror; cbn; f_equal; ring.
  Qed.
  Lemma increasing_reversed l : strictly_increasing (map e_time l) -> strictly_increasing (map e_time (backwards T l)).
  Proof.
    induction l as [|x l IH]; auto; intros H; cbn [map] in H.
    assert (H' : strictly_increasing (map e_time l)) by apply H.
    unfold backwards; cbn [map rev]; rewrite map_app; cbn [map]; apply increasing_snoc; [apply IH; auto|].
    intros t I; apply in_map_iff in I; destruct I as [e [<- I]]; apply in_backwards in I; destruct I as [e' [I ->]].
    assert (L := increasing_head _ _ _ H (in_map e_time _ _ I)); cbn [mirror e_time]; lra.
  Qed.
  Lemma convertible_reversed l : convertible maxr maxd mn T l -> convertible maxr maxd mn T (backwards T l).
  Proof.
    intros [A [B [C [D [E [I G]]]]]]; repeat (split; [assumption|]); repeat split.
    - intros e J; apply in_backwards in J; destruct J as [e' [J ->]]; apply (D e' J).
    - intros e J; apply in_backwards in J; destruct J as [e' [J ->]]; apply (E e' J).
    - apply increasing_reversed; auto.
    - intros g J; apply G; unfold idle_times in J; rewrite ends_reversed in J.
      apply in_rev; change (In g (rev (gaps (map win (with_ends T l))))); rewrite <- gaps_reversed; exact J.
  Qed.
End Reversal.

Theorem conversion_reversal T n0 l maxr maxd mn name :
  constructible_sequence (sequence_of T n0 l) -> / 10 ^ 8 < T ->
  corresponds (@rev seg) (convert_dds_to_driven_control (sequence_of T n0 l) maxr maxd mn name)
                   (convert_dds_to_driven_control (sequence_of T n0 (backwards T l)) maxr maxd mn name).
Proof.
  intros CS LT; destruct (sequence_bounds _ _ _ CS) as [HT B].
  assert (B' : forall e, In e (backwards T l) -> 0 <= e_time e <= T).
  { intros e I; apply in_backwards in I; destruct I as [e' [I ->]]; specialize (B e' I); cbn [mirror e_time]; lra. }
  apply transfer; auto.
  - apply constructible_events; auto.
  - split; [apply convertible_reversed; auto|].
    intros C; rewrite <- (backwards_twice T l); apply convertible_reversed; auto.
  - intros C; assert (C' := convertible_reversed maxr maxd mn T HT l C).
    rewrite (converted_long maxr maxd mn T l C HT B LT), (converted_long maxr maxd mn T _ C' HT B' LT); rewrite ends_reversed by auto; apply weave_reversed; auto.
Qed.

(** ** Changes of the pulses and of the unit of time *)

Section Change.
  Variables (maxr maxd mn T maxr' maxd' mn' T' k : R).
  Variables (f : event -> event) (F : seg -> seg).
  Notation win := (L_Convert.win maxr maxd mn T).
  Notation win' := (L_Convert.win maxr' maxd' mn' T').
  Notation pulse_seg := (L_Convert.pulse_seg maxr maxd mn).
  Notation pulse_seg' := (L_Convert.pulse_seg maxr' maxd' mn').
  Hypothesis Hk : 0 < k.
  Hypothesis HT : 0 < T.
  Hypothesis HT' : T' = k * T.
  Hypothesis time : forall e, e_time (f e) = k * e_time e.
  Hypothesis idles : forall t, win' (idle (k * t)) = (k * fst (win (idle t)), k * snd (win (idle t))) /\
    pulse_seg' (idle (k * t)) = F (pulse_seg (idle t)).
  Hypothesis gap : forall g, F (Seg 0 0 0 g) = Seg 0 0 0 (k * g).
  Hypothesis length : forall g, g_dur (F g) = k * g_dur g.

  Definition image (E E' : list event) : Prop :=
    map win' E' = map (fun w => (k * fst w, k * snd w)) (map win E) /\ map pulse_seg' E' = map F (map pulse_seg E).
  Variable l : list event.

  Lemma image_app E1 E1' E2 E2' : image E1 E1' -> image E2 E2' -> image (E1 ++ E2) (E1' ++ E2').
  Proof. unfold image; intros [A B] [C D]; rewrite !map_app, A, B, C, D; auto. Qed.
  Lemma image_idle t : image [idle t] [idle (k * t)].
  Proof. destruct (idles t) as [A B]; unfold image; cbn [map]; rewrite A, B; auto. Qed.
  Lemma image_nil : image [] [].
  Proof. split; reflexivity. Qed.
  Definition posed : Prop := 0 < maxr /\ 0 < maxd /\ 0 <= mn /\ forall e, In e l -> 0 <= e_rabi e.
  Hypothesis each : posed -> forall e, In e l -> win' (f e) = (k * fst (win e), k * snd (win e)) /\ pulse_seg' (f e) = F (pulse_seg e).

  Lemma image_map : posed -> image l (map f l).
  Proof.
    intros H.
    split; rewrite !map_map; apply map_ext_in; intros e I; apply each; auto.
  Qed.
  Lemma last_map (m : list event) x : e_time (last (map f (x :: m)) (idle 0)) = k * e_time (last (x :: m) (idle 0)).
  Proof.
    revert x; induction m as [|y m IH]; intros x; [apply time|].
    change (e_time (last (map f (y :: m)) (idle 0)) = k * e_time (last (y :: m) (idle 0))); apply IH.
  Qed.
  Lemma image_ends : posed -> image (with_ends T l) (with_ends T' (map f l)).
  Proof.
    intros H; unfold with_ends; apply image_app; [|apply image_app; [apply image_map; auto|]].
    - destruct l as [|e m]; cbn [map]; [|rewrite time; destruct (Req_EM_T (k * e_time e) 0), (Req_EM_T (e_time e) 0)];
        try nra; try apply image_nil; replace (idle 0) with (idle (k * 0)) at 2 by (rewrite Rmult_0_r; auto); apply image_idle.
    - assert (L : e_time (last (map f l) (idle 0)) = k * e_time (last l (idle 0))).
      { destruct l; [cbn; ring|apply last_map]. }
      rewrite L, HT'; destruct (Req_EM_T (k * e_time (last l (idle 0))) (k * T)), (Req_EM_T (e_time (last l (idle 0))) T);
        try (exfalso; nra); [apply image_nil|apply image_idle].
  Qed.

  Lemma image_weave E : forall E', image E E' -> weave maxr' maxd' mn' T' E' = map F (weave maxr maxd mn T E).
  Proof.
    induction E as [|e E IH]; intros E' [A B]; destruct E' as [|e' E']; try discriminate; [reflexivity|].
    rewrite !map_cons in A, B; assert (A1 := f_equal (hd (0, 0)) A); assert (B1 := f_equal (hd (Seg 0 0 0 0)) B); apply (f_equal (@tl _)) in A, B; cbn [hd tl] in A1, B1, A, B.
    cbn [L_Convert.weave map]; rewrite B1, gap; f_equal; f_equal; [|apply IH; split; auto].
    f_equal; destruct E as [|x E], E' as [|x' E']; try discriminate; cbn [gap_after]; [ring|].
    rewrite !map_cons in A; assert (A2 := f_equal (hd (0, 0)) A); cbn [hd] in A2; rewrite A1, A2; cbn [fst snd]; ring.
  Qed.
  Lemma image_gaps E : forall E', image E E' -> gaps (map win' E') = map (Rmult k) (gaps (map win E)).
  Proof.
    intros E' [A _]; rewrite A; generalize (map win E); clear; intros ws.
    induction ws as [|[a b] m IH]; [reflexivity|]; destruct m as [|[a' b'] m]; [reflexivity|].
    cbn [map fst snd gaps] in *; rewrite IH; f_equal; ring.
  Qed.
  Lemma lasting_image g : lasting (F g) = lasting g.
  Proof.
    unfold lasting; rewrite length; destruct (ltb 0 (g_dur g)) eqn:Q; [apply ltb_true|apply ltb_false];
      [apply ltb_true in Q|apply ltb_false in Q]; nra.
  Qed.
  Lemma increasing_image : strictly_increasing (map e_time (map f l)) <-> strictly_increasing (map e_time l).
  Proof.
    clear each; induction l as [|x m IH]; [tauto|]; destruct m as [|y m]; [cbn; tauto|].
    cbn [map strictly_increasing] in *; rewrite IH, !time; split; intros [A B]; split; auto; nra.
  Qed.

  Variables (n0 name : option string).
  Hypothesis CS : constructible_sequence (sequence_of T n0 l).
  Hypothesis rates : 0 < maxr <-> 0 < maxr'.
  Hypothesis drates : 0 < maxd <-> 0 < maxd'.
  Hypothesis minimum : 0 <= mn <-> 0 <= mn'.
  Hypothesis rabis : forall e, e_rabi (f e) = e_rabi e.
  Hypothesis valids : forall e, In e l -> (0 < e_rabi e /\ 0 < e_det e) <-> (0 < e_rabi (f e) /\ 0 < e_det (f e)).
  Hypothesis longs : forall g, In g (idle_times maxr maxd mn T l) -> long_enough mn g <-> long_enough mn' (k * g).
  Hypothesis shorts : convertible maxr maxd mn T l -> convertible maxr' maxd' mn' T' (map f l) ->
    allclose0 (map win (with_ends T l)) = allclose0 (map win' (with_ends T' (map f l))).

  Lemma idle_image : posed -> idle_times maxr' maxd' mn' T' (map f l) = map (Rmult k) (idle_times maxr maxd mn T l).
  Proof. intros H; apply (image_gaps (with_ends T l)), image_ends; auto. Qed.

  Theorem change : corresponds (map F) (convert_dds_to_driven_control (sequence_of T n0 l) maxr maxd mn name)
    (convert_dds_to_driven_control (sequence_of T' n0 (map f l)) maxr' maxd' mn' name).
  Proof.
    destruct (sequence_bounds _ _ _ CS) as [_ B].
    assert (IFF : convertible maxr maxd mn T l <-> convertible maxr' maxd' mn' T' (map f l)).
    { unfold convertible; split.
      + intros [A [A' [M [P [V [I G]]]]]].
        assert (H : posed) by (repeat split; auto).
        split; [tauto|]; split; [tauto|]; split; [tauto|]; split; [|split; [|split]].
        * intros e J; apply in_map_iff in J; destruct J as [e' [<- J]]; rewrite rabis; auto.
        * intros e J; apply in_map_iff in J; destruct J as [e' [<- J]]; rewrite <- valids; auto.
        * apply increasing_image; auto.
        * intros g J; rewrite idle_image in J by auto; apply in_map_iff in J; destruct J as [g' [<- J]]; apply longs; auto.
      + intros [A [A' [M [P [V [I G]]]]]].
        assert (P' : forall e, In e l -> 0 <= e_rabi e) by (intros e J; rewrite <- rabis; apply P, in_map; auto).
        assert (H : posed) by (repeat split; auto; tauto).
        split; [tauto|]; split; [tauto|]; split; [tauto|]; split; [auto|split; [|split]].
        * intros e J; rewrite valids by auto; apply V, in_map; auto.
        * apply increasing_image; auto.
        * intros g J; apply longs; auto; apply G; rewrite idle_image by auto; apply in_map; auto. }
    apply transfer; auto.
    - apply constructible_events; split; [rewrite HT'; nra|].
      intros e I; apply in_map_iff in I; destruct I as [e' [<- I]]; rewrite time, HT'; specialize (B e' I); nra.
    - intros C; assert (C' := proj1 IFF C).
      assert (H : posed) by (destruct C as [A [A' [M [P _]]]]; repeat split; auto).
      unfold converted; rewrite <- shorts by auto; destruct (allclose0 (map win (with_ends T l))).
      + cbn [map]; rewrite gap, HT'; auto.
      + rewrite <- filter_map_comm by apply lasting_image; f_equal; apply image_weave, image_ends; auto.
  Qed.
End Change.

Lemma idle_seg maxr maxd mn t : pulse_seg maxr maxd mn (idle t) = Seg 0 0 0 0.
Proof.
  assert (S := small_pos); unfold pulse_seg; cbn [idle e_rabi e_det]; rewrite Rabs_R0; destruct (Rle_dec 0 (/ 10 ^ 8)); [auto|lra].
Qed.
Lemma idle_width0 maxr maxd mn t : pulse_width maxr maxd mn (idle t) = 0.
Proof.
  assert (S := small_pos); unfold pulse_width; cbn [idle e_rabi e_det]; rewrite Rabs_R0; destruct (Rle_dec 0 (/ 10 ^ 8)); [auto|lra].
Qed.

Section SameTimes.
  Variables (maxr maxd mn T : R) (n0 name : option string) (f : event -> event) (F : seg -> seg) (l : list event).
  Hypothesis CS : constructible_sequence (sequence_of T n0 l).
  Hypothesis Hf : forall e, e_time (f e) = e_time e /\ e_rabi (f e) = e_rabi e /\ Rabs (e_det (f e)) = Rabs (e_det e).
  Hypothesis Hv : forall e, In e l -> (0 < e_rabi e /\ 0 < e_det e) <-> (0 < e_rabi (f e) /\ 0 < e_det (f e)).
  Hypothesis gap : forall g, F (Seg 0 0 0 g) = Seg 0 0 0 g.
  Hypothesis length : forall g, g_dur (F g) = g_dur g.
  Hypothesis each : 0 < maxr -> 0 < maxd -> 0 <= mn -> forall e, In e l -> 0 <= e_rabi e -> pulse_seg maxr maxd mn (f e) = F (pulse_seg maxr maxd mn e).

  Lemma same_width e : pulse_width maxr maxd mn (f e) = pulse_width maxr maxd mn e.
  Proof. destruct (Hf e) as [_ [A B]]; unfold pulse_width; rewrite A, B; auto. Qed.
  Theorem same_times : corresponds (map F) (convert_dds_to_driven_control (sequence_of T n0 l) maxr maxd mn name)
    (convert_dds_to_driven_control (sequence_of T n0 (map f l)) maxr maxd mn name).
  Proof.
    destruct (sequence_bounds _ _ _ CS) as [HT B].
    assert (WI : forall p : R * R, (1 * fst p, 1 * snd p) = p) by (intros [x y]; cbn; rewrite !Rmult_1_l; auto).
    assert (EA : posed maxr maxd mn l -> forall e, In e l -> win maxr maxd mn T (f e) =
       (1 * fst (win maxr maxd mn T e), 1 * snd (win maxr maxd mn T e)) /\ pulse_seg maxr maxd mn (f e) = F (pulse_seg maxr maxd mn e)).
    { intros [A [A' [M P]]] e I; split; [|apply each; auto]; rewrite WI; unfold win; rewrite same_width; destruct (Hf e) as [-> _]; auto. }
    assert (TI : forall e, e_time (f e) = 1 * e_time e) by (intros e; destruct (Hf e) as [-> _]; ring).
    assert (ID : forall t, win maxr maxd mn T (idle (1 * t)) = (1 * fst (win maxr maxd mn T (idle t)), 1 * snd (win maxr maxd mn T (idle t))) /\
      pulse_seg maxr maxd mn (idle (1 * t)) = F (pulse_seg maxr maxd mn (idle t)))
      by (intros t; rewrite WI, Rmult_1_l, idle_seg, gap; auto).
    assert (T1 : T = 1 * T) by ring.
    apply (change maxr maxd mn T maxr maxd mn T 1 f F); auto; try tauto; try lra.
    - intros g; rewrite Rmult_1_l; auto.
    - intros g; rewrite length; ring.
    - intros e; apply (Hf e).
    - intros g _; rewrite Rmult_1_l; tauto.
    - intros C _; assert (H : posed maxr maxd mn l) by (destruct C as [A [A' [M [P _]]]]; repeat split; auto).
      destruct (image_ends maxr maxd mn T maxr maxd mn T 1 f F Rlt_0_1 T1 TI ID l EA H) as [E _]; rewrite E.
      f_equal; rewrite <- (map_id (map _ _)) at 1; apply map_ext; intros p; rewrite WI; auto.
  Qed.
End SameTimes.

Lemma width_pos maxr maxd mn e : 0 < maxr -> 0 < maxd -> ~ Rabs (e_rabi e) <= / 10 ^ 8 -> 0 <= e_rabi e ->
  0 < pulse_width maxr maxd mn e.
Proof.
  intros A B N P; assert (S := small_pos); unfold pulse_width; destruct (Rle_dec (Rabs (e_rabi e)) (/ 10 ^ 8)); [tauto|].
  rewrite Rabs_pos_eq in N by auto; apply Rlt_le_trans with (2 := Rmax_l _ _); apply Rdiv_lt_0_compat; lra.
Qed.

Theorem conversion_turned T n0 l maxr maxd mn name a :
  constructible_sequence (sequence_of T n0 l) ->
  corresponds (map (turned a)) (convert_dds_to_driven_control (sequence_of T n0 l) maxr maxd mn name)
    (convert_dds_to_driven_control (sequence_of T n0 (map (turn a) l)) maxr maxd mn name).
Proof.
  intros CS; apply same_times; auto; try (intros; cbn; tauto).
  - intros g; unfold turned; cbn [g_rabi]; destruct (Req_EM_T 0 0); [auto|lra].
  - intros g; unfold turned; destruct (Req_EM_T (g_rabi g) 0); auto.
  - intros A B M e _ P; unfold pulse_seg; change (pulse_width maxr maxd mn (turn a e)) with (pulse_width maxr maxd mn e).
    cbn [turn e_rabi e_det e_phi]; destruct (Rle_dec (Rabs (e_rabi e)) (/ 10 ^ 8)) as [Q|Q].
    + destruct (Rle_dec (Rabs (e_det e)) (/ 10 ^ 8)); unfold turned; cbn [g_rabi]; destruct (Req_EM_T 0 0); auto; lra.
    + unfold turned; cbn [g_rabi g_phi g_det g_dur].
      assert (W := width_pos maxr maxd mn e A B Q P); assert (S := small_pos); rewrite Rabs_pos_eq in Q by auto.
      assert (0 < e_rabi e / pulse_width maxr maxd mn e) by (apply Rdiv_lt_0_compat; lra).
      destruct (Req_EM_T (e_rabi e / pulse_width maxr maxd mn e) 0); [lra|auto].
Qed.

Theorem conversion_conjugated T n0 l maxr maxd mn name :
  constructible_sequence (sequence_of T n0 l) -> (forall e, In e l -> e_rabi e <= 0 \/ e_det e = 0) ->
  corresponds (map conjugated) (convert_dds_to_driven_control (sequence_of T n0 l) maxr maxd mn name)
    (convert_dds_to_driven_control (sequence_of T n0 (map conjugate l)) maxr maxd mn name).
Proof.
  intros CS CL; apply same_times; auto.
  - intros e; cbn [conjugate e_time e_rabi e_det]; rewrite Rabs_Ropp; auto.
  - intros e I; cbn [conjugate e_rabi e_det]; specialize (CL e I); lra.
  - intros g; unfold conjugated; cbn [g_rabi g_phi g_det g_dur]; rewrite Ropp_0; auto.
  - intros A B M e I P; unfold pulse_seg, conjugated.
    assert (W : pulse_width maxr maxd mn (conjugate e) = pulse_width maxr maxd mn e)
      by (unfold pulse_width; cbn [conjugate e_rabi e_det]; rewrite Rabs_Ropp; auto).
    rewrite W; cbn [conjugate e_rabi e_det e_phi]; rewrite Rabs_Ropp.
    destruct (Rle_dec (Rabs (e_rabi e)) (/ 10 ^ 8)); [destruct (Rle_dec (Rabs (e_det e)) (/ 10 ^ 8))|];
      cbn [g_rabi g_phi g_det g_dur]; f_equal; try ring; unfold Rdiv; ring.
Qed.

(** ** The unit of time *)

Theorem conversion_units T n0 l maxr maxd mn name k :
  constructible_sequence (sequence_of T n0 l) -> 0 < k -> / 10 ^ 8 < T -> / 10 ^ 8 < k * T ->
  (forall g, In g (idle_times maxr maxd mn T l) -> mn <= g) ->
  corresponds (map (rescaled k)) (convert_dds_to_driven_control (sequence_of T n0 l) maxr maxd mn name)
    (convert_dds_to_driven_control (sequence_of (k * T) n0 (map (rescale k) l)) (maxr / k) (maxd / k) (k * mn) name).
Proof.
  intros CS K LT LT' G; destruct (sequence_bounds _ _ _ CS) as [HT B].
  assert (K' := Rinv_0_lt_compat k K).
  assert (WD : 0 < maxr -> 0 < maxd -> forall e, pulse_width (maxr / k) (maxd / k) (k * mn) (rescale k e) = k * pulse_width maxr maxd mn e).
  { intros A A' e; unfold pulse_width; cbn [rescale e_rabi e_det].
    destruct (Rle_dec (Rabs (e_rabi e)) (/ 10 ^ 8)); [destruct (Rle_dec (Rabs (e_det e)) (/ 10 ^ 8)); [ring|]|];
      rewrite <- RmaxRmult by lra; f_equal; field; lra. }
  assert (CE : forall w t, centre (k * T) (k * w) (k * t) = k * centre T w t).
  { intros w t; unfold centre; destruct (Req_EM_T (k * t) 0), (Req_EM_T t 0); try (exfalso; nra); try (field; lra).
    destruct (Req_EM_T (k * t) (k * T)), (Req_EM_T t T); try (exfalso; nra); field. }
  assert (NC : forall g, near g g) by (intros g; unfold near; rewrite Rminus_eq_0, Rabs_R0; assert (S := small_pos); assert (X := Rabs_pos g); lra).
  assert (ID : forall t, win (maxr / k) (maxd / k) (k * mn) (k * T) (idle (k * t)) =
      (k * fst (win maxr maxd mn T (idle t)), k * snd (win maxr maxd mn T (idle t))) /\
      pulse_seg (maxr / k) (maxd / k) (k * mn) (idle (k * t)) = rescaled k (pulse_seg maxr maxd mn (idle t))).
  { intros t; split.
    - unfold win, window; rewrite !idle_width0; cbn [idle e_time fst snd].
      assert (Q := CE 0 t); rewrite Rmult_0_r in Q; rewrite Q; f_equal; field.
    - rewrite !idle_seg; unfold rescaled; cbn; f_equal; field; lra. }
  assert (EA : posed maxr maxd mn l -> forall e, In e l -> win (maxr / k) (maxd / k) (k * mn) (k * T) (rescale k e) =
      (k * fst (win maxr maxd mn T e), k * snd (win maxr maxd mn T e)) /\
      pulse_seg (maxr / k) (maxd / k) (k * mn) (rescale k e) = rescaled k (pulse_seg maxr maxd mn e)).
  { intros [A [A' [M P]]] e I; split.
    - unfold win, window; rewrite WD by auto; cbn [rescale e_time fst snd]; rewrite CE; f_equal; field.
    - unfold pulse_seg; rewrite WD by auto; cbn [rescale e_rabi e_det e_phi]; unfold rescaled.
      destruct (Rle_dec (Rabs (e_rabi e)) (/ 10 ^ 8)) as [Q|Q]; [destruct (Rle_dec (Rabs (e_det e)) (/ 10 ^ 8)) as [Q'|Q']|];
        cbn [g_rabi g_phi g_det g_dur]; f_equal; try (unfold Rdiv; ring); unfold Rdiv; rewrite Rinv_mult; ring. }
  assert (POS : forall m, 0 < m <-> 0 < m / k).
  { intros m; unfold Rdiv; split; intros H; [apply Rmult_lt_0_compat; auto|]; apply Rmult_lt_reg_r with (/ k); lra. }
  apply (change maxr maxd mn T (maxr / k) (maxd / k) (k * mn) (k * T) k (rescale k) (rescaled k)); auto; try (intros; cbn; tauto).
  - intros g; unfold rescaled; cbn [g_rabi g_phi g_det g_dur]; f_equal; field; lra.
  - split; intros; nra.
  - intros g I; specialize (G g I); split; intros _; unfold long_enough.
    + destruct (Rle_lt_or_eq_dec _ _ G) as [L|L]; [left; nra|right; rewrite L; auto].
    + destruct (Rle_lt_or_eq_dec _ _ G) as [L|L]; [left; auto|right; rewrite L; auto].
  - intros C C'; rewrite !not_allclose; auto; [nra|].
    intros e I; apply in_map_iff in I; destruct I as [e' [<- I]]; cbn [rescale e_time]; specialize (B e' I); nra.
Qed.

(** a tolerated overlap of 1e-9 becomes one of 1 *)
Theorem conversion_units_refuted : exists T l k, constructible_sequence (sequence_of T None l) /\ 0 < k /\
  / 10 ^ 8 < T /\ / 10 ^ 8 < k * T /\
  ~ corresponds (map (rescaled k)) (convert_dds_to_driven_control (sequence_of T None l) 1 1 0 None)
    (convert_dds_to_driven_control (sequence_of (k * T) None (map (rescale k) l)) (1 / k) (1 / k) (k * 0) None).
Proof.
  destruct touching as [CS [C I]]; set (l := [Event 0 (1 / 2 + / 10 ^ 9) 0 0; Event 1 (1 / 2) 0 0]) in *.
  assert (S0 := small_pos); exists 1, l, (10 ^ 9); split; [exact CS|]; split; [lra|]; split; [lra|]; split; [lra|].
  destruct (proj1 (proj1 (conversion_acceptance 1 None l 1 1 0 None CS)) C) as [c E]; rewrite E.
  assert (CS' : constructible_sequence (sequence_of (10 ^ 9 * 1) None (map (rescale (10 ^ 9)) l))).
  { apply constructible_events; split; [lra|]; intros e [<-|[<-|[]]]; cbn [rescale e_time]; lra. }
  destruct (conversion_acceptance _ None _ (1 / 10 ^ 9) (1 / 10 ^ 9) (10 ^ 9 * 0) None CS') as [_ [_ N]].
  destruct N as [s [args [ex X]]]; [|rewrite X; auto].
  intros [_ [_ [_ [_ [_ [_ G]]]]]].
  assert (W : forall t r, 1 / 4 < r -> pulse_width (1 / 10 ^ 9) (1 / 10 ^ 9) (10 ^ 9 * 0) (Event t r 0 0) = 10 ^ 9 * r).
  { intros t r R; unfold pulse_width; cbn [e_rabi]; rewrite Rabs_pos_eq by lra.
    destruct (Rle_dec r (/ 10 ^ 8)); [lra|].
    replace (r / (1 / 10 ^ 9)) with (10 ^ 9 * r) by (field; lra); rewrite Rmax_left; lra. }
  assert (L : idle_times (1 / 10 ^ 9) (1 / 10 ^ 9) (10 ^ 9 * 0) (10 ^ 9 * 1) (map (rescale (10 ^ 9)) l) = [-1]).
  { unfold idle_times, with_ends, l; cbn [map rescale e_time e_rabi e_phi e_det last]; destruct (Req_EM_T (10 ^ 9 * 0) 0); [|lra].
    destruct (Req_EM_T (10 ^ 9 * 1) (10 ^ 9 * 1)); [|lra].
    cbn [app map]; unfold rescale; cbn [e_time e_rabi e_phi e_det]; rewrite !W by lra; unfold window, centre.
    destruct (Req_EM_T (10 ^ 9 * 0) 0); [|lra]; destruct (Req_EM_T (10 ^ 9 * 1) 0); [lra|]; destruct (Req_EM_T (10 ^ 9 * 1) (10 ^ 9 * 1)); [|lra].
    cbn [gaps]; f_equal; field. }
  rewrite L in G; destruct (G (-1) (or_introl eq_refl)) as [Q|Q]; [lra|].
  unfold near in Q; rewrite Rmult_0_r, Rminus_0_r, Rabs_R0, (Rabs_left (-1)) in Q by lra; lra.
Qed.

(** a pulse about a tilted axis is rejected for a positive detuning rotation only *)
Theorem conversion_conjugated_refuted : exists T l, constructible_sequence (sequence_of T None l) /\
  ~ corresponds (map conjugated) (convert_dds_to_driven_control (sequence_of T None l) 1 1 0 None)
      (convert_dds_to_driven_control (sequence_of T None (map conjugate l)) 1 1 0 None).
Proof.
  assert (S0 := small_pos); set (l := [Event (1 / 2) (1 / 4) 0 (- (1 / 4))]); exists 1, l.
  assert (CS : constructible_sequence (sequence_of 1 None l)) by (apply constructible_events; split; [lra|]; intros e [<-|[]]; cbn [e_time]; lra).
  assert (CS' : constructible_sequence (sequence_of 1 None (map conjugate l)))
    by (apply constructible_events; split; [lra|]; intros e [<-|[]]; cbn [conjugate e_time]; lra).
  split; auto.
  destruct (conversion_acceptance 1 None (map conjugate l) 1 1 0 None CS') as [_ [_ N]].
  destruct N as [s [args [ex X]]].
  { intros [_ [_ [_ [_ [G _]]]]]; apply (G _ (or_introl eq_refl)); cbn; lra. }
  rewrite X; destruct (proj1 (proj1 (conversion_acceptance 1 None l 1 1 0 None CS))) as [c E]; [|rewrite E; auto].
  assert (W : pulse_width 1 1 0 (Event (1 / 2) (1 / 4) 0 (- (1 / 4))) = 1 / 4).
  { unfold pulse_width; cbn [e_rabi]; rewrite Rabs_pos_eq by lra; destruct (Rle_dec (1 / 4) (/ 10 ^ 8)); [lra|].
    rewrite Rmax_left by lra; field. }
  repeat (split; [lra|]); split; [intros e [<-|[]]; cbn; lra|]; split; [intros e [<-|[]]; cbn; lra|]; split; [cbn; auto|].
  intros g I; unfold idle_times, with_ends, l in I; cbn [last e_time] in I; destruct (Req_EM_T (1 / 2) 0); [lra|]; destruct (Req_EM_T (1 / 2) 1); [lra|].
  cbn [app map] in I; rewrite W, !idle_width0 in I; cbn [e_time idle] in I; unfold window, centre in I.
  destruct (Req_EM_T 0 0); [|lra]; destruct (Req_EM_T (1 / 2) 0); [lra|]; destruct (Req_EM_T (1 / 2) 1); [lra|]; destruct (Req_EM_T 1 0); [lra|]; destruct (Req_EM_T 1 1); [|lra].
  cbn [gaps In fst snd] in I; destruct I as [<-|[<-|[]]]; left; lra.
Qed.
