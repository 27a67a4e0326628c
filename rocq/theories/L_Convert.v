(** * Conversion of sequences to driven controls: the model reduced *)

From Verif Require Export L_Toggle Spec_Conversion.
Import ListNotations.
Open Scope string_scope.
Open Scope list_scope.
Open Scope R_scope.

Definition op_of (e : event) : operation := MkOp (e_time e) (e_rabi e) (e_phi e) (e_det e).

Lemma dds_operations_of T name l : dds_operations (sequence_of T name l) = map op_of l.
Proof.
  unfold dds_operations, operations_of, sequence_of; cbn [offsets rabi_rotations seq_azimuthal_angles detuning_rotations].
  induction l as [|e l IH]; cbn; [auto|rewrite IH; auto].
Qed.

Lemma last_map {A B} (f : A -> B) l d d' : l <> [] -> last (map f l) d' = f (last l d).
Proof.
  intros H; induction l as [|a l IH]; [congruence|].
  destruct l as [|b l]; [reflexivity|].
  change (last (map f (b :: l)) d' = f (last (b :: l) d)); apply IH; discriminate.
Qed.
Lemma last_cons {A} (a : A) l d : l <> [] -> last (a :: l) d = last l d.
Proof. destruct l; [congruence|reflexivity]. Qed.

Lemma pad_with_ends T l : 0 < T -> pad_operations T (map op_of l) = map op_of (with_ends T l).
Proof.
  intros HT; unfold pad_operations, with_ends.
  destruct l as [|e l].
  - cbn [map pad_empty pad_front last]; cbn [null_operation op_offset e_time idle].
    assert (N : neqb 0 0 = false) by (apply neqb_false; auto); rewrite N.
    unfold pad_back; cbn [last null_operation op_offset]; assert (N' : neqb T T = false) by (apply neqb_false; auto); rewrite N'.
    destruct (Req_EM_T 0 T); [lra|]; reflexivity.
  - cbn [pad_empty map pad_front]; change (op_offset (op_of e)) with (e_time e).
    assert (B : forall ops, ops <> [] -> op_offset (last ops (null_operation 0)) = e_time (last (e :: l) (idle 0)) ->
      pad_back T ops = ops ++ map op_of (if Req_EM_T (e_time (last (e :: l) (idle 0))) T then [] else [idle T])).
    { intros ops N E; unfold pad_back; rewrite E; unfold neqb.
      destruct (Req_EM_T (e_time (last (e :: l) (idle 0))) T) as [Q|Q].
      - apply eqb_true in Q; rewrite Q; cbn [negb map]; rewrite app_nil_r; auto.
      - apply eqb_false in Q; rewrite Q; reflexivity. }
    assert (L : op_offset (last (op_of e :: map op_of l) (null_operation 0)) = e_time (last (e :: l) (idle 0))).
    { change (op_of e :: map op_of l) with (map op_of (e :: l)).
      rewrite (last_map op_of (e :: l) (idle 0)) by discriminate; reflexivity. }
    destruct (Req_EM_T (e_time e) 0) as [Z|Z].
    + assert (N : neqb (e_time e) 0 = false) by (apply neqb_false; auto); rewrite N.
      rewrite B; [|discriminate|auto]; cbn [app map]; rewrite map_app; reflexivity.
    + assert (N : neqb (e_time e) 0 = true) by (apply neqb_true; auto); rewrite N.
      rewrite B; [|discriminate|rewrite last_cons by discriminate; auto]; cbn [app map]; rewrite map_app; reflexivity.
Qed.

Lemma small_eq : / 10 ^ 8 = / 100000000.
Proof. f_equal; ring. Qed.

Lemma isclose0_dec x : np_isclose x 0 = if Rle_dec (Rabs x) (/ 10 ^ 8) then true else false.
Proof.
  destruct (Rle_dec (Rabs x) (/ 10 ^ 8)) as [H|H]; rewrite small_eq in H.
  - apply isclose0; auto.
  - apply isclose0_false; lra.
Qed.

Lemma half_width maxr maxd mn e : half_pulse_duration maxr maxd mn (op_of e) = pulse_width maxr maxd mn e / 2.
Proof.
  unfold half_pulse_duration, pulse_width; cbn [op_of op_rabi op_detuning]; rewrite !isclose0_dec, !py_max_Rmax.
  destruct (Rle_dec (Rabs (e_rabi e)) (/ 10 ^ 8)); cbn [negb]; [|field].
  destruct (Rle_dec (Rabs (e_det e)) (/ 10 ^ 8)); cbn [negb]; field.
Qed.

Lemma width_nonneg maxr maxd mn e : 0 <= mn -> 0 <= pulse_width maxr maxd mn e.
Proof.
  intros H; unfold pulse_width.
  destruct (Rle_dec (Rabs (e_rabi e)) (/ 10 ^ 8)); [destruct (Rle_dec (Rabs (e_det e)) (/ 10 ^ 8)); [lra|]|];
    eapply Rle_trans; [exact H|apply Rmax_r|exact H|apply Rmax_r].
Qed.

(** ** Offsets *)

Lemma np_diff_increasing l : existsb (fun d => leb d 0) (np_diff l) = false <-> strictly_increasing l.
Proof.
  induction l as [|x [|y l] IH]; [cbn; tauto|cbn; tauto|].
  change (np_diff (x :: y :: l)) with ((y - x) :: np_diff (y :: l)).
  cbn [existsb]; rewrite orb_false_iff, IH, leb_false.
  change (strictly_increasing (x :: y :: l)) with (x < y /\ strictly_increasing (y :: l)).
  split; intros [A B]; split; auto; lra.
Qed.

Lemma increasing_snoc l x : strictly_increasing l -> (forall y, In y l -> y < x) -> strictly_increasing (l ++ [x]).
Proof.
  induction l as [|a l IH]; intros I H; [cbn; auto|].
  destruct I as [I1 I2]; change (strictly_increasing (a :: (l ++ [x]))); split; [|apply IH; auto; intros; apply H; right; auto].
  destruct l; cbn; [apply H; left; auto|auto].
Qed.
Lemma increasing_head l x y : strictly_increasing (x :: l) -> In y l -> x < y.
Proof.
  revert x; induction l as [|a l IH]; intros x H I; [destruct I|].
  destruct H as [H1 H2]; destruct I as [<-|I]; auto; apply Rlt_trans with a; auto.
Qed.
Lemma increasing_last l x y : strictly_increasing (l ++ [x]) -> In y l -> y < x.
Proof.
  induction l as [|a l IH]; intros H I; [destruct I|].
  change (strictly_increasing (a :: (l ++ [x]))) in H.
  destruct I as [<-|I]; [apply (increasing_head _ _ _ H), in_or_app; right; left; auto|].
  apply IH; auto; destruct H; auto.
Qed.
Lemma increasing_prefix l r : strictly_increasing (l ++ r) -> strictly_increasing l.
Proof.
  induction l as [|a l IH]; intros H; [cbn; auto|].
  change (strictly_increasing (a :: (l ++ r))) in H; destruct H as [H1 H2]; split; [|apply IH; auto].
  destruct l; auto.
Qed.

Lemma with_ends_shape T l : 0 < T -> (forall e, In e l -> 0 <= e_time e <= T) -> strictly_increasing (map e_time l) ->
  exists e0 mid en, with_ends T l = e0 :: mid ++ [en] /\ e_time e0 = 0 /\ e_time en = T /\
    forall e, In e mid -> 0 < e_time e < T.
Proof.
  intros HT B I; unfold with_ends; destruct l as [|e l].
  - exists (idle 0), [], (idle T); cbn [last idle e_time]; destruct (Req_EM_T 0 T); [lra|]; cbn; repeat split; auto; tauto.
  - destruct (@exists_last _ (e :: l)) as [f [z E]]; [discriminate|].
    rewrite E in *; rewrite last_last.
    assert (Iz : forall y, In y f -> e_time y < e_time z).
    { intros y Iy; rewrite map_app in I; apply (increasing_last _ _ _ I), in_map; auto. }
    assert (Bz : 0 <= e_time z <= T) by (apply B, in_or_app; right; left; auto).
    assert (P : forall y, In y f -> 0 <= e_time y) by (intros; apply B, in_or_app; auto).
    destruct (Req_EM_T (e_time e) 0) as [Z|Z].
    + destruct f as [|e' f].
      * cbn [app] in *; injection E as -> ->; destruct (Req_EM_T (e_time z) T); [lra|].
        exists z, [], (idle T); cbn; repeat split; auto; tauto.
      * cbn [app] in *; injection E as <- ->.
        assert (H0 : forall y, In y (f ++ [z]) -> 0 < e_time y).
        { intros y Iy; rewrite <- Z; apply (increasing_head (map e_time (f ++ [z]))); [exact I|apply in_map; auto]. }
        destruct (Req_EM_T (e_time z) T) as [ZT|ZT].
        -- exists e, f, z; rewrite app_nil_r; repeat split; auto.
           ++ apply H0, in_or_app; auto.
           ++ rewrite <- ZT; apply Iz; right; auto.
        -- exists e, (f ++ [z]), (idle T); rewrite <- app_assoc; cbn [app]; repeat split; auto.
           apply in_app_or in H; destruct H as [H|[<-|[]]]; [|lra].
           apply Rlt_trans with (e_time z); [apply Iz; right; auto|lra].
    + assert (H0 : forall y, In y (f ++ [z]) -> 0 < e_time y).
      { rewrite <- E; intros y [<-|Iy]; [assert (0 <= e_time e) by (apply B; rewrite <- E; left; auto); lra|].
        apply Rle_lt_trans with (e_time e); [apply B; rewrite <- E; left; auto|].
        rewrite <- E in I; apply (increasing_head (map e_time l)); [exact I|apply in_map; auto]. }
      destruct (Req_EM_T (e_time z) T) as [ZT|ZT].
      * exists (idle 0), f, z; rewrite app_nil_r; repeat split; auto.
        -- apply H0, in_or_app; auto.
        -- rewrite <- ZT; apply Iz; auto.
      * exists (idle 0), (f ++ [z]), (idle T); rewrite <- app_assoc; cbn [app]; repeat split; auto; rewrite ?app_assoc; auto.
        apply in_app_or in H; destruct H as [H|[<-|[]]]; [|lra].
        apply Rlt_trans with (e_time z); [apply Iz; auto|lra].
Qed.

Lemma with_ends_increasing T l : 0 < T -> (forall e, In e l -> 0 <= e_time e <= T) ->
  (strictly_increasing (map e_time (with_ends T l)) <-> strictly_increasing (map e_time l)).
Proof.
  intros HT B; unfold with_ends; split.
  - intros H; rewrite !map_app in H.
    assert (H' : strictly_increasing (map e_time l ++ map e_time (if Req_EM_T (e_time (last l (idle 0))) T then [] else [idle T]))).
    { destruct l as [|e l]; [|destruct (Req_EM_T (e_time e) 0)]; cbn [map app] in H; try exact H; destruct H; auto. }
    apply increasing_prefix in H'; auto.
  - intros I; destruct l as [|e l]; [cbn [last idle e_time]; destruct (Req_EM_T 0 T); [lra|]; cbn; lra|].
    assert (H1 : strictly_increasing (map e_time ((e :: l) ++ (if Req_EM_T (e_time (last (e :: l) (idle 0))) T then [] else [idle T])))).
    { destruct (@exists_last _ (e :: l)) as [f [z E]]; [discriminate|]; rewrite E in *; rewrite last_last.
      destruct (Req_EM_T (e_time z) T) as [Q|Q]; [rewrite app_nil_r; auto|].
      rewrite map_app; cbn [map idle e_time]; apply increasing_snoc; auto.
      assert (Bz : 0 <= e_time z <= T) by (apply B, in_or_app; right; left; auto).
      intros y Iy; apply in_map_iff in Iy; destruct Iy as [u [<- Iu]]; apply in_app_or in Iu.
      destruct Iu as [Iu|[<-|[]]]; [|lra].
      apply Rlt_trans with (e_time z); [|lra]; rewrite map_app in I; apply (increasing_last _ _ _ I), in_map; auto. }
    destruct (Req_EM_T (e_time e) 0) as [Z|Z]; [exact H1|].
    change (strictly_increasing (0 :: map e_time ((e :: l) ++ (if Req_EM_T (e_time (last (e :: l) (idle 0))) T then [] else [idle T])))).
    split; [|exact H1]; cbn [app map]; assert (0 <= e_time e) by (apply B; left; auto); lra.
Qed.

(** ** Windows *)

Section Windows.
  Variables (maxr maxd mn T : R).
  Hypothesis Hmn : 0 <= mn.
  Hypothesis HT : 0 < T.
  Notation width := (pulse_width maxr maxd mn).
  Definition win (e : event) : R * R := window T (pulse_width maxr maxd mn e) (e_time e).

  Lemma shift_last_snoc l x : shift_last T (l ++ [x]) = l ++ shift_last T [x].
  Proof.
    induction l as [|a l IH]; [reflexivity|].
    cbn [app]; rewrite <- IH.
    destruct l; cbn [app]; destruct a; reflexivity.
  Qed.

  Lemma windows_model l : (forall e, In e l -> 0 <= e_time e <= T) -> strictly_increasing (map e_time l) ->
    pulse_start_ends (half_pulse_duration maxr maxd mn) T (map op_of (with_ends T l)) = map win (with_ends T l).
  Proof.
    intros B I; destruct (with_ends_shape T l HT B I) as [e0 [mid [en [-> [E0 [EN M]]]]]].
    unfold pulse_start_ends; cbn [map]; rewrite !map_app; cbn [map].
    set (F := start_end (half_pulse_duration maxr maxd mn)).
    assert (W0 := width_nonneg maxr maxd mn e0 Hmn). assert (Wn := width_nonneg maxr maxd mn en Hmn).
    assert (S0 : shift_first (F (op_of e0) :: map F (map op_of mid) ++ [F (op_of en)]) =
      win e0 :: map F (map op_of mid) ++ [F (op_of en)]).
    { unfold F, start_end at 1; rewrite half_width; cbn [op_of op_offset shift_first]; rewrite E0.
      unfold win, window, centre; rewrite E0; destruct (Req_EM_T 0 0); [|lra].
      destruct (ltb (0 - width e0 / 2) 0) eqn:L; f_equal; f_equal; try field.
      - apply ltb_false in L; lra.
      - apply ltb_false in L; lra. }
    rewrite S0; clear S0.
    change (win e0 :: map F (map op_of mid) ++ [F (op_of en)]) with ((win e0 :: map F (map op_of mid)) ++ [F (op_of en)]).
    rewrite shift_last_snoc; cbn [app]; f_equal; f_equal.
    - rewrite map_map; apply map_ext_in; intros e Ie; apply M in Ie.
      unfold F, start_end, win, window, centre; rewrite half_width; cbn [op_of op_offset].
      destruct (Req_EM_T (e_time e) 0); [lra|]; destruct (Req_EM_T (e_time e) T); [lra|]; reflexivity.
    - unfold F, start_end; rewrite half_width; cbn [op_of op_offset shift_last]; rewrite EN.
      unfold win, window, centre; rewrite EN; destruct (Req_EM_T T 0); [lra|]; destruct (Req_EM_T T T); [|lra].
      destruct (ltb T (T + width en / 2)) eqn:L; f_equal; f_equal; try field.
      + apply ltb_false in L; lra.
      + apply ltb_false in L; lra.
  Qed.

  Lemma gap_durations_gaps l : gap_durations l = gaps l.
  Proof. induction l as [|[a b] [|[c d] l] IH]; auto; cbn [gap_durations gaps]; f_equal; exact IH. Qed.

  Lemma isclose_near g : np_isclose g mn = true <-> near g mn.
  Proof.
    unfold np_isclose, np_isclose_tol, near; rewrite leb_true.
    replace (/ 10 ^ 8) with (/ 100000000) by (f_equal; ring).
    replace (/ 10 ^ 5) with (/ 100000) by (f_equal; ring); tauto.
  Qed.

  Lemma gaps_ok_spec l : gaps_ok mn l = true <-> forall g, In g l -> long_enough mn g.
  Proof.
    unfold gaps_ok; rewrite forallb_forall; unfold long_enough; split; intros H g I; specialize (H g I).
    - apply orb_true_iff in H; destruct H as [H|H]; [left; apply ltb_true; auto|right; apply isclose_near; auto].
    - apply orb_true_iff; destruct H as [H|H]; [left; apply ltb_true; auto|right; apply isclose_near; auto].
  Qed.

  (** ** Segments *)

  Definition gap_after (E : list event) (e : event) : R :=
    match E with e' :: _ => fst (win e') - snd (win e) | [] => 0 end.

  Definition pulse_seg (e : event) : seg :=
    if Rle_dec (Rabs (e_rabi e)) (/ 10 ^ 8) then
      if Rle_dec (Rabs (e_det e)) (/ 10 ^ 8) then Seg 0 0 0 0 else Seg 0 0 (e_det e / width e) (width e)
    else Seg (e_rabi e / width e) (e_phi e) 0 (width e).

  Fixpoint weave (E : list event) : list seg :=
    match E with
    | [] => []
    | e :: E' => pulse_seg e :: Seg 0 0 0 (gap_after E' e) :: weave E'
    end.

  Definition to_seg (s : segment) : seg := Seg (seg_rabi s) (seg_azimuthal s) (seg_detuning s) (seg_duration s).

  Hypothesis Hr : 0 < maxr.
  Hypothesis Hd : 0 < maxd.

  Lemma width_rabi e : 0 <= e_rabi e -> / 10 ^ 8 < Rabs (e_rabi e) -> width e = Rmax (e_rabi e / maxr) mn /\ 0 < width e.
  Proof.
    intros P N; unfold pulse_width; destruct (Rle_dec (Rabs (e_rabi e)) (/ 10 ^ 8)); [lra|]; split; auto.
    eapply Rlt_le_trans; [|apply Rmax_l]; apply Rdiv_lt_0_compat; auto.
    rewrite Rabs_pos_eq in N by auto; assert (0 < / 10 ^ 8) by (apply Rinv_0_lt_compat, pow_lt; lra); lra.
  Qed.
  Lemma width_det e : Rabs (e_rabi e) <= / 10 ^ 8 -> / 10 ^ 8 < Rabs (e_det e) ->
    width e = Rmax (Rabs (e_det e) / maxd) mn /\ 0 < width e.
  Proof.
    intros P N; unfold pulse_width; destruct (Rle_dec (Rabs (e_rabi e)) (/ 10 ^ 8)); [|lra].
    destruct (Rle_dec (Rabs (e_det e)) (/ 10 ^ 8)); [lra|]; split; auto.
    eapply Rlt_le_trans; [|apply Rmax_l]; apply Rdiv_lt_0_compat; auto.
    assert (0 < / 10 ^ 8) by (apply Rinv_0_lt_compat, pow_lt; lra); lra.
  Qed.
  Lemma width_idle e : Rabs (e_rabi e) <= / 10 ^ 8 -> Rabs (e_det e) <= / 10 ^ 8 -> width e = 0.
  Proof.
    intros P N; unfold pulse_width; destruct (Rle_dec (Rabs (e_rabi e)) (/ 10 ^ 8)); [|lra].
    destruct (Rle_dec (Rabs (e_det e)) (/ 10 ^ 8)); [auto|lra].
  Qed.

  Lemma pulse_seg_dur e : g_dur (pulse_seg e) = width e.
  Proof.
    unfold pulse_seg; destruct (Rle_dec (Rabs (e_rabi e)) (/ 10 ^ 8)) as [A|A]; [|reflexivity].
    destruct (Rle_dec (Rabs (e_det e)) (/ 10 ^ 8)) as [B|B]; [|reflexivity].
    cbn; rewrite width_idle; auto.
  Qed.

  Lemma pulse_segment_model e : 0 <= e_rabi e -> to_seg (pulse_segment (op_of e) (win e)) = pulse_seg e.
  Proof.
    intros P; unfold pulse_segment.
    assert (W : snd (win e) - fst (win e) = width e) by (unfold win, window; cbn [fst snd]; field).
    rewrite W; cbv zeta; rewrite !isclose0_dec; cbn [op_of op_rabi op_detuning op_azimuthal]; unfold pulse_seg.
    destruct (Rle_dec (Rabs (e_rabi e)) (/ 10 ^ 8)) as [A|A].
    - destruct (Rle_dec (Rabs (e_det e)) (/ 10 ^ 8)) as [B|B]; cbn [negb].
      + rewrite (width_idle e A B); destruct (ltb 0 0); reflexivity.
      + destruct (width_det e A ltac:(lra)) as [_ Q]; apply ltb_true in Q; rewrite Q; reflexivity.
    - destruct (width_rabi e P ltac:(lra)) as [_ Q]; apply ltb_true in Q; rewrite Q; reflexivity.
  Qed.

  Lemma interleave_model E : (forall e, In e E -> 0 <= e_rabi e) ->
    map to_seg (interleave (map op_of E) (map win E)) = weave E.
  Proof.
    induction E as [|e E IH]; intros P; [reflexivity|].
    cbn [map interleave weave]; rewrite pulse_segment_model by (apply P; left; auto).
    rewrite IH by (intros; apply P; right; auto); do 2 f_equal.
    destruct E; reflexivity.
  Qed.

  Definition lasting (g : seg) : bool := ltb 0 (g_dur g).

  Lemma filter_to_seg l : map to_seg (filter (fun g => ltb 0 (seg_duration g)) l) = filter lasting (map to_seg l).
  Proof.
    induction l as [|s l IH]; [reflexivity|]; cbn [filter map].
    change (lasting (to_seg s)) with (ltb 0 (seg_duration s)).
    destruct (ltb 0 (seg_duration s)); cbn [map]; rewrite IH; auto.
  Qed.

  Lemma pulse_seg_rabi e : 0 <= e_rabi e -> 0 <= g_rabi (pulse_seg e) <= maxr.
  Proof.
    intros P; unfold pulse_seg; destruct (Rle_dec (Rabs (e_rabi e)) (/ 10 ^ 8)) as [A|A].
    - destruct (Rle_dec (Rabs (e_det e)) (/ 10 ^ 8)); cbn [g_rabi]; lra.
    - cbn [g_rabi]; destruct (width_rabi e P ltac:(lra)) as [W Q]; split.
      + apply Rmult_le_pos; auto; left; apply Rinv_0_lt_compat; auto.
      + apply (Rmult_le_reg_r (width e)); auto; unfold Rdiv; rewrite Rmult_assoc, Rinv_l by lra.
        rewrite W, Rmult_1_r; assert (M := Rmax_l (e_rabi e / maxr) mn).
        apply (Rmult_le_compat_l maxr) in M; [|lra].
        replace (maxr * (e_rabi e / maxr)) with (e_rabi e) in M by (field; lra); lra.
  Qed.
  Lemma pulse_seg_det e : Rabs (g_det (pulse_seg e)) <= maxd.
  Proof.
    unfold pulse_seg; destruct (Rle_dec (Rabs (e_rabi e)) (/ 10 ^ 8)) as [A|A]; [|cbn; rewrite Rabs_R0; lra].
    destruct (Rle_dec (Rabs (e_det e)) (/ 10 ^ 8)) as [B|B]; [cbn; rewrite Rabs_R0; lra|].
    cbn [g_det]; destruct (width_det e A ltac:(lra)) as [W Q].
    unfold Rdiv; rewrite Rabs_mult, (Rabs_pos_eq (/ width e)) by (left; apply Rinv_0_lt_compat; auto).
    apply (Rmult_le_reg_r (width e)); auto; rewrite Rmult_assoc, Rinv_l by lra.
    rewrite W, Rmult_1_r; assert (M := Rmax_l (Rabs (e_det e) / maxd) mn).
    apply (Rmult_le_compat_l maxd) in M; [|lra].
    replace (maxd * (Rabs (e_det e) / maxd)) with (Rabs (e_det e)) in M by (field; lra); lra.
  Qed.
  Lemma pulse_seg_both e : g_rabi (pulse_seg e) = 0 \/ g_det (pulse_seg e) = 0.
  Proof.
    unfold pulse_seg; destruct (Rle_dec (Rabs (e_rabi e)) (/ 10 ^ 8)); [|auto].
    destruct (Rle_dec (Rabs (e_det e)) (/ 10 ^ 8)); auto.
  Qed.

  Lemma in_weave E g : In g (weave E) ->
    (exists e, In e E /\ g = pulse_seg e) \/
    (g = Seg 0 0 0 (g_dur g) /\ (In (g_dur g) (gaps (map win E)) \/ g_dur g = 0)).
  Proof.
    induction E as [|e E IH]; intros I; [destruct I|].
    destruct I as [<-|[<-|I]]; [left; exists e; split; auto; left; auto| |].
    - right; split; [reflexivity|]; cbn [g_dur]; destruct E as [|e' E]; [right; reflexivity|left].
      cbn [map gaps gap_after]; destruct (win e), (win e'); left; reflexivity.
    - apply IH in I; destruct I as [[e' [I ->]]|[Q I]]; [left; exists e'; split; auto; right; auto|right; split; auto].
      destruct I as [I|I]; [left|right; auto].
      destruct E as [|e' E]; [destruct I|].
      cbn [map gaps] in *; destruct (win e), (win e'); right; auto.
  Qed.

  Definition converted (l : list event) : list seg :=
    if allclose0 (map win (with_ends T l)) then [Seg 0 0 0 T] else filter lasting (weave (with_ends T l)).

  Lemma with_ends_in e l : In e (with_ends T l) -> In e l \/ e = idle 0 \/ e = idle T.
  Proof.
    unfold with_ends; intros I; apply in_app_or in I; destruct I as [I|I].
    - destruct l as [|e' l]; [|destruct (Req_EM_T (e_time e') 0)]; cbn [In] in I; intuition auto.
    - apply in_app_or in I; destruct I as [I|I]; auto.
      destruct (Req_EM_T (e_time (last l (idle 0))) T); cbn [In] in I; intuition auto.
  Qed.
  Lemma with_ends_in_r e l : In e l -> In e (with_ends T l).
  Proof. intros I; unfold with_ends; apply in_or_app; right; apply in_or_app; auto. Qed.

  Lemma converted_valid l g : (forall e, In e l -> 0 <= e_rabi e) -> In g (converted l) -> 0 < g_dur g /\ 0 <= g_rabi g.
  Proof.
    intros P; unfold converted; destruct (allclose0 (map win (with_ends T l))).
    - intros [<-|[]]; cbn; lra.
    - intros I; apply filter_In in I; destruct I as [I L]; apply ltb_true in L; split; auto.
      apply in_weave in I; destruct I as [[e [I ->]]|[-> _]]; [|cbn; lra].
      apply pulse_seg_rabi; apply with_ends_in in I; destruct I as [I|[->| ->]]; auto; cbn; lra.
  Qed.
End Windows.

Lemma forallb_rabi l : forallb (fun r => leb 0 r) (map e_rabi l) = true <-> forall e, In e l -> 0 <= e_rabi e.
Proof.
  rewrite forallb_forall; split; intros H.
  - intros e I; apply leb_true, H, in_map; auto.
  - intros x I; apply in_map_iff in I; destruct I as [e [<- I]]; apply leb_true; auto.
Qed.
Lemma check_valid_spec l : check_valid_operation (map e_rabi l) (map e_det l) = true <->
  forall e, In e l -> ~ (0 < e_rabi e /\ 0 < e_det e).
Proof.
  unfold check_valid_operation; rewrite negb_true_iff; induction l as [|e l IH]; cbn [map combine existsb].
  - split; auto; intros _ e [].
  - rewrite orb_false_iff, IH, andb_false_iff, !ltb_false; cbn [fst snd]; split.
    + intros [A B] e' [<-|I]; auto; lra.
    + intros H; split; [|intros; apply H; right; auto].
      specialize (H e (or_introl eq_refl)); lra.
Qed.

Theorem convert_model T name0 l maxr maxd mn name :
  0 < T -> (forall e, In e l -> 0 <= e_time e <= T) ->
  let r := convert_dds_to_driven_control (sequence_of T name0 l) maxr maxd mn name in
  (convertible maxr maxd mn T l ->
     exists c, r = Ok c /\ describes (converted maxr maxd mn T l) c /\ dc_name c = name) /\
  (~ convertible maxr maxd mn T l -> argument_error r).
Proof.
  intros HT B r.
  assert (K : forall (b : bool) (P : Prop) s a e f, (b = true <-> P) -> (P -> convertible maxr maxd mn T l ->
     exists c, f tt = Ok c /\ describes (converted maxr maxd mn T l) c /\ dc_name c = name) ->
     (convertible maxr maxd mn T l -> P) ->
     (P -> ~ convertible maxr maxd mn T l -> argument_error (f tt)) ->
     (convertible maxr maxd mn T l -> exists c, bind (check_arguments b s a e) f = Ok c /\
        describes (converted maxr maxd mn T l) c /\ dc_name c = name) /\
     (~ convertible maxr maxd mn T l -> argument_error (bind (check_arguments b s a e) f))).
  { intros b P s a e f E H1 H2 H3; split.
    - intros C; rewrite check_true by (apply E; auto); cbn [bind]; apply H1; auto.
    - intros C; destruct b; [rewrite check_true by auto; cbn [bind]; apply H3; auto; apply E; auto|].
      rewrite check_false by auto; do 3 eexists; reflexivity. }
  subst r; unfold convert_dds_to_driven_control.
  apply (K _ (0 < maxd)); [apply ltb_true|intros Hd C|intros C; apply C|intros Hd N].
  - destruct C as [Hr [_ [Hmn [P [V [I G]]]]]].
    rewrite check_true by (apply ltb_true; auto); cbn [bind].
    rewrite check_true by (apply leb_true; auto); cbn [bind].
    cbn [sequence_of rabi_rotations detuning_rotations seq_duration].
    rewrite check_true by (apply forallb_rabi; auto); cbn [bind].
    rewrite check_true by (apply check_valid_spec; auto); cbn [bind]; cbv zeta.
    change (MkDDS T (map e_time l) (map e_rabi l) (map e_phi l) (map e_det l) name0) with (sequence_of T name0 l).
    rewrite dds_operations_of, pad_with_ends by auto.
    assert (M : map op_offset (map op_of (with_ends T l)) = map e_time (with_ends T l)) by (rewrite map_map; auto).
    rewrite M; rewrite check_true by (apply negb_true_iff, np_diff_increasing, with_ends_increasing; auto); cbn [bind].
    rewrite windows_model by auto; rewrite gap_durations_gaps.
    rewrite check_true by (apply gaps_ok_spec; exact G); cbn [bind].
    unfold converted; change (fun e : event => win maxr maxd mn T e) with (win maxr maxd mn T).
    assert (CV := fun g => converted_valid maxr maxd mn T HT Hr l g P); unfold converted in CV.
    destruct (allclose0 (map (win maxr maxd mn T) (with_ends T l))).
    + destruct (segments_constructible [Seg 0 0 0 T] name CV) as [c [E [D Nm]]].
      exists c; split; auto.
    + destruct (segments_constructible _ name CV) as [c [E [D Nm]]].
      exists c; split; [|split; auto]; unfold control_of_segments; rewrite <- E.
      assert (PE : forall e, In e (with_ends T l) -> 0 <= e_rabi e).
      { intros e Ie; apply with_ends_in in Ie; destruct Ie as [Ie|[->| ->]]; auto; cbn; lra. }
      rewrite <- (interleave_model maxr maxd mn T Hr Hd _ PE), <- filter_to_seg, !map_map; reflexivity.
  - refine (proj2 (K _ (0 < maxr) _ _ _ _ _ _ _ _) N); [apply ltb_true|intros _ C; contradiction|intros C; apply C|intros Hr _]; auto.
    refine (proj2 (K _ (0 <= mn) _ _ _ _ _ _ _ _) N); [apply leb_true|intros _ C; contradiction|intros C; apply C|intros Hmn _]; auto.
    cbn [sequence_of rabi_rotations detuning_rotations seq_duration].
    refine (proj2 (K _ (forall e, In e l -> 0 <= e_rabi e) _ _ _ _ _ _ _ _) N); [apply forallb_rabi|intros _ C; contradiction|intros C; apply C|intros P _]; auto.
    refine (proj2 (K _ (forall e, In e l -> ~ (0 < e_rabi e /\ 0 < e_det e)) _ _ _ _ _ _ _ _) N); [apply check_valid_spec|intros _ C; contradiction|intros C; apply C|intros V _]; auto.
    cbv zeta.
    change (MkDDS T (map e_time l) (map e_rabi l) (map e_phi l) (map e_det l) name0) with (sequence_of T name0 l).
    rewrite dds_operations_of, pad_with_ends by auto.
    assert (M : map op_offset (map op_of (with_ends T l)) = map e_time (with_ends T l)) by (rewrite map_map; auto).
    rewrite M.
    refine (proj2 (K _ (strictly_increasing (map e_time l)) _ _ _ _ _ _ _ _) N); [rewrite negb_true_iff, np_diff_increasing; apply with_ends_increasing; auto|intros _ C; contradiction|intros C; apply C|intros I _]; auto.
    rewrite windows_model by auto; rewrite gap_durations_gaps.
    refine (proj2 (K _ (forall g, In g (idle_times maxr maxd mn T l) -> long_enough mn g) _ _ _ _ _ _ _ _) N); [apply gaps_ok_spec|intros _ C; contradiction|intros C; apply C|intros G _]; auto.
    exfalso; apply N; unfold convertible; tauto.
Qed.
