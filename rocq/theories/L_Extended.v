(** * NaN and infinities in the constructors and the conversion *)

From Coq Require Import Lia.
From Verif Require Export L_ConvertThms Spec_Extended.
Import ListNotations.
Open Scope string_scope.
Open Scope list_scope.
Open Scope R_scope.

(** ** Comparisons *)

Lemma xlt_0 x : xlt (Fin 0) x = true <-> positive x.
Proof. destruct x as [r|[]|]; cbn; [apply ltb_true| | |]; intuition discriminate. Qed.
Lemma xle_0 x : xle (Fin 0) x = true <-> nonnegative x.
Proof. destruct x as [r|[]|]; cbn; [apply leb_true| | |]; intuition discriminate. Qed.
Lemma xle_at_most x y : xle x y = true <-> at_most x y.
Proof. destruct x as [r|[]|], y as [q|[]|]; cbn; try apply leb_true; intuition discriminate. Qed.

(** ** Construction *)

Lemma xinput_lengths_one ts r a d :
  List.length (xinput_lengths [r; a; d; Some ts]) = 1%nat <->
  (forall l, r = Some l -> List.length l = List.length ts) /\
  (forall l, a = Some l -> List.length l = List.length ts) /\
  (forall l, d = Some l -> List.length l = List.length ts).
Proof.
  unfold xinput_lengths.
  replace (map (@List.length xfloat) (flat_map opt_list [r; a; d; Some ts]))
    with (map (@List.length xfloat) (flat_map opt_list [r; a; d]) ++ [List.length ts])%list.
  2:{ destruct r, a, d; reflexivity. }
  rewrite nodup_one; split.
  - intros H; repeat split; intros l ->; apply H; apply in_map; simpl;
      repeat rewrite in_app_iff; simpl; tauto.
  - intros [H1 [H2 H3]] x Hx; apply in_map_iff in Hx; destruct Hx as [l [<- Hl]].
    simpl in Hl; repeat rewrite in_app_iff in Hl.
    destruct Hl as [Hl|[Hl|[Hl|[]]]].
    + destruct r as [r|]; [destruct Hl as [->|[]]; auto|contradiction].
    + destruct a as [a|]; [destruct Hl as [->|[]]; auto|contradiction].
    + destruct d as [d|]; [destruct Hl as [->|[]]; auto|contradiction].
Qed.

Lemma xdefault_spec n o : supplied_or_xzeros n o (opt_default (xzeros n) o).
Proof.
  destruct o; simpl; auto; unfold xzeros; split; [apply repeat_length|].
  intros x Hx; apply repeat_spec in Hx; auto.
Qed.

Lemma xnonneg_b n r : forallb (fun x => xle (Fin 0) x) (opt_default (xzeros n) r) = true <->
  (forall l, r = Some l -> forall x, In x l -> nonnegative x).
Proof.
  rewrite forallb_forall; destruct r as [l|]; cbn [opt_default]; split.
  - intros H l' E x I; injection E as <-; apply xle_0, H; auto.
  - intros H x I; apply xle_0, (H l eq_refl); auto.
  - intros _ l E; discriminate.
  - intros _ x I; apply repeat_spec in I; subst x; apply xle_0; cbn; lra.
Qed.

Theorem xcontrol_accepts ts r a d name :
  (valid_xinputs ts r a d ->
     exists c, xDrivenControl ts r a d name = Ok c /\ x_durations c = ts /\ x_dc_name c = name /\
       supplied_or_xzeros (List.length ts) r (x_rabi_rates c) /\
       supplied_or_xzeros (List.length ts) a (x_azimuthal_angles c) /\
       supplied_or_xzeros (List.length ts) d (x_detunings c)) /\
  (~ valid_xinputs ts r a d -> argument_error (xDrivenControl ts r a d name)).
Proof.
  assert (B1 : forallb (fun d => xlt (Fin 0) d) ts = true <-> forall t, In t ts -> positive t).
  { rewrite forallb_forall; split; intros H t I; apply xlt_0, H; auto. }
  unfold xDrivenControl; split.
  - intros [P [RA [A D]]].
    rewrite check_true by (apply B1; auto); cbn [bind].
    rewrite check_true.
    2:{ apply Nat.eqb_eq, xinput_lengths_one; split; auto; intros l E; apply (RA l E). }
    cbn [bind]; cbv zeta.
    rewrite check_true by (apply xnonneg_b; intros l E; apply (RA l E)); cbn [bind].
    eexists; split; [reflexivity|]; cbn; repeat split; auto; apply xdefault_spec.
  - intros N.
    destruct (forallb (fun d => xlt (Fin 0) d) ts) eqn:E1; [|rewrite check_false by auto; do 3 eexists; reflexivity].
    rewrite check_true by auto; cbn [bind].
    destruct (Nat.eqb _ 1) eqn:E2; [|rewrite check_false by auto; do 3 eexists; reflexivity].
    rewrite check_true by auto; cbn [bind]; cbv zeta.
    destruct (forallb (fun r => xle (Fin 0) r) _) eqn:E3; [|rewrite check_false by auto; do 3 eexists; reflexivity].
    exfalso; apply N; assert (Q1 : forall t, In t ts -> positive t) by (apply B1; auto); apply Nat.eqb_eq, xinput_lengths_one in E2; rewrite xnonneg_b in E3.
    destruct E2 as [L1 [L2 L3]]; split; [auto|split; [|split; auto]]; intros l E; split; [auto|intros x I; apply (E3 l E x I)].
Qed.

Theorem xsequence_accepts T ts r a d name :
  (positive T /\ (forall t, In t ts -> nonnegative t /\ at_most t T) /\
   List.length r = List.length ts /\ List.length a = List.length ts /\ List.length d = List.length ts ->
   xDynamicDecouplingSequence T ts r a d name = Ok (MkXDDS T ts r a d name)) /\
  (~ (positive T /\ (forall t, In t ts -> nonnegative t /\ at_most t T) /\
      List.length r = List.length ts /\ List.length a = List.length ts /\ List.length d = List.length ts) ->
   argument_error (xDynamicDecouplingSequence T ts r a d name)).
Proof.
  assert (B1 : forallb (fun t => xle (Fin 0) t && xle t T) ts = true <-> forall t, In t ts -> nonnegative t /\ at_most t T).
  { rewrite forallb_forall; split; intros H t I.
    - specialize (H t I); apply andb_true_iff in H; rewrite xle_0, xle_at_most in H; auto.
    - apply andb_true_iff; rewrite xle_0, xle_at_most; auto. }
  unfold xDynamicDecouplingSequence; split.
  - intros [P [O [L1 [L2 L3]]]].
    rewrite check_true by (apply xlt_0; auto); cbn [bind]; rewrite check_true by (apply B1; auto); cbn [bind]; cbv zeta.
    rewrite !check_true by (apply Nat.eqb_eq; auto); reflexivity.
  - intros N.
    destruct (xlt (Fin 0) T) eqn:E1; [|rewrite check_false by auto; do 3 eexists; reflexivity].
    rewrite check_true by auto; cbn [bind].
    destruct (forallb (fun t => xle (Fin 0) t && xle t T) ts) eqn:E2; [|rewrite check_false by auto; do 3 eexists; reflexivity].
    rewrite check_true by auto; cbn [bind]; cbv zeta.
    destruct (Nat.eqb (List.length r) _) eqn:E3; [|rewrite check_false by auto; do 3 eexists; reflexivity].
    rewrite check_true by auto; cbn [bind].
    destruct (Nat.eqb (List.length a) _) eqn:E4; [|rewrite check_false by auto; do 3 eexists; reflexivity].
    rewrite check_true by auto; cbn [bind].
    destruct (Nat.eqb (List.length d) _) eqn:E5; [|rewrite check_false by auto; do 3 eexists; reflexivity].
    exfalso; apply N; rewrite xlt_0 in E1; assert (Q1 : forall t, In t ts -> nonnegative t /\ at_most t T) by (apply B1; auto); apply Nat.eqb_eq in E3, E4, E5; tauto.
Qed.

(** ** Finite arguments *)

Lemma forallb_map_ext {X Y} (f : X -> Y) (p : Y -> bool) (q : X -> bool) l :
  (forall x, p (f x) = q x) -> forallb p (map f l) = forallb q l.
Proof. intros H; induction l as [|x l IH]; cbn; auto; rewrite H, IH; auto. Qed.

Lemma bind_map {X Y} (f : X -> Y) (u : result unit) (k : unit -> result X) (k' : unit -> result Y) :
  k' tt = map_result f (k tt) -> bind u k' = map_result f (bind u k).
Proof. destruct u as [[]|e]; auto. Qed.

Theorem xcontrol_finite ts r a d name :
  xDrivenControl (map Fin ts) (option_map (map Fin) r) (option_map (map Fin) a) (option_map (map Fin) d) name =
  map_result fin_control (DrivenControl ts r a d name).
Proof.
  unfold xDrivenControl, DrivenControl.
  rewrite (forallb_map_ext Fin _ (fun d => ltb 0 d)) by auto; apply bind_map.
  replace (xinput_lengths _) with (input_lengths [r; a; d; Some ts]).
  2:{ unfold xinput_lengths, input_lengths; f_equal.
      destruct r, a, d; cbn [flat_map opt_list app map option_map]; rewrite ?map_length; auto. }
  apply bind_map; cbv zeta; rewrite map_length.
  assert (Z : forall n o, opt_default (xzeros n) (option_map (map Fin) o) = map Fin (opt_default (np_zeros n) o)).
  { intros n [o|]; auto; cbn [option_map opt_default]; unfold np_zeros, np_full, xzeros.
    induction n; cbn [repeat map]; f_equal; auto. }
  rewrite !Z, (forallb_map_ext Fin _ (fun r => leb 0 r)) by auto; apply bind_map; reflexivity.
Qed.

Theorem xsequence_finite T ts r a d name :
  xDynamicDecouplingSequence (Fin T) (map Fin ts) (map Fin r) (map Fin a) (map Fin d) name =
  map_result fin_sequence (DynamicDecouplingSequence T ts r a d name).
Proof.
  unfold xDynamicDecouplingSequence, DynamicDecouplingSequence; apply bind_map.
  rewrite (forallb_map_ext Fin _ (fun t => leb 0 t && leb t T)) by auto; apply bind_map; cbv zeta.
  rewrite !map_length; do 3 apply bind_map; reflexivity.
Qed.

(** ** Conversion of finite sequences *)

Definition xop (o : operation) : xoperation :=
  MkXOp (Fin (op_offset o)) (Fin (op_rabi o)) (Fin (op_azimuthal o)) (Fin (op_detuning o)).
Definition xpair (p : R * R) : xfloat * xfloat := (Fin (fst p), Fin (snd p)).
Definition xseg (g : segment) : xsegment :=
  MkXSeg (Fin (seg_rabi g)) (Fin (seg_azimuthal g)) (Fin (seg_detuning g)) (Fin (seg_duration g)).

Lemma xsub_fin a b : xsub (Fin a) (Fin b) = Fin (a - b).
Proof. reflexivity. Qed.

Lemma xdds_operations_fin s : xdds_operations (fin_sequence s) = map xop (dds_operations s).
Proof.
  unfold xdds_operations, dds_operations, operations_of; cbn [fin_sequence x_offsets x_rabi_rotations x_seq_azimuthal_angles x_detuning_rotations].
  generalize (offsets s) (rabi_rotations s) (seq_azimuthal_angles s) (detuning_rotations s).
  induction l as [|t l IH]; intros [|r l0] [|p l1] [|d l2]; cbn [map combine]; auto; f_equal; apply IH.
Qed.

Lemma xlast_fin l d : xop_offset (last (map xop l) (xop d)) = Fin (op_offset (last l d)).
Proof. induction l as [|a l IH]; auto; destruct l; auto; apply IH. Qed.

Lemma xpad_fin T ops : xpad_operations (Fin T) (map xop ops) = map xop (pad_operations T ops).
Proof.
  unfold xpad_operations, pad_operations.
  assert (A : xpad_empty (Fin T) (map xop ops) = map xop (pad_empty T ops)) by (destruct ops; auto).
  assert (B : forall l, xpad_front (map xop l) = map xop (pad_front l)).
  { intros [|o l]; auto; cbn [map xpad_front pad_front]; unfold neqb; cbn [xop xop_offset xeq].
    destruct (eqb (op_offset o) 0); auto. }
  assert (C : forall l, xpad_back (Fin T) (map xop l) = map xop (pad_back T l)).
  { intros l; unfold xpad_back, pad_back; change (xnull_operation (Fin 0)) with (xop (null_operation 0)).
    rewrite xlast_fin; unfold neqb; cbn [xeq]; destruct (eqb _ T); cbn [negb]; auto; rewrite map_app; auto. }
  rewrite A, B, C; auto.
Qed.

Lemma xdiff_fin l : xdiff (map Fin l) = map Fin (np_diff l).
Proof. induction l as [|x [|y l] IH]; auto; cbn [map xdiff np_diff] in *; rewrite IH, xsub_fin; auto. Qed.

Lemma existsb_map_ext {X Y} (f : X -> Y) (p : Y -> bool) (q : X -> bool) l :
  (forall x, p (f x) = q x) -> existsb p (map f l) = existsb q l.
Proof. intros H; induction l as [|x l IH]; cbn; auto; rewrite H, IH; auto. Qed.

Section Embed.
  Variables (half : operation -> R) (xhalf : xoperation -> xfloat).

  Lemma xwindows_fin T ops : (forall o, In o ops -> xhalf (xop o) = Fin (half o)) ->
    xpulse_start_ends xhalf (Fin T) (map xop ops) = map xpair (pulse_start_ends half T ops).
  Proof.
    intros H; unfold xpulse_start_ends, pulse_start_ends.
    replace (map (xstart_end xhalf) (map xop ops)) with (map xpair (map (start_end half) ops)).
    2:{ rewrite !map_map; apply map_ext_in; intros o I; unfold xstart_end; rewrite (H o I); reflexivity. }
    generalize (map (start_end half) ops); clear; intros l.
    assert (A : xshift_first (map xpair l) = map xpair (shift_first l)).
    { destruct l as [|[s e] l]; auto; cbn [map xpair xshift_first shift_first fst snd].
      cbn [xlt]; destruct (ltb s 0); auto. }
    rewrite A; generalize (shift_first l); clear; intros l.
    induction l as [|[s e] l IH]; auto; destruct l as [|p l]; [|cbn [map xshift_last shift_last] in *; rewrite IH; auto].
    cbn [map xpair xshift_last shift_last fst snd]; cbn [xlt]; destruct (ltb T e); auto.
  Qed.
End Embed.

Lemma xgaps_fin l : xgap_durations (map xpair l) = map Fin (gap_durations l).
Proof.
  induction l as [|[s e] [|[s' e'] l] IH]; auto; cbn [map xpair xgap_durations gap_durations fst snd] in *.
  rewrite IH, xsub_fin; auto.
Qed.

Lemma xpulse_fin o se : xpulse_segment (xop o) (xpair se) = xseg (pulse_segment o se).
Proof.
  unfold xpulse_segment, pulse_segment; cbn [xpair fst snd]; rewrite xsub_fin; cbn [xlt xop xop_rabi xop_detuning xop_azimuthal xisclose].
  destruct (ltb 0 (snd se - fst se)) eqn:L; [apply ltb_true in L|reflexivity].
  assert (D : forall x, xdivide (Fin x) (Fin (snd se - fst se)) = Fin (x / (snd se - fst se))).
  { intros x; cbn [xdivide]; unfold xdiv; replace (eqb (snd se - fst se) 0) with false; auto.
    symmetry; apply eqb_false; lra. }
  destruct (np_isclose (op_rabi o) 0); cbn [negb]; [|rewrite D; reflexivity].
  destruct (np_isclose (op_detuning o) 0); cbn [negb]; [|rewrite D]; reflexivity.
Qed.

Lemma xinterleave_fin ops : forall ses, xinterleave (map xop ops) (map xpair ses) = map xseg (interleave ops ses).
Proof.
  induction ops as [|o ops IH]; intros [|se ses]; auto; cbn [map xinterleave interleave].
  rewrite IH, xpulse_fin; f_equal; f_equal; unfold xseg; cbn; f_equal; destruct ses; auto.
Qed.

(** the part of the conversion after the checks of the arguments *)
Definition xbody (xhalf : xoperation -> xfloat) (T mn : xfloat) (ops : list xoperation) (name : option string) : result xcontrol :=
  let ses := xpulse_start_ends xhalf T ops in
  do* check_arguments (xgaps_ok mn (xgap_durations ses))
        "Distance between pulses does not respect minimum_segment_duration. Try decreasing the minimum_segment_duration or increasing the maximum_rabi_rate or the maximum_detuning_rate."
        ["dynamic_decoupling_sequence"; "maximum_rabi_rate"; "maximum_detuning_rate";
         "minimum_segment_duration"]
        ["deduced_pulse_start_timing"; "deduced_pulse_end_timing"; "gap_durations"] in
  if xallclose0 ses then
    xDrivenControl [T] (Some [Fin 0]) (Some [Fin 0]) (Some [Fin 0]) name
  else
    xcontrol_of_segments
      (filter (fun g => xlt (Fin 0) (xseg_duration g)) (xinterleave ops ses)) name.
Definition body (half : operation -> R) (T mn : R) (ops : list operation) (name : option string) : result driven_control :=
  let ses := pulse_start_ends half T ops in
  do* check_arguments (gaps_ok mn (gap_durations ses))
        "Distance between pulses does not respect minimum_segment_duration. Try decreasing the minimum_segment_duration or increasing the maximum_rabi_rate or the maximum_detuning_rate."
        ["dynamic_decoupling_sequence"; "maximum_rabi_rate"; "maximum_detuning_rate";
         "minimum_segment_duration"]
        ["deduced_pulse_start_timing"; "deduced_pulse_end_timing"; "gap_durations"] in
  if allclose0 ses then
    DrivenControl [T] (Some [0]) (Some [0]) (Some [0]) name
  else
    control_of_segments
      (filter (fun g => ltb 0 (seg_duration g)) (interleave ops ses)) name.

Lemma xbody_fin half xhalf T mn ops name : (forall o, In o ops -> xhalf (xop o) = Fin (half o)) ->
  xbody xhalf (Fin T) (Fin mn) (map xop ops) name = map_result fin_control (body half T mn ops name).
Proof.
  intros H; unfold xbody, body; cbv zeta; rewrite (xwindows_fin half xhalf T ops H).
  set (ses := pulse_start_ends half T ops).
  replace (xgaps_ok (Fin mn) (xgap_durations (map xpair ses))) with (gaps_ok mn (gap_durations ses)).
  2:{ rewrite xgaps_fin; unfold xgaps_ok, gaps_ok; symmetry; apply forallb_map_ext; auto. }
  apply bind_map.
  replace (xallclose0 (map xpair ses)) with (allclose0 ses).
  2:{ unfold xallclose0, allclose0; symmetry; apply forallb_map_ext; auto. }
  destruct (allclose0 ses).
  - apply (xcontrol_finite [T] (Some [0]) (Some [0]) (Some [0]) name).
  - unfold xcontrol_of_segments, control_of_segments; rewrite xinterleave_fin.
    assert (F : forall l, filter (fun g => xlt (Fin 0) (xseg_duration g)) (map xseg l) = map xseg (filter (fun g => ltb 0 (seg_duration g)) l)).
    { clear; induction l as [|g l IH]; auto; cbn [map filter]; change (xlt (Fin 0) (xseg_duration (xseg g))) with (ltb 0 (seg_duration g)); destruct (ltb 0 (seg_duration g)); rewrite IH; auto. }
    rewrite F; set (l := filter _ _).
    replace (map xseg_duration (map xseg l)) with (map Fin (map seg_duration l)) by (rewrite !map_map; auto).
    replace (map xseg_rabi (map xseg l)) with (map Fin (map seg_rabi l)) by (rewrite !map_map; auto).
    replace (map xseg_azimuthal (map xseg l)) with (map Fin (map seg_azimuthal l)) by (rewrite !map_map; auto).
    replace (map xseg_detuning (map xseg l)) with (map Fin (map seg_detuning l)) by (rewrite !map_map; auto).
    apply (xcontrol_finite _ (Some _) (Some _) (Some _)).
Qed.

(** ordinary rates [fr], [fd] and a half duration that give the same windows *)
Lemma xconvert_general s maxr maxd mn fr fd half name :
  positive maxr -> positive maxd -> 0 < fr -> 0 < fd ->
  (forall o, In o (pad_operations (seq_duration s) (dds_operations s)) ->
     xhalf_pulse_duration maxr maxd (Fin mn) (xop o) = Fin (half o)) ->
  xconvert (fin_sequence s) maxr maxd (Fin mn) name =
  map_result fin_control
   (do* check_arguments (ltb 0 fd) "Maximum detuning rate must be positive." ["maximum_detuning_rate"] [] in
    do* check_arguments (ltb 0 fr) "Maximum rabi rate must be positive." ["maximum_rabi_rate"] [] in
    do* check_arguments (leb 0 mn) "Minimum segment duration must be greater than or equal to 0."
          ["minimum_segment_duration"] [] in
    do* check_arguments (forallb (fun r => leb 0 r) (rabi_rotations s))
          "Sequence contains negative values for Rabi rotations." ["dynamic_decoupling_sequence"] [] in
    do* check_arguments (check_valid_operation (rabi_rotations s) (detuning_rotations s))
          "Sequence operation includes rabi rotation and detuning rotation at the same instance."
          ["dynamic_decoupling_sequence"] ["maximum_rabi_rate"; "maximum_detuning_rate"] in
    do* check_arguments
          (negb (existsb (fun d => leb d 0) (np_diff (map op_offset (pad_operations (seq_duration s) (dds_operations s))))))
          "Pulse timing could not be properly deduced from the sequence offsets. Make sure all offsets are in increasing order."
          ["dynamic_decoupling_sequence"] ["offsets"] in
    body half (seq_duration s) mn (pad_operations (seq_duration s) (dds_operations s)) name).
Proof.
  intros PR PD FR FD H; unfold xconvert.
  rewrite (check_true (xlt (Fin 0) maxd)), (check_true (xlt (Fin 0) maxr)) by (apply xlt_0; auto).
  rewrite (check_true (ltb 0 fd)), (check_true (ltb 0 fr)) by (apply ltb_true; auto); cbn [bind].
  change (xle (Fin 0) (Fin mn)) with (leb 0 mn); apply bind_map.
  cbn [fin_sequence x_rabi_rotations x_detuning_rotations x_seq_duration].
  rewrite (forallb_map_ext Fin _ (fun r => leb 0 r)) by auto; apply bind_map.
  replace (xcheck_valid_operation _ _) with (check_valid_operation (rabi_rotations s) (detuning_rotations s)).
  2:{ unfold xcheck_valid_operation, check_valid_operation; f_equal.
      generalize (rabi_rotations s) (detuning_rotations s); induction l as [|r l IH]; intros [|d l0]; auto.
      cbn [map combine existsb]; rewrite IH; auto. }
  apply bind_map; cbv zeta; fold (fin_sequence s).
  change (MkXDDS (Fin (seq_duration s)) (map Fin (offsets s)) (map Fin (rabi_rotations s)) (map Fin (seq_azimuthal_angles s)) (map Fin (detuning_rotations s)) (seq_name s)) with (fin_sequence s).
  rewrite xdds_operations_fin, xpad_fin; set (ops := pad_operations _ _) in *.
  replace (map xop_offset (map xop ops)) with (map Fin (map op_offset ops)) by (rewrite !map_map; auto).
  rewrite xdiff_fin, (existsb_map_ext Fin _ (fun d => leb d 0)) by auto; apply bind_map.
  apply (xbody_fin half); auto.
Qed.

Lemma xmax_fin a b : xmax (Fin a) (Fin b) = Fin (py_max a b).
Proof. unfold xmax, py_max; cbn [xlt]; destruct (ltb a b); auto. Qed.

Theorem xconvert_finite s maxr maxd mn name :
  xconvert (fin_sequence s) (Fin maxr) (Fin maxd) (Fin mn) name =
  map_result fin_control (convert_dds_to_driven_control s maxr maxd mn name).
Proof.
  destruct (Rlt_dec 0 maxd) as [HD|HD].
  2:{ unfold xconvert, convert_dds_to_driven_control; assert (ltb 0 maxd = false) by (apply ltb_false; lra).
      change (xlt (Fin 0) (Fin maxd)) with (ltb 0 maxd); rewrite H; reflexivity. }
  destruct (Rlt_dec 0 maxr) as [HR|HR].
  2:{ unfold xconvert, convert_dds_to_driven_control; assert (ltb 0 maxr = false) by (apply ltb_false; lra).
      change (xlt (Fin 0) (Fin maxd)) with (ltb 0 maxd); change (xlt (Fin 0) (Fin maxr)) with (ltb 0 maxr); rewrite H.
      rewrite (proj2 (ltb_true 0 maxd) HD); reflexivity. }
  rewrite (xconvert_general s _ _ mn maxr maxd (half_pulse_duration maxr maxd mn)); auto.
  intros o _; unfold xhalf_pulse_duration, half_pulse_duration; cbn [xop xop_rabi xop_detuning xisclose xabs xdivide]; unfold xdiv.
  replace (eqb maxr 0) with false by (symmetry; apply eqb_false; lra).
  replace (eqb maxd 0) with false by (symmetry; apply eqb_false; lra).
  rewrite !xmax_fin; cbn [xscale]; destruct (np_isclose (op_rabi o) 0); cbn [negb]; [|f_equal; ring].
  destruct (np_isclose (op_detuning o) 0); cbn [negb]; auto; f_equal; ring.
Qed.

(** ** Infinite rates *)

Lemma pad_in T ops o : In o (pad_operations T ops) -> In o ops \/ o = null_operation 0 \/ o = null_operation T.
Proof.
  unfold pad_operations, pad_back; intros I.
  assert (J : In o (pad_front (pad_empty T ops)) \/ o = null_operation T).
  { destruct (neqb _ T); auto; apply in_app_or in I; destruct I as [I|[<-|[]]]; auto. }
  destruct J as [J| ->]; auto; clear I.
  assert (K : In o (pad_empty T ops) \/ o = null_operation 0).
  { unfold pad_front in J; destruct (pad_empty T ops) as [|p q]; auto; destruct (neqb _ 0); auto; destruct J as [<-|J]; auto. }
  destruct K as [K| ->]; auto.
  destruct ops; auto; destruct K as [<-|[<-|[]]]; auto.
Qed.

Theorem xconvert_infinite T n0 l mn M name : 0 < mn -> 0 < M ->
  (forall e, In e l -> e_rabi e / M <= mn /\ Rabs (e_det e) / M <= mn) ->
  xconvert (fin_sequence (sequence_of T n0 l)) (Inf false) (Inf false) (Fin mn) name =
  map_result fin_control (convert_dds_to_driven_control (sequence_of T n0 l) M M mn name).
Proof.
  intros HM MP B.
  rewrite (xconvert_general _ _ _ mn M M (half_pulse_duration M M mn)); auto; try reflexivity.
  intros o I; unfold xhalf_pulse_duration, half_pulse_duration; cbn [xop xop_rabi xop_detuning xisclose xabs xdivide].
  rewrite xmax_fin; cbn [xscale].
  assert (B' : op_rabi o / M <= mn /\ Rabs (op_detuning o) / M <= mn).
  { apply pad_in in I; destruct I as [I|[->| ->]].
    - rewrite dds_operations_of in I; apply in_map_iff in I; destruct I as [e [<- I]]; apply (B e I).
    - cbn; rewrite Rabs_R0; unfold Rdiv; rewrite Rmult_0_l; lra.
    - cbn; rewrite Rabs_R0; unfold Rdiv; rewrite Rmult_0_l; lra. }
  assert (P0 : py_max 0 mn = mn) by (unfold py_max; rewrite (proj2 (ltb_true 0 mn) HM); auto).
  assert (P : forall x, x <= mn -> py_max x mn = mn).
  { intros x X; unfold py_max; destruct (ltb x mn) eqn:L; auto; apply ltb_false in L; lra. }
  rewrite P0, !P by tauto.
  destruct (np_isclose (op_rabi o) 0); cbn [negb]; [|f_equal; ring].
  destruct (np_isclose (op_detuning o) 0); cbn [negb]; auto; f_equal; ring.
Qed.
