(** * Requests with NaN and infinities *)

From Coq Require Import Lia Lra.
From Verif Require Import Spec_Qubit L_Base L_DDS L_Requests L_XY L_PreConvert L_Extended.
From Verif Require Export Spec_ExtendedPredefined.
Import ListNotations.
Open Scope string_scope.
Open Scope list_scope.
Open Scope R_scope.

(** ** Algorithms on times commute with an embedding *)

Section Morphism.
  Context {A B : Type} (f : A -> B) (le eq lt : A -> A -> bool) (le' eq' lt' : B -> B -> bool)
    (add : A -> A -> A) (add' : B -> B -> B) (zero : A) (zero' : B).
  Hypotheses (HL : forall a b, le' (f a) (f b) = le a b) (HE : forall a b, eq' (f a) (f b) = eq a b)
    (HT : forall a b, lt' (f a) (f b) = lt a b) (HA : forall a b, add' (f a) (f b) = f (add a b)) (HZ : f zero = zero').

  Lemma sort_insert_morph x l : sort_insert le' (f x) (map f l) = map f (sort_insert le x l).
  Proof. induction l as [|y l IH]; cbn; auto; rewrite HL; destruct (le x y); cbn; auto; rewrite IH; auto. Qed.
  Lemma sort_morph l : sort le' (map f l) = map f (sort le l).
  Proof. induction l as [|x l IH]; cbn; auto; unfold sort in *; rewrite IH; apply sort_insert_morph. Qed.
  Lemma group_morph l : group eq' (map f l) = map (fun vc => (f (fst vc), snd vc)) (group eq l).
  Proof.
    induction l as [|x l IH]; cbn; auto; rewrite IH; destruct (group eq l) as [|[y c] g]; cbn; auto.
    rewrite HE; destruct (eq x y); auto.
  Qed.
  Lemma even_count_morph l : even_count_values le' eq' (map f l) = map f (even_count_values le eq l).
  Proof.
    unfold even_count_values, unique_counts; rewrite sort_morph, group_morph.
    induction (group eq (sort le l)) as [|[y c] g IH]; cbn; auto; destruct (Nat.even c); cbn; rewrite IH; auto.
  Qed.
  Lemma running_morph l : forall acc, running add' (f acc) (map f l) = map f (running add acc l).
  Proof. induction l as [|x l IH]; intros acc; cbn; auto; rewrite HA, IH; auto. Qed.

  Definition fslot (s : @slot A) : @slot B := MkSlot (f (sl_offset s)) (sl_rabi s) (sl_azimuthal s) (sl_detuning s).
  Lemma merge_morph n : forall xs ys, merge_xy lt' n (map f xs) (map f ys) = map fslot (merge_xy lt n xs ys).
  Proof.
    induction n as [|n IH]; intros xs ys; cbn; auto; destruct xs as [|x xs], ys as [|y ys]; cbn; auto.
    - f_equal; apply (IH []).
    - f_equal; apply (IH xs []).
    - rewrite HT; destruct (lt x y); cbn; f_equal; [apply (IH xs (y :: ys))|apply (IH (x :: xs) ys)].
  Qed.
  Lemma blank_morph : fslot (blank zero) = blank zero'.
  Proof. unfold fslot, blank; cbn; rewrite HZ; auto. Qed.
  Lemma nth_fslot i l : nth i (map fslot l) (blank zero') = fslot (nth i l (blank zero)).
  Proof. rewrite <- blank_morph; apply map_nth. Qed.
  Lemma insert_z_morph i z l : insert_z zero' i (f z) (map fslot l) = map fslot (insert_z zero i z l).
  Proof.
    unfold insert_z; rewrite map_length, map_map; apply map_ext; intros j; cbv zeta; rewrite !nth_fslot.
    destruct (Nat.ltb j i); auto; destruct (Nat.eqb j i); auto.
  Qed.
  Lemma z_loop_morph is : forall zs l, z_loop zero' lt' is (map f zs) (map fslot l) = map fslot (z_loop zero lt is zs l).
  Proof.
    induction is as [|i is IH]; intros zs l; destruct zs as [|z zs]; cbn; auto.
    rewrite nth_fslot; cbn [fslot sl_offset]; rewrite HT; destruct (lt z (sl_offset (nth i l (blank zero)))).
    - rewrite insert_z_morph; apply IH.
    - apply (IH (z :: zs)).
  Qed.
End Morphism.

(** ** Finite requests for sequences *)

Definition xarr (a : arrays) : xarrays := MkXArrays (map Fin (a_offsets a)) (a_rabi a) (a_azimuthal a) (a_detuning a).
Lemma xfinish_fin T a pre name : xfinish (Fin T) (xarr a) pre name = map_result fin_sequence (finish T a pre name).
Proof.
  unfold xfinish, finish; destruct pre; cbn [bind]; [|apply xsequence_finite].
  unfold xadd_pre_post_rotations, add_pre_post_rotations; cbv zeta; change (xcount_pulses ?r ?p ?d (xarr a)) with (count_pulses r p d a).
  cbn [xarr xa_offsets]; rewrite map_length; destruct (check_arguments _ _ _ _) as [[]|e]; cbn [bind]; auto.
  rewrite <- xsequence_finite; cbn [xa_offsets xa_rabi xa_azimuthal xa_detuning a_offsets a_rabi a_azimuthal a_detuning xarr].
  unfold np_insert_ends; rewrite !map_cons, !map_app; reflexivity.
Qed.
Lemma xuniform_fin l r p d : xuniform_arrays (map Fin l) r p d = xarr (uniform_arrays l r p d).
Proof. unfold xuniform_arrays, uniform_arrays, xarr; cbn; rewrite map_length; auto. Qed.
Lemma xdivide_fin a b : b <> 0 -> xdivide (Fin a) (Fin b) = Fin (a / b).
Proof. intros H; cbn; unfold xdiv; rewrite (proj2 (eqb_false b 0)); auto. Qed.
Lemma xint_fin x : xint_count (Fin x) = Ok (int_count x).
Proof. reflexivity. Qed.
Lemma xuhrig_fin T n : xuhrig_offsets (Fin T) n = map Fin (uhrig_single_axis_offsets T n).
Proof. unfold xuhrig_offsets, uhrig_single_axis_offsets; rewrite map_map; auto. Qed.
Lemma xcp_fin T n : xcarr_purcell_offsets (Fin T) n = map Fin (carr_purcell_meiboom_gill_offsets T n).
Proof. unfold xcarr_purcell_offsets, carr_purcell_meiboom_gill_offsets; rewrite map_map; auto. Qed.
Lemma xperiodic_fin T n : xperiodic_offsets (Fin T) n = map Fin (periodic_offsets T n).
Proof. unfold xperiodic_offsets, periodic_offsets; rewrite map_map; auto. Qed.
Lemma combine_map {X Y X' Y'} (f : X -> X') (g : Y -> Y') l : forall l',
  combine (map f l) (map g l') = map (fun p => (f (fst p), g (snd p))) (combine l l').
Proof. induction l as [|x l IH]; intros [|y l']; cbn; auto; rewrite IH; auto. Qed.
Lemma xquadratic_fin T n1 n2 : xquadratic_rows (Fin T) n1 n2 = map (map Fin) (quadratic_offset_rows T n1 n2).
Proof.
  unfold xquadratic_rows, quadratic_offset_rows; cbv zeta; rewrite xuhrig_fin.
  replace (Fin 0 :: map Fin (uhrig_single_axis_offsets T n2) ++ (Fin T :: nil)) with (map Fin (np_insert_ends (uhrig_single_axis_offsets T n2) 0 T))
    by (unfold np_insert_ends; rewrite map_cons, map_app; auto).
  set (l := np_insert_ends _ _ _); rewrite xdiff_fin; assert (TL : tl (map Fin l) = map Fin (tl l)) by (destruct l; auto).
  rewrite TL, !combine_map, !map_map; apply map_ext; intros [[d t0] t1]; cbn [fst snd].
  rewrite map_app, xuhrig_fin, !map_map; auto.
Qed.
Lemma concat_map_fin (l : list (list R)) : List.concat (map (map Fin) l) = map Fin (List.concat l).
Proof. induction l as [|x l IH]; cbn; auto; rewrite IH, map_app; auto. Qed.
Lemma removelast_map {X Y} (f : X -> Y) l : removelast (map f l) = map f (removelast l).
Proof. induction l as [|x [|y l] IH]; auto; cbn [map removelast] in *; rewrite IH; auto. Qed.

Lemma nan_le_fin a b : nan_le (Fin a) (Fin b) = leb a b. Proof. reflexivity. Qed.
Lemma nan_eq_fin e a b : nan_eq e (Fin a) (Fin b) = eqb a b.
Proof. unfold nan_eq; cbn; destruct e; cbn; rewrite Bool.orb_false_r; auto. Qed.
Lemma even_fin e l : even_count_values nan_le (nan_eq e) (map Fin l) = map Fin (even_count_values leb eqb l).
Proof. apply even_count_morph; [apply nan_le_fin|apply nan_eq_fin]. Qed.
Lemma concatenation_x_bits l c : In c (concatenation_x l) -> c = 0%Z \/ c = 1%Z.
Proof.
  induction l as [|[|l] IH]; [intros []| |].
  - cbn; intros [H|[H|[H|[H|[]]]]]; auto.
  - change (concatenation_x (S (S l))) with (concatenation_x (S l) ++ [0%Z] ++ concatenation_x (S l) ++ [0%Z]).
    rewrite !in_app_iff; intros [H|[[H|[]]|[H|[H|[]]]]]; auto.
Qed.
Lemma xx_offsets_fin e u l : xx_offsets e (Fin u) l = map Fin (M_DDSPredefined.x_offsets 0 u Rplus leb eqb l).
Proof.
  unfold xx_offsets, M_DDSPredefined.x_offsets, x_positions; cbv zeta.
  replace (map (fun c => xmul (Fin (IZR c)) (Fin u)) (concatenation_x l)) with
    (map Fin (map (fun c => if Z.eqb c 0 then 0 else u) (concatenation_x l))).
  - rewrite (running_morph Fin Rplus xadd) by reflexivity; rewrite even_fin; destruct (Nat.eqb _ _); auto; apply removelast_map.
  - rewrite map_map; apply map_ext_in; intros c I; destruct (concatenation_x_bits l c I) as [-> | ->]; cbn; f_equal; ring.
Qed.
Lemma xxy_offsets_fin e u m o1 o2 cum : xxy_offsets e (Fin u) m o1 o2 cum =
  map Fin (even_count_values leb eqb (xy_positions 0 u Rplus m o1 o2 cum)).
Proof.
  unfold xxy_offsets, xy_positions; cbv zeta; set (ops := filter _ _).
  replace (map (fun c => xmul (Fin (if Z.eqb c m then 0 else 1)) (Fin u)) ops) with (map Fin (map (fun c => if Z.eqb c m then 0 else u) ops)).
  - rewrite (running_morph Fin Rplus xadd) by reflexivity; apply even_fin.
  - rewrite map_map; apply map_ext; intros c; cbn; f_equal; destruct (Z.eqb c m); ring.
Qed.
Lemma xxy_slots_fin e u l : xxy_slots e (Fin u) l = map (fslot Fin) (xy_slots 0 u Rplus leb eqb ltb l).
Proof.
  unfold xxy_slots, xy_slots; cbv zeta; rewrite !xxy_offsets_fin; fold (rabi_offsets 0 u Rplus leb eqb (concatenation_xy l)).
  fold (azimuthal_offsets 0 u Rplus leb eqb (concatenation_xy l)); fold (detuning_offsets 0 u Rplus leb eqb (concatenation_xy l)).
  rewrite !map_length, (merge_morph Fin ltb xlt) by reflexivity.
  assert (R : forall n, repeat (blank (Fin 0)) n = map (fslot Fin) (repeat (blank 0) n)) by (induction n; cbn [repeat map]; f_equal; auto).
  rewrite R, <- map_app, map_length; apply (z_loop_morph Fin ltb xlt 0 (Fin 0)); reflexivity.
Qed.

Theorem xsequences_finite e r T pre name :
  xbuild_sequence e (fin_request r) (Fin T) pre name = map_result fin_sequence (build_sequence r T pre name).
Proof.
  destruct r; cbn [fin_request xbuild_sequence build_sequence].
  - unfold xnew_ramsey_sequence, new_ramsey_sequence; apply bind_map; destruct pre.
    + rewrite <- xsequence_finite; reflexivity.
    + apply (xsequence_finite T [] [] [] []).
  - unfold xnew_spin_echo_sequence, new_spin_echo_sequence; apply bind_map; rewrite xdivide_fin by lra.
    rewrite <- xfinish_fin, <- xuniform_fin; reflexivity.
  - unfold xnew_carr_purcell_sequence, new_carr_purcell_sequence; do 2 apply bind_map; rewrite xint_fin; cbn [bind].
    rewrite xcp_fin, xuniform_fin; apply xfinish_fin.
  - unfold xnew_cpmg_sequence, new_cpmg_sequence; do 2 apply bind_map; rewrite xint_fin; cbn [bind].
    rewrite xcp_fin, xuniform_fin; apply xfinish_fin.
  - unfold xnew_uhrig_sequence, new_uhrig_sequence; do 2 apply bind_map; rewrite xint_fin; cbn [bind].
    rewrite xuhrig_fin, xuniform_fin; apply xfinish_fin.
  - unfold xnew_periodic_sequence, new_periodic_sequence; do 2 apply bind_map; rewrite xint_fin; cbn [bind].
    rewrite xperiodic_fin, xuniform_fin; apply xfinish_fin.
  - unfold xnew_walsh_sequence, new_walsh_sequence; do 2 apply bind_map; rewrite xint_fin; cbn [bind].
    rewrite <- xfinish_fin, <- xuniform_fin, map_map; reflexivity.
  - unfold xnew_quadratic_sequence, new_quadratic_sequence; do 3 apply bind_map; rewrite !xint_fin; cbn [bind]; cbv zeta.
    rewrite <- xfinish_fin; unfold xarr; cbn [a_offsets a_rabi a_azimuthal a_detuning].
    rewrite xquadratic_fin, concat_map_fin, removelast_map, map_length; reflexivity.
  - unfold xnew_x_concatenated_sequence, new_x_concatenated_sequence; do 2 apply bind_map; rewrite xint_fin; cbn [bind]; cbv zeta.
    rewrite xdivide_fin by (apply pow_nonzero; lra); rewrite xx_offsets_fin, xuniform_fin; apply xfinish_fin.
  - unfold xnew_xy_concatenated_sequence, new_xy_concatenated_sequence; do 2 apply bind_map; rewrite xint_fin; cbn [bind]; cbv zeta.
    rewrite xdivide_fin by (apply pow_nonzero; lra); rewrite xxy_slots_fin, <- xfinish_fin; unfold xarr; cbn [a_offsets a_rabi a_azimuthal a_detuning].
    rewrite !map_map; reflexivity.
Qed.

(** ** Rejected requests *)

Lemma xle_1 x : xle (Fin 1) x = true <-> at_least_one x.
Proof.
  destruct x as [r|n|]; cbn; [rewrite leb_true; tauto| |].
  - destruct n; cbn; split; congruence.
  - split; [discriminate|tauto].
Qed.
Lemma xle_1_false x : ~ at_least_one x -> xle (Fin 1) x = false.
Proof. rewrite <- xle_1; destruct (xle (Fin 1) x); tauto. Qed.
Lemma bind_false {X} b d args ex (k : unit -> result X) : b = false -> argument_error (bind (check_arguments b d args ex) k).
Proof. intros ->; do 3 eexists; reflexivity. Qed.
Lemma argument_bind {X Y} (r : result X) (k : X -> result Y) : argument_error r -> argument_error (bind r k).
Proof. intros [a [b [c ->]]]; do 3 eexists; reflexivity. Qed.
Lemma bind_true {X} b d args ex (k : unit -> result X) : b = true -> bind (check_arguments b d args ex) k = k tt.
Proof. intros ->; reflexivity. Qed.

Theorem xsequences_rejected e r T pre name :
  (~ Spec_Extended.positive T -> xbuild_sequence e r T pre name =
     Raise (ArgumentsValueError "Sequence duration must be greater than zero." ["duration"] [])) /\
  (Spec_Extended.positive T -> ~ xvalid_request r -> argument_error (xbuild_sequence e r T pre name)) /\
  (Spec_Extended.positive T -> xvalid_request r -> infinite_count r -> overflow_error (xbuild_sequence e r T pre name)).
Proof.
  split; [|split].
  - intros N; assert (F : xlt (Fin 0) T = false) by (destruct (xlt (Fin 0) T) eqn:E; auto; apply xlt_0 in E; tauto).
    destruct r; cbn [xbuild_sequence]; unfold xnew_ramsey_sequence, xnew_spin_echo_sequence, xnew_carr_purcell_sequence, xnew_cpmg_sequence,
      xnew_uhrig_sequence, xnew_periodic_sequence, xnew_walsh_sequence, xnew_quadratic_sequence, xnew_x_concatenated_sequence,
      xnew_xy_concatenated_sequence, xcheck_duration; rewrite F; reflexivity.
  - intros P N; apply xlt_0 in P; destruct r; cbn [xbuild_sequence xvalid_request] in *; try tauto;
      unfold xnew_carr_purcell_sequence, xnew_cpmg_sequence,
      xnew_uhrig_sequence, xnew_periodic_sequence, xnew_walsh_sequence, xnew_quadratic_sequence, xnew_x_concatenated_sequence,
      xnew_xy_concatenated_sequence, xcheck_duration; rewrite bind_true by auto;
      try (solve [apply bind_false, xle_1_false; auto]).
    + apply bind_false; destruct (xle (Fin 1) k && xle k (Fin 2000)) eqn:E; auto; exfalso; apply N.
      apply andb_prop in E; destruct E as [E1 E2]; destruct k as [k|n|]; cbn in E1, E2; [|destruct n; discriminate|discriminate].
      apply leb_true in E1, E2; eauto.
    + destruct (xle (Fin 1) n1) eqn:E1; [|apply bind_false; auto]; rewrite bind_true by auto; apply bind_false, xle_1_false; apply xle_1 in E1; tauto.
  - intros P V I; apply xlt_0 in P; destruct r; cbn [xbuild_sequence infinite_count xvalid_request] in *; try tauto;
      unfold xnew_carr_purcell_sequence, xnew_cpmg_sequence,
      xnew_uhrig_sequence, xnew_periodic_sequence, xnew_quadratic_sequence, xnew_x_concatenated_sequence,
      xnew_xy_concatenated_sequence, xcheck_duration; rewrite bind_true by auto; try (rewrite I; eexists; reflexivity).
    destruct V as [V1 V2]; rewrite !bind_true by (apply xle_1; auto).
    destruct n1 as [n1|s1|]; [|eexists; reflexivity|destruct V1].
    destruct I as [I|I]; [discriminate|]; rewrite I; eexists; reflexivity.
Qed.

(** ** Infinite duration *)

Lemma endless_accepts ts r a d name s : DynamicDecouplingSequence 1 ts r a d name = Ok s ->
  xDynamicDecouplingSequence (Inf false) (map endless_time ts) (map Fin r) (map Fin a) (map Fin d) name = Ok (endless s).
Proof.
  intros E; destruct (sequence_construction 1 ts r a d name) as [[V _] [F _]].
  destruct (V (ex_intro _ s E)) as [_ [_ [L1 [L2 L3]]]]; destruct (F s E) as [A1 [A2 [A3 [A4 [A5 A6]]]]].
  unfold endless; rewrite A2, A3, A4, A5, A6; apply xsequence_accepts; split; [reflexivity|]; rewrite !map_length; split; auto.
  intros t I; apply in_map_iff in I; destruct I as [x [<- _]]; unfold endless_time; destruct (Req_EM_T x 0); cbn; split; auto; lra.
Qed.
Lemma endless_0 : endless_time 0 = Fin 0. Proof. unfold endless_time; destruct (Req_EM_T 0 0); lra || auto. Qed.
Lemma endless_pos x : 0 < x -> endless_time x = Inf false. Proof. intros; unfold endless_time; destruct (Req_EM_T x 0); auto; lra. Qed.
Lemma xfinish_endless a pre name s : finish 1 a pre name = Ok s ->
  xfinish (Inf false) (MkXArrays (map endless_time (a_offsets a)) (a_rabi a) (a_azimuthal a) (a_detuning a)) pre name = Ok (endless s).
Proof.
  unfold finish, xfinish; destruct pre; cbn [bind]; [|apply endless_accepts].
  unfold xadd_pre_post_rotations, add_pre_post_rotations; cbv zeta.
  change (xcount_pulses ?r ?p ?d (MkXArrays _ (a_rabi a) (a_azimuthal a) (a_detuning a))) with (count_pulses r p d a).
  cbn [xa_offsets]; rewrite map_length; destruct (check_arguments _ _ _ _) as [[]|e]; cbn [bind]; [|discriminate].
  intros E; cbn [xa_offsets xa_rabi xa_azimuthal xa_detuning a_offsets a_rabi a_azimuthal a_detuning] in *.
  apply endless_accepts in E; unfold np_insert_ends in *; rewrite !map_cons, !map_app in *; cbn [map] in *.
  rewrite endless_0, (endless_pos 1) in E by lra; exact E.
Qed.
Lemma mul_endless_l x y : 0 < y -> 0 < x -> xmul (Inf false) (Fin x) = endless_time y.
Proof.
  intros Y X; rewrite endless_pos by auto; cbn; rewrite (proj2 (eqb_false x 0)), (proj2 (ltb_false x 0)) by lra; auto.
Qed.
Lemma mul_endless_r x y : 0 < y -> 0 < x -> xmul (Fin x) (Inf false) = endless_time y.
Proof.
  intros Y X; rewrite endless_pos by auto; cbn; rewrite (proj2 (eqb_false x 0)), (proj2 (ltb_false x 0)) by lra; auto.
Qed.
Lemma finish_times a s : finish 1 a false None = Ok s -> offsets s = a_offsets a.
Proof. intros E; apply (sequence_construction 1 _ _ _ _ None) in E; tauto. Qed.
(** a builder with one kind of pulse *)
Lemma endless_uniform l l' r p d pre name s :
  (forall pre name, exists s, finish 1 (uniform_arrays l r p d) pre name = Ok s /\ (pre = false -> forall t, In t (offsets s) -> 0 < t)) ->
  ((forall t, In t l -> 0 < t) -> l' = map endless_time l) ->
  finish 1 (uniform_arrays l r p d) pre name = Ok s -> xfinish (Inf false) (xuniform_arrays l' r p d) pre name = Ok (endless s).
Proof.
  intros V H E; destruct (V false None) as [s0 [E0 P]].
  rewrite H by (intros t I; apply (P eq_refl); rewrite (finish_times _ _ E0); auto).
  apply xfinish_endless in E; unfold xuniform_arrays; rewrite map_length; exact E.
Qed.

(** the checks of a valid request pass *)
Lemma valid_count x : 1 <= x -> xle (Fin 1) (Fin x) = true. Proof. apply leb_true. Qed.

Lemma inf_divide x : 0 < x -> xdivide (Inf false) (Fin x) = Inf false.
Proof. intros H; cbn; destruct (ltb x 0) eqn:E; auto; apply ltb_true in E; lra. Qed.

Theorem xsequences_stretched e r pre name : valid_request r ->
  match r with SpinEcho | CarrPurcell _ | CPMG _ | Uhrig _ | Periodic _ | Walsh _ => True | _ => False end ->
  exists s, build_sequence r 1 pre name = Ok s /\ xbuild_sequence e (fin_request r) (Inf false) pre name = Ok (endless s).
Proof.
  intros V K.
  assert (W : forall pre name, exists s, build_sequence r 1 pre name = Ok s /\ (pre = false -> forall t, In t (offsets s) -> 0 < t)).
  { intros pre0 name0; destruct (proj1 (request_validity r 1 pre0 name0) (conj Rlt_0_1 V)) as [s0 [E0 [_ [_ [_ [_ [B0 _]]]]]]].
    exists s0; split; [exact E0|]; intros Q t J; apply (B0 Q t J). }
  destruct (W pre name) as [s [E _]]; exists s; split; auto.
  destruct r; try tauto; cbn [valid_request] in V; cbn [fin_request xbuild_sequence build_sequence] in *.
  - unfold xnew_spin_echo_sequence, new_spin_echo_sequence, xcheck_duration, check_duration in *; rewrite bind_true by reflexivity.
    setoid_rewrite bind_true in W; [|apply ltb_true; lra]; rewrite bind_true in E by (apply ltb_true; lra).
    refine (endless_uniform _ _ _ _ _ _ _ _ W _ E); intros _; cbn [map]; rewrite endless_pos, inf_divide by lra; auto.
  - unfold xnew_carr_purcell_sequence, new_carr_purcell_sequence, xcheck_duration, check_duration, xcheck_offset_count, check_offset_count in *.
    rewrite !bind_true by (reflexivity || apply leb_true; auto).
    setoid_rewrite bind_true in W; [|apply ltb_true; lra]; rewrite bind_true in E by (apply ltb_true; lra).
    setoid_rewrite bind_true in W; [|apply leb_true; auto]; rewrite bind_true in E by (apply leb_true; auto).
    rewrite xint_fin; cbn [bind]; refine (endless_uniform _ _ _ _ _ _ _ _ W _ E).
    unfold carr_purcell_meiboom_gill_offsets, xcarr_purcell_offsets; cbv zeta; intros P; rewrite map_map; apply map_ext_in; intros k I.
    apply (in_map (fun i => (1 / INR (int_count n) * INR i + 1 / INR (int_count n) * (5 / 10)) * 1)), P in I; apply mul_endless_r; lra.
  - unfold xnew_cpmg_sequence, new_cpmg_sequence, xcheck_duration, check_duration, xcheck_offset_count, check_offset_count in *.
    rewrite !bind_true by (reflexivity || apply leb_true; auto).
    setoid_rewrite bind_true in W; [|apply ltb_true; lra]; rewrite bind_true in E by (apply ltb_true; lra).
    setoid_rewrite bind_true in W; [|apply leb_true; auto]; rewrite bind_true in E by (apply leb_true; auto).
    rewrite xint_fin; cbn [bind]; refine (endless_uniform _ _ _ _ _ _ _ _ W _ E).
    unfold carr_purcell_meiboom_gill_offsets, xcarr_purcell_offsets; cbv zeta; intros P; rewrite map_map; apply map_ext_in; intros k I.
    apply (in_map (fun i => (1 / INR (int_count n) * INR i + 1 / INR (int_count n) * (5 / 10)) * 1)), P in I; apply mul_endless_r; lra.
  - unfold xnew_uhrig_sequence, new_uhrig_sequence, xcheck_duration, check_duration, xcheck_offset_count, check_offset_count in *.
    rewrite !bind_true by (reflexivity || apply leb_true; auto).
    setoid_rewrite bind_true in W; [|apply ltb_true; lra]; rewrite bind_true in E by (apply ltb_true; lra).
    setoid_rewrite bind_true in W; [|apply leb_true; auto]; rewrite bind_true in E by (apply leb_true; auto).
    rewrite xint_fin; cbn [bind]; refine (endless_uniform _ _ _ _ _ _ _ _ W _ E).
    unfold uhrig_single_axis_offsets, xuhrig_offsets; cbv zeta; intros P; rewrite map_map; apply map_ext_in; intros k I.
    apply (in_map (fun i => 1 * sin (PI * INR i * (1 / (2 * INR (int_count n) + 2))) ^ 2)), P in I; apply mul_endless_l; lra.
  - unfold xnew_periodic_sequence, new_periodic_sequence, xcheck_duration, check_duration, xcheck_offset_count, check_offset_count in *.
    rewrite !bind_true by (reflexivity || apply leb_true; auto).
    setoid_rewrite bind_true in W; [|apply ltb_true; lra]; rewrite bind_true in E by (apply ltb_true; lra).
    setoid_rewrite bind_true in W; [|apply leb_true; auto]; rewrite bind_true in E by (apply leb_true; auto).
    rewrite xint_fin; cbn [bind]; refine (endless_uniform _ _ _ _ _ _ _ _ W _ E).
    unfold periodic_offsets, xperiodic_offsets; cbv zeta; intros P; rewrite map_map; apply map_ext_in; intros j I.
    apply (in_map (fun i => 1 * (INR i * (1 / (INR (int_count n) + 1))))), P in I; apply mul_endless_l; lra.
  - unfold xnew_walsh_sequence, new_walsh_sequence, xcheck_duration, check_duration in *.
    assert (Q : leb 1 k && leb k 2000 = true) by (apply andb_true_intro; split; apply leb_true; lra).
    rewrite !bind_true by (reflexivity || exact Q).
    setoid_rewrite bind_true in W; [|apply ltb_true; lra]; rewrite bind_true in E by (apply ltb_true; lra).
    setoid_rewrite bind_true in W; [|exact Q]; rewrite bind_true in E by exact Q.
    rewrite xint_fin; cbn [bind]; refine (endless_uniform _ _ _ _ _ _ _ _ W _ E).
    intros P; rewrite map_map; apply map_ext_in; intros x I.
    apply (in_map (Rmult 1)), P in I; apply mul_endless_l; lra.
Qed.

(** Ramsey: [0 * inf] is NaN *)
Theorem xramsey_endless e name :
  argument_error (xbuild_sequence e XRamsey (Inf false) true name) /\
  xbuild_sequence e XRamsey (Inf false) false name = Ok (MkXDDS (Inf false) [] [] [] [] name).
Proof.
  cbn [xbuild_sequence]; unfold xnew_ramsey_sequence, xcheck_duration; rewrite !bind_true by reflexivity; split.
  - apply xsequence_accepts; intros [_ [B _]]; destruct (B NaN) as [[] _].
    cbn [map xmul]; rewrite (proj2 (eqb_true 0 0)) by auto; left; auto.
  - apply xsequence_accepts; split; [reflexivity|]; split; [intros t []|auto].
Qed.

(** Quadratic: [inf - inf] is NaN *)
Lemma xfinish_nan a pre name : In NaN (xa_offsets a) -> argument_error (xfinish (Inf false) a pre name).
Proof.
  intros I; unfold xfinish; destruct pre; cbn [bind].
  - unfold xadd_pre_post_rotations; cbv zeta.
    match goal with |- context [check_arguments ?b _ _ _] => destruct b end; cbn [check_arguments bind]; [|do 3 eexists; reflexivity].
    apply xsequence_accepts; intros [_ [B _]]; destruct (B NaN) as [[] _]; cbn [xa_offsets]; right; apply in_or_app; auto.
  - apply xsequence_accepts; intros [_ [B _]]; destruct (B NaN I) as [[] _].
Qed.
Lemma int_count_pos x : 1 <= x -> exists n, int_count x = S n.
Proof.
  intros H; destruct (trunc x H) as [[|n] [P [T _]]]; [lia|]; exists n; apply int_count_truncates; auto.
Qed.
Theorem xquadratic_endless e n1 n2 pre name : 1 <= n1 -> 1 <= n2 ->
  argument_error (xbuild_sequence e (XQuadratic (Fin n1) (Fin n2)) (Inf false) pre name).
Proof.
  intros H1 H2; cbn [xbuild_sequence]; unfold xnew_quadratic_sequence, xcheck_duration.
  rewrite !bind_true by (reflexivity || apply leb_true; auto); rewrite !xint_fin; cbn [bind]; apply xfinish_nan; cbn [xa_offsets].
  destruct (int_count_pos n1 H1) as [a ->], (int_count_pos n2 H2) as [b ->].
  assert (U : forall n, xuhrig_offsets (Inf false) (S n) = repeat (Inf false) (S n)).
  { intros n; unfold xuhrig_offsets; cbv zeta.
    assert (G : forall k, In k (range 1 (S n)) -> xmul (Inf false) (Fin (sin (PI * INR k * (1 / (2 * INR (S n) + 2))) ^ 2)) = Inf false).
    { intros k I; apply in_seq in I; set (x := PI * INR k * (1 / (2 * INR (S n) + 2))).
      assert (0 < x < PI).
      { assert (1 <= INR k) by (apply (le_INR 1); lia). assert (INR k <= INR (S n)) by (apply le_INR; lia).
        unfold x; split; [apply Rmult_lt_0_compat; [generalize PI_RGT_0; nra|apply Rdiv_lt_0_compat; lra]|].
        unfold Rdiv; rewrite Rmult_1_l, Rmult_assoc; rewrite <- (Rmult_1_r PI) at 2; apply Rmult_lt_compat_l; [apply PI_RGT_0|].
        apply (Rmult_lt_reg_r (2 * INR (S n) + 2)); [lra|]; rewrite Rmult_assoc, Rinv_l by lra; lra. }
      assert (0 < sin x) by (apply sin_gt_0; lra); rewrite (mul_endless_l _ 1) by (try lra; apply pow_lt; auto); apply endless_pos; lra. }
    transitivity (map (fun _ : nat => Inf false) (range 1 (S n))); [apply map_ext_in; exact G|].
    replace (S n) with (List.length (range 1 (S n))) at 2 by apply seq_length; clear G.
    generalize (range 1 (S n)) as l; intros l; induction l as [|k l IH]; cbn; f_equal; auto. }
  unfold xquadratic_rows; cbv zeta; rewrite U.
  assert (D : exists r1 r2 rest, List.concat (map (fun x : xfloat * xfloat * xfloat => let (p, t1) := x in let (inner_duration, t0) := p in
      map (fun t => xadd t t0) (xuhrig_offsets inner_duration (S a)) ++ [t1])
      (combine (combine (xdiff (Fin 0 :: repeat (Inf false) (S b) ++ [Inf false])) (Fin 0 :: repeat (Inf false) (S b) ++ [Inf false]))
         (tl (Fin 0 :: repeat (Inf false) (S b) ++ [Inf false])))) = r1 ++ [NaN] ++ r2 :: rest).
  { cbn [repeat app tl xdiff combine map List.concat].
    set (row0 := map _ _ ++ [_]).
    replace (repeat (Inf false) b ++ [Inf false]) with (Inf false :: repeat (Inf false) b) by (clear; induction b; cbn; f_equal; auto).
    cbn [xdiff combine map List.concat]; unfold xuhrig_offsets at 1; cbv zeta; cbn [range seq map].
    change (xsub (Inf false) (Inf false)) with NaN; cbn [xmul xadd app].
    match goal with |- exists r1 r2 rest, row0 ++ NaN :: (?m ++ [?u]) ++ ?w = _ => exists row0; assert (N : exists q z, (m ++ [u]) ++ w = q :: z)
      by (destruct m as [|m0 m1]; cbn; eauto) end.
    destruct N as [q [z N]]; exists q, z; f_equal; cbn; f_equal; exact N. }
  destruct D as [r1 [r2 [rest ->]]].
  rewrite removelast_app by discriminate; apply in_or_app; right; left; reflexivity.
Qed.

(** concatenated sequences: the positions are some infinities, then NaN *)
Lemma running_nan l : running xadd NaN l = repeat NaN (List.length l).
Proof. induction l as [|x l IH]; cbn; auto; destruct x; cbn; rewrite IH; auto. Qed.
Lemma running_inf k l : running xadd (Inf false) (repeat (Inf false) k ++ NaN :: l) = repeat (Inf false) k ++ repeat NaN (S (List.length l)).
Proof. induction k as [|k IH]; cbn in *; [rewrite running_nan; auto|rewrite IH; auto]. Qed.
Lemma running_start k l : running xadd (Fin 0) (repeat (Inf false) (S k) ++ NaN :: l) = repeat (Inf false) (S k) ++ repeat NaN (S (List.length l)).
Proof. cbn [repeat app running xadd]; rewrite running_inf; auto. Qed.
Lemma running_all k : running xadd (Fin 0) (repeat (Inf false) (S k)) = repeat (Inf false) (S k).
Proof. cbn [repeat running xadd]; f_equal; induction k as [|k IH]; cbn in *; auto; rewrite IH; auto. Qed.

Lemma sort_nan b : sort nan_le (repeat NaN b) = repeat NaN b.
Proof. induction b as [|b IH]; auto; unfold sort in *; cbn [repeat fold_right]; rewrite IH; destruct b; auto. Qed.
Lemma sort_inf_nan a b : sort nan_le (repeat (Inf false) a ++ repeat NaN b) = repeat (Inf false) a ++ repeat NaN b.
Proof.
  induction a as [|a IH]; [apply sort_nan|]; unfold sort in *; cbn [repeat app fold_right]; rewrite IH.
  destruct a; [destruct b|]; auto.
Qed.
Definition nan_groups (e : bool) (b : nat) : list (xfloat * nat) :=
  if e then match b with O => [] | S _ => [(NaN, b)] end else repeat (NaN, 1%nat) b.
Lemma group_nan e b : group (nan_eq e) (repeat NaN b) = nan_groups e b.
Proof.
  induction b as [|b IH]; [destruct e; auto|]; cbn [repeat group]; rewrite IH; unfold nan_groups; destruct e, b; auto.
Qed.
Lemma group_inf_nan e a b : group (nan_eq e) (repeat (Inf false) a ++ repeat NaN b) =
  match a with O => [] | S _ => [(Inf false, a)] end ++ nan_groups e b.
Proof.
  induction a as [|a IH]; [apply group_nan|]; cbn [repeat app group]; rewrite IH; destruct a; [|destruct e; auto].
  cbn [app]; unfold nan_groups; destruct e, b; auto.
Qed.
Lemma nan_groups_even e b : filter (fun vc => Nat.even (snd vc)) (nan_groups e b) =
  if e && (negb (Nat.eqb b 0) && Nat.even b) then [(NaN, b)] else [].
Proof.
  unfold nan_groups; destruct e; cbn [andb].
  - destruct b as [|b]; auto; cbn [filter snd Nat.eqb negb]; destruct (Nat.even (S b)); auto.
  - induction b; auto.
Qed.
Lemma even_inf_nan e a b : even_count_values nan_le (nan_eq e) (repeat (Inf false) a ++ repeat NaN b) =
  (if negb (Nat.eqb a 0) && Nat.even a then [Inf false] else []) ++
  (if e && (negb (Nat.eqb b 0) && Nat.even b) then [NaN] else []).
Proof.
  unfold even_count_values, unique_counts; rewrite sort_inf_nan, group_inf_nan, filter_app, map_app, nan_groups_even; f_equal.
  - destruct a as [|a]; auto; cbn [filter snd Nat.eqb negb]; destruct (Nat.even (S a)); auto.
  - destruct (e && _); auto.
Qed.

Lemma concatenation_x_start l : exists r, concatenation_x (S l) = 1%Z :: 0%Z :: r /\ Nat.even (List.length r) = true.
Proof.
  induction l as [|l [r [E P]]]; [exists [1%Z; 0%Z]; auto|].
  exists (r ++ [0%Z] ++ concatenation_x (S l) ++ [0%Z]); split; [|].
  - change (concatenation_x (S (S l))) with (concatenation_x (S l) ++ [0%Z] ++ concatenation_x (S l) ++ [0%Z]); rewrite E at 1; auto.
  - rewrite E, !app_length; cbn [List.length]; rewrite !Nat.even_add, P; cbn [Nat.even]; rewrite P; auto.
Qed.
Lemma xx_offsets_inf e l : xx_offsets e (Inf false) (S l) = [].
Proof.
  unfold xx_offsets; cbv zeta; destruct (concatenation_x_start l) as [r [-> P]]; cbn [map].
  replace (xmul (Fin (IZR 1)) (Inf false)) with (Inf false) by
    (cbn; rewrite (proj2 (eqb_false 1 0)), (proj2 (ltb_false 1 0)) by lra; auto).
  replace (xmul (Fin (IZR 0)) (Inf false)) with NaN by (cbn; rewrite (proj2 (eqb_true 0 0)); auto).
  set (w := map _ r); change (Inf false :: NaN :: w) with (repeat (Inf false) 1 ++ NaN :: w); rewrite (running_start 0), even_inf_nan; unfold w; rewrite map_length.
  replace (Nat.even (S (List.length r))) with false by (rewrite Nat.even_succ, <- Nat.negb_even, P; auto).
  cbn; rewrite !Bool.andb_false_r; destruct (Nat.eqb _ _); auto.
Qed.
(** X concatenation: all pulses are lost *)
Theorem xx_endless e x pre name : 1 <= x ->
  exists s, build_sequence Ramsey 1 pre name = Ok s /\ xbuild_sequence e (XXConcatenated (Fin x)) (Inf false) pre name = Ok (endless s).
Proof.
  intros H; destruct (ramsey_timing 1 pre name) as [R _]; eexists; split; [exact (R Rlt_0_1)|].
  cbn [xbuild_sequence]; unfold xnew_x_concatenated_sequence, xcheck_duration, xcheck_concatenation_order.
  rewrite !bind_true by (reflexivity || apply leb_true; auto); rewrite xint_fin; cbn [bind].
  destruct (int_count_pos x H) as [l ->]; rewrite inf_divide by (apply pow_lt; lra); rewrite xx_offsets_inf.
  apply (xfinish_endless (uniform_arrays [] PI 0 0)); apply (uniform_finish AX 1 [] pre name); [lra|intros t []].
Qed.

(** XY concatenation *)
Definition y_ops (l : list Z) : list Z := filter (fun c => negb (Z.eqb c (-3))) (filter (fun c => negb (Z.eqb c (-1))) l).
Definition z_ops (l : list Z) : list Z := filter (fun c => negb (Z.eqb c (-1))) (filter (fun c => negb (Z.eqb c (-2))) l).
Lemma y_ops_app a b : y_ops (a ++ b) = y_ops a ++ y_ops b. Proof. unfold y_ops; rewrite !filter_app; auto. Qed.
Lemma z_ops_app a b : z_ops (a ++ b) = z_ops a ++ z_ops b. Proof. unfold z_ops; rewrite !filter_app; auto. Qed.
Lemma set_last_app v l c : set_last v (l ++ [c]) = l ++ [v].
Proof. unfold set_last; rewrite removelast_last; destruct (l ++ [c]) eqn:E; auto; destruct l; discriminate. Qed.
Lemma y_ops_even l : (1 <= l)%nat -> exists Q c, concatenation_xy l = Q ++ [c] /\ y_ops [c] = [c] /\ Nat.even (List.length (y_ops (concatenation_xy l))) = true.
Proof.
  induction l as [|l IH]; intros H; [lia|]; destruct (Nat.eq_dec l 0) as [->|N].
  - exists [1; -1; 1; -2; 1; -1; 1]%Z, (-2)%Z; repeat split.
  - destruct IH as [Q [c [E [Y P]]]]; [lia|].
    rewrite concatenation_xy_S by (auto; try lia; rewrite E; destruct Q; discriminate).
    unfold xy_step; rewrite E, set_last_app, removelast_last; rewrite (app_assoc (_ ++ _) Q [c]), set_last_app, <- !app_assoc; cbn [app].
    set (W := Q ++ (-3)%Z :: Q ++ Q ++ [(-3)%Z]); unfold xy_trim.
    replace (Q ++ (-3)%Z :: Q ++ Q ++ (-3)%Z :: Q ++ [c; (-2)%Z]) with ((W ++ Q ++ [c]) ++ [(-2)%Z])
      by (unfold W; repeat (rewrite <- !app_assoc; cbn [app]); auto).
    rewrite removelast_last, last_last; rewrite (app_assoc W Q [c]), last_last; cbn [Z.eqb Pos.eqb andb].
    rewrite E, y_ops_app, Y, app_length in P; cbn [List.length] in P; rewrite Nat.add_1_r, Nat.even_succ, <- Nat.negb_even in P.
    destruct (Z.eqb c (-2)) eqn:C.
    + rewrite removelast_last.
      assert (QN : exists Q' d, Q = Q' ++ [d] /\ y_ops [d] = [d]).
      { destruct (Nat.eq_dec l 1) as [->|N1].
        - change (concatenation_xy 1) with ([1; -1; 1; -2; 1; -1; 1]%Z ++ [(-2)%Z]) in E; apply app_inj_tail in E; destruct E as [<- _].
          exists [1; -1; 1; -2; 1; -1]%Z, 1%Z; split; auto.
        - destruct (xy_shape l) as [S [t [E' T]]]; [lia|]; rewrite E in E'; apply Z.eqb_eq in C; subst c; destruct T as [-> | ->].
          + exfalso; rewrite app_nil_r in E'; change ([-3; 1; -1; 1; -2; 1; -1; 1]%Z) with ([-3; 1; -1; 1; -2; 1; -1]%Z ++ [1%Z]) in E'.
            rewrite app_assoc, app_comm_cons in E'; apply app_inj_tail in E'; destruct E'; discriminate.
          + rewrite app_assoc, app_comm_cons in E'; apply app_inj_tail in E'; destruct E' as [-> _].
            exists (1%Z :: S ++ [-3; 1; -1; 1; -2; 1; -1]%Z), 1%Z; split; auto; rewrite <- app_comm_cons, <- app_assoc; auto. }
      destruct QN as [Q' [d [EQ YD]]]; exists (W ++ Q'), d; split; [rewrite <- app_assoc, <- EQ; auto|split; auto].
      unfold W; repeat (rewrite y_ops_app || rewrite app_length); change (y_ops ((-3)%Z :: Q ++ Q ++ [(-3)%Z])) with (y_ops (Q ++ Q ++ [(-3)%Z])).
      repeat (rewrite y_ops_app || rewrite app_length); cbn [List.length y_ops filter Z.eqb Pos.eqb negb].
      repeat rewrite Nat.even_add; destruct (Nat.even (List.length (y_ops Q))); auto; discriminate.
    + exists ((W ++ Q) ++ [c]), (-2)%Z; split; auto; split; auto.
      unfold W; repeat (rewrite y_ops_app || rewrite app_length); change (y_ops ((-3)%Z :: Q ++ Q ++ [(-3)%Z])) with (y_ops (Q ++ Q ++ [(-3)%Z])).
      repeat (rewrite y_ops_app || rewrite app_length); rewrite Y; cbn [List.length y_ops filter Z.eqb Pos.eqb negb].
      repeat rewrite Nat.even_add; destruct (Nat.even (List.length (y_ops Q))); auto; discriminate.
Qed.
Lemma xy_start l : (1 <= l)%nat -> exists r, concatenation_xy l = [1; -1; 1; -2; 1; -1; 1]%Z ++ r /\ (r = [(-2)%Z] \/ exists r', r = (-3)%Z :: r').
Proof.
  intros H; destruct (Nat.eq_dec l 1) as [->|N1]; [exists [(-2)%Z]; auto|].
  destruct (Nat.eq_dec l 2) as [->|N2]; [eexists; split; [reflexivity|right; eexists; reflexivity]|].
  destruct (xy_prefix_spec l) as [r [E _]]; [lia|]; rewrite E.
  exists (skipn 7 xy_prefix ++ r); split; [reflexivity|right; eexists; reflexivity].
Qed.
Definition op_time (m c : Z) : xfloat := xmul (Fin (if Z.eqb c m then 0 else 1)) (Inf false).
Lemma op_time_eq m c : op_time m c = if Z.eqb c m then NaN else Inf false.
Proof.
  unfold op_time; destruct (Z.eqb c m); cbn; [rewrite (proj2 (eqb_true 0 0)); auto|].
  rewrite (proj2 (eqb_false 1 0)), (proj2 (ltb_false 1 0)) by lra; auto.
Qed.
Lemma xy_y_inf e l : (1 <= l)%nat -> xxy_offsets e (Inf false) (-2) (-1) (-3) (concatenation_xy l) = Inf false :: (if e then [NaN] else []).
Proof.
  intros H; unfold xxy_offsets; cbv zeta; fold (y_ops (concatenation_xy l)); destruct (y_ops_even l H) as [_ [_ [_ [_ P]]]].
  destruct (xy_start l H) as [r [E _]]; rewrite E, y_ops_app in *; change (y_ops [1; -1; 1; -2; 1; -1; 1]%Z) with [1; 1; -2; 1; 1]%Z in *.
  fold (op_time (-2)); cbn [app map]; rewrite !op_time_eq; cbn [Z.eqb Pos.eqb].
  set (w := Inf false :: Inf false :: map _ _); change (Inf false :: Inf false :: NaN :: w) with (repeat (Inf false) 2 ++ NaN :: w).
  assert (PW : Nat.even (S (List.length w)) = true) by (unfold w; cbn [List.length]; rewrite map_length; rewrite app_length in P; exact P).
  rewrite (running_start 1), even_inf_nan, PW; destruct e; auto.
Qed.
Lemma xy_z_inf e l : (1 <= l)%nat -> exists t, xxy_offsets e (Inf false) (-3) (-2) (-1) (concatenation_xy l) = Inf false :: t /\ (e = false -> t = []) /\
  (forall z, In z t -> z = NaN).
Proof.
  intros H; unfold xxy_offsets; cbv zeta; fold (z_ops (concatenation_xy l)).
  destruct (xy_start l H) as [r [E C]]; rewrite E, z_ops_app; change (z_ops [1; -1; 1; -2; 1; -1; 1]%Z) with [1; 1; 1; 1]%Z.
  fold (op_time (-3)); destruct C as [-> | [r' ->]].
  - cbn [app map z_ops filter Z.eqb Pos.eqb negb]; rewrite !op_time_eq; cbn [Z.eqb Pos.eqb]; exists [].
    change [Inf false; Inf false; Inf false; Inf false] with (repeat (Inf false) 4); rewrite (running_all 3), <- (app_nil_r (repeat _ 4)).
    change [] with (repeat NaN 0); rewrite even_inf_nan; cbn; rewrite Bool.andb_false_r; split; auto; split; auto; intros z [].
  - change (z_ops ((-3)%Z :: r')) with ((-3)%Z :: z_ops r'); cbn [app map]; rewrite !op_time_eq; cbn [Z.eqb Pos.eqb].
    set (w := map _ _); change (Inf false :: Inf false :: Inf false :: Inf false :: NaN :: w) with (repeat (Inf false) 4 ++ NaN :: w).
    rewrite (running_start 3), even_inf_nan; cbn [Nat.eqb negb Nat.even andb app]; eexists; split; [reflexivity|].
    split; [intros ->; auto|]; intros z; destruct (e && _); [intros [<-|[]]|intros []]; auto.
Qed.
Lemma xy_x_inf e l : (1 <= l)%nat -> exists t, xxy_offsets e (Inf false) (-1) (-2) (-3) (concatenation_xy l) = t /\ (e = false -> t = []).
Proof.
  intros H; eexists; split; [reflexivity|]; intros ->.
  unfold xxy_offsets; cbv zeta; destruct (xy_start l H) as [r [E _]]; rewrite E, !filter_app.
  fold (op_time (-1)); cbn [filter Z.eqb Pos.eqb negb app map]; rewrite !op_time_eq; cbn [Z.eqb Pos.eqb].
  set (w := Inf false :: Inf false :: _); change (Inf false :: NaN :: w) with (repeat (Inf false) 1 ++ NaN :: w).
  rewrite (running_start 0), even_inf_nan; auto.
Qed.
Lemma z_loop_none is : forall zs (l : list (@slot xfloat)), (forall z, In z zs -> z = Inf false \/ z = NaN) -> z_loop (Fin 0) xlt is zs l = l.
Proof.
  induction is as [|i is IH]; intros zs l H; destruct zs as [|z zs]; cbn; auto.
  replace (xlt z (sl_offset (nth i l (blank (Fin 0))))) with false; [apply IH; auto|].
  destruct (H z (or_introl eq_refl)) as [-> | ->]; destruct (sl_offset _) as [|[]|]; auto.
Qed.
Lemma merge_has_y n : forall xs ys y, In y ys -> (List.length xs + List.length ys <= n)%nat -> In y (map sl_offset (merge_xy xlt n xs ys)).
Proof.
  induction n as [|n IH]; intros xs ys y I L; [destruct ys; cbn in *; [tauto|lia]|].
  destruct ys as [|y0 ys]; [destruct I|]; destruct xs as [|x xs]; cbn [merge_xy].
  - destruct I as [<-|I]; [left; auto|right; apply IH; cbn in *; auto; lia].
  - destruct (xlt x y0).
    + right; apply IH; cbn in *; auto; lia.
    + destruct I as [<-|I]; [left; auto|right; apply IH; cbn in *; auto; lia].
Qed.
Theorem xxy_endless e x pre name : 1 <= x ->
  (e = true \/ pre = true -> argument_error (xbuild_sequence e (XXYConcatenated (Fin x)) (Inf false) pre name)) /\
  (e = false -> pre = false -> xbuild_sequence e (XXYConcatenated (Fin x)) (Inf false) pre name =
     Ok (MkXDDS (Inf false) [Inf false; Fin 0] (map Fin [PI; 0]) (map Fin [PI / 2; 0]) (map Fin [0; 0]) name)).
Proof.
  intros H; cbn [xbuild_sequence]; unfold xnew_xy_concatenated_sequence, xcheck_duration, xcheck_concatenation_order.
  rewrite !bind_true by (reflexivity || apply leb_true; auto); rewrite xint_fin; cbn [bind].
  destruct (int_count_pos x H) as [n ->]; rewrite inf_divide by (apply pow_lt; lra).
  assert (L : (1 <= S n)%nat) by lia; unfold xxy_slots; cbv zeta.
  rewrite (xy_y_inf e _ L); destruct (xy_z_inf e _ L) as [t [-> [TN TZ]]]; destruct (xy_x_inf e _ L) as [u [-> UN]].
  rewrite z_loop_none by (intros z [<-|I]; auto).
  destruct e.
  - split; [intros _|discriminate]; apply xfinish_nan; cbn [xa_offsets]; rewrite map_app; apply in_or_app; left; apply merge_has_y; cbn; auto.
  - rewrite TN, UN by auto; cbn [List.length Nat.add merge_xy app repeat map sl_offset sl_rabi sl_azimuthal sl_detuning blank]; split.
    + intros [Q|Q]; [discriminate|subst pre]; unfold xfinish, xadd_pre_post_rotations; cbv zeta; unfold xcount_pulses; cbn [xa_offsets xa_rabi xa_azimuthal xa_detuning combine].
      cbn [bind]; apply argument_bind; apply bind_false; apply Nat.eqb_neq; cbn [List.length filter].
      rewrite ?isclose_refl, ?isclose_0_PI, ?isclose_PI2_0, ?isclose_PI_0, ?isclose_0_PI2; cbn; lia.
    + intros _ ->; unfold xfinish; cbn [bind xa_offsets xa_rabi xa_azimuthal xa_detuning]; apply xsequence_accepts; split; [reflexivity|]; split; [|auto].
      intros t0 [<-|[<-|[]]]; cbn; split; auto; lra.
Qed.
