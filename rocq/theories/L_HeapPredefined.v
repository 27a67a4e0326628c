(** * Programs on the heap: predefined sequences *)

From Coq Require Import Lia Lra.
From Verif Require Import Spec_Qubit L_Base.
From Verif Require Export L_HeapConvert Spec_HeapPredefined.
Import ListNotations.
Open Scope string_scope.
Open Scope list_scope.
Open Scope R_scope.

(** ** Writing several positions of a block *)

Fixpoint put (ps : list nat) (xs : list R) (vs : list R) : list R :=
  match ps, xs with
  | p :: ps', x :: xs' => put ps' xs' (set_nth p x vs)
  | _, _ => vs
  end.
Lemma put_length : forall ps xs vs, List.length (put ps xs vs) = List.length vs.
Proof. induction ps; intros [|x xs] vs; cbn; auto; rewrite IHps, length_set_nth; auto. Qed.
Lemma set_nth_twice {A} (x y : A) : forall i l, set_nth i y (set_nth i x l) = set_nth i y l.
Proof. induction i; intros [|z l]; cbn; auto; f_equal; auto. Qed.
Lemma nth_error_set_same {A} (x : A) : forall i l, (i < List.length l)%nat -> nth_error (set_nth i x l) i = Some x.
Proof. induction i; intros [|z l] L; cbn in *; try lia; auto; apply IHi; lia. Qed.
Lemma set_nth_same {A} : forall i (l : list A) x, nth_error l i = Some x -> set_nth i x l = l.
Proof. induction i; intros [|z l] x E; cbn in *; try discriminate; [congruence|f_equal; auto]. Qed.
Lemma nth_error_lt {A} (l : list A) i x : nth_error l i = Some x -> (i < List.length l)%nat.
Proof. intros E; apply nth_error_Some; congruence. Qed.
Lemma write_block h i f : forall ps xs l vs, nth_error l i = Some (Cell f vs) ->
  write (h ++ l) (List.length h + i) ps xs = h ++ set_nth i (Cell f (put ps xs vs)) l.
Proof.
  induction ps as [|p ps IH]; intros xs l vs E.
  - cbn; rewrite set_nth_same; auto.
  - destruct xs as [|x xs]; [cbn; rewrite set_nth_same; auto|].
    cbn [write put]; unfold write1; rewrite (block_cell _ _ _ _ E), set_nth_far; cbn [c_float c_values].
    rewrite (IH _ _ (set_nth p x vs)) by (apply nth_error_set_same; eapply nth_error_lt; eauto).
    rewrite set_nth_twice; auto.
Qed.
Lemma assign_block h l i f vs ps xs : nth_error l i = Some (Cell f vs) -> List.length ps = List.length xs ->
  assign (Array (List.length h + i) ps) xs (h ++ l) = (Ok tt, h ++ set_nth i (Cell f (put ps xs vs)) l).
Proof.
  intros E L; unfold assign, size; cbn [nd_at nd_base]; rewrite L, Nat.eqb_refl, (write_block _ _ f _ _ _ vs); auto.
Qed.
Lemma put_app : forall ps1 ps2 xs1 xs2 vs, List.length ps1 = List.length xs1 ->
  put (ps1 ++ ps2) (xs1 ++ xs2) vs = put ps2 xs2 (put ps1 xs1 vs).
Proof. induction ps1; intros ps2 [|x xs1] xs2 vs L; cbn in *; try discriminate; auto. Qed.
Lemma put_seq : forall xs p ys q, List.length ys = List.length xs ->
  put (seq (List.length p) (List.length xs)) xs (p ++ ys ++ q) = p ++ xs ++ q.
Proof.
  induction xs as [|x xs IH]; intros p [|y ys] q L; cbn in L; try discriminate; auto.
  cbn [List.length seq put]; rewrite <- app_comm_cons, set_nth_app.
  assert (X := IH (p ++ [x]) ys q); rewrite app_length, Nat.add_1_r, <- !app_assoc in X; cbn in X; apply X; lia.
Qed.
Lemma put_seq_all xs ys n : List.length ys = List.length xs -> n = List.length xs -> put (seq 0 n) xs ys = xs.
Proof. intros L ->; assert (X := put_seq xs [] ys [] L); cbn in X; rewrite !app_nil_r in X; auto. Qed.
Lemma full_length n x : List.length (np_full n x) = n.
Proof. apply repeat_length. Qed.
Lemma size_whole b n : size (whole b n) = n.
Proof. apply seq_length. Qed.
Lemma slice_whole b n a c : (c <= n)%nat -> slice (whole b n) a c = Array b (seq a (c - a)).
Proof.
  intros L; unfold slice, whole; cbn [nd_base nd_at]; f_equal.
  destruct (Nat.le_gt_cases a c) as [H|H].
  - replace n with (a + (n - a))%nat by lia; rewrite seq_app, skipn_app, skipn_all2 by (rewrite seq_length; lia).
    rewrite seq_length, Nat.sub_diag; cbn [app skipn Nat.add].
    replace (n - a)%nat with ((c - a) + (n - c))%nat by lia; rewrite seq_app, firstn_app, seq_length, Nat.sub_diag, firstn_O, app_nil_r.
    apply firstn_all2; rewrite seq_length; auto.
  - replace (c - a)%nat with 0%nat by lia; auto.
Qed.
Lemma contents_seq h b f vs a n : cell_at h b = Cell f vs -> (a + n <= List.length vs)%nat -> contents h (Array b (seq a n)) = firstn n (skipn a vs).
Proof.
  intros E L; unfold contents; cbn [nd_base nd_at]; rewrite E; cbn [c_values].
  transitivity (map (fun p => nth p (firstn a vs ++ skipn a vs) 0) (seq a n)); [rewrite firstn_skipn; auto|].
  set (p := firstn a vs); set (q := skipn a vs).
  assert (LP : List.length p = a) by (unfold p; rewrite firstn_length; lia).
  assert (LQ : (n <= List.length q)%nat) by (unfold q; rewrite skipn_length; lia).
  clearbody p q; clear E L; revert p a LP q LQ; induction n; intros p a LP q LQ; cbn; auto.
  destruct q as [|x q]; cbn in LQ; [lia|]; cbn [firstn]; f_equal.
  - rewrite app_nth2 by lia; replace (a - List.length p)%nat with 0%nat by lia; auto.
  - specialize (IHn (p ++ [x]) (S a)); rewrite app_length in IHn; cbn in IHn; rewrite <- (IHn ltac:(lia) q ltac:(lia)).
    rewrite <- app_assoc; auto.
Qed.

(** ** The common tail *)

Definition keeps (h0 h : heap) (v : ndarray) (xs : list R) : Prop :=
  lives h v /\ fresh h0 v /\ c_float (cell_at h (nd_base v)) = true /\ contents h v = xs.
Definition good (h0 h : heap) (q : columns) (a : arrays) : Prop :=
  preserves h0 h /\
  NoDup (map nd_base [v_offsets q; v_rabi q; v_azimuthal q; v_detuning q]) /\
  keeps h0 h (v_offsets q) (a_offsets a) /\ keeps h0 h (v_rabi q) (a_rabi a) /\
  keeps h0 h (v_azimuthal q) (a_azimuthal a) /\ keeps h0 h (v_detuning q) (a_detuning a).
Lemma keeps_old h0 h l v xs : keeps h0 h v xs -> keeps h0 (h ++ l) v xs.
Proof.
  intros [L [F [C E]]]; split; [apply lives_old; auto|]; split; auto; split; [rewrite cell_at_old; auto; apply L|].
  rewrite contents_old; auto.
Qed.
Lemma keeps_size h0 h v xs : keeps h0 h v xs -> size v = List.length xs.
Proof. intros [_ [_ [_ <-]]]; rewrite contents_length; auto. Qed.
Lemma keeps_block h0 h l i xs n : preserves h0 h -> nth_error l i = Some (Cell true xs) -> n = List.length xs ->
  keeps h0 (h ++ l) (whole (List.length h + i) n) xs.
Proof.
  intros P E ->; assert (C := block_cell h l i _ E).
  split; [|split; [|split]].
  - split; cbn [nd_base nd_at whole].
    + rewrite app_length; apply Nat.add_lt_mono_l, (nth_error_lt _ _ _ E).
    + rewrite C; intros p I; apply in_seq in I; cbn; lia.
  - apply preserves_length in P; unfold fresh; cbn; lia.
  - cbn; rewrite C; auto.
  - apply (contents_whole _ _ _ true); auto.
Qed.
Lemma keeps_end h0 h xs n : preserves h0 h -> n = List.length xs -> keeps h0 (h ++ [Cell true xs]) (whole (List.length h) n) xs.
Proof. intros P L; assert (X := keeps_block h0 h [Cell true xs] 0 xs n P eq_refl L); rewrite Nat.add_0_r in X; auto. Qed.

(** four new blocks are good *)
Lemma good4 h0 h a : preserves h0 h ->
  good h0 (h ++ [Cell true (a_offsets a); Cell true (a_rabi a); Cell true (a_azimuthal a); Cell true (a_detuning a)])
    (Columns (whole (List.length h) (List.length (a_offsets a))) (whole (List.length h + 1) (List.length (a_rabi a)))
       (whole (List.length h + 2) (List.length (a_azimuthal a))) (whole (List.length h + 3) (List.length (a_detuning a)))) a.
Proof.
  intros P; split; [eapply preserves_trans; [eauto|eexists; reflexivity]|]; split.
  - cbn; repeat constructor; cbn; lia.
  - cbn [v_offsets v_rabi v_azimuthal v_detuning].
    split; [rewrite <- (Nat.add_0_r (List.length h)); apply keeps_block; auto|].
    split; [apply keeps_block; auto|split; apply keeps_block; auto].
Qed.

Lemma insert_run {B} h0 h l v xs x y (k : ndarray -> prog B) : keeps h0 h v xs ->
  pbind (insert_ends v x y) k (h ++ l) = k (whole (List.length (h ++ l)) (List.length (np_insert_ends xs x y))) (h ++ l ++ [Cell true (np_insert_ends xs x y)]).
Proof.
  intros K; apply (keeps_old _ _ l) in K; destruct K as [_ [_ [_ E]]]; unfold insert_ends, pbind, get; rewrite E, new_run, <- app_assoc; auto.
Qed.
Lemma insert_run' {B} h0 h v xs x y (k : ndarray -> prog B) : keeps h0 h v xs ->
  pbind (insert_ends v x y) k h = k (whole (List.length h) (List.length (np_insert_ends xs x y))) (h ++ [Cell true (np_insert_ends xs x y)]).
Proof. intros K; assert (X := insert_run h0 h [] v xs x y k K); rewrite app_nil_r in X; exact X. Qed.
Lemma pre_post_run h0 h q a T : good h0 h q a ->
  match add_pre_post_rotations T a with
  | Ok a' => exists q' h', hadd_pre_post_rotations T q h = (Ok q', h') /\ good h0 h' q' a'
  | Raise e => hadd_pre_post_rotations T q h = (Raise e, h)
  end.
Proof.
  intros [P [N [K1 [K2 [K3 K4]]]]].
  assert (Z1 := keeps_size _ _ _ _ K1).
  unfold hadd_pre_post_rotations, add_pre_post_rotations; rewrite !get_run.
  rewrite (proj2 (proj2 (proj2 K1))), (proj2 (proj2 (proj2 K2))), (proj2 (proj2 (proj2 K3))), (proj2 (proj2 (proj2 K4))), Z1.
  replace (MkArrays (a_offsets a) (a_rabi a) (a_azimuthal a) (a_detuning a)) with a by (destruct a; auto).
  cbv zeta; rewrite guard_run, bind_guard.
  destruct (Nat.eqb (List.length (a_offsets a)) (count_pulses PI 0 0 a + count_pulses PI (PI / 2) 0 a + count_pulses 0 0 PI a)); auto.
  set (fin := if (_ || _)%bool then PI else 0).
  rewrite (insert_run' _ _ _ _ _ _ _ K1), (insert_run _ _ _ _ _ _ _ _ K2), (insert_run _ _ _ _ _ _ _ _ K3), (insert_run _ _ _ _ _ _ _ _ K4).
  eexists _, _; split; [reflexivity|]; rewrite !app_length; cbn [app List.length].
  apply (good4 h0 h (MkArrays _ _ _ _) P).
Qed.
(** the result of a builder that started in [h0] *)
Definition built (h0 : heap) (x : result hdds * heap) (r : result dds) : Prop :=
  preserves h0 (snd x) /\ map_result (sequence_at (snd x)) (fst x) = r /\
  forall s, fst x = Ok s -> sequence_lives (snd x) s /\ (forall v, In v (sequence_arrays s) -> fresh h0 v) /\
    NoDup (map nd_base (sequence_arrays s)).
Lemma built_raise h0 h e : preserves h0 h -> built h0 (Raise e, h) (Raise e).
Proof. intros P; split; auto; split; auto; discriminate. Qed.
Lemma construct_heap h0 h q a T name : good h0 h q a ->
  built h0 (hDynamicDecouplingSequence T (AArray (v_offsets q)) (AArray (v_rabi q)) (AArray (v_azimuthal q)) (AArray (v_detuning q)) name h)
    (DynamicDecouplingSequence T (a_offsets a) (a_rabi a) (a_azimuthal a) (a_detuning a) name).
Proof.
  intros [P [N [[L1 [F1 [C1 E1]]] [[L2 [F2 [C2 E2]]] [[L3 [F3 [C3 E3]]] [L4 [F4 [C4 E4]]]]]]]].
  destruct (sequence_heap T (AArray (v_offsets q)) (AArray (v_rabi q)) (AArray (v_azimuthal q)) (AArray (v_detuning q)) name h L1 L2 L3 L4)
    as [res [h' [E [P' [M S]]]]].
  rewrite E; unfold Spec_Heap.value in M; rewrite E1, E2, E3, E4 in M.
  split; [apply (preserves_trans _ h); auto|]; split; auto.
  cbn [fst snd]; intros s X; destruct (S s X) as [LV [O [_ [[R _] [[A _] [[D _] _]]]]]]; split; auto.
  assert (EO := O (ex_intro _ _ eq_refl)); assert (ER := R C2); assert (EA := A C3); assert (ED := D C4); cbn in EO, ER, EA, ED.
  unfold sequence_arrays; rewrite EO, ER, EA, ED; split; auto.
  intros v [<-|[<-|[<-|[<-|[]]]]]; auto.
Qed.
Lemma finish_heap h0 h q a T pre name : good h0 h q a -> built h0 (hfinish T q pre name h) (finish T a pre name).
Proof.
  intros G; unfold hfinish, finish; destruct pre; [|apply construct_heap; auto].
  assert (X := pre_post_run h0 h q a T G); destruct (add_pre_post_rotations T a) as [a'|e].
  - destruct X as [q' [h' [E G']]]; rewrite (pbind_ok _ _ _ _ _ E); apply construct_heap; auto.
  - rewrite (pbind_raise _ _ _ _ _ X); apply built_raise, G.
Qed.

(** ** Sequences of equal pulses *)

Lemma new_step {B} f xs (k : ndarray -> prog B) h : pbind (new f xs) k h = k (whole (List.length h) (List.length xs)) (h ++ [Cell f xs]).
Proof. reflexivity. Qed.
Lemma zeros_step {B} n (k : ndarray -> prog B) h : pbind (zeros n) k h = k (whole (List.length h) n) (h ++ [Cell true (np_zeros n)]).
Proof. unfold zeros; rewrite new_step; unfold np_zeros; rewrite full_length; auto. Qed.
Lemma fill_block h l i f vs n x : nth_error l i = Some (Cell f vs) -> List.length vs = n ->
  fill (whole (List.length h + i) n) 0 (size (whole (List.length h + i) n)) x (h ++ l) = (Ok tt, h ++ set_nth i (Cell f (np_full n x)) l).
Proof.
  intros E L; unfold fill; rewrite size_whole, slice_whole, Nat.sub_0_r by lia.
  unfold size; cbn [nd_at]; rewrite seq_length, (assign_block _ _ _ f vs) by (auto; rewrite seq_length, full_length; auto).
  rewrite put_seq_all; rewrite ?full_length; auto.
Qed.
Lemma x_pulses_run {B} h0 h o xs (k : columns -> prog B) : preserves h0 h -> keeps h0 h o xs ->
  exists q h', pbind (hx_pulses o) k h = k q h' /\ good h0 h' q (uniform_arrays xs PI 0 0).
Proof.
  intros P K; assert (Z := keeps_size _ _ _ _ K); set (n := List.length xs) in *.
  set (b := List.length h).
  assert (E : hx_pulses o h = (Ok (Columns o (whole b n) (whole (b + 1) n) (whole (b + 2) n)), h ++ [Cell true (np_full n PI); Cell true (np_zeros n); Cell true (np_zeros n)])).
  { unfold hx_pulses; rewrite Z, zeros_step; fold b.
    assert (F := fill_block h [Cell true (np_zeros n)] 0 true _ n PI eq_refl (full_length n 0)); fold b in F; rewrite Nat.add_0_r in F.
    rewrite (pbind_ok _ _ _ _ _ F), !zeros_step, !app_length, <- !app_assoc; cbn [app List.length]; fold b; rewrite <- Nat.add_assoc; reflexivity. }
  rewrite (pbind_ok _ _ _ _ _ E); eexists _, _; split; [reflexivity|].
  split; [apply (preserves_trans _ h); auto; eexists; reflexivity|]; split.
  - cbn; destruct K as [[K _] _]; fold b in K; repeat constructor; cbn; lia.
  - cbn [v_offsets v_rabi v_azimuthal v_detuning]; split; [apply keeps_old; auto|].
    split; [rewrite <- (Nat.add_0_r b); apply keeps_block; auto; unfold uniform_arrays; cbn; rewrite full_length; auto|].
    split; apply keeps_block; auto; unfold uniform_arrays; cbn; rewrite full_length; auto.
Qed.
Lemma y_pulses_run {B} h0 h o xs (k : columns -> prog B) : preserves h0 h -> keeps h0 h o xs ->
  exists q h', pbind (hy_pulses o) k h = k q h' /\ good h0 h' q (uniform_arrays xs PI (PI / 2) 0).
Proof.
  intros P K; assert (Z := keeps_size _ _ _ _ K); set (n := List.length xs) in *.
  set (b := List.length h).
  assert (E : hy_pulses o h = (Ok (Columns o (whole b n) (whole (b + 1) n) (whole (b + 2) n)), h ++ [Cell true (np_full n PI); Cell true (np_full n (PI / 2)); Cell true (np_zeros n)])).
  { unfold hy_pulses; rewrite Z, !zeros_step, !app_length, <- !app_assoc; fold b; cbn [app List.length].
    assert (F := fill_block h [Cell true (np_zeros n); Cell true (np_zeros n)] 0 true _ n PI eq_refl (full_length n 0)); fold b in F; rewrite Nat.add_0_r in F.
    rewrite (pbind_ok _ _ _ _ _ F); cbn [set_nth].
    assert (F' := fill_block h [Cell true (np_full n PI); Cell true (np_zeros n)] 1 true _ n (PI / 2) eq_refl (full_length n 0)); fold b in F'.
    rewrite (pbind_ok _ _ _ _ _ F'); cbn [set_nth].
    rewrite !zeros_step, !app_length, <- !app_assoc; reflexivity. }
  rewrite (pbind_ok _ _ _ _ _ E); eexists _, _; split; [reflexivity|].
  split; [apply (preserves_trans _ h); auto; eexists; reflexivity|]; split.
  - cbn; destruct K as [[K _] _]; fold b in K; repeat constructor; cbn; lia.
  - cbn [v_offsets v_rabi v_azimuthal v_detuning]; split; [apply keeps_old; auto|].
    split; [rewrite <- (Nat.add_0_r b); apply keeps_block; auto; unfold uniform_arrays; cbn; rewrite full_length; auto|].
    split; apply keeps_block; auto; unfold uniform_arrays; cbn; rewrite full_length; auto.
Qed.
Lemma x_finish h0 h o xs T pre name : preserves h0 h -> keeps h0 h o xs ->
  built h0 ((let! q := hx_pulses o in hfinish T q pre name) h) (finish T (uniform_arrays xs PI 0 0) pre name).
Proof.
  intros P K; destruct (x_pulses_run h0 h o xs (fun q => hfinish T q pre name) P K) as [q [h' [E G]]]; rewrite E; apply finish_heap; auto.
Qed.
Lemma y_finish h0 h o xs T pre name : preserves h0 h -> keeps h0 h o xs ->
  built h0 ((let! q := hy_pulses o in hfinish T q pre name) h) (finish T (uniform_arrays xs PI (PI / 2) 0) pre name).
Proof.
  intros P K; destruct (y_pulses_run h0 h o xs (fun q => hfinish T q pre name) P K) as [q [h' [E G]]]; rewrite E; apply finish_heap; auto.
Qed.

Ltac guarded := unfold check_duration, check_offset_count, check_concatenation_order; rewrite guard_run, bind_guard;
  match goal with |- built _ (if ?b then _ else _) _ => destruct b; [|apply built_raise, preserves_refl] end.
Lemma filter_all {A} (l : list A) : filter (fun _ => true) l = l.
Proof. induction l; cbn; congruence. Qed.
Theorem ramsey_heap T pre name h : built h (hnew_ramsey_sequence T pre name h) (new_ramsey_sequence T pre name).
Proof.
  unfold hnew_ramsey_sequence, new_ramsey_sequence; guarded; destruct pre.
  - unfold zeros; rewrite new4.
    apply (construct_heap h _ (Columns _ _ _ _) (MkArrays (map (Rmult T) [0; 1]) [PI / 2; PI / 2] [0; PI] (np_zeros 2))).
    apply (good4 h h (MkArrays _ _ _ _) (preserves_refl h)).
  - destruct (sequence_heap T (AList true []) (AList true []) (AList true []) (AList true []) name h I I I I) as [res [h' [E [P [M S]]]]].
    rewrite E; split; auto; split; auto; cbn [fst snd]; intros s X; destruct (S s X) as [LV [_ [FO [SR [SA [SD SE]]]]]]; split; auto.
    apply (stored_fresh h (Some (AList true [])) _ (fun x => x)) in SR, SA, SD.
    assert (FO' : fresh h (hs_offsets s)) by (apply FO; intros [v A]; discriminate).
    assert (FA : forall v, In v (sequence_arrays s) -> fresh h v) by (intros v [<-|[<-|[<-|[<-|[]]]]]; auto).
    split; auto; unfold separate in SE.
    replace (filter (fun b => (List.length h <=? b)%nat) (map nd_base (sequence_arrays s))) with (map nd_base (sequence_arrays s)) in SE; auto.
    symmetry; rewrite (filter_ext_in _ (fun _ => true)); [|intros b I; apply in_map_iff in I; destruct I as [v [<- I]]; apply Nat.leb_le, (FA v I)].
    apply filter_all.
Qed.
Theorem spin_echo_heap T pre name h : built h (hnew_spin_echo_sequence T pre name h) (new_spin_echo_sequence T pre name).
Proof.
  unfold hnew_spin_echo_sequence, new_spin_echo_sequence; guarded; unfold zeros; rewrite new4; apply finish_heap.
  apply (good4 h h (uniform_arrays [T / 2] PI 0 0) (preserves_refl h)).
Qed.
Lemma keeps_new h xs : keeps h (h ++ [Cell true xs]) (whole (List.length h) (List.length xs)) xs.
Proof. apply keeps_end; auto; apply preserves_refl. Qed.
Theorem carr_purcell_heap T n pre name h : built h (hnew_carr_purcell_sequence T n pre name h) (new_carr_purcell_sequence T n pre name).
Proof.
  unfold hnew_carr_purcell_sequence, new_carr_purcell_sequence; guarded; guarded.
  rewrite new_step; apply x_finish; [apply preserves_new|apply keeps_new].
Qed.
Theorem cpmg_heap T n pre name h : built h (hnew_cpmg_sequence T n pre name h) (new_cpmg_sequence T n pre name).
Proof.
  unfold hnew_cpmg_sequence, new_cpmg_sequence; guarded; guarded.
  rewrite new_step; apply y_finish; [apply preserves_new|apply keeps_new].
Qed.
Theorem uhrig_heap T n pre name h : built h (hnew_uhrig_sequence T n pre name h) (new_uhrig_sequence T n pre name).
Proof.
  unfold hnew_uhrig_sequence, new_uhrig_sequence; guarded; guarded.
  rewrite new_step; apply y_finish; [apply preserves_new|apply keeps_new].
Qed.
Theorem periodic_heap T n pre name h : built h (hnew_periodic_sequence T n pre name h) (new_periodic_sequence T n pre name).
Proof.
  unfold hnew_periodic_sequence, new_periodic_sequence; guarded; guarded.
  rewrite new_step; apply x_finish; [apply preserves_new|apply keeps_new].
Qed.
