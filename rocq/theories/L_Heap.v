(** * Programs on the heap: constructors *)

From Coq Require Import Lia Lra.
From Verif Require Import Spec_Qubit L_Base L_DrivenControl.
From Verif Require Export Spec_Heap.
Import ListNotations.
Open Scope string_scope.
Open Scope list_scope.
Open Scope R_scope.

(** ** Memory *)

Lemma length_set_nth {A} i (x : A) : forall l, List.length (set_nth i x l) = List.length l.
Proof. induction i; intros [|y l]; cbn; auto. Qed.
Lemma set_nth_app {A} (x y : A) l1 l2 : set_nth (List.length l1) x (l1 ++ y :: l2) = l1 ++ x :: l2.
Proof. induction l1; cbn; congruence. Qed.
Lemma set_nth_far {A} (x : A) l1 l2 i : set_nth (List.length l1 + i) x (l1 ++ l2) = l1 ++ set_nth i x l2.
Proof. induction l1; cbn; congruence. Qed.
Lemma cell_at_old h l b : (b < List.length h)%nat -> cell_at (h ++ l) b = cell_at h b.
Proof. intros; unfold cell_at; apply app_nth1; auto. Qed.
Lemma cell_at_new h l i : cell_at (h ++ l) (List.length h + i) = cell_at l i.
Proof. unfold cell_at; rewrite app_nth2_plus; auto. Qed.
Lemma cell_at_end h c l : cell_at (h ++ c :: l) (List.length h) = c.
Proof. rewrite <- (Nat.add_0_r (List.length h)), cell_at_new; reflexivity. Qed.
Lemma contents_length h v : List.length (contents h v) = size v.
Proof. apply map_length. Qed.
Lemma contents_old h l v : lives h v -> contents (h ++ l) v = contents h v.
Proof. intros [B _]; unfold contents; rewrite cell_at_old; auto. Qed.
Lemma contents_cell h1 h2 v : cell_at h1 (nd_base v) = cell_at h2 (nd_base v) -> contents h1 v = contents h2 v.
Proof. intros E; unfold contents; rewrite E; auto. Qed.
Lemma lives_old h l v : lives h v -> lives (h ++ l) v.
Proof. intros [A B]; split; [rewrite app_length; lia|]; rewrite cell_at_old; auto. Qed.
Lemma nth_seq_map {A} (d : A) xs : map (fun p => nth p xs d) (seq 0 (List.length xs)) = xs.
Proof.
  induction xs as [|x xs IH]; cbn; auto; rewrite <- seq_shift, map_map; cbn; f_equal; auto.
Qed.
(** the whole of block [b] *)
Definition whole (b n : nat) : ndarray := Array b (seq 0 n).
Lemma contents_whole h b xs f : cell_at h b = Cell f xs -> contents h (whole b (List.length xs)) = xs.
Proof. intros E; unfold contents; cbn; rewrite E; cbn; apply nth_seq_map. Qed.
Lemma new_run f xs h : new f xs h = (Ok (whole (List.length h) (List.length xs)), h ++ [Cell f xs]).
Proof. reflexivity. Qed.
Lemma contents_new f xs h l : contents (h ++ Cell f xs :: l) (whole (List.length h) (List.length xs)) = xs.
Proof. apply (contents_whole _ _ _ f), cell_at_end. Qed.
Lemma lives_new f xs h : lives (h ++ [Cell f xs]) (whole (List.length h) (List.length xs)).
Proof.
  split; [rewrite app_length; cbn; lia|]; cbn; rewrite cell_at_end; cbn.
  intros p I; apply in_seq in I; lia.
Qed.
Lemma preserves_refl h : preserves h h.
Proof. exists []; rewrite app_nil_r; auto. Qed.
Lemma preserves_trans a b c : preserves a b -> preserves b c -> preserves a c.
Proof. intros [x ->] [y ->]; exists (x ++ y); rewrite app_assoc; auto. Qed.
Lemma preserves_new h c : preserves h (h ++ [c]).
Proof. exists [c]; auto. Qed.
Lemma preserves_lives h h' v : preserves h h' -> lives h v -> lives h' v.
Proof. intros [l ->]; apply lives_old. Qed.
Lemma preserves_contents h h' v : preserves h h' -> lives h v -> contents h' v = contents h v.
Proof. intros [l ->]; apply contents_old. Qed.
Lemma preserves_length h h' : preserves h h' -> (List.length h <= List.length h')%nat.
Proof. intros [l ->]; rewrite app_length; lia. Qed.
Lemma preserves_float h h' b : preserves h h' -> (b < List.length h)%nat -> cell_at h' b = cell_at h b.
Proof. intros [l ->]; apply cell_at_old. Qed.

(** ** asarray *)

(** [v] is stored for [a] by a program that starts in [h] and ends in [h'] *)
Lemma asarray_float_run h a : arg_lives h a -> exists v h', asarray_float a h = (Ok v, h') /\ preserves h h' /\
  lives h' v /\ contents h' v = value h a /\ size v = len a /\ stored h (Some a) v /\
  c_float (cell_at h' (nd_base v)) = true /\
  (float_array h a \/ nd_base v = List.length h /\ List.length h' = S (List.length h)).
Proof.
  destruct a as [f xs|u]; intros L.
  - eexists _, _; split; [reflexivity|]; split; [apply preserves_new|]; split; [apply lives_new|].
    split; [apply (contents_new true xs h [])|]; split; [cbn; unfold size; cbn; rewrite seq_length; auto|].
    split; [split; [intros []|intros _; unfold fresh; cbn; lia]|split; [cbn; rewrite cell_at_end; auto|right; rewrite app_length; cbn; lia]].
  - cbn [asarray_float]; unfold pbind, dtype; destruct (c_float (cell_at h (nd_base u))) eqn:E.
    + exists u, h; split; auto; split; [apply preserves_refl|]; repeat split; auto; cbn; auto; try apply L.
      intros F; contradiction (F E).
    + unfold get; eexists _, _; split; [reflexivity|]; split; [apply preserves_new|]; split; [apply lives_new|].
      split; [apply contents_new|]; split; [unfold size; cbn; rewrite seq_length, contents_length; auto|].
      split; [split; [cbn; intros X; congruence|intros _; unfold fresh; cbn; lia]|split; [cbn; rewrite cell_at_end; auto|right; rewrite app_length; cbn; lia]].
Qed.
Lemma asarray_run h a : arg_lives h a -> exists v h', asarray a h = (Ok v, h') /\ preserves h h' /\
  lives h' v /\ contents h' v = value h a /\ size v = len a /\
  ((exists u, a = AArray u) -> is_argument a v) /\ (~ (exists u, a = AArray u) -> fresh h v).
Proof.
  destruct a as [f xs|u]; intros L.
  - eexists _, _; split; [reflexivity|]; split; [apply preserves_new|]; split; [apply lives_new|].
    split; [apply (contents_new f xs h [])|]; split; [cbn; unfold size; cbn; rewrite seq_length; auto|].
    split; [intros [u E]; discriminate|intros _; unfold fresh; cbn; lia].
  - exists u, h; split; auto; split; [apply preserves_refl|]; repeat split; auto; try apply L; cbn; auto.
    intros F; destruct F; eauto.
Qed.

Lemma pbind_ok {A B} (m : prog A) (f : A -> prog B) h a h' : m h = (Ok a, h') -> pbind m f h = f a h'.
Proof. intros E; unfold pbind; rewrite E; auto. Qed.
Lemma pbind_raise {A B} (m : prog A) (f : A -> prog B) h e h' : m h = (Raise e, h') -> pbind m f h = (Raise e, h').
Proof. intros E; unfold pbind; rewrite E; auto. Qed.
Lemma check_run b d a e : check_arguments b d a e = (if b then Ok tt else Raise (ArgumentsValueError d a e)).
Proof. reflexivity. Qed.
Lemma bind_guard {B} b d a e (f : unit -> result B) :
  bind (check_arguments b d a e) f = if b then f tt else Raise (ArgumentsValueError d a e).
Proof. rewrite check_run; destruct b; auto. Qed.
Lemma guard_run {B} b d a e (f : unit -> prog B) h :
  pbind (lift (check_arguments b d a e)) f h = if b then f tt h else (Raise (ArgumentsValueError d a e), h).
Proof. unfold pbind, lift; rewrite check_run; destruct b; auto. Qed.
Lemma get_run {B} v (f : list R -> prog B) h : pbind (get v) f h = f (contents h v) h.
Proof. reflexivity. Qed.
Lemma value_old h h' a : preserves h h' -> arg_lives h a -> value h' a = value h a.
Proof. destruct a; cbn; auto; intros; apply preserves_contents; auto. Qed.
Lemma arg_old h h' a : preserves h h' -> arg_lives h a -> arg_lives h' a.
Proof. destruct a; cbn; auto; intros; eapply preserves_lives; eauto. Qed.
Lemma opt_old h h' a : preserves h h' -> opt_lives h a -> opt_lives h' a.
Proof. destruct a; cbn; auto; intros; eapply arg_old; eauto. Qed.
Lemma value_length h a : List.length (value h a) = len a.
Proof. destruct a; cbn; auto; apply contents_length. Qed.
(** freshness against an earlier heap *)
Lemma stored_old h h' a v : preserves h h' -> opt_lives h a -> stored h' a v -> stored h a v.
Proof.
  intros P L; destruct a as [[f xs|u]|]; cbn.
  - intros [_ F]; split; [intros []|]; intros _; assert (Q := F (fun x => x)); apply preserves_length in P; unfold fresh in *; lia.
  - rewrite (preserves_float h h' (nd_base u) P) by apply L.
    intros [A F]; split; auto; intros Q; assert (X := F Q); apply preserves_length in P; unfold fresh in *; lia.
  - apply preserves_length in P; unfold fresh; lia.
Qed.

Lemma default_zeros_run h n a : opt_lives h a -> exists a' h', default_zeros n a h = (Ok a', h') /\ preserves h h' /\
  arg_lives h' a' /\ value h' a' = opt_default (np_zeros n) (option_map (value h) a) /\
  match a with
  | Some b => a' = b /\ h' = h
  | None => exists v, a' = AArray v /\ nd_base v = List.length h /\ float_array h' a' /\ List.length h' = S (List.length h)
  end.
Proof.
  destruct a as [a'|]; intros L; cbn [default_zeros].
  - exists a', h; split; auto; split; [apply preserves_refl|]; auto.
  - unfold zeros, pbind; rewrite new_run; eexists _, _; split; [reflexivity|]; split; [apply preserves_new|].
    split; [apply lives_new|]; split; [apply (contents_new true _ h [])|].
    eexists; split; [reflexivity|]; split; auto; split; [cbn; rewrite cell_at_end; auto|rewrite app_length; cbn; lia].
Qed.

(** ** C86: controls *)

Lemma opt_list_length h l : map len (flat_map opt_list l) =
  map (@List.length R) (flat_map opt_list (map (option_map (value h)) l)).
Proof.
  induction l as [|[a|] l IH]; cbn; auto; rewrite value_length, IH; auto.
Qed.
Lemma stored_zeros h h' v : preserves h h' -> fresh h' v -> stored h None v.
Proof. intros P; apply preserves_length in P; unfold stored, fresh; lia. Qed.

(** one attribute: default, then asarray, with other programs in between *)
Lemma attribute_run h h1 h2 h3 a a' n :
  preserves h h1 -> opt_lives h a -> default_zeros n a h1 = (Ok a', h2) -> preserves h2 h3 ->
  exists v h4, asarray_float a' h3 = (Ok v, h4) /\ preserves h3 h4 /\ lives h4 v /\
   contents h4 v = opt_default (np_zeros n) (option_map (value h) a) /\ stored h a v /\
   (nd_base v < List.length h \/ List.length h1 <= nd_base v < List.length h2 \/ List.length h3 <= nd_base v < List.length h4)%nat.
Proof.
  intros P L E Q.
  destruct (default_zeros_run h1 n a (opt_old _ _ _ P L)) as [b [h2' [E' [P1 [L1 [V1 D]]]]]]; rewrite E in E'; injection E' as <- <-.
  destruct (asarray_float_run h3 a' (arg_old _ _ _ Q L1)) as [v [h4 [F [P3 [L4 [V4 [_ [S [C I]]]]]]]]].
  exists v, h4; split; auto; split; auto; split; auto.
  split; [rewrite V4, (value_old _ _ _ Q L1), V1; destruct a; auto; cbn; rewrite (value_old h h1); auto|].
  destruct a as [a''|].
  - destruct D as [-> ->]; split; [apply (stored_old h h3); auto; apply (preserves_trans _ h1); auto|].
    destruct I as [I|[I1 I2]]; [|right; right; lia].
    left; destruct a'' as [|u]; [contradiction|]; destruct S as [S _]; cbn in S; rewrite (S I); apply L.
  - destruct D as [u [-> [B [FA LE]]]].
    assert (FB : float_array h3 (AArray u)) by (cbn in *; rewrite (preserves_float h2 h3); auto; apply L1).
    destruct S as [S _]; cbn in S; rewrite (S FB) in *; split; [unfold stored, fresh|]; apply preserves_length in P; lia.
Qed.

Theorem control_heap ts r a d name h : arg_lives h ts -> opt_lives h r -> opt_lives h a -> opt_lives h d ->
  exists res h', hDrivenControl ts r a d name h = (res, h') /\ preserves h h' /\
 map_result (control_at h') res = DrivenControl (value h ts) (option_map (value h) r) (option_map (value h) a) (option_map (value h) d) name /\
 (forall c, res = Ok c ->
     (forall v, In v (control_attributes c) -> lives h' v) /\
    stored h (Some ts) (hc_durations c) /\ stored h r (hc_rabi_rates c) /\
    stored h a (hc_azimuthal_angles c) /\ stored h d (hc_detunings c) /\ separate h (control_attributes c)).
Proof.
  intros LT LR LA LD; unfold hDrivenControl, DrivenControl.
  destruct (asarray_float_run h ts LT) as [dv [h1 [E1 [P1 [L1 [V1 [Z1 [S1 [C1 I1]]]]]]]]].
  rewrite (pbind_ok _ _ _ _ _ E1), get_run, guard_run, V1, bind_guard.
  destruct (forallb _ _); [|eexists _, _; split; [reflexivity|]; split; auto; split; [reflexivity|discriminate]].
  cbn [bind]; cbv beta zeta; rewrite guard_run, bind_guard.
  replace (List.length (nodup Nat.eq_dec (map len (flat_map opt_list [r; a; d; Some (AArray dv)]))))
    with (List.length (input_lengths [option_map (value h) r; option_map (value h) a; option_map (value h) d; Some (value h ts)])).
  2:{ unfold input_lengths; do 2 f_equal; rewrite (opt_list_length h); cbn [map option_map].
      rewrite <- V1; cbn [flat_map]; rewrite !map_app; cbn; rewrite !contents_length; auto. }
  destruct (Nat.eqb _ _); [|eexists _, _; split; [reflexivity|]; split; auto; split; [reflexivity|discriminate]].
  cbn [bind]; set (n := size dv).
  replace (List.length (value h ts)) with n by (unfold n; rewrite Z1, value_length; auto).
  destruct (default_zeros_run h1 n r (opt_old _ _ _ P1 LR)) as [r' [h2 [E2 [P2 _]]]].
  assert (Q2 := preserves_trans _ _ _ P1 P2).
  destruct (default_zeros_run h2 n a (opt_old _ _ _ Q2 LA)) as [a' [h3 [E3 [P3 _]]]].
  assert (Q3 := preserves_trans _ _ _ Q2 P3).
  destruct (default_zeros_run h3 n d (opt_old _ _ _ Q3 LD)) as [d' [h4 [E4 [P4 _]]]].
  assert (Q4 := preserves_trans _ _ _ Q3 P4).
  destruct (attribute_run h h1 h2 h4 r r' n P1 LR E2 (preserves_trans _ _ _ P3 P4)) as [rv [h5 [E5 [P5 [L5 [V5 [S5 I5]]]]]]].
  destruct (attribute_run h h2 h3 h5 a a' n Q2 LA E3 (preserves_trans _ _ _ P4 P5)) as [av [h6 [E6 [P6 [L6 [V6 [S6 I6]]]]]]].
  destruct (attribute_run h h3 h4 h6 d d' n Q3 LD E4 (preserves_trans _ _ _ P5 P6)) as [ev [h7 [E7 [P7 [L7 [V7 [S7 I7]]]]]]].
  rewrite (pbind_ok _ _ _ _ _ E2), (pbind_ok _ _ _ _ _ E3), (pbind_ok _ _ _ _ _ E4), (pbind_ok _ _ _ _ _ E5),
    (pbind_ok _ _ _ _ _ E6), (pbind_ok _ _ _ _ _ E7), get_run, guard_run, bind_guard.
  assert (P67 := preserves_trans _ _ _ P6 P7).
  rewrite (preserves_contents h5 h7 rv P67 L5), V5.
  assert (Q7 : preserves h h7) by (apply (preserves_trans _ h4); auto; apply (preserves_trans _ h5); auto).
  destruct (forallb _ _); [|eexists _, _; split; [reflexivity|]; split; auto; split; [reflexivity|discriminate]].
  eexists _, _; split; [reflexivity|]; split; auto; cbn [bind map_result].
  assert (P17 : preserves h1 h7) by (apply (preserves_trans _ h2); auto; apply (preserves_trans _ h3); auto; apply (preserves_trans _ h4); auto;
    apply (preserves_trans _ h5); auto).
  split.
  - unfold control_at; cbn [hc_rabi_rates hc_azimuthal_angles hc_detunings hc_durations hc_name].
    rewrite (preserves_contents h5 h7 rv P67 L5), (preserves_contents h6 h7 av P7 L6), (preserves_contents h1 h7 dv P17 L1), V5, V6, V7, V1; auto.
  - intros c X; injection X as <-; cbn.
    split; [|split; [exact S1|split; [exact S5|split; [exact S6|split; [exact S7|]]]]].
    + intros v [<-|[<-|[<-|[<-|[]]]]]; auto; [apply (preserves_lives h5)|apply (preserves_lives h6)|apply (preserves_lives h1)]; auto.
    + assert (J1 : (nd_base dv < List.length h \/ List.length h <= nd_base dv < List.length h1)%nat).
      { destruct I1 as [I|[X Y]]; [|right; lia]; left; destruct ts as [|u]; [contradiction|]; destruct S1 as [S _]; rewrite (S I); apply LT. }
      apply preserves_length in P1, P2, P3, P4, P5, P6, P7.
      unfold separate, control_attributes; cbn.
      repeat match goal with |- context [(?x <=? ?y)%nat] => destruct (Nat.leb_spec x y) end; repeat constructor; cbn; lia.
Qed.

(** the caller's later assignments *)
Lemma below_contents n h h' v : only_below n h h' -> (n <= nd_base v)%nat -> contents h' v = contents h v.
Proof. intros [_ E] L; apply contents_cell, E, L. Qed.
Lemma stored_fresh h a v : not_float_array h a -> stored h a v -> fresh h v.
Proof. destruct a; cbn; [intros N [_ F]; auto|auto]. Qed.
Theorem control_keeps ts r a d name h c h' h'' : arg_lives h ts -> opt_lives h r -> opt_lives h a -> opt_lives h d ->
  not_float_array h (Some ts) -> not_float_array h r -> not_float_array h a -> not_float_array h d ->
  hDrivenControl ts r a d name h = (Ok c, h') -> only_below (List.length h) h' h'' -> control_at h'' c = control_at h' c.
Proof.
  intros LT LR LA LD NT NR NA ND E O.
  destruct (control_heap ts r a d name h LT LR LA LD) as [res [h1 [E' [_ [_ S]]]]]; rewrite E in E'; injection E' as <- <-.
  destruct (S c eq_refl) as [_ [S1 [S2 [S3 [S4 _]]]]].
  apply stored_fresh in S1, S2, S3, S4; auto.
  unfold control_at; f_equal; apply (below_contents (List.length h)); auto.
Qed.
Theorem control_shares_refuted : ~ (forall ts r a d name h c h' h'',
  arg_lives h ts -> opt_lives h r -> opt_lives h a -> opt_lives h d ->
  hDrivenControl ts r a d name h = (Ok c, h') -> only_below (List.length h) h' h'' -> control_at h'' c = control_at h' c).
Proof.
  intros H.
  set (u := Array 0 [0%nat]); set (h := [Cell true [1]]).
  assert (L : lives h u) by (split; [cbn; lia|intros p [<-|[]]; cbn; lia]).
  destruct (control_heap (AArray u) None None None None h L I I I) as [res [h' [E [[l P] [R S]]]]].
  assert (V : value h (AArray u) = [1]) by reflexivity; rewrite V in R.
  assert (DC : exists c, DrivenControl [1] None None None None = Ok c).
  { unfold DrivenControl; cbn; unfold ltb, leb; destruct Rlt_dec; [|lra]; cbn; destruct Rle_dec; [|lra]; cbn; eauto. }
  destruct DC as [c0 DC]; cbn [option_map] in R; rewrite DC in R; destruct res as [c|]; [|discriminate].
  destruct (S c eq_refl) as [_ [[S1 _] _]].
  assert (U : hc_durations c = u) by (apply S1; reflexivity).
  assert (X := H (AArray u) None None None None h c h' (Cell true [-1] :: l) L I I I E).
  subst h'.
  assert (Y : control_at (Cell true [-1] :: l) c = control_at (h ++ l) c).
  { apply X; split; [reflexivity|]; intros [|b] B; [cbn in B; lia|reflexivity]. }
  apply (f_equal durations) in Y; cbn [control_at durations] in Y; rewrite U in Y; cbn in Y; injection Y; lra.
Qed.

(** ** C86: sequences *)

Theorem sequence_heap t ts r a d name h : arg_lives h ts -> arg_lives h r -> arg_lives h a -> arg_lives h d ->
  exists res h', hDynamicDecouplingSequence t ts r a d name h = (res, h') /\ preserves h h' /\
 map_result (sequence_at h') res = DynamicDecouplingSequence t (value h ts) (value h r) (value h a) (value h d) name /\
 (forall s, res = Ok s -> sequence_lives h' s /\
    (is_array ts -> is_argument ts (hs_offsets s)) /\ (~ is_array ts -> fresh h (hs_offsets s)) /\
    stored h (Some r) (hs_rabi_rotations s) /\
    stored h (Some a) (hs_azimuthal_angles s) /\ stored h (Some d) (hs_detuning_rotations s) /\ separate h (sequence_arrays s)).
Proof.
  intros LT LR LA LD; unfold hDynamicDecouplingSequence, DynamicDecouplingSequence.
  rewrite guard_run, bind_guard.
  destruct (ltb 0 t); [|eexists _, _; split; [reflexivity|]; split; [apply preserves_refl|]; split; [reflexivity|discriminate]].
  destruct (asarray_run h ts LT) as [ov [h1 [E1 [P1 [L1 [V1 [Z1 [S1 F1]]]]]]]].
  rewrite (pbind_ok _ _ _ _ _ E1), get_run, guard_run, V1, bind_guard.
  destruct (forallb _ _); [|eexists _, _; split; [reflexivity|]; split; auto; split; [reflexivity|discriminate]].
  cbv beta zeta; rewrite Z1, !value_length.
  rewrite guard_run, bind_guard; destruct (Nat.eqb_spec (len r) (len ts)) as [NR|]; [|eexists _, _; split; [reflexivity|]; split; auto; split; [reflexivity|discriminate]].
  rewrite guard_run, bind_guard; destruct (Nat.eqb_spec (len a) (len ts)) as [NA|]; [|eexists _, _; split; [reflexivity|]; split; auto; split; [reflexivity|discriminate]].
  rewrite guard_run, bind_guard; destruct (Nat.eqb_spec (len d) (len ts)) as [ND|]; [|eexists _, _; split; [reflexivity|]; split; auto; split; [reflexivity|discriminate]].
  destruct (asarray_float_run h1 r (arg_old _ _ _ P1 LR)) as [rv [h2 [E2 [P2 [L2 [V2 [Z2 [S2 [_ I2]]]]]]]]].
  assert (Q2 := preserves_trans _ _ _ P1 P2).
  destruct (asarray_float_run h2 a (arg_old _ _ _ Q2 LA)) as [av [h3 [E3 [P3 [L3 [V3 [Z3 [S3 [_ I3]]]]]]]]].
  assert (Q3 := preserves_trans _ _ _ Q2 P3).
  destruct (asarray_float_run h3 d (arg_old _ _ _ Q3 LD)) as [dv [h4 [E4 [P4 [L4 [V4 [Z4 [S4 [_ I4]]]]]]]]].
  assert (Q4 := preserves_trans _ _ _ Q3 P4).
  rewrite (pbind_ok _ _ _ _ _ E2), (pbind_ok _ _ _ _ _ E3), (pbind_ok _ _ _ _ _ E4).
  rewrite (value_old h h1) in V2 by auto; rewrite (value_old h h2) in V3 by auto; rewrite (value_old h h3) in V4 by auto.
  assert (P24 := preserves_trans _ _ _ P3 P4); assert (P14 := preserves_trans _ _ _ P2 P24).
  eexists _, _; split; [reflexivity|]; split; auto; cbn [map_result bind]; split.
  - unfold sequence_at; cbn [hs_duration hs_offsets hs_rabi_rotations hs_azimuthal_angles hs_detuning_rotations hs_name].
    rewrite (preserves_contents h1 h4), (preserves_contents h2 h4), (preserves_contents h3 h4), V1, V2, V3, V4; auto.
  - intros s X; injection X as <-; unfold sequence_lives, sequence_arrays; cbn [hs_offsets hs_rabi_rotations hs_azimuthal_angles hs_detuning_rotations].
    split; [split|].
    + intros v [<-|[<-|[<-|[<-|[]]]]]; auto; [apply (preserves_lives h1)|apply (preserves_lives h2)|apply (preserves_lives h3)]; auto.
    + intros v [<-|[<-|[<-|[<-|[]]]]]; congruence.
    + split; [exact S1|]; split; [exact F1|].
      assert (T2 := stored_old h h1 (Some r) rv P1 LR S2); assert (T3 := stored_old h h2 (Some a) av Q2 LA S3);
      assert (T4 := stored_old h h3 (Some d) dv Q3 LD S4).
      split; auto; split; auto; split; auto.
      assert (K : forall k u x, preserves h k -> arg_lives h u -> stored h (Some u) x -> float_array k u -> (nd_base x < List.length h)%nat).
      { intros k [|u] x PK LU [SX _] FA; [contradiction|]; cbn in FA, SX, LU; rewrite (preserves_float h k) in FA by (auto; apply LU).
        rewrite (SX FA); apply LU. }
      assert (J2 : (nd_base rv < List.length h \/ List.length h1 <= nd_base rv < List.length h2)%nat) by (destruct I2 as [I|I]; [left; apply (K h1 r); auto|lia]).
      assert (J3 : (nd_base av < List.length h \/ List.length h2 <= nd_base av < List.length h3)%nat) by (destruct I3 as [I|I]; [left; apply (K h2 a); auto|lia]).
      assert (J4 : (nd_base dv < List.length h \/ List.length h3 <= nd_base dv < List.length h4)%nat) by (destruct I4 as [I|I]; [left; apply (K h3 d); auto|lia]).
      assert (J1 : (nd_base ov < List.length h1)%nat) by apply L1.
      apply preserves_length in P1, P2, P3, P4.
      unfold separate; cbn.
      repeat match goal with |- context [(?x <=? ?y)%nat] => destruct (Nat.leb_spec x y) end; repeat constructor; cbn; lia.
Qed.
Theorem sequence_keeps t ts r a d name h s h' h'' : arg_lives h ts -> arg_lives h r -> arg_lives h a -> arg_lives h d ->
  ~ is_array ts -> ~ float_array h r -> ~ float_array h a -> ~ float_array h d ->
  hDynamicDecouplingSequence t ts r a d name h = (Ok s, h') -> only_below (List.length h) h' h'' -> sequence_at h'' s = sequence_at h' s.
Proof.
  intros LT LR LA LD NT NR NA ND E O.
  destruct (sequence_heap t ts r a d name h LT LR LA LD) as [res [h1 [E' [_ [_ S]]]]]; rewrite E in E'; injection E' as <- <-.
  destruct (S s eq_refl) as [_ [_ [S1 [S2 [S3 [S4 _]]]]]].
  apply stored_fresh in S2, S3, S4; auto.
  unfold sequence_at; f_equal; apply (below_contents (List.length h)); auto; apply S1; auto.
Qed.
(** even an array of integers is kept as the offsets *)
Theorem sequence_shares_refuted : ~ (forall t ts r a d name h s h' h'', arg_lives h ts -> arg_lives h r -> arg_lives h a -> arg_lives h d ->
  ~ float_array h ts -> ~ float_array h r -> ~ float_array h a -> ~ float_array h d ->
  hDynamicDecouplingSequence t ts r a d name h = (Ok s, h') -> only_below (List.length h) h' h'' -> sequence_at h'' s = sequence_at h' s).
Proof.
  intros H.
  set (u := Array 0 [0%nat]); set (h := [Cell false [1]]).
  assert (L : lives h u) by (split; [cbn; lia|intros p [<-|[]]; cbn; lia]).
  set (z := AList true [0]).
  destruct (sequence_heap 2 (AArray u) z z z None h L I I I) as [res [h' [E [[l P] [Q S]]]]].
  assert (V : value h (AArray u) = [1]) by reflexivity; rewrite V in Q.
  assert (DC : exists c, DynamicDecouplingSequence 2 [1] [0] [0] [0] None = Ok c).
  { unfold DynamicDecouplingSequence; cbn; unfold ltb, leb; destruct Rlt_dec; [|lra]; cbn; do 2 (destruct Rle_dec; [|lra]); cbn; eauto. }
  destruct DC as [c0 DC]; cbn [value z] in Q; rewrite DC in Q; destruct res as [s|]; [|discriminate].
  destruct (S s eq_refl) as [_ [S1 _]].
  assert (U : hs_offsets s = u) by (apply S1; exists u; reflexivity).
  assert (F : ~ float_array h (AArray u)) by (cbn; discriminate).
  assert (X := H 2 (AArray u) z z z None h s h' (Cell false [-1] :: l) L I I I F (fun x => x) (fun x => x) (fun x => x) E).
  subst h'.
  assert (Y : sequence_at (Cell false [-1] :: l) s = sequence_at (h ++ l) s).
  { apply X; split; [reflexivity|]; intros [|b] B; [cbn in B; lia|reflexivity]. }
  apply (f_equal offsets) in Y; cbn [sequence_at offsets] in Y; rewrite U in Y; cbn in Y; injection Y; lra.
Qed.

(** ** C86: what a caller can do to a control *)

Lemma nth_set_nth {A} (d x : A) : forall i l, (i < List.length l)%nat -> nth i (set_nth i x l) d = x.
Proof. induction i; intros [|y l] L; cbn in *; try lia; auto; apply IHi; lia. Qed.
Lemma nth_set_other {A} (d x : A) : forall i j l, i <> j -> nth j (set_nth i x l) d = nth j l d.
Proof. induction i; intros [|j] [|y l] L; cbn; auto; try lia; apply IHi; lia. Qed.
Lemma write1_below n h b p x : (b < n)%nat -> only_below n h (write1 h b p x).
Proof.
  intros L; split; [apply length_set_nth|]; intros c LC; unfold write1, cell_at; apply nth_set_other; lia.
Qed.
Lemma write1_contents h v p ps x : lives h v -> nd_at v = p :: ps -> exists xs, contents (write1 h (nd_base v) p x) v = x :: xs.
Proof.
  intros [B P] E; unfold contents; rewrite E; cbn [map]; eexists; f_equal.
  unfold write1; unfold cell_at at 1; rewrite nth_set_nth by auto; cbn [c_values]; apply nth_set_nth, P; rewrite E; left; auto.
Qed.
Theorem control_corrupt u r a d name h c h' : lives h u -> opt_lives h r -> opt_lives h a -> opt_lives h d ->
  float_array h (AArray u) -> hDrivenControl (AArray u) r a d name h = (Ok c, h') -> nd_at u <> [] ->
  exists h'', only_below (List.length h) h' h'' /\ ~ constructible (control_at h'' c).
Proof.
  intros LU LR LA LD F E N.
  destruct (control_heap (AArray u) r a d name h LU LR LA LD) as [res [h1 [E' [P [_ S]]]]]; rewrite E in E'; injection E' as <- <-.
  destruct (S c eq_refl) as [_ [[S1 _] _]]; assert (U := S1 F); cbn in U.
  destruct (nd_at u) as [|p ps] eqn:NU; [contradiction|].
  exists (write1 h' (nd_base u) p (-1)); split; [apply write1_below, LU|].
  destruct (write1_contents h' u p ps (-1)) as [xs X]; auto; [apply (preserves_lives h); auto|].
  rewrite constructible_wf; unfold wf, control_at; cbn; rewrite U, X; intros [_ [_ [_ [K _]]]]; assert (Y := K (-1) (or_introl eq_refl)); lra.
Qed.
