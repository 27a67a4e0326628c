(** * Programs on the heap: Walsh, quadratic and concatenated sequences *)

From Coq Require Import Lia Lra.
From Verif Require Import Spec_Qubit L_Base L_Walsh.
From Verif Require Export L_HeapPredefined.
Import ListNotations.
Open Scope string_scope.
Open Scope list_scope.
Open Scope R_scope.

(** ** Walsh *)

Lemma zip_map {A} (f g : A -> R) l : zip_with Rmult (map f l) (map g l) = map (fun x => f x * g x) l.
Proof. unfold zip_with; induction l; cbn; congruence. Qed.
Lemma walsh_loop h hw bo rel : forall l don, let n := List.length rel in
  let val is x := fold_left (fun acc i => acc * np_sign (sin (2 ^ (i + 1) * PI * x)) ^ nth (hw - 1 - i) bo 0%nat) is 1 in
  for_each l (hwalsh_factor hw bo rel (whole (List.length h) n)) tt (h ++ [Cell true (map (val don) rel)]) =
  (Ok tt, h ++ [Cell true (map (val (don ++ l)) rel)]).
Proof.
  induction l as [|i l IH]; intros don n val; cbn [for_each]; [rewrite app_nil_r; auto|].
  assert (E : hwalsh_factor hw bo rel (whole (List.length h) n) i tt (h ++ [Cell true (map (val don) rel)]) =
    (Ok tt, h ++ [Cell true (map (val (don ++ [i])) rel)])).
  { unfold hwalsh_factor; rewrite get_run.
    assert (C := contents_new true (map (val don) rel) h []); rewrite map_length in C; fold n in C; rewrite C, zip_map.
    unfold whole; rewrite <- (Nat.add_0_r (List.length h)).
    rewrite (assign_block h [Cell true (map (val don) rel)] 0 true (map (val don) rel)) by (auto; rewrite seq_length, map_length; auto).
    cbn [set_nth]; rewrite put_seq_all by (rewrite !map_length; auto).
    do 4 f_equal; apply map_ext; intros x; unfold val; rewrite fold_left_app; auto. }
  rewrite (pbind_ok _ _ _ _ _ E); specialize (IH (don ++ [i])); rewrite <- app_assoc in IH; exact IH.
Qed.
Lemma switch_loop h w n m : m = List.length w -> forall l acc, (forall i, In i l -> (i + 1 < List.length w)%nat) ->
  for_each l (hwalsh_switch n (whole (List.length h) m)) acc (h ++ [Cell true w]) =
  (Ok (acc ++ map (fun i => (INR i + 1) * (1 / INR n)) (filter (fun i => neqb (nth i w 0) (nth (i + 1) w 0)) l)), h ++ [Cell true w]).
Proof.
  intros ->; induction l as [|i l IH]; intros acc B; cbn [for_each]; [cbn; rewrite app_nil_r; auto|].
  assert (Bi := B i (or_introl eq_refl)).
  assert (E : hwalsh_switch n (whole (List.length h) (List.length w)) i acc (h ++ [Cell true w]) =
    (Ok (if neqb (nth i w 0) (nth (i + 1) w 0) then acc ++ [(INR i + 1) * (1 / INR n)] else acc), h ++ [Cell true w])).
  { unfold hwalsh_switch; rewrite (item_run _ _ (nth i w 0)) by (rewrite contents_new; apply nth_error_nth'; lia).
    rewrite (item_run _ _ (nth (i + 1) w 0)) by (rewrite contents_new; apply nth_error_nth'; lia).
    destruct neqb; auto. }
  rewrite (pbind_ok _ _ _ _ _ E), IH by (intros j J; apply B; right; auto).
  cbn [filter]; destruct neqb; cbn [map]; [rewrite <- app_assoc|]; auto.
Qed.
Lemma relative_length k : let n := (2 ^ walsh_hamming_weight k)%nat in
  List.length (np_arange (1 / (2 * INR n)) 1 (1 / INR n)) = n.
Proof.
  intros n; unfold np_arange; rewrite map_length; unfold range; rewrite seq_length.
  assert (P : (0 < n)%nat) by (unfold n; assert (X := Nat.pow_nonzero 2 (walsh_hamming_weight k)); lia).
  assert (PR : 0 < INR n) by (apply lt_0_INR; auto).
  replace ((1 - 1 / (2 * INR n)) / (1 / INR n)) with (INR n - 1 / 2) by (field; lra).
  apply Int_part_neg_half; lia.
Qed.
Lemma const_map {A} (x : R) (l : list A) : map (fun _ => x) l = np_full (List.length l) x.
Proof. unfold np_full; induction l; cbn; congruence. Qed.
Theorem walsh_heap T k pre name h : built h (hnew_walsh_sequence T k pre name h) (new_walsh_sequence T k pre name).
Proof.
  unfold hnew_walsh_sequence, new_walsh_sequence; guarded; guarded.
  cbv zeta; set (p := int_count k).
  set (hw := walsh_hamming_weight p); set (n := (2 ^ hw)%nat); set (rel := np_arange (1 / (2 * INR n)) 1 (1 / INR n)).
  assert (LR : List.length rel = n) by (apply relative_length).
  rewrite new_step, full_length, <- LR, <- (const_map 1 rel).
  rewrite (pbind_ok _ _ _ _ _ (walsh_loop h hw (binary_repr p hw) rel (range 0 hw) [])); cbn [app].
  change (fun x => fold_left _ (range 0 hw) 1) with (walsh_value hw (binary_repr p hw)).
  change (map (walsh_value hw (binary_repr p hw)) rel) with (walsh_array p).
  assert (LW : List.length rel = List.length (walsh_array p)) by (unfold walsh_array; rewrite map_length; auto).
  rewrite (pbind_ok _ _ _ _ _ (switch_loop h (walsh_array p) (List.length rel) _ LW (range 0 (List.length rel - 1)) [] ltac:(intros i I; apply in_seq in I; lia))); cbn [app].
  rewrite LR; change (map _ (filter _ (range 0 (n - 1)))) with (walsh_relative_offsets p).
  unfold zeros; set (os := map (Rmult T) (walsh_relative_offsets p)); set (h1 := h ++ _).
  set (N := List.length os).
  rewrite new_step; fold N; rewrite size_whole.
  rewrite new_step, full_length, new_step, new_step; unfold np_zeros; rewrite full_length, !app_length, <- !app_assoc; cbn [List.length app]; rewrite <- !Nat.add_assoc; cbn [Nat.add].
  apply finish_heap.
  assert (G := good4 h h1 (uniform_arrays os PI 0 0) (preserves_new h _)).
  cbn [a_offsets a_rabi a_azimuthal a_detuning uniform_arrays] in G; rewrite !full_length in G; exact G.
Qed.

(** ** Quadratic *)

Lemma zeros_rows inner n : np_zeros (n * (inner + 1)) = List.concat (map (fun r => r ++ [0]) (repeat (np_zeros inner) n)).
Proof.
  unfold np_zeros, np_full; induction n; cbn [Nat.mul repeat map List.concat]; auto.
  rewrite <- IHn, repeat_app, <- repeat_cons; f_equal; rewrite Nat.add_1_r; auto.
Qed.
Lemma concat_rows_length inner (z : R) rs : (forall r, In r rs -> List.length r = inner) ->
  List.length (List.concat (map (fun r => r ++ [z]) rs)) = (List.length rs * (inner + 1))%nat.
Proof. induction rs; intros H; cbn; auto; rewrite app_length, IHrs, app_length, H; cbn; auto; intros; apply H; right; auto. Qed.
Lemma put_column inner z : forall rs ts k p q, (forall r, In r rs -> List.length r = inner) -> List.length ts = List.length rs ->
  List.length p = (k * (inner + 1))%nat ->
  put (map (fun i => i * (inner + 1) + inner)%nat (seq k (List.length rs))) ts (p ++ List.concat (map (fun r => r ++ [z]) rs) ++ q) =
  p ++ List.concat (map (fun x => fst x ++ [snd x]) (combine rs ts)) ++ q.
Proof.
  induction rs as [|r rs IH]; intros [|t ts] k p q H L K; cbn in L; try discriminate; auto.
  assert (LR : List.length r = inner) by (apply H; left; auto).
  cbn [List.length seq map put List.concat combine fst snd].
  replace (k * (inner + 1) + inner)%nat with (List.length (p ++ r)) by (rewrite app_length; lia).
  rewrite <- !app_assoc; cbn [app]; rewrite (app_assoc p r), set_nth_app.
  assert (X := IH ts (S k) (p ++ r ++ [t]) q); rewrite <- !app_assoc in X; cbn [app] in X.
  rewrite <- app_assoc; apply X; [intros; apply H; right; auto|lia|rewrite !app_length; cbn; lia].
Qed.
Lemma put_rows inner x : forall n k p q, List.length p = (k * (inner + 1))%nat ->
  put (flat_map (fun i => seq (i * (inner + 1)) inner) (seq k n)) (np_full (n * inner) x) (p ++ np_zeros (n * (inner + 1)) ++ q) =
  p ++ List.concat (repeat (np_full inner x ++ [0]) n) ++ q.
Proof.
  induction n as [|n IH]; intros k p q K; cbn [seq flat_map put]; [reflexivity|].
  unfold np_full at 1; cbn [Nat.mul]; rewrite repeat_app, put_app by (rewrite seq_length, repeat_length; auto).
  rewrite <- K; replace (np_zeros (inner + 1 + n * (inner + 1))) with (np_full inner 0 ++ [0] ++ np_zeros (n * (inner + 1)))
    by (unfold np_zeros, np_full; rewrite !repeat_app, <- app_assoc; auto).
  rewrite <- !app_assoc.
  assert (PS := put_seq (repeat x inner) p (np_full inner 0) ([0] ++ np_zeros (n * (inner + 1)) ++ q)).
  rewrite repeat_length in PS; rewrite PS by apply full_length.
  cbn [repeat List.concat]; assert (X := IH (S k) (p ++ np_full inner x ++ [0]) q); repeat rewrite <- app_assoc in X; repeat rewrite <- app_assoc; apply X.
  rewrite !app_length, full_length; cbn; lia.
Qed.
Definition inner_row (inner : nat) (x : R * R) : list R := map (fun t => t + snd x) (uhrig_single_axis_offsets (fst x) inner).
Lemma inner_row_length inner x : List.length (inner_row inner x) = inner.
Proof. unfold inner_row, uhrig_single_axis_offsets; rewrite !map_length; apply seq_length. Qed.
Lemma row_slice b n inner i : (i < n)%nat ->
  slice (row (Matrix (whole b (n * (inner + 1))) (inner + 1)) i) 0 inner = Array b (seq (i * (inner + 1)) inner).
Proof.
  intros L; unfold row; cbn [m_data m_columns].
  assert ((i + 1) * (inner + 1) <= n * (inner + 1))%nat by (apply Nat.mul_le_mono_r; lia).
  rewrite slice_whole by auto.
  replace ((i + 1) * (inner + 1) - i * (inner + 1))%nat with (inner + 1)%nat by lia.
  unfold slice; cbn [nd_base nd_at skipn]; f_equal.
  rewrite Nat.sub_0_r, seq_app, firstn_app, seq_length, Nat.sub_diag, firstn_O, app_nil_r; apply firstn_all2; rewrite seq_length; auto.
Qed.
Lemma nth_error_skipn {A} : forall k (l : list A) x r, skipn k l = x :: r -> nth_error l k = Some x /\ skipn (S k) l = r.
Proof. induction k; intros [|y l] x r E; cbn in *; try discriminate; [injection E as -> ->; auto|apply IHk; auto]. Qed.
Lemma quad_loop h os inner rows : forall ds k p, (k + List.length ds = rows)%nat -> List.length p = (k * (inner + 1))%nat ->
  (rows <= List.length os)%nat ->
  for_each (combine (seq k (List.length ds)) ds) (hinner_row inner os (Matrix (whole (List.length h) (rows * (inner + 1))) (inner + 1))) tt
    (h ++ [Cell true (p ++ np_zeros (List.length ds * (inner + 1)))]) =
  (Ok tt, h ++ [Cell true (p ++ List.concat (map (fun r => r ++ [0]) (map (inner_row inner) (combine ds (skipn k os)))))]).
Proof.
  induction ds as [|d ds IH]; intros k p K LP LO; cbn [List.length seq combine for_each]; [reflexivity|].
  cbn [List.length] in K.
  destruct (skipn k os) as [|t0 os'] eqn:SK.
  { assert (X := skipn_length k os); rewrite SK in X; cbn in X; lia. }
  destruct (nth_error_skipn _ _ _ _ SK) as [N S'].
  assert (E : hinner_row inner os (Matrix (whole (List.length h) (rows * (inner + 1))) (inner + 1)) (k, d) tt
      (h ++ [Cell true (p ++ np_zeros (S (List.length ds) * (inner + 1)))]) =
    (Ok tt, h ++ [Cell true ((p ++ inner_row inner (d, t0) ++ [0]) ++ np_zeros (List.length ds * (inner + 1)))])).
  { unfold hinner_row; rewrite (pbind_ok _ _ _ t0 (h ++ [Cell true (p ++ np_zeros (S (List.length ds) * (inner + 1)))]))
      by (unfold list_item, lift; rewrite N; auto).
    cbv zeta; rewrite row_slice by lia.
    change (map (fun t => t + t0) (uhrig_single_axis_offsets d inner)) with (inner_row inner (d, t0)).
    rewrite <- (Nat.add_0_r (List.length h)) at 1.
    rewrite (assign_block h _ 0 true (p ++ np_zeros (S (List.length ds) * (inner + 1)))) by (auto; rewrite seq_length, inner_row_length; auto).
    cbn [set_nth]; do 4 f_equal.
    rewrite <- LP; cbn [Nat.mul].
    replace (np_zeros (inner + 1 + List.length ds * (inner + 1))) with (np_full inner 0 ++ [0] ++ np_zeros (List.length ds * (inner + 1)))
      by (unfold np_zeros, np_full; rewrite !repeat_app, <- app_assoc; auto).
    assert (PS := put_seq (inner_row inner (d, t0)) p (np_full inner 0) ([0] ++ np_zeros (List.length ds * (inner + 1)))).
    rewrite inner_row_length in PS; rewrite PS, <- !app_assoc by apply full_length; auto. }
  rewrite (pbind_ok _ _ _ _ _ E), IH; [|lia| |auto].
  - rewrite S'; cbn [combine map List.concat]; rewrite <- !app_assoc; auto.
  - rewrite !app_length, inner_row_length; cbn; lia.
Qed.
Lemma column_whole b n inner a c : (c <= n)%nat ->
  column (Matrix (whole b (n * (inner + 1))) (inner + 1)) inner a c = Array b (map (fun i => i * (inner + 1) + inner)%nat (seq a (c - a))).
Proof.
  intros L; unfold column; cbn [m_data m_columns whole nd_base nd_at]; f_equal.
  apply map_ext_in; intros i I; apply in_seq in I; rewrite seq_nth; auto.
  assert ((i + 1) * (inner + 1) <= n * (inner + 1))%nat by (apply Nat.mul_le_mono_r; lia); lia.
Qed.
Lemma seq_map_add a n : seq a n = map (fun j => a + j)%nat (seq 0 n).
Proof. revert a; induction n; intros a; cbn; auto; rewrite IHn, <- seq_shift, map_map, Nat.add_0_r; f_equal; apply map_ext; intros; lia. Qed.
Lemma block_whole b n inner :
  block (Matrix (whole b (n * (inner + 1))) (inner + 1)) 0 n 0 inner = Array b (flat_map (fun i => seq (i * (inner + 1)) inner) (seq 0 n)).
Proof.
  unfold block; cbn [m_data m_columns whole nd_base nd_at]; f_equal; rewrite !Nat.sub_0_r.
  assert (X : forall l, (forall i, In i l -> (i < n)%nat) ->
    flat_map (fun i => map (fun j => nth (i * (inner + 1) + j) (seq 0 (n * (inner + 1))) 0%nat) (seq 0 inner)) l =
    flat_map (fun i => seq (i * (inner + 1)) inner) l).
  { induction l as [|i l IH]; intros B; cbn; auto; rewrite IH by (intros; apply B; right; auto); f_equal.
    assert (Bi := B i (or_introl eq_refl)).
    assert ((i + 1) * (inner + 1) <= n * (inner + 1))%nat by (apply Nat.mul_le_mono_r; lia).
    rewrite (map_ext_in _ (fun j => i * (inner + 1) + j)%nat) by (intros j J; apply in_seq in J; rewrite seq_nth; lia).
    clear; generalize (i * (inner + 1))%nat as a; intros a.
    symmetry; apply seq_map_add. }
  apply X; intros i I; apply in_seq in I; lia.
Qed.
Lemma flat_rows_length inner : forall n k, List.length (flat_map (fun i => seq (i * (inner + 1)) inner) (seq k n)) = (n * inner)%nat.
Proof. induction n; intros k; cbn; auto; rewrite app_length, seq_length, IHn; auto. Qed.
Lemma diff_length l : List.length (np_diff l) = (List.length l - 1)%nat.
Proof. induction l as [|x [|y l] IH]; auto; cbn in *; rewrite IH; lia. Qed.
Lemma removelast_length {A} (l : list A) : List.length (removelast l) = (List.length l - 1)%nat.
Proof. induction l as [|x [|y l] IH]; auto; cbn in *; rewrite IH; lia. Qed.
Lemma keeps_all_but_last h0 h v xs : keeps h0 h v xs -> keeps h0 h (all_but_last v) (removelast xs).
Proof.
  intros K; assert (Z := keeps_size _ _ _ _ K); destruct K as [[L1 L2] [F [C E]]]; unfold all_but_last, slice; cbn [skipn]; rewrite Nat.sub_0_r.
  split; [|split; [|split]]; auto.
  - split; auto; cbn [nd_at nd_base]; intros p I; apply L2; rewrite <- (firstn_skipn (size v - 1)); apply in_or_app; auto.
  - unfold contents in *; cbn [nd_at nd_base]; rewrite <- E, removelast_firstn_len, firstn_map.
    rewrite map_length; do 2 f_equal; unfold size; lia.
Qed.
Lemma flatten_step {B} h l i f xs n c (k : ndarray -> prog B) : nth_error l i = Some (Cell f xs) -> n = List.length xs ->
  pbind (flatten (Matrix (whole (List.length h + i) n) c)) k (h ++ l) = k (whole (List.length h + List.length l) n) (h ++ l ++ [Cell true xs]).
Proof.
  intros E ->; unfold flatten, pbind, get; cbn [m_data]; rewrite (block_contents _ _ _ _ _ E), new_run, app_length, <- app_assoc; auto.
Qed.
Lemma zeros_step' {B} h l n (k : ndarray -> prog B) : pbind (zeros n) k (h ++ l) = k (whole (List.length h + List.length l) n) (h ++ l ++ [Cell true (np_zeros n)]).
Proof. rewrite zeros_step, app_length, <- app_assoc; auto. Qed.
Lemma rows_combine {A} (f : A -> list R) : forall l ts,
  map (fun x => fst x ++ [snd x]) (combine (map f l) ts) = map (fun x : A * R => f (fst x) ++ [snd x]) (combine l ts).
Proof. induction l; intros [|t ts]; cbn; auto; f_equal; auto. Qed.
Lemma repeat_combine (a : list R) x : forall n, map (fun y => fst y ++ [snd y]) (combine (repeat a n) (np_full n x)) = repeat (a ++ [x]) n.
Proof. unfold np_full; induction n; cbn; congruence. Qed.
Theorem quadratic_heap T n1 n2 pre name h : built h (hnew_quadratic_sequence T n1 n2 pre name h) (new_quadratic_sequence T n1 n2 pre name).
Proof.
  unfold hnew_quadratic_sequence, new_quadratic_sequence; guarded; guarded; guarded.
  cbv zeta; set (inner := int_count n1); set (outer := int_count n2).
  set (os := np_insert_ends (uhrig_single_axis_offsets T outer) 0 T).
  assert (LO : List.length os = (outer + 2)%nat).
  { unfold os, np_insert_ends, uhrig_single_axis_offsets; cbn; rewrite app_length, map_length; unfold range; rewrite seq_length; cbn; lia. }
  set (ds := np_diff os).
  assert (LD : List.length ds = (outer + 1)%nat) by (unfold ds; rewrite diff_length; lia).
  rewrite LD; set (rows := (outer + 1)%nat) in *.
  set (b := List.length h); set (N := (rows * (inner + 1))%nat).
  rewrite zeros_step; fold b.
  assert (L1 := quad_loop h os inner rows ds 0 [] LD eq_refl ltac:(lia)); cbn [app skipn] in L1; rewrite LD in L1; fold b N in L1.
  unfold range; rewrite (pbind_ok _ _ _ _ _ L1).
  set (rs := map (inner_row inner) (combine ds os)).
  assert (LRS : List.length rs = rows) by (unfold rs; rewrite map_length, combine_length; lia).
  assert (LT : List.length (tl os) = rows) by (destruct os; cbn in *; lia).
  assert (HR : forall r, In r rs -> List.length r = inner) by (intros r I; apply in_map_iff in I; destruct I as [x [<- _]]; apply inner_row_length).
  set (A := List.concat (map (fun x => fst x ++ [snd x]) (combine rs (tl os)))).
  assert (L2 : assign (column (Matrix (whole b N) (inner + 1)) inner 0 rows) (tl os) (h ++ [Cell true (List.concat (map (fun r => r ++ [0]) rs))]) = (Ok tt, h ++ [Cell true A])).
  { unfold N; rewrite column_whole, Nat.sub_0_r by lia; unfold b; rewrite <- (Nat.add_0_r (List.length h)).
    rewrite (assign_block h _ 0 true (List.concat (map (fun r => r ++ [0]) rs))) by (auto; rewrite map_length, seq_length; auto).
    assert (P := put_column inner 0 rs (tl os) 0 [] [] HR); cbn [app Nat.mul List.length] in P; rewrite LRS, !app_nil_r in P.
    cbn [set_nth]; rewrite P by auto; auto. }
  rewrite (pbind_ok _ _ _ _ _ L2); clear L1 L2.
  assert (LA : List.length A = N).
  { assert (P := put_column inner 0 rs (tl os) 0 [] [] HR); cbn [app Nat.mul List.length] in P; rewrite LRS, !app_nil_r in P.
    unfold A; rewrite <- P, put_length, (concat_rows_length inner), LRS by auto; auto. }
  rewrite !zeros_step'; fold b; cbn [List.length app].
  set (Rr := List.concat (quadratic_rabi_rows inner outer)); set (Dd := List.concat (quadratic_detuning_rows inner outer)).
  assert (L3 : assign (column (Matrix (whole (b + 1) N) (inner + 1)) inner 0 outer) (np_full outer PI) (h ++ [Cell true A; Cell true (np_zeros N); Cell true (np_zeros N)]) =
     (Ok tt, h ++ [Cell true A; Cell true Rr; Cell true (np_zeros N)])).
  { unfold N at 1; rewrite column_whole, Nat.sub_0_r by lia; unfold b.
    rewrite (assign_block h _ 1 true (np_zeros N)) by (auto; rewrite map_length, seq_length, full_length; auto).
    cbn [set_nth]; do 4 f_equal.
    assert (P := put_column inner 0 (repeat (np_zeros inner) outer) (np_full outer PI) 0 [] (np_zeros inner ++ [0])); cbn [app Nat.mul List.length] in P; rewrite repeat_length, full_length in P.
    replace (np_zeros N) with (List.concat (map (fun r => r ++ [0]) (repeat (np_zeros inner) outer)) ++ np_zeros inner ++ [0]).
    - rewrite P; auto; [rewrite repeat_combine; unfold Rr, quadratic_rabi_rows; rewrite concat_app; cbn [List.concat]; rewrite app_nil_r; auto|].
      intros r I; apply repeat_spec in I; subst; apply full_length.
    - rewrite <- zeros_rows; unfold N, rows, np_zeros, np_full; change [0] with (repeat 0 1); rewrite <- !repeat_app; f_equal; lia. }
  rewrite (pbind_ok _ _ _ _ _ L3); clear L3.
  assert (L4 : assign (block (Matrix (whole (b + 2) N) (inner + 1)) 0 rows 0 inner) (np_full (size (block (Matrix (whole (b + 2) N) (inner + 1)) 0 rows 0 inner)) PI)
      (h ++ [Cell true A; Cell true Rr; Cell true (np_zeros N)]) = (Ok tt, h ++ [Cell true A; Cell true Rr; Cell true Dd])).
  { unfold N at 1 2; rewrite block_whole; unfold size; cbn [nd_at]; rewrite flat_rows_length; unfold b.
    rewrite (assign_block h _ 2 true (np_zeros N)) by (auto; rewrite flat_rows_length, full_length; auto).
    cbn [set_nth]; do 5 f_equal.
    assert (P := put_rows inner PI rows 0 [] [] eq_refl); cbn [app] in P; rewrite !app_nil_r in P; unfold N; rewrite P; reflexivity. }
  rewrite (pbind_ok _ _ _ _ _ L4); clear L4.
  assert (LRr : N = List.length Rr).
  { unfold Rr, quadratic_rabi_rows; rewrite concat_app, app_length; cbn [List.concat]; rewrite app_nil_r, app_length.
    unfold np_zeros at 2; rewrite full_length.
    replace (List.length (List.concat (repeat (np_zeros inner ++ [PI]) outer))) with (outer * (inner + 1))%nat; [unfold N, rows; cbn [List.length]; lia|].
    clear; induction outer; cbn; auto; rewrite !app_length, <- IHouter; unfold np_zeros; rewrite full_length; cbn; lia. }
  assert (LDd : N = List.length Dd).
  { unfold Dd, quadratic_detuning_rows, N; fold rows; clear; induction rows; cbn; auto; rewrite !app_length, <- IHrows, full_length; cbn; lia. }
  replace (whole b N) with (whole (b + 0) N) by (rewrite Nat.add_0_r; auto); unfold b.
  rewrite (flatten_step h _ 0 true A) by auto; cbn [List.length app].
  rewrite (flatten_step h _ 1 true Rr) by auto; cbn [List.length app].
  rewrite (flatten_step h _ 2 true Dd) by auto; cbn [List.length app].
  rewrite zeros_step'; cbn [List.length app].
  set (M := size (all_but_last (whole (List.length h + 3) N))).
  set (l := [_; _; _; _; _; _; _]).
  assert (K : forall i xs, nth_error l i = Some (Cell true xs) -> N = List.length xs -> keeps h (h ++ l) (all_but_last (whole (List.length h + i) N)) (removelast xs)).
  { intros i xs E L; apply keeps_all_but_last, keeps_block; auto; apply preserves_refl. }
  assert (EM : M = List.length (removelast A)) by (unfold M; apply (keeps_size h (h ++ l)), K; auto).
  apply finish_heap; split; [eexists; reflexivity|]; split; [cbn; repeat constructor; cbn; lia|].
  cbn [v_offsets v_rabi v_azimuthal v_detuning a_offsets a_rabi a_azimuthal a_detuning].
  assert (EA : List.concat (quadratic_offset_rows T inner outer) = A).
  { unfold A, quadratic_offset_rows, rs; cbv zeta; fold os ds; f_equal; rewrite rows_combine; apply map_ext; intros [[d t0] t1]; auto. }
  unfold drop_last; rewrite EA.
  split; [apply (K 3%nat); auto|]; split; [apply (K 4%nat); auto|]; split; [|apply (K 5%nat); auto].
  rewrite EM; apply (keeps_block h h l 6); [apply preserves_refl|unfold l; rewrite EM; auto|unfold np_zeros; rewrite full_length; auto].
Qed.

(** ** X concatenated *)

Lemma get_all_run : forall vs h, get_all vs h = (Ok (flat_map (contents h) vs), h).
Proof. induction vs as [|v vs IH]; intros h; cbn [get_all flat_map]; [reflexivity|]. rewrite get_run; unfold pbind; rewrite IH; auto. Qed.
Lemma concatenate_run vs xs h : concatenate vs xs h = (Ok (whole (List.length h) (List.length (flat_map (contents h) vs ++ xs))), h ++ [Cell false (flat_map (contents h) vs ++ xs)]).
Proof. unfold concatenate; rewrite (pbind_ok _ _ _ _ _ (get_all_run vs h)), new_run; auto. Qed.
Lemma lives_whole_new h f xs n : (n <= List.length xs)%nat -> lives (h ++ [Cell f xs]) (whole (List.length h) n).
Proof. intros L; split; [rewrite app_length; cbn; lia|]; cbn [nd_base nd_at whole]; rewrite cell_at_end; intros p I; apply in_seq in I; cbn; lia. Qed.
Lemma concatenation_x_run : forall n h, exists v h', hconcatenation_x n h = (Ok v, h') /\ preserves h h' /\ lives h' v /\
  contents h' v = map IZR (concatenation_x n).
Proof.
  assert (X0 : forall xs h, exists v h', new false xs h = (Ok v, h') /\ preserves h h' /\ lives h' v /\ contents h' v = xs).
  { intros xs h; eexists _, _; split; [reflexivity|]; split; [apply preserves_new|]; split; [apply lives_new|apply (contents_new false xs h [])]. }
  intros [|n]; [intros h; apply X0|].
  induction n as [|n IH]; intros h; [apply (X0 [1; 0; 1; 0])|].
  change (hconcatenation_x (S (S n))) with
    (let! a := hconcatenation_x (S n) in let! zero := new false [0] in let! b := hconcatenation_x (S n) in concatenate [a; zero; b] [0]).
  change (concatenation_x (S (S n))) with (concatenation_x (S n) ++ [0%Z] ++ concatenation_x (S n) ++ [0%Z]).
  destruct (IH h) as [a [h1 [E1 [P1 [L1 C1]]]]]; rewrite (pbind_ok _ _ _ _ _ E1), new_step.
  set (z := whole _ _); set (h2 := h1 ++ [_]).
  assert (P2 : preserves h1 h2) by apply preserves_new.
  assert (L2 : lives h2 z) by apply (lives_new false [0]).
  assert (C2 : contents h2 z = [0]) by (apply (contents_new false [0] h1 [])).
  destruct (IH h2) as [b [h3 [E3 [P3 [L3 C3]]]]]; rewrite (pbind_ok _ _ _ _ _ E3), concatenate_run.
  eexists _, _; split; [reflexivity|]; split; [|split; [apply lives_new|]].
  - eapply preserves_trans; [exact P1|]; eapply preserves_trans; [exact P2|]; eapply preserves_trans; [exact P3|apply preserves_new].
  - rewrite (contents_new false _ h3 []); cbn [flat_map].
    rewrite (preserves_contents h1 h3), (preserves_contents h2 h3), C1, C2, C3 by (auto; eapply preserves_trans; eauto).
    rewrite !map_app; cbn [map]; rewrite app_nil_r, <- !app_assoc; auto.
Qed.
Lemma concatenation_x_01 : forall n c, In c (concatenation_x n) -> c = 0%Z \/ c = 1%Z.
Proof.
  intros [|n]; [intros c []|]; induction n as [|n IH]; intros c I.
  - cbn in I; intuition lia.
  - change (concatenation_x (S (S n))) with (concatenation_x (S n) ++ [0%Z] ++ concatenation_x (S n) ++ [0%Z]) in I.
    repeat (apply in_app_or in I; destruct I as [I|I]); auto; cbn in I; intuition.
Qed.
Lemma running_cumsum : forall l acc, cumsum_from acc l = running Rplus acc l.
Proof. induction l; intros acc; cbn; congruence. Qed.
Theorem x_concatenated_heap T l pre name h : built h (hnew_x_concatenated_sequence T l pre name h) (new_x_concatenated_sequence T l pre name).
Proof.
  unfold hnew_x_concatenated_sequence, new_x_concatenated_sequence; guarded; guarded.
  cbv zeta; set (n := int_count l); set (u := T / 2 ^ n).
  destruct (concatenation_x_run n h) as [v [h1 [E [P [L C]]]]]; rewrite (pbind_ok _ _ _ _ _ E), get_run, C, new_step.
  set (xs := even_values _).
  assert (EX : xs = even_count_values leb eqb (x_positions 0 u Rplus (concatenation_x n))).
  { unfold xs, even_values, x_positions, np_cumsum; rewrite running_cumsum; do 2 f_equal; rewrite map_map; apply map_ext_in.
    intros c I; destruct (concatenation_x_01 n c I) as [-> | ->]; cbn; ring. }
  unfold M_DDSPredefined.x_offsets; cbv zeta; rewrite <- EX; clearbody xs.
  assert (K : keeps h (h1 ++ [Cell true xs]) (whole (List.length h1) (List.length xs)) xs) by (apply keeps_end; auto).
  assert (P' : preserves h (h1 ++ [Cell true xs])) by (eapply preserves_trans; [exact P|apply preserves_new]).
  destruct (Nat.eqb (n mod 2) 1); apply x_finish; auto; apply keeps_all_but_last; auto.
Qed.
