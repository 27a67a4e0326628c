(** * Programs on the heap: conversion *)

From Coq Require Import Lia Lra.
From Verif Require Import Spec_Qubit L_Base.
From Verif Require Export L_Heap.
Import ListNotations.
Open Scope string_scope.
Open Scope list_scope.
Open Scope R_scope.

(** ** Columns *)

Lemma operations_of_cols : forall o r a d, List.length r = List.length o -> List.length a = List.length o -> List.length d = List.length o ->
  map op_offset (operations_of o r a d) = o /\ map op_rabi (operations_of o r a d) = r /\
  map op_azimuthal (operations_of o r a d) = a /\ map op_detuning (operations_of o r a d) = d.
Proof.
  unfold operations_of; induction o as [|x o IH]; intros [|y r] [|z a] [|w d]; cbn; try discriminate; auto.
  intros H1 H2 H3; destruct (IH r a d) as [A [B [C D]]]; try congruence; rewrite A, B, C, D; auto.
Qed.
(** the four local variables hold the columns [ops] *)
Definition holds (h : heap) (q : columns) (ops : list operation) : Prop :=
  (lives h (v_offsets q) /\ lives h (v_rabi q) /\ lives h (v_azimuthal q) /\ lives h (v_detuning q)) /\
  contents h (v_offsets q) = map op_offset ops /\ contents h (v_rabi q) = map op_rabi ops /\
  contents h (v_azimuthal q) = map op_azimuthal ops /\ contents h (v_detuning q) = map op_detuning ops.
Lemma holds_size h q ops : holds h q ops -> size (v_offsets q) = List.length ops.
Proof. intros [_ [E _]]; rewrite <- contents_length with (h := h), E, map_length; auto. Qed.
Lemma holds_sequence h s : sequence_lives h s ->
  holds h (Columns (hs_offsets s) (hs_rabi_rotations s) (hs_azimuthal_angles s) (hs_detuning_rotations s)) (dds_operations (sequence_at h s)).
Proof.
  intros [L Z]; unfold sequence_arrays in *; cbn in L, Z.
  split; [cbn; repeat split; auto; apply L; auto|].
  unfold dds_operations, sequence_at; cbn [v_offsets v_rabi v_azimuthal v_detuning offsets rabi_rotations seq_azimuthal_angles detuning_rotations].
  destruct (operations_of_cols (contents h (hs_offsets s)) (contents h (hs_rabi_rotations s)) (contents h (hs_azimuthal_angles s)) (contents h (hs_detuning_rotations s)))
    as [A [B [C D]]]; try (rewrite !contents_length; apply Z; auto); rewrite A, B, C, D; auto.
Qed.

(** four new blocks *)
Lemma holds_new h ops f1 f2 f3 f4 n : n = List.length ops ->
  holds (h ++ [Cell f1 (map op_offset ops); Cell f2 (map op_rabi ops); Cell f3 (map op_azimuthal ops); Cell f4 (map op_detuning ops)])
    (Columns (whole (List.length h) n) (whole (List.length h + 1) n) (whole (List.length h + 2) n) (whole (List.length h + 3) n)) ops.
Proof.
  intros ->; set (l := [_; _; _; _]).
  assert (K : forall i f xs, nth_error l i = Some (Cell f xs) -> List.length xs = List.length ops ->
            lives (h ++ l) (whole (List.length h + i) (List.length ops)) /\ contents (h ++ l) (whole (List.length h + i) (List.length ops)) = xs).
  { intros i f xs E <-.
    assert (C : cell_at (h ++ l) (List.length h + i) = Cell f xs) by (rewrite cell_at_new; unfold cell_at; apply nth_error_nth; auto).
    split; [|apply (contents_whole _ _ _ f); auto].
    split; cbn; [rewrite app_length; apply Nat.add_lt_mono_l; apply nth_error_Some; rewrite E; discriminate|].
    rewrite C; intros p I; apply in_seq in I; cbn; lia. }
  destruct (K 0%nat _ _ eq_refl (map_length _ _)) as [A1 A2], (K 1%nat _ _ eq_refl (map_length _ _)) as [B1 B2],
    (K 2%nat _ _ eq_refl (map_length _ _)) as [C1 C2], (K 3%nat _ _ eq_refl (map_length _ _)) as [D1 D2].
  rewrite Nat.add_0_r in A1, A2; split; cbn; auto.
Qed.
Lemma whole_length1 {A} (h : list A) x n : whole (List.length (h ++ [x])) n = whole (List.length h + 1) n.
Proof. rewrite app_length; auto. Qed.
Lemma new4 {B} f1 f2 f3 f4 x1 x2 x3 x4 (k : ndarray -> ndarray -> ndarray -> ndarray -> prog B) h :
  pbind (new f1 x1) (fun a => pbind (new f2 x2) (fun b => pbind (new f3 x3) (fun c => pbind (new f4 x4) (fun d => k a b c d)))) h =
  k (whole (List.length h) (List.length x1)) (whole (List.length h + 1) (List.length x2)) (whole (List.length h + 2) (List.length x3))
    (whole (List.length h + 3) (List.length x4)) (h ++ [Cell f1 x1; Cell f2 x2; Cell f3 x3; Cell f4 x4]).
Proof.
  unfold pbind; rewrite !new_run, !app_length, <- !app_assoc; cbn [List.length app]; rewrite <- !Nat.add_assoc; reflexivity.
Qed.

Lemma pad_empty_run h q ops T : holds h q ops -> exists q' h', hpad_empty T q h = (Ok q', h') /\ preserves h h' /\ holds h' q' (pad_empty T ops).
Proof.
  intros H; unfold hpad_empty; rewrite (holds_size _ _ _ H); destruct ops as [|o ops]; cbn [List.length Nat.eqb].
  - rewrite new4; eexists _, _; split; [reflexivity|]; split; [eexists; reflexivity|].
    apply (holds_new h [null_operation 0; null_operation T]); auto.
  - exists q, h; split; [reflexivity|]; split; [apply preserves_refl|]; auto.
Qed.
Lemma get_dtype_run {B} v (k : list R -> bool -> prog B) h :
  pbind (get v) (fun xs => pbind (dtype v) (k xs)) h = k (contents h v) (c_float (cell_at h (nd_base v))) h.
Proof. reflexivity. Qed.
Lemma prepend_run x v h : prepend x v h = new (c_float (cell_at h (nd_base v))) (x :: contents h v) h.
Proof. reflexivity. Qed.
Lemma append_run x v h : append v x h = new (c_float (cell_at h (nd_base v))) (contents h v ++ [x]) h.
Proof. reflexivity. Qed.
Lemma pre4 {B} (P : R -> ndarray -> prog ndarray) (g0 : R -> list R -> list R) x1 x2 x3 x4 v1 v2 v3 v4 (k : ndarray -> ndarray -> ndarray -> ndarray -> prog B) h :
  (forall x v h, P x v h = new (c_float (cell_at h (nd_base v))) (g0 x (contents h v)) h) ->
  lives h v1 -> lives h v2 -> lives h v3 -> lives h v4 -> exists f1 f2 f3 f4,
  pbind (P x1 v1) (fun a => pbind (P x2 v2) (fun b => pbind (P x3 v3) (fun c => pbind (P x4 v4) (fun d => k a b c d)))) h =
  pbind (new f1 (g0 x1 (contents h v1))) (fun a => pbind (new f2 (g0 x2 (contents h v2)))
    (fun b => pbind (new f3 (g0 x3 (contents h v3))) (fun c => pbind (new f4 (g0 x4 (contents h v4))) (fun d => k a b c d)))) h.
Proof.
  intros E L1 L2 L3 L4.
  eexists (c_float (cell_at h (nd_base v1))), (c_float (cell_at h (nd_base v2))), (c_float (cell_at h (nd_base v3))), (c_float (cell_at h (nd_base v4))).
  assert (N : forall A f xs (m : ndarray -> prog A) g, pbind (new f xs) m g = m (whole (List.length g) (List.length xs)) (g ++ [Cell f xs])) by reflexivity.
  assert (EP : forall A x v (m : ndarray -> prog A) g, pbind (P x v) m g = pbind (new (c_float (cell_at g (nd_base v))) (g0 x (contents g v))) m g)
    by (intros; unfold pbind; rewrite E; auto).
  rewrite EP, !N, EP, (cell_at_old h), (contents_old h), N by (auto; apply L2).
  rewrite EP, <- !app_assoc, (cell_at_old h), (contents_old h), N by (auto; apply L3).
  rewrite EP, <- !app_assoc, (cell_at_old h), (contents_old h), N by (auto; apply L4).
  rewrite <- !app_assoc; reflexivity.
Qed.
Lemma item_run {B} v i x (k : R -> prog B) h : nth_error (contents h v) i = Some x -> pbind (item v i) k h = k x h.
Proof. intros E; unfold pbind, item; rewrite E; auto. Qed.

Lemma pad_front_run h q ops : ops <> [] -> holds h q ops -> exists q' h', hpad_front q h = (Ok q', h') /\ preserves h h' /\ holds h' q' (pad_front ops).
Proof.
  intros NE H; assert (H0 := H); destruct H as [[L1 [L2 [L3 L4]]] [E1 [E2 [E3 E4]]]]; destruct ops as [|o ops]; [contradiction|].
  unfold hpad_front; rewrite (item_run _ _ (op_offset o)) by (rewrite E1; auto).
  cbn [pad_front]; destruct (neqb _ _); [|exists q, h; split; [reflexivity|]; split; [apply preserves_refl|]; auto].
  destruct (pre4 prepend (fun x l => x :: l) 0 0 0 0 _ _ _ _ (fun o r a d => ret (Columns o r a d)) h prepend_run L1 L2 L3 L4) as [f1 [f2 [f3 [f4 E]]]].
  rewrite E, new4; eexists _, _; split; [reflexivity|]; split; [eexists; reflexivity|].
  rewrite E1, E2, E3, E4; cbn [List.length]; rewrite !map_length.
  apply (holds_new h (null_operation 0 :: o :: ops)); auto.
Qed.
Lemma last_nth_error {A} (l : list A) d : l <> [] -> nth_error l (List.length l - 1) = Some (last l d).
Proof.
  intros N; destruct (exists_last N) as [l' [x ->]]; rewrite last_last, app_length; cbn.
  rewrite nth_error_app2 by lia; replace (_ - _)%nat with 0%nat by lia; auto.
Qed.
Lemma pad_back_run h q ops T : ops <> [] -> holds h q ops -> exists q' h', hpad_back T q h = (Ok q', h') /\ preserves h h' /\ holds h' q' (pad_back T ops).
Proof.
  intros NE H; assert (H0 := H); destruct H as [[L1 [L2 [L3 L4]]] [E1 [E2 [E3 E4]]]].
  unfold hpad_back; rewrite (item_run _ _ (op_offset (last ops (null_operation 0)))).
  2:{ rewrite E1, (holds_size _ _ _ H0), nth_error_map, (last_nth_error ops (null_operation 0)); auto. }
  unfold pad_back; destruct (neqb _ _); [|exists q, h; split; [reflexivity|]; split; [apply preserves_refl|]; auto].
  destruct (pre4 (fun x v => append v x) (fun x l => l ++ [x]) T 0 0 0 _ _ _ _ (fun o r a d => ret (Columns o r a d)) h append_run L1 L2 L3 L4) as [f1 [f2 [f3 [f4 E]]]].
  rewrite E, new4; eexists _, _; split; [reflexivity|]; split; [eexists; reflexivity|].
  assert (X := holds_new h (ops ++ [null_operation T]) f1 f2 f3 f4 _ eq_refl); rewrite !map_app in X; cbn [map] in X.
  rewrite E1, E2, E3, E4, !app_length; cbn [List.length]; rewrite !map_length; rewrite app_length in X; exact X.
Qed.
Lemma pad_run h q ops T : holds h q ops -> exists q' h',
  (forall B (k : columns -> prog B), (let! q := hpad_empty T q in let! q := hpad_front q in let! q := hpad_back T q in k q) h = k q' h') /\
  preserves h h' /\ holds h' q' (pad_operations T ops) /\ pad_operations T ops <> [].
Proof.
  intros H; destruct (pad_empty_run h q ops T H) as [q1 [h1 [E1 [P1 H1]]]].
  assert (N1 : pad_empty T ops <> []) by (destruct ops; discriminate).
  destruct (pad_front_run h1 q1 _ N1 H1) as [q2 [h2 [E2 [P2 H2]]]].
  assert (N2 : pad_front (pad_empty T ops) <> []) by (destruct (pad_empty T ops); [contradiction|]; cbn; destruct neqb; discriminate).
  destruct (pad_back_run h2 q2 _ T N2 H2) as [q3 [h3 [E3 [P3 H3]]]].
  exists q3, h3; split; [|split; [apply (preserves_trans _ h2); auto; apply (preserves_trans _ h1); auto|split; [exact H3|]]].
  - intros B k; rewrite (pbind_ok _ _ _ _ _ E1), (pbind_ok _ _ _ _ _ E2), (pbind_ok _ _ _ _ _ E3); auto.
  - unfold pad_operations, pad_back; destruct neqb; auto; intros X; apply app_eq_nil in X; destruct X; discriminate.
Qed.

(** ** Blocks *)

Lemma block_cell h l i c : nth_error l i = Some c -> cell_at (h ++ l) (List.length h + i) = c.
Proof. intros E; rewrite cell_at_new; unfold cell_at; apply nth_error_nth; auto. Qed.
Lemma block_contents h l i f xs : nth_error l i = Some (Cell f xs) -> contents (h ++ l) (whole (List.length h + i) (List.length xs)) = xs.
Proof. intros E; apply (contents_whole _ _ _ f), block_cell; auto. Qed.
Lemma block_item {B} h l i f xs n j x (k : R -> prog B) : nth_error l i = Some (Cell f xs) -> n = List.length xs -> nth_error xs j = Some x ->
  pbind (item (whole (List.length h + i) n) j) k (h ++ l) = k x (h ++ l).
Proof. intros E -> F; apply item_run; rewrite (block_contents h l i f xs E); auto. Qed.
Lemma block_set' h l i f xs n j x : nth_error l i = Some (Cell f xs) -> (j < n)%nat ->
  setitem (whole (List.length h + i) n) j x (h ++ l) = (Ok tt, h ++ set_nth i (Cell f (set_nth j x xs)) l).
Proof.
  intros E F; unfold setitem; cbn [whole nd_at nd_base].
  rewrite (nth_error_nth' _ 0%nat) by (rewrite seq_length; auto); rewrite seq_nth by auto; cbn [Nat.add].
  unfold write1; rewrite (block_cell _ _ _ _ E), set_nth_far; auto.
Qed.
Lemma block_set {B} h l i f xs n j x (k : unit -> prog B) : nth_error l i = Some (Cell f xs) -> (j < n)%nat ->
  pbind (setitem (whole (List.length h + i) n) j x) k (h ++ l) = k tt (h ++ set_nth i (Cell f (set_nth j x xs)) l).
Proof. intros E F; apply pbind_ok, (block_set' _ _ _ f); auto. Qed.

Definition flat_ops (ops : list operation) : list R :=
  map op_offset ops ++ map op_rabi ops ++ map op_azimuthal ops ++ map op_detuning ops.
Definition ops_matrix (h : heap) (ops : list operation) : matrix :=
  Matrix (whole (List.length h + 0) (List.length (flat_ops ops))) (List.length ops).
Definition flat (ses : list (R * R)) : list R := flat_map (fun se => [fst se; snd se]) ses.
Definition se_matrix (h : heap) (n : nat) : matrix := Matrix (whole (List.length h + 1) (n * 2)) 2.
Lemma flat_length ses : List.length (flat ses) = (List.length ses * 2)%nat.
Proof. induction ses; cbn; auto. Qed.
Lemma flat_app a b : flat (a ++ b) = flat a ++ flat b.
Proof. apply flat_map_app. Qed.

Lemma nth_error_mid {A} (a : list A) x b : nth_error (a ++ x :: b) (List.length a) = Some x.
Proof. induction a; cbn; auto. Qed.
Lemma nth_error_first {A} : forall n i (l : list A), (i < n)%nat -> nth_error (firstn n l) i = nth_error l i.
Proof. induction n; intros [|i] [|x l] L; cbn; auto; try lia; apply IHn; lia. Qed.
Lemma read_ops {B} h l ops don o rest f (k : R -> prog B) : ops = don ++ o :: rest -> nth_error l 0 = Some (Cell f (flat_ops ops)) ->
  pbind (mitem (ops_matrix h ops) 1 (List.length don)) k (h ++ l) = k (op_rabi o) (h ++ l) /\
  pbind (mitem (ops_matrix h ops) 2 (List.length don)) k (h ++ l) = k (op_azimuthal o) (h ++ l) /\
  pbind (mitem (ops_matrix h ops) 3 (List.length don)) k (h ++ l) = k (op_detuning o) (h ++ l) /\
  pbind (item (row (ops_matrix h ops) 0) (List.length don)) k (h ++ l) = k (op_offset o) (h ++ l).
Proof.
  intros EO E.
  assert (N : forall g : operation -> R, nth_error (map g ops) (List.length don) = Some (g o)).
  { intros g; rewrite nth_error_map, EO, nth_error_mid; auto. }
  assert (LT : (List.length don < List.length ops)%nat) by (rewrite EO, app_length; cbn; lia).
  split; [|split; [|split]]; unfold mitem, ops_matrix; cbn [m_data m_columns].
  - apply (block_item _ _ _ f (flat_ops ops)); auto; unfold flat_ops.
    rewrite nth_error_app2; rewrite map_length; [|lia]; rewrite nth_error_app1 by (rewrite map_length; lia).
    replace (_ - _)%nat with (List.length don) by lia; auto.
  - apply (block_item _ _ _ f (flat_ops ops)); auto; unfold flat_ops.
    do 2 (rewrite nth_error_app2; rewrite map_length; [|lia]); rewrite nth_error_app1 by (rewrite map_length; lia).
    replace (_ - _)%nat with (List.length don) by lia; auto.
  - apply (block_item _ _ _ f (flat_ops ops)); auto; unfold flat_ops.
    do 3 (rewrite nth_error_app2; rewrite map_length; [|lia]).
    replace (_ - _)%nat with (List.length don) by lia; auto.
  - apply item_run; unfold row, slice, contents; cbn [m_data m_columns nd_base nd_at whole].
    rewrite (block_cell _ _ _ _ E); cbn [c_values].
    rewrite Nat.mul_0_l; cbn [skipn]; replace ((0 + 1) * _ - 0)%nat with (List.length ops) by lia.
    rewrite nth_error_map, nth_error_first by auto.
    assert (LF : (List.length ops <= List.length (flat_ops ops))%nat) by (unfold flat_ops; rewrite app_length, map_length; lia).
    rewrite (nth_error_nth' _ 0%nat) by (rewrite seq_length; lia); rewrite seq_nth by lia; cbn [option_map Nat.add]; f_equal.
    apply nth_error_nth; unfold flat_ops; rewrite nth_error_app1 by (rewrite map_length; lia); auto.
Qed.

(** ** The windows *)

Lemma zeros_cons2 n : np_zeros (S n * 2) = 0 :: 0 :: np_zeros (n * 2).
Proof. reflexivity. Qed.
Lemma set_two (p : list R) x y z : set_nth (List.length p + 1) y (set_nth (List.length p + 0) x (p ++ 0 :: 0 :: z)) = (p ++ [x; y]) ++ z.
Proof. rewrite !set_nth_far; cbn; rewrite <- app_assoc; auto. Qed.

Lemma window_loop h ops maxr maxd mn c : forall rest don, ops = don ++ rest ->
  nth_error [c] 0 = Some (Cell true (flat_ops ops)) ->
  for_each (seq (List.length don) (List.length rest)) (hwindow maxr maxd mn (ops_matrix h ops) (row (ops_matrix h ops) 0) (se_matrix h (List.length ops))) tt
    (h ++ [c; Cell true (flat (map (start_end (half_pulse_duration maxr maxd mn)) don) ++ np_zeros (List.length rest * 2))]) =
  (Ok tt, h ++ [c; Cell true (flat (map (start_end (half_pulse_duration maxr maxd mn)) ops))]).
Proof.
  set (half := half_pulse_duration maxr maxd mn).
  intros rest; induction rest as [|o rest IH]; intros don EO EC.
  - cbn; rewrite app_nil_r in *; subst; auto.
  - cbn [List.length seq for_each]. rewrite zeros_cons2.
    set (p := flat (map (start_end half) don)); set (l := [c; _]).
    assert (LP : List.length p = (List.length don * 2)%nat) by (unfold p; rewrite flat_length, map_length; auto).
    assert (LT : (List.length don < List.length ops)%nat) by (rewrite EO, app_length; cbn; lia).
    assert (E0 : nth_error l 0 = Some (Cell true (flat_ops ops))) by exact EC.
    assert (RO := fun B (k : R -> prog B) => read_ops h l ops don o rest true k EO E0).
    assert (X : hwindow maxr maxd mn (ops_matrix h ops) (row (ops_matrix h ops) 0) (se_matrix h (List.length ops)) (List.length don) tt (h ++ l) =
      (Ok tt, h ++ [c; Cell true (flat (map (start_end half) (don ++ [o])) ++ np_zeros (List.length rest * 2))])).
    { unfold hwindow; rewrite (proj1 (RO _ _)).
      rewrite (pbind_ok _ _ _ (half o) (h ++ l)).
      2:{ unfold half, half_pulse_duration; destruct (negb (np_isclose (op_rabi o) 0)); [rewrite (proj1 (RO _ _)); reflexivity|].
          rewrite (proj1 (proj2 (proj2 (RO _ _)))); destruct (negb (np_isclose (op_detuning o) 0)); [rewrite (proj1 (proj2 (proj2 (RO _ _))))|]; reflexivity. }
      rewrite (proj2 (proj2 (proj2 (RO _ _)))); unfold msetitem, se_matrix; cbn [m_data m_columns].
      rewrite (block_set h l 1 true (p ++ 0 :: 0 :: np_zeros (List.length rest * 2))) by (auto; lia).
      set (l' := set_nth 1 _ l).
      rewrite (proj2 (proj2 (proj2 (read_ops h l' ops don o rest true _ EO E0)))).
      rewrite (block_set' h l' 1 true (set_nth (List.length don * 2 + 0) (op_offset o - half o) (p ++ 0 :: 0 :: np_zeros (List.length rest * 2)))) by (auto; lia).
      unfold l', l; cbn [set_nth]; rewrite <- LP, set_two.
      rewrite map_app, flat_app; reflexivity. }
    rewrite (pbind_ok _ _ _ _ _ X).
    specialize (IH (don ++ [o])); rewrite app_length, Nat.add_1_r in IH; cbn [List.length] in IH.
    apply IH; auto; rewrite <- app_assoc; auto.
Qed.

(** ** The shifts at both ends *)

Lemma se_item {B} h c ses i j x (k : R -> prog B) : nth_error (flat ses) (i * 2 + j) = Some x ->
  pbind (mitem (se_matrix h (List.length ses)) i j) k (h ++ [c; Cell true (flat ses)]) = k x (h ++ [c; Cell true (flat ses)]).
Proof. intros E; unfold mitem, se_matrix; cbn [m_data m_columns]; apply (block_item _ _ _ true (flat ses)); auto; rewrite flat_length; auto. Qed.
Lemma flat_nth (ses1 : list (R * R)) s e ses2 :
  nth_error (flat (ses1 ++ (s, e) :: ses2)) (List.length ses1 * 2 + 0) = Some s /\
  nth_error (flat (ses1 ++ (s, e) :: ses2)) (List.length ses1 * 2 + 1) = Some e.
Proof.
  rewrite flat_app, <- flat_length; split; (rewrite nth_error_app2 by lia).
  - replace (_ - _)%nat with 0%nat by lia; auto.
  - replace (_ - _)%nat with 1%nat by lia; auto.
Qed.
Lemma se_row h c ses1 s e ses2 x y :
  let ses := ses1 ++ (s, e) :: ses2 in
  contents (h ++ [c; Cell true (flat ses)]) (row (se_matrix h (List.length ses)) (List.length ses1)) = [s; e] /\
  assign (row (se_matrix h (List.length ses)) (List.length ses1)) [x; y] (h ++ [c; Cell true (flat ses)]) =
    (Ok tt, h ++ [c; Cell true (flat (ses1 ++ (x, y) :: ses2))]).
Proof.
  intros ses.
  assert (P : row (se_matrix h (List.length ses)) (List.length ses1) = Array (List.length h + 1) [List.length ses1 * 2; List.length ses1 * 2 + 1]%nat).
  { unfold row, slice, se_matrix, whole; cbn [m_data m_columns nd_base nd_at]; f_equal.
    unfold ses; rewrite app_length; cbn [List.length].
    replace ((List.length ses1 + S (List.length ses2)) * 2)%nat with (List.length ses1 * 2 + (2 + List.length ses2 * 2))%nat by lia.
    rewrite seq_app, skipn_app, skipn_all2 by (rewrite seq_length; lia); rewrite seq_length, Nat.sub_diag; cbn [app skipn].
    replace ((List.length ses1 + 1) * 2 - List.length ses1 * 2)%nat with 2%nat by lia.
    rewrite seq_app; cbn; f_equal; f_equal; lia. }
  rewrite P; destruct (flat_nth ses1 s e ses2) as [N0 N1]; fold ses in N0, N1; rewrite Nat.add_0_r in N0.
  split.
  - unfold contents; cbn [nd_base nd_at map]; rewrite (block_cell h [c; Cell true (flat ses)] 1 (Cell true (flat ses)) eq_refl); cbn [c_values].
    rewrite (nth_error_nth _ _ _ N0), (nth_error_nth _ _ _ N1); auto.
  - unfold assign, size; cbn [nd_at nd_base List.length Nat.eqb write]; f_equal.
    unfold write1; rewrite (block_cell h [c; Cell true (flat ses)] 1 (Cell true (flat ses)) eq_refl); cbn [c_float c_values]; rewrite set_nth_far; cbn [set_nth].
    match goal with |- context [cell_at (h ++ [c; ?k]) _] => rewrite (block_cell h [c; k] 1 k eq_refl) end; rewrite set_nth_far; cbn [c_float c_values set_nth]; do 4 f_equal.
    unfold ses; rewrite !flat_app, <- flat_length; cbn [flat flat_map app fst snd].
    rewrite <- (Nat.add_0_r (List.length (flat ses1))) at 2; rewrite !set_nth_far; cbn [set_nth]; auto.
Qed.
Lemma shift_first_run h c ses : ses <> [] ->
  hshift_first (se_matrix h (List.length ses)) (h ++ [c; Cell true (flat ses)]) = (Ok tt, h ++ [c; Cell true (flat (shift_first ses))]).
Proof.
  intros N; destruct ses as [|[s e] ses]; [contradiction|]; unfold hshift_first.
  rewrite (se_item h c _ 0 0 s) by reflexivity; cbn [shift_first]; destruct (ltb s 0); [|reflexivity].
  rewrite (se_item h c _ 0 0 s) by reflexivity; cbv zeta; rewrite get_run.
  destruct (se_row h c [] s e ses (s + (0 - s)) (e + (0 - s))) as [C A]; change (List.length (@nil (R * R))) with 0%nat in C, A; cbn [app] in C, A.
  rewrite C; cbn [map]; rewrite A; auto.
Qed.
Lemma shift_first_length ses : List.length (shift_first ses) = List.length ses.
Proof. destruct ses as [|[s e] ses]; cbn; auto; destruct ltb; auto. Qed.
Lemma shift_last_snoc T : forall l s e, shift_last T (l ++ [(s, e)]) = l ++ [if ltb T e then (s - (e - T), e - (e - T)) else (s, e)].
Proof.
  induction l as [|x l IH]; intros s e; [cbn; destruct ltb; auto|].
  cbn [app]; rewrite <- IH; destruct l; cbn; destruct x; auto.
Qed.
Lemma shift_last_run h c ses T : ses <> [] ->
  hshift_last (List.length ses) T (se_matrix h (List.length ses)) (h ++ [c; Cell true (flat ses)]) = (Ok tt, h ++ [c; Cell true (flat (shift_last T ses))]).
Proof.
  intros N; destruct (exists_last N) as [l [[s e] E]]; rewrite E in *; unfold hshift_last.
  assert (I : (List.length (l ++ [(s, e)]) - 1 = List.length l)%nat) by (rewrite app_length; cbn; lia); rewrite I.
  destruct (flat_nth l s e []) as [N0 N1].
  rewrite (se_item h c (l ++ [(s, e)]) (List.length l) 1 e) by exact N1; rewrite shift_last_snoc; destruct (ltb T e); [|reflexivity].
  rewrite (se_item h c (l ++ [(s, e)]) (List.length l) 1 e) by exact N1; cbv zeta; rewrite get_run.
  destruct (se_row h c l s e [] (s - (e - T)) (e - (e - T))) as [C A].
  rewrite C; cbn [map]; rewrite A; auto.
Qed.
Lemma shift_last_length T ses : List.length (shift_last T ses) = List.length ses.
Proof.
  destruct ses as [|x ses]; auto; destruct (exists_last (l := x :: ses)) as [l [[s e] E]]; [discriminate|].
  rewrite E, shift_last_snoc, !app_length; auto.
Qed.

(** ** Gaps *)

Lemma flat_select (j : bool) : forall ses i, nth (i * 2 + (if j then 1 else 0)) (flat ses) 0 = (if j then snd else fst) (nth i ses (0, 0)).
Proof.
  intros ses; induction ses as [|[s e] ses IH]; intros [|i]; try (destruct j; reflexivity).
  change (nth (i * 2 + (if j then 1 else 0)) (flat ses) 0 = (if j then snd else fst) (nth i ses (0, 0))); apply IH.
Qed.
Lemma column_contents h c ses (j : bool) a b : (b <= List.length ses)%nat ->
  contents (h ++ [c; Cell true (flat ses)]) (column (se_matrix h (List.length ses)) (if j then 1 else 0) a b) =
  map (fun i => (if j then snd else fst) (nth i ses (0, 0))) (seq a (b - a)).
Proof.
  intros L; unfold contents, column, se_matrix, whole; cbn [m_data m_columns nd_base nd_at].
  rewrite (block_cell h [c; Cell true (flat ses)] 1 (Cell true (flat ses)) eq_refl); cbn [c_values].
  rewrite map_map; apply map_ext_in; intros i I; apply in_seq in I.
  rewrite seq_nth by (destruct j; lia); cbn [Nat.add]; apply flat_select.
Qed.
Lemma gaps_columns ses :
  zip_with Rminus (map (fun i => fst (nth i ses (0, 0))) (seq 1 (List.length ses - 1))) (map (fun i => snd (nth i ses (0, 0))) (seq 0 (List.length ses - 1 - 0))) = gap_durations ses.
Proof.
  unfold zip_with; rewrite Nat.sub_0_r; induction ses as [|[s e] [|[s' e'] ses] IH]; auto.
  change (gap_durations ((s, e) :: (s', e') :: ses)) with ((s' - e) :: gap_durations ((s', e') :: ses)); rewrite <- IH.
  cbn [List.length Nat.sub]; rewrite !Nat.sub_0_r; cbn [seq map combine nth fst snd]; f_equal.
  rewrite <- (seq_shift (List.length ses) 1), <- (seq_shift (List.length ses) 0), !map_map; reflexivity.
Qed.
Lemma allclose_flat ses : forallb (fun x => np_isclose x 0) (flat ses) = allclose0 ses.
Proof. induction ses as [|[s e] ses IH]; cbn; auto; rewrite <- andb_assoc; f_equal; f_equal; apply IH. Qed.

(** ** The segments *)

Definition k_arrays (h : heap) (n : nat) : control_arrays :=
  ControlArrays (whole (List.length h + 2) (n * 2)) (whole (List.length h + 3) (n * 2)) (whole (List.length h + 4) (n * 2))
    (whole (List.length h + 5) (n * 2)).
Definition blocks (ops : list operation) (ses : list (R * R)) (a b d t : list R) : list cell :=
  [Cell true (flat_ops ops); Cell true (flat ses); Cell true a; Cell true b; Cell true d; Cell true t].
Definition partial (ops : list operation) (ses : list (R * R)) (pre : list segment) (m : nat) : list cell :=
  blocks ops ses (map seg_rabi pre ++ np_zeros (m * 2)) (map seg_azimuthal pre ++ np_zeros (m * 2))
    (map seg_detuning pre ++ np_zeros (m * 2)) (map seg_duration pre ++ np_zeros (m * 2)).
Lemma set_slot0 i (p : list R) x y z : List.length p = i -> set_nth i x (p ++ y :: z) = p ++ x :: z.
Proof. intros <-; apply set_nth_app. Qed.
Lemma set_slot1 i (p : list R) x y w z : List.length p = i -> set_nth (i + 1) x (p ++ y :: w :: z) = p ++ y :: x :: z.
Proof. intros <-; rewrite set_nth_far; auto. Qed.

Lemma segment_step h ops ses don o rest sdon s e srest pre :
  ops = don ++ o :: rest -> ses = sdon ++ (s, e) :: srest -> List.length sdon = List.length don -> List.length srest = List.length rest ->
  List.length pre = (List.length don * 2)%nat ->
  hsegment (List.length ops) (ops_matrix h ops) (se_matrix h (List.length ops)) (k_arrays h (List.length ops)) (List.length don) (List.length don * 2)
    (h ++ partial ops ses pre (S (List.length rest))) =
  (Ok (List.length don * 2 + 2)%nat,
   h ++ partial ops ses (pre ++ [pulse_segment o (s, e); MkSeg 0 0 0 (match srest with se' :: _ => fst se' - e | [] => 0 end)]) (List.length rest)).
Proof.
  intros EO ES LS LR LP; set (n := List.length ops); set (i := (List.length don * 2)%nat).
  assert (NO : n = (List.length don + S (List.length rest))%nat) by (unfold n; rewrite EO, app_length; auto).
  assert (NS : List.length ses = n) by (rewrite ES, app_length; cbn; lia).
  unfold partial; rewrite zeros_cons2; set (z := np_zeros (List.length rest * 2)).
  set (pa := map seg_rabi pre); set (pb := map seg_azimuthal pre); set (pd := map seg_detuning pre); set (pt := map seg_duration pre).
  assert (La : List.length pa = i) by (unfold pa; rewrite map_length; auto).
  assert (Lb : List.length pb = i) by (unfold pb; rewrite map_length; auto).
  assert (Ld : List.length pd = i) by (unfold pd; rewrite map_length; auto).
  assert (Lt : List.length pt = i) by (unfold pt; rewrite map_length; auto).
  assert (IN : (i + 1 < n * 2)%nat) by (unfold i; lia).
  assert (RO := fun a b d t B (k : R -> prog B) => read_ops h (blocks ops ses a b d t) ops don o rest true k EO eq_refl).
  assert (RS : forall a b d t B (k : R -> prog B) j x, nth_error (flat ses) j = Some x ->
     pbind (item (whole (List.length h + 1) (n * 2)) j) k (h ++ blocks ops ses a b d t) = k x (h ++ blocks ops ses a b d t)).
  { intros; apply (block_item _ _ _ true (flat ses)); auto; rewrite flat_length; lia. }
  destruct (flat_nth sdon s e srest) as [N0 N1]; rewrite <- ES, LS in N0, N1.
  unfold hsegment, k_arrays; cbn [k_rabi k_azimuthal k_detuning k_duration].
  unfold mitem at 1; unfold se_matrix at 1; cbn [m_data m_columns]; rewrite (RS _ _ _ _ _ _ _ e) by exact N1.
  unfold mitem at 1; unfold se_matrix at 1; cbn [m_data m_columns]; rewrite (RS _ _ _ _ _ _ _ s) by exact N0.
  cbv zeta.
  rewrite (block_set h (blocks ops ses _ _ _ _) 5 true (pt ++ 0 :: 0 :: z)) by (auto; lia).
  unfold blocks at 1; cbn [set_nth]; rewrite (set_slot0 i pt) by auto.
  set (sg := pulse_segment o (s, e)).
  match goal with |- context [h ++ ?l] => change l with (blocks ops ses (pa ++ 0 :: 0 :: z) (pb ++ 0 :: 0 :: z) (pd ++ 0 :: 0 :: z) (pt ++ (e - s) :: 0 :: z)) end.
  rewrite (pbind_ok _ _ _ tt (h ++ blocks ops ses (pa ++ seg_rabi sg :: 0 :: z) (pb ++ seg_azimuthal sg :: 0 :: z) (pd ++ seg_detuning sg :: 0 :: z) (pt ++ (e - s) :: 0 :: z))).
  2:{ unfold sg, pulse_segment; cbn [fst snd].
      destruct (ltb 0 (e - s)); [|reflexivity].
      rewrite (proj1 (RO _ _ _ _ _ _)); destruct (negb (np_isclose (op_rabi o) 0)).
      - rewrite (proj1 (RO _ _ _ _ _ _)).
        rewrite (block_set h (blocks ops ses _ _ _ _) 2 true (pa ++ 0 :: 0 :: z)) by (auto; lia).
        unfold blocks at 1; cbn [set_nth]; rewrite (set_slot0 i pa) by auto.
        match goal with |- context [h ++ ?l] => change l with (blocks ops ses (pa ++ (op_rabi o / (e - s)) :: 0 :: z) (pb ++ 0 :: 0 :: z) (pd ++ 0 :: 0 :: z) (pt ++ (e - s) :: 0 :: z)) end.
        rewrite (proj1 (proj2 (RO _ _ _ _ _ _))).
        rewrite (block_set' h (blocks ops ses _ _ _ _) 3 true (pb ++ 0 :: 0 :: z)) by (auto; lia).
        unfold blocks at 1; cbn [set_nth]; rewrite (set_slot0 i pb) by auto; reflexivity.
      - rewrite (proj1 (proj2 (proj2 (RO _ _ _ _ _ _)))); destruct (negb (np_isclose (op_detuning o) 0)); [|reflexivity].
        rewrite (proj1 (proj2 (proj2 (RO _ _ _ _ _ _)))).
        rewrite (block_set' h (blocks ops ses _ _ _ _) 4 true (pd ++ 0 :: 0 :: z)) by (auto; lia).
        unfold blocks at 1; cbn [set_nth]; rewrite (set_slot0 i pd) by auto; reflexivity. }
  assert (W : seg_duration sg = e - s).
  { unfold sg, pulse_segment; cbn [fst snd]; destruct ltb; auto; destruct negb; auto; destruct negb; auto. }
  rewrite !map_app; cbn [map seg_rabi seg_azimuthal seg_detuning seg_duration]; rewrite <- !app_assoc; cbn [app]; rewrite W.
  destruct srest as [|[s' e'] srest]; destruct rest as [|o' rest]; try discriminate.
  - replace (negb (List.length don =? n - 1)%nat) with false by (cbn in NO; rewrite NO; replace (_ - 1)%nat with (List.length don) by lia; rewrite Nat.eqb_refl; auto).
    reflexivity.
  - replace (negb (List.length don =? n - 1)%nat) with true by (cbn [List.length] in NO; destruct (Nat.eqb_spec (List.length don) (n - 1)); auto; lia).
    rewrite (pbind_ok _ _ _ tt (h ++ blocks ops ses (pa ++ seg_rabi sg :: 0 :: z) (pb ++ seg_azimuthal sg :: 0 :: z) (pd ++ seg_detuning sg :: 0 :: z) (pt ++ (e - s) :: (s' - e) :: z))).
    { reflexivity. }
    rewrite (block_set h (blocks ops ses _ _ _ _) 2 true (pa ++ seg_rabi sg :: 0 :: z)) by (auto; lia).
    unfold blocks at 1; cbn [set_nth]; rewrite (set_slot1 i pa) by auto.
    match goal with |- context [h ++ ?l] => set (lst := l) end.
    rewrite (block_set h lst 3 true (pb ++ seg_azimuthal sg :: 0 :: z)) by (auto; lia).
    unfold lst; clear lst; cbn [set_nth]; rewrite (set_slot1 i pb) by auto.
    match goal with |- context [h ++ ?l] => set (lst := l) end.
    rewrite (block_set h lst 4 true (pd ++ seg_detuning sg :: 0 :: z)) by (auto; lia).
    unfold lst; clear lst; cbn [set_nth]; rewrite (set_slot1 i pd) by auto.
    match goal with |- context [h ++ ?l] => change l with (blocks ops ses (pa ++ seg_rabi sg :: 0 :: z) (pb ++ seg_azimuthal sg :: 0 :: z) (pd ++ seg_detuning sg :: 0 :: z) (pt ++ (e - s) :: 0 :: z)) end.
    unfold mitem, se_matrix; cbn [m_data m_columns].
    rewrite (RS _ _ _ _ _ _ _ s').
    2:{ rewrite ES; replace (sdon ++ (s, e) :: (s', e') :: srest) with ((sdon ++ [(s, e)]) ++ (s', e') :: srest) by (rewrite <- app_assoc; auto).
        rewrite <- (proj1 (flat_nth (sdon ++ [(s, e)]) s' e' srest)), app_length, LS; auto. }
    rewrite (RS _ _ _ _ _ _ _ e) by exact N1.
    rewrite (block_set' h (blocks ops ses _ _ _ _) 5 true (pt ++ (e - s) :: 0 :: z)) by (auto; lia).
    unfold blocks at 1; cbn [set_nth]; rewrite (set_slot1 i pt) by auto; reflexivity.
Qed.
Lemma segment_loop h ops ses : forall rest don sdon srest pre,
  ops = don ++ rest -> ses = sdon ++ srest -> List.length sdon = List.length don -> List.length srest = List.length rest ->
  List.length pre = (List.length don * 2)%nat ->
  for_each (seq (List.length don) (List.length rest)) (hsegment (List.length ops) (ops_matrix h ops) (se_matrix h (List.length ops)) (k_arrays h (List.length ops)))
    (List.length don * 2)%nat (h ++ partial ops ses pre (List.length rest)) =
  (Ok (List.length ops * 2)%nat, h ++ partial ops ses (pre ++ interleave rest srest) 0).
Proof.
  induction rest as [|o rest IH]; intros don sdon srest pre EO ES LS LR LP; destruct srest as [|[s e] srest]; try discriminate.
  - cbn; rewrite !app_nil_r in *; subst don; auto.
  - cbn [List.length seq for_each].
    rewrite (pbind_ok _ _ _ _ _ (segment_step h ops ses don o rest sdon s e srest pre EO ES LS (f_equal Nat.pred LR) LP)).
    specialize (IH (don ++ [o]) (sdon ++ [(s, e)]) srest (pre ++ [pulse_segment o (s, e); MkSeg 0 0 0 (match srest with se' :: _ => fst se' - e | [] => 0 end)])).
    rewrite !app_length, <- !app_assoc in IH; cbn [List.length app] in IH.
    rewrite <- Nat.add_1_r; replace (List.length don * 2 + 2)%nat with ((List.length don + 1) * 2)%nat by lia.
    apply IH; auto; lia.
Qed.

(** ** Masks and the whole conversion *)

Lemma select_map {A} (g : segment -> A) segs : select (map (fun t => ltb 0 t) (map seg_duration segs)) (map g segs) = map g (filter (fun q => ltb 0 (seg_duration q)) segs).
Proof.
  unfold select; induction segs as [|q segs IH]; cbn; auto; destruct (ltb 0 (seg_duration q)); cbn; rewrite IH; auto.
Qed.

Lemma lives_block h l i f xs n : nth_error l i = Some (Cell f xs) -> n = List.length xs -> lives (h ++ l) (whole (List.length h + i) n).
Proof.
  intros E ->; split; cbn [nd_base whole]; [rewrite app_length; apply Nat.add_lt_mono_l, nth_error_Some; rewrite E; discriminate|].
  rewrite (block_cell _ _ _ _ E); intros p I; apply in_seq in I; cbn; lia.
Qed.
(** the four filtered arrays and the control made of them *)
Lemma masked_run h ops ses segs n name : List.length segs = (n * 2)%nat ->
  let g := filter (fun q => ltb 0 (seg_duration q)) segs in
  exists res h', (let! r := hmask (whole (List.length h + 5) (n * 2)) (whole (List.length h + 2) (n * 2)) in
   let! a := hmask (whole (List.length h + 5) (n * 2)) (whole (List.length h + 3) (n * 2)) in
   let! d := hmask (whole (List.length h + 5) (n * 2)) (whole (List.length h + 4) (n * 2)) in
   let! t := hmask (whole (List.length h + 5) (n * 2)) (whole (List.length h + 5) (n * 2)) in
   hDrivenControl (AArray t) (Some (AArray r)) (Some (AArray a)) (Some (AArray d)) name) (h ++ partial ops ses segs 0) = (res, h') /\
  preserves h h' /\ map_result (control_at h') res = control_of_segments g name /\
  (forall c, res = Ok c -> (forall v, In v (control_attributes c) -> lives h' v /\ fresh h v) /\ NoDup (map nd_base (control_attributes c))).
Proof.
  intros LN g; unfold partial; cbn [np_zeros np_full repeat Nat.mul]; rewrite !app_nil_r.
  set (l := blocks _ _ _ _ _ _).
  assert (M : forall l' i y B (k : ndarray -> prog B), nth_error l i = Some (Cell true (map y segs)) ->
    pbind (hmask (whole (List.length h + 5) (n * 2)) (whole (List.length h + i) (n * 2))) k (h ++ l ++ l') =
    k (whole (List.length h + (List.length l + List.length l')) (List.length g)) (h ++ l ++ l' ++ [Cell true (map y g)])).
  { intros l' i y B k E; unfold hmask.
    assert (F : forall i y, nth_error l i = Some (Cell true (map y segs)) -> contents (h ++ l ++ l') (whole (List.length h + i) (n * 2)) = map y segs).
    { intros i' y' E'; rewrite <- LN, <- (map_length y' segs); apply (block_contents _ _ _ true); rewrite nth_error_app1; auto.
      apply nth_error_Some; rewrite E'; discriminate. }
    unfold pbind, get; rewrite (F 5%nat seg_duration eq_refl), (F i y E), select_map, new_run, map_length, !app_length, <- !app_assoc; auto. }
  replace (h ++ l) with (h ++ l ++ []) by (rewrite app_nil_r; auto); rewrite (M [] 2%nat seg_rabi), app_nil_l by reflexivity.
  rewrite (M _ 3%nat seg_azimuthal) by reflexivity; cbn [app].
  rewrite (M _ 4%nat seg_detuning) by reflexivity; cbn [app].
  rewrite (M _ 5%nat seg_duration) by reflexivity; cbn [app].
  unfold l; cbn [blocks List.length app Nat.add].
  set (b := List.length h); set (lst := [_; _; _; _; _; _; _; _; _; _]); set (m := List.length g).
  assert (LV : forall y i, nth_error lst i = Some (Cell true (map y g)) ->
     lives (h ++ lst) (whole (b + i) m) /\ contents (h ++ lst) (whole (b + i) m) = map y g /\ c_float (cell_at (h ++ lst) (b + i)) = true).
  { intros y i E; split; [apply (lives_block _ _ _ true (map y g)); auto; unfold m; rewrite map_length; auto|].
    split; [unfold m, b; rewrite <- (map_length y g); apply (block_contents _ _ _ true); auto|unfold b; rewrite (block_cell _ _ _ _ E); auto]. }
  destruct (LV seg_rabi 6%nat eq_refl) as [L6 [C6 F6]], (LV seg_azimuthal 7%nat eq_refl) as [L7 [C7 F7]],
    (LV seg_detuning 8%nat eq_refl) as [L8 [C8 F8]], (LV seg_duration 9%nat eq_refl) as [L9 [C9 F9]].
  destruct (control_heap (AArray (whole (b + 9) m)) (Some (AArray (whole (b + 6) m))) (Some (AArray (whole (b + 7) m))) (Some (AArray (whole (b + 8) m)))
    name (h ++ lst) L9 L6 L7 L8) as [res [h' [E [P [V S]]]]].
  exists res, h'; split; [exact E|]; split; [apply (preserves_trans _ (h ++ lst)); auto; eexists; reflexivity|].
  cbn [option_map value] in V; rewrite C6, C7, C8, C9 in V; split; [exact V|].
  intros c EC; destruct (S c EC) as [SL [[S1 _] [[S2 _] [[S3 _] [[S4 _] _]]]]]; cbn in S1, S2, S3, S4.
  assert (SL' := SL); unfold control_attributes in *; rewrite (S1 F9), (S2 F6), (S3 F7), (S4 F8) in *; split.
  - intros v I; split; auto; destruct I as [<-|[<-|[<-|[<-|[]]]]]; unfold fresh; cbn; unfold b; lia.
  - cbn; repeat constructor; cbn; lia.
Qed.
Lemma interleave_length : forall ops ses, List.length ses = List.length ops -> List.length (interleave ops ses) = (List.length ops * 2)%nat.
Proof. induction ops as [|o ops IH]; intros [|se ses] L; try discriminate; cbn; auto; rewrite IH; auto; cbn in L; congruence. Qed.

(** ** C87 *)

Theorem convert_heap s maxr maxd mn name h : sequence_lives h s ->
  exists res h', hconvert s maxr maxd mn name h = (res, h') /\ preserves h h' /\
  map_result (control_at h') res = convert_dds_to_driven_control (sequence_at h s) maxr maxd mn name /\
  (forall c, res = Ok c -> (forall v, In v (control_attributes c) -> lives h' v /\ fresh h v) /\ NoDup (map nd_base (control_attributes c))).
Proof.
  intros SL; unfold hconvert, convert_dds_to_driven_control.
  assert (STOP : forall h' e, preserves h h' -> forall r, r = Raise e -> exists (res : result hcontrol) h'', (Raise e, h') = (res, h'') /\ preserves h h'' /\
    map_result (control_at h'') res = r /\
    (forall c, res = Ok c -> (forall v, In v (control_attributes c) -> lives h'' v /\ fresh h v) /\ NoDup (map nd_base (control_attributes c)))).
  { intros h' e P r ->; eexists _, _; split; [reflexivity|]; split; auto; split; [reflexivity|discriminate]. }
  do 3 (rewrite guard_run, bind_guard; match goal with |- context [if ?b then _ else _] => destruct b; [|apply STOP; auto using preserves_refl] end).
  cbv zeta; cbn [v_rabi v_detuning]; rewrite get_run, guard_run, bind_guard.
  change (rabi_rotations (sequence_at h s)) with (contents h (hs_rabi_rotations s)).
  match goal with |- context [if ?b then _ else _] => destruct b; [|apply STOP; auto using preserves_refl] end.
  rewrite get_run, guard_run, bind_guard.
  change (detuning_rotations (sequence_at h s)) with (contents h (hs_detuning_rotations s)).
  match goal with |- context [if ?b then _ else _] => destruct b; [|apply STOP; auto using preserves_refl] end.
  destruct (pad_run h _ _ (hs_duration s) (holds_sequence h s SL)) as [q [h1 [EQ [P1 [H1 NE]]]]]; rewrite EQ; clear EQ.
  change (seq_duration (sequence_at h s)) with (hs_duration s).
  set (T := hs_duration s); set (ops := pad_operations T (dds_operations (sequence_at h s))) in *; fold T in H1, NE; fold ops in H1, NE.
  destruct H1 as [[K1 [K2 [K3 K4]]] [E1 [E2 [E3 E4]]]].
  rewrite get_run, guard_run, bind_guard, E1.
  match goal with |- context [if ?b then _ else _] => destruct b; [|apply STOP; auto] end.
  assert (EO : forall B (k : matrix -> prog B), pbind (hoperations q) k h1 = k (ops_matrix h1 ops) (h1 ++ [Cell true (flat_ops ops)])).
  { intros B k; unfold hoperations, pbind, get, new, ops_matrix; rewrite E1, E2, E3, E4, map_length, Nat.add_0_r; reflexivity. }
  rewrite EO; clear EO; cbn [m_columns ops_matrix].
  set (half := half_pulse_duration maxr maxd mn); set (n := List.length ops).
  unfold zeros at 1; rewrite (pbind_ok _ _ _ _ _ (new_run true _ _)), app_length, <- app_assoc; cbn [List.length app].
  replace (List.length (np_zeros (n * 2))) with (n * 2)%nat by (unfold np_zeros, np_full; rewrite repeat_length; auto).
  fold (se_matrix h1 n); change (range 0 n) with (seq 0 n).
  fold (ops_matrix h1 ops).
  assert (WL := window_loop h1 ops maxr maxd mn (Cell true (flat_ops ops)) ops [] eq_refl eq_refl); cbn [List.length map flat flat_map app] in WL; fold n half in WL.
  rewrite (pbind_ok _ _ _ _ _ WL); clear WL.
  set (w0 := map (start_end half) ops).
  assert (N0 : List.length w0 = n) by (apply map_length).
  assert (NE0 : w0 <> []) by (unfold w0; destruct ops; [contradiction|discriminate]).
  assert (X := shift_first_run h1 (Cell true (flat_ops ops)) w0 NE0); rewrite N0 in X; rewrite (pbind_ok _ _ _ _ _ X); clear X.
  set (w1 := shift_first w0).
  assert (N1 : List.length w1 = n) by (unfold w1; rewrite shift_first_length; auto).
  assert (NE1 : w1 <> []) by (intros X; rewrite X in N1; destruct w0; [contradiction|]; cbn in *; lia).
  assert (X := shift_last_run h1 (Cell true (flat_ops ops)) w1 T NE1); rewrite N1 in X; rewrite (pbind_ok _ _ _ _ _ X); clear X.
  change (pulse_start_ends half T ops) with (shift_last T w1).
  set (ses := shift_last T w1).
  assert (N2 : List.length ses = n) by (unfold ses; rewrite shift_last_length; auto).
  rewrite !get_run.
  assert (X0 := column_contents h1 (Cell true (flat_ops ops)) ses false 1 n ltac:(lia)); assert (X1 := column_contents h1 (Cell true (flat_ops ops)) ses true 0 (n - 1) ltac:(lia)).
  rewrite N2 in X0, X1; rewrite X0, X1; clear X0 X1.
  assert (GC := gaps_columns ses); rewrite N2 in GC; rewrite GC; clear GC.
  rewrite guard_run, bind_guard.
  assert (P2 : preserves h (h1 ++ [Cell true (flat_ops ops); Cell true (flat ses)])) by (apply (preserves_trans _ h1); auto; eexists; reflexivity).
  match goal with |- context [if ?b then _ else _] => destruct b; [|apply STOP; auto] end.
  rewrite get_run; cbn [m_data se_matrix].
  assert (CF := block_contents h1 [Cell true (flat_ops ops); Cell true (flat ses)] 1 true (flat ses) eq_refl); rewrite flat_length, N2 in CF; rewrite CF; clear CF.
  rewrite allclose_flat; destruct (allclose0 ses).
  - destruct (control_heap (AList true [T]) (Some (AList true [0])) (Some (AList true [0])) (Some (AList true [0])) name
      (h1 ++ [Cell true (flat_ops ops); Cell true (flat ses)]) I I I I) as [res [h' [E [P [V S]]]]].
    exists res, h'; split; [exact E|]; split; [apply (preserves_trans _ _ _ P2 P)|]; split; [exact V|].
    intros c EC; destruct (S c EC) as [SV [[_ S1] [[_ S2] [[_ S3] [[_ S4] SS]]]]].
    apply preserves_length in P2; cbn in S1, S2, S3, S4; unfold fresh in *.
    specialize (S1 (fun x => x)); specialize (S2 (fun x => x)); specialize (S3 (fun x => x)); specialize (S4 (fun x => x)).
    split; [intros v I; split; auto; unfold control_attributes in I; destruct I as [<-|[<-|[<-|[<-|[]]]]]; lia|].
    unfold separate in SS; unfold control_attributes in *; cbn [map filter] in *.
    repeat match type of SS with context [(?x <=? ?y)%nat] => destruct (Nat.leb_spec x y); [|lia] end; auto.
  - unfold zeros; rewrite new4, app_length, <- app_assoc; cbn [List.length app]; rewrite <- !Nat.add_assoc; cbn [Nat.add].
    replace (List.length (np_zeros (n * 2))) with (n * 2)%nat by (unfold np_zeros, np_full; rewrite repeat_length; auto).
    fold (k_arrays h1 n); fold (se_matrix h1 n).
    assert (SLP := segment_loop h1 ops ses ops [] [] ses [] eq_refl eq_refl eq_refl N2 eq_refl); cbn [List.length Nat.mul app] in SLP; fold n in SLP.
    rewrite (pbind_ok _ _ _ _ _ SLP); clear SLP.
    assert (N3 := interleave_length ops ses N2); fold n in N3.
    destruct (masked_run h1 ops ses (interleave ops ses) n name N3) as [res [h' [E [P [V S]]]]].
    exists res, h'; split; [exact E|]; split; [apply (preserves_trans _ _ _ P1 P)|]; split; [exact V|].
    intros c EC; destruct (S c EC) as [SV SN]; split; auto.
    intros v I; destruct (SV v I) as [Q1 Q2]; split; auto; apply preserves_length in P1; unfold fresh in *; lia.
Qed.

(** later assignments to the sequence do not reach the control, nor the other way round *)
Lemma above_contents n h h' v : only_above n h h' -> (nd_base v < n)%nat -> contents h' v = contents h v.
Proof. intros [_ E] L; apply contents_cell, E, L. Qed.
Theorem convert_independent s maxr maxd mn name h c h' : sequence_lives h s -> hconvert s maxr maxd mn name h = (Ok c, h') ->
  sequence_at h' s = sequence_at h s /\
  (forall h'', only_below (List.length h) h' h'' -> control_at h'' c = control_at h' c) /\
  (forall h'', only_above (List.length h) h' h'' -> sequence_at h'' s = sequence_at h' s).
Proof.
  intros SL E; destruct (convert_heap s maxr maxd mn name h SL) as [res [h1 [E' [P [_ S]]]]]; rewrite E in E'; injection E' as <- <-.
  destruct (S c eq_refl) as [SV _]; destruct SL as [SL _].
  assert (IS : forall v, In v (sequence_arrays s) -> lives h v) by auto; unfold sequence_arrays in IS; cbn in IS.
  assert (IC : forall v, In v (control_attributes c) -> fresh h v) by (intros v I; apply SV; auto); unfold control_attributes in IC; cbn in IC.
  split; [|split].
  - unfold sequence_at; f_equal; apply preserves_contents; auto; apply IS; tauto.
  - intros h'' O; unfold control_at; f_equal; apply (below_contents (List.length h)); auto; apply IC; tauto.
  - intros h'' O; unfold sequence_at; f_equal; apply (above_contents (List.length h)); auto; apply IS; tauto.
Qed.
