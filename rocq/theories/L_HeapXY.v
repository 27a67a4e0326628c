(** * Programs on the heap: XY concatenated sequences *)

From Coq Require Import Lia Lra.
From Verif Require Import Spec_Qubit L_Base.
From Verif Require Export L_HeapSequences.
Import ListNotations.
Open Scope string_scope.
Open Scope list_scope.
Open Scope R_scope.

(** ** The marks *)

Definition makes (h h' : heap) (v : ndarray) (zs : list Z) : Prop :=
  preserves h h' /\ lives h' v /\ contents h' v = map IZR zs.
Lemma makes_size h h' v zs : makes h h' v zs -> size v = List.length zs.
Proof. intros [_ [_ E]]; rewrite <- contents_length with (h := h'), E, map_length; auto. Qed.
Lemma concatenate2 {B} h0 h v w zs ys x (k : ndarray -> prog B) : makes h0 h v zs -> lives h w -> contents h w = map IZR ys ->
  let n := List.length (zs ++ ys ++ [x]) in
  pbind (concatenate [v; w] [IZR x]) k h = k (whole (List.length h) n) (h ++ [Cell false (map IZR (zs ++ ys ++ [x]))]).
Proof.
  intros [P [L E]] LW EW n; unfold pbind; rewrite concatenate_run; cbn [flat_map]; rewrite E, EW, app_nil_r, <- app_assoc.
  change [IZR x] with (map IZR [x]); rewrite <- !map_app, map_length; auto.
Qed.
Lemma concatenate1 {B} h0 h v zs x (k : ndarray -> prog B) : makes h0 h v zs ->
  let n := List.length (zs ++ [x]) in
  pbind (concatenate [v] [IZR x]) k h = k (whole (List.length h) n) (h ++ [Cell false (map IZR (zs ++ [x]))]).
Proof.
  intros [P [L E]] n; unfold pbind; rewrite concatenate_run; cbn [flat_map]; rewrite E, app_nil_r.
  change [IZR x] with (map IZR [x]); rewrite <- !map_app, map_length; auto.
Qed.
(** dropping elements at the end *)
Lemma makes_prefix h0 h zs n m : preserves h0 h -> n = List.length zs -> (m <= n)%nat ->
  makes h0 (h ++ [Cell false (map IZR zs)]) (slice (whole (List.length h) n) 0 m) (firstn m zs).
Proof.
  intros P -> L; split; [eapply preserves_trans; [eauto|apply preserves_new]|]; rewrite slice_whole, Nat.sub_0_r by auto.
  split; [apply lives_whole_new; rewrite map_length; auto|].
  rewrite (contents_seq _ _ false (map IZR zs)) by (try apply cell_at_end; rewrite map_length; lia).
  cbn [skipn]; apply firstn_map.
Qed.
Lemma makes_whole h0 h zs n : preserves h0 h -> n = List.length zs ->
  makes h0 (h ++ [Cell false (map IZR zs)]) (whole (List.length h) n) zs.
Proof.
  intros P E; assert (X := makes_prefix h0 h zs n n P E (le_n _)); rewrite slice_whole, Nat.sub_0_r in X by lia.
  rewrite E, firstn_all, <- E in X; exact X.
Qed.
Lemma set_nth_last {A} (x : A) l r : l <> [] -> set_nth (List.length l - 1) x (l ++ r) = (removelast l ++ [x]) ++ r.
Proof.
  intros N; destruct (exists_last N) as [l' [y ->]]; rewrite removelast_last, app_length, <- app_assoc; cbn [List.length app].
  replace (List.length l' + 1 - 1)%nat with (List.length l') by lia; rewrite <- app_assoc; cbn [app]; apply set_nth_app.
Qed.
Lemma set_last_eq x l : l <> [] -> set_last x l = removelast l ++ [x].
Proof. destruct l; [contradiction|reflexivity]. Qed.
(** [c = c[:-1]; c[-1] = -3] after [np.concatenate((l, [y]))] *)
Lemma marks_run {B} h l y (k : unit -> prog B) : l <> [] -> let n := List.length (l ++ [y]) in
  let c := slice (whole (List.length h) n) 0 (size (whole (List.length h) n) - 1) in
  exists h', pbind (setitem c (size c - 1) (IZR (-3))) k (h ++ [Cell false (map IZR (l ++ [y]))]) = k tt h' /\
    (forall h0, preserves h0 h -> makes h0 h' c (set_last (-3) (removelast (l ++ [y])))).
Proof.
  intros N n c; assert (Ln : n = (List.length l + 1)%nat) by (unfold n; rewrite app_length; auto).
  assert (C : c = whole (List.length h) (List.length l)).
  { unfold c; rewrite size_whole, slice_whole by lia; unfold whole; f_equal; f_equal; lia. }
  rewrite C, size_whole, removelast_last, set_last_eq by auto.
  assert (Z : (List.length l - 1 < List.length l)%nat) by (destruct l; [contradiction|cbn; lia]).
  eexists; split.
  - assert (X := block_set h [Cell false (map IZR (l ++ [y]))] 0 false _ (List.length l) (List.length l - 1) (IZR (-3)) k eq_refl Z).
    rewrite Nat.add_0_r in X; rewrite X; cbn [set_nth]; reflexivity.
  - intros h0 P.
    replace (set_nth (List.length l - 1) (IZR (-3)) (map IZR (l ++ [y]))) with (map IZR ((removelast l ++ [(-3)%Z]) ++ [y])).
    2:{ rewrite (map_app IZR l), <- (map_length IZR l), set_nth_last by (destruct l; [contradiction|discriminate]).
        rewrite !map_app; cbn [map]; do 2 f_equal; clear; induction l as [|x [|z l] IH]; auto; cbn in *; congruence. }
    assert (X := makes_prefix h0 h ((removelast l ++ [(-3)%Z]) ++ [y]) n (List.length l) P).
    rewrite slice_whole, Nat.sub_0_r in X by lia.
    assert (LL : List.length (removelast l ++ [(-3)%Z]) = List.length l) by (rewrite app_length, removelast_length; cbn; lia).
    rewrite firstn_app, LL, Nat.sub_diag, firstn_O, app_nil_r, <- LL, firstn_all, LL in X.
    apply X; [rewrite app_length, LL; cbn; lia|lia].
Qed.
Lemma removelast2 {A} (l : list A) : removelast (removelast l) = firstn (List.length l - 2) l.
Proof.
  rewrite !removelast_firstn_len, firstn_firstn, firstn_length; f_equal; lia.
Qed.
Lemma concatenation_xy_step n : concatenation_xy (S (S n)) =
  let prev := concatenation_xy (S n) in
  let c1 := set_last (-3) (removelast (prev ++ [(-1)%Z])) in
  let c2 := removelast (removelast (c1 ++ prev ++ [(-2)%Z])) in
  let c3 := set_last (-3) (removelast (c2 ++ prev ++ [(-1)%Z])) in
  let c4 := (c3 ++ prev ++ [(-2)%Z])%list in
  if (Z.eqb (last c4 0%Z) (-2) && Z.eqb (last (removelast c4) 0%Z) (-2))%bool
  then removelast (removelast c4) else c4.
Proof. reflexivity. Qed.
Lemma concatenation_xy_nonempty : forall n, concatenation_xy (S n) <> [].
Proof.
  induction n; [discriminate|]; rewrite concatenation_xy_step; cbv zeta.
  set (p := concatenation_xy (S n)) in *; set (c2 := removelast (removelast _)); clearbody c2 p.
  assert (LP : (1 <= List.length p)%nat) by (destruct p; [contradiction|cbn; lia]).
  rewrite (app_assoc c2 p), removelast_last.
  assert (NE : c2 ++ p <> []) by (intros X; apply app_eq_nil in X; tauto).
  rewrite set_last_eq by auto.
  set (c4 := (removelast (c2 ++ p) ++ [(-3)%Z]) ++ p ++ [(-2)%Z]).
  assert (L4 : (3 <= List.length c4)%nat) by (unfold c4; rewrite !app_length; cbn [List.length]; lia).
  destruct (_ && _)%bool; intros X; apply (f_equal (@List.length Z)) in X; [rewrite !removelast_length in X|]; cbn in X; lia.
Qed.
Lemma eqb_IZR a b : eqb (IZR a) (IZR b) = Z.eqb a b.
Proof.
  destruct (Z.eqb_spec a b) as [->|N]; [apply eqb_true; auto|]; destruct (eqb (IZR a) (IZR b)) eqn:E; auto.
  apply eqb_true in E; apply eq_IZR in E; contradiction.
Qed.
Lemma nth_last {A} (l : list A) d : l <> [] -> nth_error l (List.length l - 1) = Some (last l d).
Proof. apply last_nth_error. Qed.
Lemma nth_last2 {A} (l : list A) d : (2 <= List.length l)%nat -> nth_error l (List.length l - 2) = Some (last (removelast l) d).
Proof.
  intros L; assert (X := nth_last (removelast l) d); rewrite removelast_length in X.
  replace (List.length l - 2)%nat with (List.length l - 1 - 1)%nat by lia; rewrite <- X.
  - rewrite removelast_firstn_len, nth_error_first; auto; lia.
  - intros E; apply (f_equal (@List.length A)) in E; rewrite removelast_length in E; cbn in E; lia.
Qed.
Lemma concatenation_xy_run : forall n h, exists v h', hconcatenation_xy n h = (Ok v, h') /\ makes h h' v (concatenation_xy n).
Proof.
  assert (X0 : forall zs h, exists v h', new false (map IZR zs) h = (Ok v, h') /\ makes h h' v zs).
  { intros zs h; eexists _, _; split; [reflexivity|]; rewrite map_length; apply makes_whole; auto; apply preserves_refl. }
  intros [|n]; [intros h; apply (X0 [])|].
  induction n as [|n IH]; intros h; [apply (X0 [1; -1; 1; -2; 1; -1; 1; -2]%Z)|].
  set (p := concatenation_xy (S n)) in *.
  assert (NE : p <> []) by apply concatenation_xy_nonempty.
  assert (LP : (1 <= List.length p)%nat) by (destruct p; [contradiction|cbn; lia]).
  rewrite concatenation_xy_step; cbv zeta; fold p.
  set (c1 := set_last (-3) (removelast (p ++ [(-1)%Z]))).
  set (c2 := removelast (removelast (c1 ++ p ++ [(-2)%Z]))).
  set (c3 := set_last (-3) (removelast (c2 ++ p ++ [(-1)%Z]))).
  set (c4 := c3 ++ p ++ [(-2)%Z]).
  assert (STEP : hconcatenation_xy (S (S n)) =
      let! prev := hconcatenation_xy (S n) in
      let! c := concatenate [prev] [IZR (-1)] in
      let c := slice c 0 (size c - 1) in
      do! setitem c (size c - 1) (IZR (-3)) in
      let! prev := hconcatenation_xy (S n) in
      let! c := concatenate [c; prev] [IZR (-2)] in
      let c := slice c 0 (size c - 2) in
      let! prev := hconcatenation_xy (S n) in
      let! c := concatenate [c; prev] [IZR (-1)] in
      let c := slice c 0 (size c - 1) in
      do! setitem c (size c - 1) (IZR (-3)) in
      let! prev := hconcatenation_xy (S n) in
      let! c := concatenate [c; prev] [IZR (-2)] in
      let! x := item c (size c - 1) in
      if eqb x (IZR (-2)) then
        let! y := item c (size c - 2) in
        if eqb y (IZR (-2)) then ret (slice c 0 (size c - 2)) else ret c
      else ret c) by reflexivity.
  rewrite STEP; clear STEP.
  assert (OLD : forall g g' v zs, preserves g g' -> makes h g v zs -> makes h g' v zs).
  { intros g g' v zs P [A [B C]]; split; [eapply preserves_trans; eauto|]; split; [eapply preserves_lives; eauto|]; rewrite (preserves_contents g g'); auto. }
  destruct (IH h) as [v1 [h1 [E1 M1]]]; rewrite (pbind_ok _ _ _ _ _ E1), (concatenate1 h h1 v1 p (-1)%Z) by auto; clear E1; cbv zeta.
  match goal with |- context [pbind (setitem _ _ _) ?k _] => destruct (marks_run h1 p (-1)%Z k NE) as [h2 [E2 M2]] end.
  rewrite E2; clear E2; assert (Mc1 := M2 h (proj1 M1)); clear M2.
  set (a1 := slice (whole (List.length h1) _) 0 _) in *; fold c1 in Mc1.
  destruct (IH h2) as [v2 [h3 [E3 [P3 [L3 C3]]]]]; rewrite (pbind_ok _ _ _ _ _ E3); clear E3.
  rewrite (concatenate2 h h3 a1 v2 c1 p (-2)%Z) by (eauto); cbv zeta.
  rewrite size_whole.
  set (g3 := h3 ++ _); set (a2 := slice _ 0 _).
  assert (Mc2 : makes h g3 a2 c2).
  { unfold c2, a2; rewrite removelast2; apply makes_prefix; auto; [|lia]; eapply preserves_trans; [exact (proj1 Mc1)|auto]. }
  destruct (IH g3) as [v3 [h4 [E4 [P4 [L4 C4]]]]]; rewrite (pbind_ok _ _ _ _ _ E4); clear E4.
  rewrite (concatenate2 h h4 a2 v3 c2 p (-1)%Z) by eauto; cbv zeta.
  rewrite !(app_assoc c2 p).
  assert (NE2 : c2 ++ p <> []) by (intros X; apply app_eq_nil in X; tauto).
  match goal with |- context [pbind (setitem _ _ _) ?k _] => destruct (marks_run h4 (c2 ++ p) (-1)%Z k NE2) as [h5 [E5 M5]] end.
  assert (P04 : preserves h h4) by (eapply preserves_trans; [exact (proj1 Mc2)|auto]).
  rewrite E5; clear E5; assert (Mc3 := M5 h P04); clear M5.
  set (a3 := slice (whole (List.length h4) _) 0 _) in *; rewrite <- app_assoc in Mc3; fold c3 in Mc3.
  destruct (IH h5) as [v4 [h6 [E6 [P6 [L6 C6]]]]]; rewrite (pbind_ok _ _ _ _ _ E6); clear E6.
  rewrite (concatenate2 h h6 a3 v4 c3 p (-2)%Z) by eauto; cbv zeta; fold c4.
  set (g := h6 ++ _); set (w := whole _ _).
  assert (P06 : preserves h h6) by (eapply preserves_trans; [exact (proj1 Mc3)|auto]).
  assert (Mw : makes h g w c4) by (apply makes_whole; auto).
  assert (LC4 : (2 <= List.length c4)%nat) by (unfold c4; rewrite !app_length; cbn [List.length]; lia).
  assert (SW : size w = List.length c4) by apply size_whole.
  rewrite (item_run w _ (IZR (last c4 0%Z))).
  2:{ rewrite SW, (proj2 (proj2 Mw)), nth_error_map, (nth_last c4 0%Z); auto; intros E; rewrite E in LC4; cbn in LC4; lia. }
  rewrite eqb_IZR; destruct (Z.eqb (last c4 0%Z) (-2)); cbn [andb]; [|exists w, g; auto].
  rewrite (item_run w _ (IZR (last (removelast c4) 0%Z))).
  2:{ rewrite SW, (proj2 (proj2 Mw)), nth_error_map, (nth_last2 c4 0%Z); auto. }
  rewrite eqb_IZR; destruct (Z.eqb (last (removelast c4) 0%Z) (-2)); [|exists w, g; auto].
  eexists _, _; split; [reflexivity|]; rewrite removelast2, SW; apply makes_prefix; auto; lia.
Qed.

(** ** The offsets of one kind of pulse *)

Lemma select_filter {A} (f : A -> bool) l : select (map f l) l = filter f l.
Proof. unfold select; induction l as [|x l IH]; cbn; auto; destruct (f x); cbn; rewrite IH; auto. Qed.
Lemma neqb_IZR a b : neqb (IZR a) (IZR b) = negb (Z.eqb a b).
Proof. unfold neqb; rewrite eqb_IZR; auto. Qed.
Lemma filter_IZR x zs : filter (fun c => neqb c (IZR x)) (map IZR zs) = map IZR (filter (fun c => negb (Z.eqb c x)) zs).
Proof. induction zs as [|z zs IH]; cbn; auto; rewrite neqb_IZR, IH; destruct (Z.eqb z x); auto. Qed.
Lemma put_mask x (f : Z -> bool) : forall zs p q,
  put (select (map f zs) (seq (List.length p) (List.length zs))) (np_full (List.length (select (map f zs) (seq (List.length p) (List.length zs)))) x)
    (p ++ np_zeros (List.length zs) ++ q) = p ++ map (fun c => if f c then x else 0) zs ++ q.
Proof.
  induction zs as [|z zs IH]; intros p q; cbn [List.length map seq]; [reflexivity|].
  unfold select; cbn [combine filter fst]; unfold np_zeros; cbn [np_full repeat].
  assert (X := IH (p ++ [if f z then x else 0]) q); rewrite app_length, Nat.add_1_r in X; unfold select in X.
  destruct (f z); cbn [map snd List.length np_full repeat put].
  - unfold np_full; cbn [repeat app]; rewrite set_nth_app; rewrite <- !app_assoc in X; exact X.
  - unfold np_full; cbn [repeat app]; rewrite <- !app_assoc in X; exact X.
Qed.
Lemma offsets_run {B} h0 h v zs m o1 o2 u (k : list R -> prog B) : makes h0 h v zs -> exists h',
  pbind (hxy_offsets (IZR m) (IZR o1) (IZR o2) u v) k h = k (even_count_values leb eqb (xy_positions 0 u Rplus m o1 o2 zs)) h' /\ preserves h h'.
Proof.
  intros M; assert (C := proj2 (proj2 M)).
  set (z1 := filter (fun c => negb (Z.eqb c o1)) zs); set (z2 := filter (fun c => negb (Z.eqb c o2)) z1).
  set (l := [Cell false (map IZR z1); Cell false (map IZR z2); Cell true (map (fun c => if negb (Z.eqb c m) then 1 else 0) z2)]).
  assert (E : hxy_offsets (IZR m) (IZR o1) (IZR o2) u v h = (Ok (even_count_values leb eqb (xy_positions 0 u Rplus m o1 o2 zs)), h ++ l)).
  { unfold hxy_offsets; rewrite get_run, C, select_filter, filter_IZR; fold z1.
    rewrite new_step, get_run, (contents_new false (map IZR z1) h []), select_filter, filter_IZR; fold z2.
    rewrite new_step, size_whole, zeros_step, !map_length, !app_length, <- !app_assoc, <- Nat.add_assoc; cbn [List.length app Nat.add].
    set (l2 := [_; _; _]).
    assert (C2 : contents (h ++ l2) (whole (List.length h + 1) (List.length z2)) = map IZR z2).
    { rewrite <- (map_length IZR z2); apply (block_contents h l2 1 false); auto. }
    rewrite get_run, C2, map_map.
    rewrite (map_ext (fun x => neqb (IZR x) (IZR m)) (fun c => negb (Z.eqb c m))) by (intros; apply neqb_IZR).
    assert (F : mask_fill (whole (List.length h + 2) (List.length z2)) (map (fun c => negb (Z.eqb c m)) z2) 1 (h ++ l2) = (Ok tt, h ++ l)).
    { unfold mask_fill; cbn [whole nd_base nd_at]; unfold size; cbn [nd_at].
      rewrite (assign_block h l2 2 true (np_zeros (List.length z2))) by (auto; rewrite full_length; auto).
      assert (P := put_mask 1 (fun c => negb (Z.eqb c m)) z2 [] []); cbn [app List.length] in P; rewrite !app_nil_r in P; rewrite P; auto. }
    rewrite (pbind_ok _ _ _ _ _ F), get_run.
    assert (C3 : contents (h ++ l) (whole (List.length h + 2) (List.length z2)) = map (fun c => if negb (Z.eqb c m) then 1 else 0) z2).
    { rewrite <- (map_length (fun c => if negb (Z.eqb c m) then 1 else 0) z2) at 1; apply (block_contents h l 2 true); auto. }
    rewrite C3; unfold ret, even_values, xy_positions, np_cumsum; fold z1 z2; rewrite running_cumsum; do 4 f_equal.
    rewrite map_map; apply map_ext; intros c; destruct (Z.eqb c m); cbn; ring. }
  rewrite (pbind_ok _ _ _ _ _ E); eexists; split; [reflexivity|eexists; reflexivity].
Qed.

(** ** Rows of the four arrays *)

Notation slotR := (@slot R).
Definition rabi_of (s : slotR) : R := if sl_rabi s then PI else 0.
Definition azimuthal_of (s : slotR) : R := if sl_azimuthal s then PI / 2 else 0.
Definition detuning_of (s : slotR) : R := if sl_detuning s then PI else 0.
Definition slot_cells (s : list slotR) : list cell :=
  [Cell true (map sl_offset s); Cell true (map rabi_of s); Cell true (map azimuthal_of s); Cell true (map detuning_of s)].
Definition slot_columns (h : heap) (n : nat) : columns :=
  Columns (whole (List.length h) n) (whole (List.length h + 1) n) (whole (List.length h + 2) n) (whole (List.length h + 3) n).
Notation blankR := (@blank R 0).
Lemma set_cell {B} h (l : list cell) i f xs p y q n v x (k : unit -> prog B) : nth_error l i = Some (Cell f xs) -> xs = p ++ y :: q -> (List.length p < n)%nat ->
  v = whole (List.length h + i) n ->
  pbind (setitem v (List.length p) x) k (h ++ l) = k tt (h ++ set_nth i (Cell f (p ++ x :: q)) l).
Proof. intros E -> L ->; rewrite (block_set h l i f (p ++ y :: q)), set_nth_app; auto. Qed.
Lemma list_item_run {B} l i x (k : R -> prog B) h : nth_error l i = Some x -> pbind (list_item l i) k h = k x h.
Proof. intros E; unfold pbind, list_item, lift; rewrite E; auto. Qed.
Lemma whole0 (h : heap) n : whole (List.length h) n = whole (List.length h + 0) n.
Proof. rewrite Nat.add_0_r; auto. Qed.
Section Rows.
  Context (h : heap) (n : nat) (don rest : list slotR) (i : nat).
  Hypothesis LD : List.length don = i.
  Hypothesis LN : (i < n)%nat.
  Let q := slot_columns h n.
  Lemma set_rabi {B} b o r a d x (k : unit -> prog B) : x = (if b : bool then PI else 0) ->
    pbind (setitem (v_rabi q) i x) k (h ++ slot_cells (don ++ MkSlot o r a d :: rest)) = k tt (h ++ slot_cells (don ++ MkSlot o b a d :: rest)).
  Proof.
    intros ->; unfold slot_cells; rewrite !map_app; cbn [map].
    replace i with (List.length (map rabi_of don)) by (rewrite map_length; auto).
    rewrite (set_cell h _ 1 true (map rabi_of don ++ rabi_of (MkSlot o r a d) :: map rabi_of rest) (map rabi_of don) (rabi_of (MkSlot o r a d)) (map rabi_of rest) n);
      [reflexivity|reflexivity|reflexivity|rewrite map_length; lia|reflexivity].
  Qed.
  Lemma set_azimuthal {B} b o r a d x (k : unit -> prog B) : x = (if b : bool then PI / 2 else 0) ->
    pbind (setitem (v_azimuthal q) i x) k (h ++ slot_cells (don ++ MkSlot o r a d :: rest)) = k tt (h ++ slot_cells (don ++ MkSlot o r b d :: rest)).
  Proof.
    intros ->; unfold slot_cells; rewrite !map_app; cbn [map].
    replace i with (List.length (map azimuthal_of don)) by (rewrite map_length; auto).
    rewrite (set_cell h _ 2 true (map azimuthal_of don ++ azimuthal_of (MkSlot o r a d) :: map azimuthal_of rest) (map azimuthal_of don) (azimuthal_of (MkSlot o r a d)) (map azimuthal_of rest) n);
      [reflexivity|reflexivity|reflexivity|rewrite map_length; lia|reflexivity].
  Qed.
  Lemma set_detuning {B} b o r a d x (k : unit -> prog B) : x = (if b : bool then PI else 0) ->
    pbind (setitem (v_detuning q) i x) k (h ++ slot_cells (don ++ MkSlot o r a d :: rest)) = k tt (h ++ slot_cells (don ++ MkSlot o r a b :: rest)).
  Proof.
    intros ->; unfold slot_cells; rewrite !map_app; cbn [map].
    replace i with (List.length (map detuning_of don)) by (rewrite map_length; auto).
    rewrite (set_cell h _ 3 true (map detuning_of don ++ detuning_of (MkSlot o r a d) :: map detuning_of rest) (map detuning_of don) (detuning_of (MkSlot o r a d)) (map detuning_of rest) n);
      [reflexivity|reflexivity|reflexivity|rewrite map_length; lia|reflexivity].
  Qed.
  Lemma set_offset {B} o r a d x (k : unit -> prog B) :
    pbind (setitem (v_offsets q) i x) k (h ++ slot_cells (don ++ MkSlot o r a d :: rest)) = k tt (h ++ slot_cells (don ++ MkSlot x r a d :: rest)).
  Proof.
    unfold slot_cells; rewrite !map_app; cbn [map].
    replace i with (List.length (map sl_offset don)) by (rewrite map_length; auto).
    rewrite (set_cell h _ 0 true (map sl_offset don ++ sl_offset (MkSlot o r a d) :: map sl_offset rest) (map sl_offset don) (sl_offset (MkSlot o r a d)) (map sl_offset rest) n);
      [reflexivity|reflexivity|reflexivity|rewrite map_length; lia|apply whole0].
  Qed.
End Rows.

(** ** Merging *)

Definition x_slot (x : R) : slotR := MkSlot x true false false.
Definition y_slot (y : R) : slotR := MkSlot y true true false.
Lemma blanks_cons k : repeat blankR (S k) = MkSlot 0 false false false :: repeat blankR k.
Proof. reflexivity. Qed.
Lemma snoc_app {A} (a : list A) x b : a ++ x :: b = (a ++ [x]) ++ b.
Proof. rewrite <- app_assoc; auto. Qed.
Lemma snoc_length {A} (a : list A) x : List.length (a ++ [x]) = (List.length a + 1)%nat.
Proof. rewrite app_length; auto. Qed.

Lemma merge_loop h xs ys n m : forall fuel rx ry dx dy don,
  xs = dx ++ rx -> ys = dy ++ ry -> List.length don = (List.length dx + List.length dy)%nat ->
  (List.length rx + List.length ry <= fuel)%nat -> n = (List.length don + (List.length rx + List.length ry + m))%nat ->
  exists dx' rx' dy' ry' don', xs = dx' ++ rx' /\ ys = dy' ++ ry' /\ (rx' = [] \/ ry' = []) /\
    List.length don' = (List.length dx' + List.length dy')%nat /\
    don ++ merge_xy ltb (List.length rx + List.length ry) rx ry = don' ++ merge_xy ltb (List.length rx' + List.length ry') rx' ry' /\
    while fuel (fun s => match s with (i, j, _) => Nat.ltb i (List.length xs) && Nat.ltb j (List.length ys) end)
      (hmerge xs ys (slot_columns h n)) (List.length dx, List.length dy, List.length don)
      (h ++ slot_cells (don ++ repeat blankR (List.length rx + List.length ry + m))) =
    (Ok (List.length dx', List.length dy', List.length don'),
     h ++ slot_cells (don' ++ repeat blankR (List.length rx' + List.length ry' + m))).
Proof.
  induction fuel as [|fuel IH]; intros rx ry dx dy don EX EY LD F N.
  - assert (rx = []) by (destruct rx; cbn in F; auto; lia); assert (ry = []) by (destruct ry; cbn in F; auto; lia); subst rx ry.
    exists dx, [], dy, [], don; do 4 (split; auto); split; auto.
    cbn [while]; rewrite EX, app_nil_r, Nat.ltb_irrefl; reflexivity.
  - destruct rx as [|x rx].
    { exists dx, [], dy, ry, don; do 4 (split; auto); split; auto; cbn [while]; rewrite EX, app_nil_r, Nat.ltb_irrefl; reflexivity. }
    destruct ry as [|y ry].
    { exists dx, (x :: rx), dy, [], don; do 4 (split; auto); split; auto; cbn [while]; rewrite EY, (app_nil_r dy), Nat.ltb_irrefl, andb_false_r; reflexivity. }
    cbn [while].
    assert (NX : nth_error xs (List.length dx) = Some x) by (rewrite EX; apply nth_error_mid).
    assert (NY : nth_error ys (List.length dy) = Some y) by (rewrite EY; apply nth_error_mid).
    replace (Nat.ltb (List.length dx) (List.length xs)) with true by (symmetry; apply Nat.ltb_lt; rewrite EX, app_length; cbn; lia).
    replace (Nat.ltb (List.length dy) (List.length ys)) with true by (symmetry; apply Nat.ltb_lt; rewrite EY, app_length; cbn; lia).
    cbn [andb List.length Nat.add] in *; rewrite blanks_cons.
    assert (LT : (List.length don < n)%nat) by lia.
    cbn [merge_xy]; destruct (ltb x y) eqn:E.
    + assert (X : hmerge xs ys (slot_columns h n) (List.length dx, List.length dy, List.length don)
        (h ++ slot_cells (don ++ MkSlot 0 false false false :: repeat blankR (List.length rx + S (List.length ry) + m))) =
        (Ok (List.length dx + 1, List.length dy, List.length don + 1)%nat, h ++ slot_cells ((don ++ [x_slot x]) ++ repeat blankR (List.length rx + S (List.length ry) + m)))).
      { unfold hmerge; rewrite (list_item_run _ _ _ _ _ NX), (list_item_run _ _ _ _ _ NY), E.
        rewrite (set_rabi h n don _ _ eq_refl LT true) by auto; rewrite (list_item_run _ _ _ _ _ NX).
        rewrite (set_offset h n don _ _ eq_refl LT), snoc_app; reflexivity. }
      rewrite (pbind_ok _ _ _ _ _ X).
      rewrite snoc_app in EX.
      destruct (IH rx (y :: ry) (dx ++ [x]) dy (don ++ [x_slot x]) EX EY) as [dx' [rx' [dy' [ry' [don' [A1 [A2 [A3 [A4 [A5 A6]]]]]]]]]];
        try (rewrite !snoc_length; cbn [List.length]; lia); try (cbn [List.length]; lia).
      exists dx', rx', dy', ry', don'; do 4 (split; auto); split.
      * rewrite <- A5, <- app_assoc; auto.
      * rewrite !snoc_length in A6; exact A6.
    + assert (X : hmerge xs ys (slot_columns h n) (List.length dx, List.length dy, List.length don)
        (h ++ slot_cells (don ++ MkSlot 0 false false false :: repeat blankR (List.length rx + S (List.length ry) + m))) =
        (Ok (List.length dx, List.length dy + 1, List.length don + 1)%nat, h ++ slot_cells ((don ++ [y_slot y]) ++ repeat blankR (List.length rx + S (List.length ry) + m)))).
      { unfold hmerge; rewrite (list_item_run _ _ _ _ _ NX), (list_item_run _ _ _ _ _ NY), E.
        rewrite (set_azimuthal h n don _ _ eq_refl LT true) by auto.
        rewrite (set_rabi h n don _ _ eq_refl LT true) by auto; rewrite (list_item_run _ _ _ _ _ NY).
        rewrite (set_offset h n don _ _ eq_refl LT), snoc_app; reflexivity. }
      rewrite (pbind_ok _ _ _ _ _ X).
      rewrite snoc_app in EY.
      replace (List.length rx + S (List.length ry))%nat with (S (List.length rx) + List.length ry)%nat by lia.
      destruct (IH (x :: rx) ry dx (dy ++ [y]) (don ++ [y_slot y]) EX EY) as [dx' [rx' [dy' [ry' [don' [A1 [A2 [A3 [A4 [A5 A6]]]]]]]]]];
        try (rewrite !snoc_length; cbn [List.length]; lia); try (cbn [List.length]; lia).
      exists dx', rx', dy', ry', don'; do 4 (split; auto); split.
      * rewrite <- A5, <- app_assoc; auto.
      * rewrite !snoc_length in A6; exact A6.
Qed.
Lemma merge_x : forall rx, merge_xy ltb (List.length rx) rx [] = map x_slot rx.
Proof. induction rx as [|x rx IH]; cbn; auto; rewrite IH; auto. Qed.
Lemma merge_y : forall ry, merge_xy ltb (List.length ry) [] ry = map y_slot ry.
Proof. induction ry as [|x rx IH]; cbn; auto; rewrite IH; auto. Qed.
Lemma rest_x_loop h xs n m : forall fuel rx dx don, xs = dx ++ rx -> (List.length rx <= fuel)%nat ->
  n = (List.length don + (List.length rx + m))%nat ->
  while fuel (fun s => Nat.ltb (fst s) (List.length xs)) (hrest_x xs (slot_columns h n)) (List.length dx, List.length don)
    (h ++ slot_cells (don ++ repeat blankR (List.length rx + m))) =
  (Ok (List.length xs, List.length don + List.length rx)%nat, h ++ slot_cells ((don ++ map x_slot rx) ++ repeat blankR m)).
Proof.
  induction fuel as [|fuel IH]; intros [|x rx] dx don EX F N; cbn in F; try lia.
  1,2: cbn [while fst]; rewrite EX, !app_nil_r, Nat.ltb_irrefl, Nat.add_0_r; reflexivity.
  cbn [while fst].
  replace (Nat.ltb (List.length dx) (List.length xs)) with true by (symmetry; apply Nat.ltb_lt; rewrite EX, app_length; cbn; lia).
  assert (NX : nth_error xs (List.length dx) = Some x) by (rewrite EX; apply nth_error_mid).
  cbn [List.length Nat.add] in *; rewrite blanks_cons; assert (LT : (List.length don < n)%nat) by lia.
  assert (X : hrest_x xs (slot_columns h n) (List.length dx, List.length don)
        (h ++ slot_cells (don ++ MkSlot 0 false false false :: repeat blankR (List.length rx + m))) =
        (Ok (List.length dx + 1, List.length don + 1)%nat, h ++ slot_cells ((don ++ [x_slot x]) ++ repeat blankR (List.length rx + m)))).
  { unfold hrest_x; rewrite (set_rabi h n don _ _ eq_refl LT true) by auto; rewrite (list_item_run _ _ _ _ _ NX).
    rewrite (set_offset h n don _ _ eq_refl LT), snoc_app; reflexivity. }
  rewrite (pbind_ok _ _ _ _ _ X); rewrite snoc_app in EX.
  assert (Y := IH rx (dx ++ [x]) (don ++ [x_slot x]) EX ltac:(lia) ltac:(rewrite snoc_length; lia)).
  rewrite !snoc_length in Y; rewrite Y; cbn [map]; rewrite <- !app_assoc; do 3 f_equal; lia.
Qed.
Lemma rest_y_loop h xs n m : forall fuel rx dx don, xs = dx ++ rx -> (List.length rx <= fuel)%nat ->
  n = (List.length don + (List.length rx + m))%nat ->
  while fuel (fun s => Nat.ltb (fst s) (List.length xs)) (hrest_y xs (slot_columns h n)) (List.length dx, List.length don)
    (h ++ slot_cells (don ++ repeat blankR (List.length rx + m))) =
  (Ok (List.length xs, List.length don + List.length rx)%nat, h ++ slot_cells ((don ++ map y_slot rx) ++ repeat blankR m)).
Proof.
  induction fuel as [|fuel IH]; intros [|x rx] dx don EX F N; cbn in F; try lia.
  1,2: cbn [while fst]; rewrite EX, !app_nil_r, Nat.ltb_irrefl, Nat.add_0_r; reflexivity.
  cbn [while fst].
  replace (Nat.ltb (List.length dx) (List.length xs)) with true by (symmetry; apply Nat.ltb_lt; rewrite EX, app_length; cbn; lia).
  assert (NX : nth_error xs (List.length dx) = Some x) by (rewrite EX; apply nth_error_mid).
  cbn [List.length Nat.add] in *; rewrite blanks_cons; assert (LT : (List.length don < n)%nat) by lia.
  assert (X : hrest_y xs (slot_columns h n) (List.length dx, List.length don)
        (h ++ slot_cells (don ++ MkSlot 0 false false false :: repeat blankR (List.length rx + m))) =
        (Ok (List.length dx + 1, List.length don + 1)%nat, h ++ slot_cells ((don ++ [y_slot x]) ++ repeat blankR (List.length rx + m)))).
  { unfold hrest_y; rewrite (set_azimuthal h n don _ _ eq_refl LT true) by auto.
    rewrite (set_rabi h n don _ _ eq_refl LT true) by auto; rewrite (list_item_run _ _ _ _ _ NX).
    rewrite (set_offset h n don _ _ eq_refl LT), snoc_app; reflexivity. }
  rewrite (pbind_ok _ _ _ _ _ X); rewrite snoc_app in EX.
  assert (Y := IH rx (dx ++ [x]) (don ++ [y_slot x]) EX ltac:(lia) ltac:(rewrite snoc_length; lia)).
  rewrite !snoc_length in Y; rewrite Y; cbn [map]; rewrite <- !app_assoc; do 3 f_equal; lia.
Qed.

(** ** Inserting the Z pulses *)

Lemma nth_slice {A} (d : A) l a n : (a + n <= List.length l)%nat -> map (fun j => nth j l d) (seq a n) = firstn n (skipn a l).
Proof.
  revert a; induction n as [|n IH]; intros a L; cbn [seq map]; auto.
  destruct (skipn a l) as [|x r] eqn:E; [assert (X := skipn_length a l); rewrite E in X; cbn in X; lia|].
  destruct (nth_error_skipn _ _ _ _ E) as [N S]; cbn [firstn]; rewrite IH, S, (nth_error_nth _ _ _ N) by lia; auto.
Qed.
Lemma shift_run {B} h l c f vs n i v (k : unit -> prog B) : nth_error l c = Some (Cell f vs) -> List.length vs = n -> (i < n)%nat ->
  v = whole (List.length h + c) n ->
  pbind (shift_right v i) k (h ++ l) = k tt (h ++ set_nth c (Cell f (firstn (i + 1) vs ++ removelast (skipn i vs))) l).
Proof.
  intros E L I ->; apply pbind_ok; unfold shift_right; rewrite size_whole, !slice_whole, get_run by lia.
  rewrite (contents_seq _ _ f vs) by (try apply block_cell; auto; lia).
  replace (firstn (n - 1 - i) (skipn i vs)) with (removelast (skipn i vs)).
  2:{ rewrite removelast_firstn_len, skipn_length; f_equal; lia. }
  assert (LR : List.length (removelast (skipn i vs)) = (n - (i + 1))%nat) by (rewrite removelast_length, skipn_length; lia).
  rewrite (assign_block h l c f vs) by (auto; rewrite seq_length; auto).
  assert (P := put_seq (removelast (skipn i vs)) (firstn (i + 1) vs) (skipn (i + 1) vs) []).
  rewrite app_nil_r, firstn_skipn, app_nil_r, firstn_length, Nat.min_l, LR in P by lia; rewrite P; auto; rewrite skipn_length; lia.
Qed.
Definition shifted (x : slotR) (r : list slotR) : list slotR :=
  zip_with (fun prev here => MkSlot (sl_offset prev) (sl_rabi prev) (sl_azimuthal prev) (sl_detuning here)) (removelast (x :: r)) r.
Lemma insert_z_split z p x r : insert_z 0 (List.length p) z (p ++ x :: r) = p ++ MkSlot z false false true :: shifted x r.
Proof.
  unfold insert_z, range; rewrite app_length; cbn [List.length]; rewrite seq_app, map_app; cbn [seq map Nat.add]; f_equal; [|f_equal].
  - rewrite (map_ext_in _ (fun j => nth j (p ++ x :: r) blankR)).
    + rewrite nth_slice by (rewrite app_length; lia); cbn [skipn]; rewrite firstn_app, Nat.sub_diag, firstn_O, app_nil_r, firstn_all; auto.
    + intros j J; apply in_seq in J; replace (Nat.ltb j (List.length p)) with true; auto; symmetry; apply Nat.ltb_lt; lia.
  - rewrite Nat.ltb_irrefl, Nat.eqb_refl; auto.
  - rewrite (map_ext_in _ (fun j => (fun prev here => MkSlot (sl_offset prev) (sl_rabi prev) (sl_azimuthal prev) (sl_detuning here))
       (nth (j - 1) (p ++ x :: r) blankR) (nth j (p ++ x :: r) blankR))).
    + unfold shifted, zip_with.
      assert (A : map (fun j => nth (j - 1) (p ++ x :: r) blankR) (seq (S (List.length p)) (List.length r)) = removelast (x :: r)).
      { rewrite <- seq_shift, map_map.
        rewrite (map_ext _ (fun j => nth j (p ++ x :: r) blankR)) by (intros j; f_equal; lia).
        rewrite nth_slice by (rewrite app_length; cbn; lia).
        rewrite skipn_app, skipn_all, Nat.sub_diag; cbn [app skipn]; rewrite removelast_firstn_len; auto. }
      assert (B : map (fun j => nth j (p ++ x :: r) blankR) (seq (S (List.length p)) (List.length r)) = r).
      { rewrite nth_slice by (rewrite app_length; cbn; lia).
        rewrite skipn_app, skipn_all2 by lia; replace (S (List.length p) - List.length p)%nat with 1%nat by lia; cbn [app skipn]; apply firstn_all. }
      rewrite <- A; rewrite <- B at 3.
      clear; induction (seq (S (List.length p)) (List.length r)); cbn; congruence.
    + intros j J; apply in_seq in J; replace (Nat.ltb j (List.length p)) with false by (symmetry; apply Nat.ltb_ge; lia).
      replace (Nat.eqb j (List.length p)) with false by (symmetry; apply Nat.eqb_neq; lia); auto.
Qed.
Lemma shifted_maps x r : map sl_offset (shifted x r) = removelast (map sl_offset (x :: r)) /\
  map rabi_of (shifted x r) = removelast (map rabi_of (x :: r)) /\
  map azimuthal_of (shifted x r) = removelast (map azimuthal_of (x :: r)) /\
  map detuning_of (shifted x r) = map detuning_of r.
Proof.
  unfold shifted, zip_with; revert x; induction r as [|y r IH]; intros x; [auto|].
  destruct (IH y) as [A [B [C D]]]; change (removelast (x :: y :: r)) with (x :: removelast (y :: r)).
  cbn [combine map]; rewrite A, B, C, D; auto.
Qed.
Lemma shift_cell {A} (p : list A) x r : firstn (List.length p + 1) (p ++ x :: r) ++ removelast (skipn (List.length p) (p ++ x :: r)) = p ++ x :: removelast (x :: r).
Proof.
  rewrite skipn_app, skipn_all, Nat.sub_diag, firstn_app, firstn_all2 by lia.
  replace (List.length p + 1 - List.length p)%nat with 1%nat by lia; cbn [firstn app skipn]; rewrite <- app_assoc; auto.
Qed.
Lemma insert_z_run {B} h n l i z (q := slot_columns h n) (k : unit -> prog B) : List.length l = n -> (i < n)%nat ->
  (do! shift_right (v_offsets q) i in do! shift_right (v_rabi q) i in do! shift_right (v_azimuthal q) i in
   do! setitem (v_detuning q) i PI in do! setitem (v_rabi q) i 0 in do! setitem (v_azimuthal q) i 0 in
   do! setitem (v_offsets q) i z in k tt) (h ++ slot_cells l) = k tt (h ++ slot_cells (insert_z 0 i z l)).
Proof.
  intros L I.
  destruct (nth_error l i) as [x|] eqn:E; [|apply nth_error_None in E; lia].
  destruct (nth_error_split _ _ E) as [p [r [-> LP]]].
  rewrite <- LP, insert_z_split; unfold slot_cells.
  destruct (shifted_maps x r) as [A [A1 [A2 A3]]]; rewrite !map_app; cbn [map]; rewrite A, A1, A2, A3.
  cbn [map].
  assert (LN : (List.length p < n)%nat) by lia.
  rewrite app_length in L; cbn in L.
  assert (LM : forall (f : slotR -> R), List.length (map f p ++ f x :: map f r) = n) by (intros f; rewrite app_length, map_length; cbn; rewrite map_length; lia).
  rewrite (shift_run h _ 0 true (map sl_offset p ++ sl_offset x :: map sl_offset r) n) by (auto; apply whole0).
  assert (SC : forall (f : slotR -> R), firstn (List.length p + 1) (map f p ++ f x :: map f r) ++ removelast (skipn (List.length p) (map f p ++ f x :: map f r)) =
     map f p ++ f x :: removelast (f x :: map f r)).
  { intros f; rewrite <- (map_length f p); apply shift_cell. }
  rewrite SC; cbn [set_nth].
  rewrite (shift_run h _ 1 true (map rabi_of p ++ rabi_of x :: map rabi_of r) n) by auto; rewrite SC; cbn [set_nth].
  rewrite (shift_run h _ 2 true (map azimuthal_of p ++ azimuthal_of x :: map azimuthal_of r) n) by auto; rewrite SC; cbn [set_nth].
  rewrite <- (map_length detuning_of p) at 1.
  rewrite (set_cell h _ 3 true (map detuning_of p ++ detuning_of x :: map detuning_of r) (map detuning_of p) (detuning_of x) (map detuning_of r) n)
    by (auto; rewrite map_length; auto); cbn [set_nth].
  rewrite <- (map_length rabi_of p) at 1.
  rewrite (set_cell h _ 1 true (map rabi_of p ++ rabi_of x :: removelast (rabi_of x :: map rabi_of r)) (map rabi_of p) (rabi_of x) (removelast (rabi_of x :: map rabi_of r)) n)
    by (auto; rewrite map_length; auto); cbn [set_nth].
  rewrite <- (map_length azimuthal_of p) at 1.
  rewrite (set_cell h _ 2 true (map azimuthal_of p ++ azimuthal_of x :: removelast (azimuthal_of x :: map azimuthal_of r)) (map azimuthal_of p) (azimuthal_of x) (removelast (azimuthal_of x :: map azimuthal_of r)) n)
    by (auto; rewrite map_length; auto); cbn [set_nth].
  rewrite <- (map_length sl_offset p) at 1.
  rewrite (set_cell h _ 0 true (map sl_offset p ++ sl_offset x :: removelast (sl_offset x :: map sl_offset r)) (map sl_offset p) (sl_offset x) (removelast (sl_offset x :: map sl_offset r)) n)
    by (auto; try apply whole0; rewrite map_length; auto); reflexivity.
Qed.
Lemma insert_z_length i z (l : list slotR) : List.length (insert_z 0 i z l) = List.length l.
Proof. unfold insert_z, range; rewrite map_length, seq_length; auto. Qed.
Lemma pbind_assoc {A B C} (m : prog A) (f : A -> prog B) (g : B -> prog C) h : pbind (pbind m f) g h = pbind m (fun a => pbind (f a) g) h.
Proof. unfold pbind; destruct (m h) as [[a|e] h']; auto. Qed.
Lemma pbind_ext {A B} (m : prog A) (f g : A -> prog B) : (forall a h, f a h = g a h) -> forall h, pbind m f h = pbind m g h.
Proof. intros E h; unfold pbind; destruct (m h) as [[a|e] h']; auto. Qed.
Lemma z_loop_nil is (l : list slotR) : z_loop 0 ltb is [] l = l.
Proof. destruct is; auto. Qed.
Lemma z_run h n zs : forall is dz rz l, zs = dz ++ rz -> rz <> [] -> (forall i, In i is -> (i < n)%nat) -> List.length l = n ->
  hz_loop zs (slot_columns h n) is (List.length dz) (h ++ slot_cells l) = (Ok tt, h ++ slot_cells (z_loop 0 ltb is rz l)).
Proof.
  induction is as [|i is IH]; intros dz rz l EZ NE I L; [reflexivity|].
  destruct rz as [|z rz]; [contradiction|]; cbn [hz_loop z_loop].
  assert (Ii := I i (or_introl eq_refl)).
  assert (CO : contents (h ++ slot_cells l) (v_offsets (slot_columns h n)) = map sl_offset l).
  { cbn [slot_columns v_offsets]; rewrite whole0, <- L, <- (map_length sl_offset l); apply (block_contents h _ 0 true); auto. }
  rewrite (item_run _ _ (sl_offset (nth i l blankR))).
  2:{ rewrite CO, nth_error_map, (nth_error_nth' _ blankR) by lia; auto. }
  assert (NZ : nth_error zs (List.length dz) = Some z) by (rewrite EZ; apply nth_error_mid).
  rewrite (list_item_run _ _ _ _ _ NZ).
  destruct (ltb z (sl_offset (nth i l blankR))).
  - assert (X : (do! shift_right (v_offsets (slot_columns h n)) i in do! shift_right (v_rabi (slot_columns h n)) i in
        do! shift_right (v_azimuthal (slot_columns h n)) i in do! setitem (v_detuning (slot_columns h n)) i PI in
        do! setitem (v_rabi (slot_columns h n)) i 0 in do! setitem (v_azimuthal (slot_columns h n)) i 0 in
        let! z := list_item zs (List.length dz) in do! setitem (v_offsets (slot_columns h n)) i z in ret (List.length dz + 1)%nat)
        (h ++ slot_cells l) = (Ok (List.length dz + 1)%nat, h ++ slot_cells (insert_z 0 i z l))).
    { etransitivity; [|exact (insert_z_run h n l i z (fun _ => ret (List.length dz + 1)%nat) L Ii)]; cbv zeta.
      do 6 (apply pbind_ext; intros); rewrite (list_item_run _ _ _ _ _ NZ); auto. }
    rewrite (pbind_ok _ _ _ _ _ X); destruct rz as [|z' rz].
    + rewrite EZ, app_length; cbn [List.length]; rewrite Nat.leb_refl, z_loop_nil; reflexivity.
    + replace (Nat.leb (List.length zs) (List.length dz + 1)) with false by (symmetry; apply Nat.leb_gt; rewrite EZ, app_length; cbn; lia).
      rewrite snoc_app in EZ; rewrite <- snoc_length with (x := z); apply IH; auto; [discriminate|intros; apply I; right; auto|rewrite insert_z_length; auto].
  - unfold pbind at 1, ret at 1; cbv beta iota.
    replace (Nat.leb (List.length zs) (List.length dz)) with false by (symmetry; apply Nat.leb_gt; rewrite EZ, app_length; cbn; lia).
    apply IH; auto; intros; apply I; right; auto.
Qed.
Lemma z_loop_length : forall is zs (l : list slotR), List.length (z_loop 0 ltb is zs l) = List.length l.
Proof.
  induction is as [|i is IH]; intros [|z zs] l; cbn [z_loop]; auto; destruct ltb; rewrite IH; auto; apply insert_z_length.
Qed.

Lemma map_repeat' {A B} (f : A -> B) x n : map f (repeat x n) = repeat (f x) n.
Proof. induction n; cbn; congruence. Qed.

Theorem xy_concatenated_heap T l pre name h : built h (hnew_xy_concatenated_sequence T l pre name h) (new_xy_concatenated_sequence T l pre name).
Proof.
  unfold hnew_xy_concatenated_sequence, new_xy_concatenated_sequence; guarded; guarded.
  cbv zeta; set (n := int_count l); set (u := T / 2 ^ (n * 2)).
  unfold xy_slots; cbv zeta; set (cum := concatenation_xy n).
  destruct (concatenation_xy_run n h) as [v [h1 [E M1]]]; rewrite (pbind_ok _ _ _ _ _ E); clear E; fold cum in M1.
  change (-1) with (IZR (-1)); change (-2) with (IZR (-2)); change (-3) with (IZR (-3)).
  assert (OLD : forall g g' v zs, preserves g g' -> makes h g v zs -> makes h g' v zs).
  { intros g g' w zs P [A [B C]]; split; [eapply preserves_trans; eauto|]; split; [eapply preserves_lives; eauto|]; rewrite (preserves_contents g g'); auto. }
  match goal with |- context [pbind (hxy_offsets ?a ?b ?c ?d ?e) ?k _] => destruct (offsets_run h h1 v cum (-1) (-2) (-3) u k M1) as [h2 [E2 P2]] end.
  rewrite E2; clear E2; assert (M2 := OLD _ _ _ _ P2 M1).
  match goal with |- context [pbind (hxy_offsets ?a ?b ?c ?d ?e) ?k _] => destruct (offsets_run h h2 v cum (-2) (-1) (-3) u k M2) as [h3 [E3 P3]] end.
  rewrite E3; clear E3; assert (M3 := OLD _ _ _ _ P3 M2).
  match goal with |- context [pbind (hxy_offsets ?a ?b ?c ?d ?e) ?k _] => destruct (offsets_run h h3 v cum (-3) (-2) (-1) u k M3) as [h4 [E4 P4]] end.
  rewrite E4; clear E4; assert (M4 := OLD _ _ _ _ P4 M3).
  unfold rabi_offsets, azimuthal_offsets, detuning_offsets.
  set (xs := even_count_values leb eqb (xy_positions 0 u Rplus (-1) (-2) (-3) cum)).
  set (ys := even_count_values leb eqb (xy_positions 0 u Rplus (-2) (-1) (-3) cum)).
  set (zs := even_count_values leb eqb (xy_positions 0 u Rplus (-3) (-2) (-1) cum)).
  clearbody xs ys zs; assert (P : preserves h h4) by exact (proj1 M4); clear - P.
  set (N := (List.length xs + List.length ys + List.length zs)%nat).
  rewrite zeros_step, size_whole, !zeros_step'; cbn [List.length app].
  match goal with |- built _ (pbind _ _ (h4 ++ ?c)) _ => change c with (slot_cells ([] ++ repeat blankR N)) || replace c with (slot_cells ([] ++ repeat blankR N)) end.
  2:{ unfold slot_cells, np_zeros, np_full; cbn [app]; rewrite !map_repeat'; reflexivity. }
  change (Columns _ _ _ _) with (slot_columns h4 N).
  destruct (merge_loop h4 xs ys N (List.length zs) (List.length xs + List.length ys) xs ys [] [] [] eq_refl eq_refl eq_refl (le_n _) eq_refl)
    as [dx [rx [dy [ry [don [A1 [A2 [A3 [A4 [A5 A6]]]]]]]]]].
  change (@List.length R []) with 0%nat in A6; change (@List.length slotR []) with 0%nat in A6; fold N in A6.
  rewrite (pbind_ok _ _ _ _ _ A6); clear A6; cbv beta iota.
  set (m := List.length zs) in *.
  assert (LX : List.length xs = (List.length dx + List.length rx)%nat) by (rewrite A1, app_length; auto).
  assert (LY : List.length ys = (List.length dy + List.length ry)%nat) by (rewrite A2, app_length; auto).
  set (merged := merge_xy ltb (List.length xs + List.length ys) xs ys) in *; cbn [app] in A5.
  assert (S1 : exists c, (if Nat.ltb (List.length dx) (List.length xs)
       then while (List.length xs) (fun s => Nat.ltb (fst s) (List.length xs)) (hrest_x xs (slot_columns h4 N)) (List.length dx, List.length don)
       else ret (List.length dx, List.length don)) (h4 ++ slot_cells (don ++ repeat blankR (List.length rx + List.length ry + m))) =
     (Ok (c, (List.length don + List.length rx)%nat), h4 ++ slot_cells ((don ++ map x_slot rx) ++ repeat blankR (List.length ry + m)))).
  { destruct rx as [|x rx].
    - rewrite LX; cbn [List.length]; rewrite Nat.add_0_r, Nat.ltb_irrefl; eexists; cbn [map]; rewrite app_nil_r, Nat.add_0_r; reflexivity.
    - replace (Nat.ltb (List.length dx) (List.length xs)) with true by (symmetry; apply Nat.ltb_lt; rewrite LX; cbn; lia).
      rewrite <- Nat.add_assoc, (rest_x_loop h4 xs N (List.length ry + m) (List.length xs) (x :: rx) dx don A1) by lia.
      eexists; reflexivity. }
  destruct S1 as [c1 S1]; rewrite (pbind_ok _ _ _ _ _ S1); clear S1; cbn [snd].
  replace (List.length don + List.length rx)%nat with (List.length (don ++ map x_slot rx)) by (rewrite app_length, map_length; auto).
  assert (S2 : exists c, (if Nat.ltb (List.length dy) (List.length ys)
       then while (List.length ys) (fun s => Nat.ltb (fst s) (List.length ys)) (hrest_y ys (slot_columns h4 N)) (List.length dy, List.length (don ++ map x_slot rx))
       else ret (List.length dy, List.length (don ++ map x_slot rx))) (h4 ++ slot_cells ((don ++ map x_slot rx) ++ repeat blankR (List.length ry + m))) =
     (Ok c, h4 ++ slot_cells (merged ++ repeat blankR m))).
  { assert (EM : merged = (don ++ map x_slot rx) ++ map y_slot ry).
    { rewrite A5; destruct A3 as [-> | ->]; cbn [List.length Nat.add]; [rewrite merge_y|rewrite Nat.add_0_r, merge_x]; cbn [map]; rewrite ?app_nil_r; auto. }
    destruct ry as [|y ry].
    - rewrite LY; cbn [List.length]; rewrite Nat.add_0_r, Nat.ltb_irrefl; eexists; rewrite EM; cbn [map]; rewrite app_nil_r; reflexivity.
    - replace (Nat.ltb (List.length dy) (List.length ys)) with true by (symmetry; apply Nat.ltb_lt; rewrite LY; cbn; lia).
      rewrite (rest_y_loop h4 ys N m (List.length ys) (y :: ry) dy (don ++ map x_slot rx) A2), EM; [eexists; reflexivity|lia|].
      unfold N; rewrite app_length, map_length; fold m; lia. }
  destruct S2 as [c2 S2]; rewrite (pbind_ok _ _ _ _ _ S2); clear S2.
  assert (LM : List.length merged = (List.length xs + List.length ys)%nat).
  { rewrite A5, app_length; destruct A3 as [-> | ->]; cbn [List.length Nat.add]; [rewrite merge_y|rewrite Nat.add_0_r, merge_x]; rewrite map_length; cbn in *; lia. }
  set (init := merged ++ repeat blankR m).
  assert (LI : List.length init = N) by (unfold init; rewrite app_length, repeat_length; unfold N; lia).
  assert (S3 : (if Nat.eqb m 0 then ret tt else hz_loop zs (slot_columns h4 N) (range 0 N) 0) (h4 ++ slot_cells init) =
     (Ok tt, h4 ++ slot_cells (z_loop 0 ltb (range 0 (List.length init)) zs init))).
  { unfold m; rewrite LI; destruct zs as [|z zs]; [rewrite z_loop_nil; reflexivity|]; cbn [List.length Nat.eqb].
    apply (z_run h4 N (z :: zs) (range 0 N) [] (z :: zs) init eq_refl); auto; [discriminate|]; intros i I; apply in_seq in I; lia. }

  rewrite (pbind_ok _ _ _ _ _ S3); clear S3.
  set (sl := z_loop _ _ _ _ _); apply finish_heap.
  assert (LS : List.length sl = N) by (unfold sl; rewrite z_loop_length; auto).
  assert (G := good4 h h4 (MkArrays (map sl_offset sl) (map rabi_of sl) (map azimuthal_of sl) (map detuning_of sl)) P).
  cbn [a_offsets a_rabi a_azimuthal a_detuning] in G; rewrite !map_length, LS in G; exact G.
Qed.

(** ** C88 *)

Theorem build_heap r T pre name h : exists res h', hbuild_sequence r T pre name h = (res, h') /\ preserves h h' /\
  map_result (sequence_at h') res = build_sequence r T pre name /\
  (forall s, res = Ok s -> sequence_lives h' s /\ (forall v, In v (sequence_arrays s) -> fresh h v) /\
     NoDup (map nd_base (sequence_arrays s))).
Proof.
  assert (B : built h (hbuild_sequence r T pre name h) (build_sequence r T pre name)).
  { destruct r; cbn [hbuild_sequence build_sequence]; auto using ramsey_heap, spin_echo_heap, carr_purcell_heap, cpmg_heap, uhrig_heap, periodic_heap,
      walsh_heap, quadratic_heap, x_concatenated_heap, xy_concatenated_heap. }
  destruct (hbuild_sequence r T pre name h) as [res h']; destruct B as [P [V S]]; exists res, h'; auto.
Qed.
(** what the caller assigns later: to older memory, or to one of the four arrays *)
Theorem build_independent r T pre name h s h' : hbuild_sequence r T pre name h = (Ok s, h') ->
  (forall h'', only_below (List.length h) h' h'' -> sequence_at h'' s = sequence_at h' s) /\
  (forall v h'' w, In v (sequence_arrays s) -> only_block v h' h'' ->
     (lives h w -> contents h'' w = contents h w) /\
     (In w (sequence_arrays s) -> nd_base w <> nd_base v -> contents h'' w = contents h' w)) /\
  (forall v w, In v (sequence_arrays s) -> In w (sequence_arrays s) -> nd_base v = nd_base w -> v = w).
Proof.
  intros E; destruct (build_heap r T pre name h) as [res [h1 [E' [P [_ S]]]]]; rewrite E in E'; injection E' as <- <-.
  destruct (S s eq_refl) as [SL [F N]]; split; [|split].
  - intros h'' O; unfold sequence_at; f_equal; apply (below_contents (List.length h)); auto; apply F; unfold sequence_arrays; cbn; tauto.
  - intros v h'' w I [_ O]; split.
    + intros L; rewrite <- (preserves_contents h h' w P L); apply contents_cell, O; intros X; assert (Y := F v I); unfold fresh in Y; destruct L; lia.
    + intros _ D; apply contents_cell, O; auto.
  - intros v w I J X; clear - N I J X; revert N I J; generalize (sequence_arrays s) as l; induction l as [|u l IH]; intros N I J; [destruct I|].
    cbn in N; inversion N as [|? ? NI N']; subst; destruct I as [->|I], J as [->|J]; auto.
    + destruct NI; rewrite X; apply in_map; auto.
    + destruct NI; rewrite <- X; apply in_map; auto.
Qed.
(** building, then converting *)
Theorem pipeline_heap r T pre name maxr maxd mn name' h :
  exists res h', (let! s := hbuild_sequence r T pre name in hconvert s maxr maxd mn name') h = (res, h') /\ preserves h h' /\
  map_result (control_at h') res = bind (build_sequence r T pre name) (fun s => convert_dds_to_driven_control s maxr maxd mn name') /\
  (forall c, res = Ok c -> (forall v, In v (control_attributes c) -> lives h' v /\ fresh h v) /\ NoDup (map nd_base (control_attributes c))).
Proof.
  destruct (build_heap r T pre name h) as [[s|e] [h1 [E [P [V S]]]]]; cbn [map_result] in V; rewrite <- V; cbn [bind].
  - rewrite (pbind_ok _ _ _ _ _ E); destruct (S s eq_refl) as [SL _].
    destruct (convert_heap s maxr maxd mn name' h1 SL) as [res [h2 [E2 [P2 [V2 S2]]]]].
    exists res, h2; split; auto; split; [eapply preserves_trans; eauto|]; split; auto.
    intros c X; destruct (S2 c X) as [A B]; split; auto; intros v I; destruct (A v I) as [L F]; split; auto.
    apply preserves_length in P; unfold fresh in *; lia.
  - rewrite (pbind_raise _ _ _ _ _ E); eexists _, _; split; [reflexivity|]; split; auto; split; [reflexivity|discriminate].
Qed.
