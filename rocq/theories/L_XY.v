(** * XY concatenated sequences *)

From Coq Require Import Lia ZArith Permutation.
From Verif Require Export L_Concat.
Import ListNotations.
Open Scope string_scope.
Open Scope list_scope.
Open Scope R_scope.

(** ** Transport along an order isomorphism *)

Section Transport.
  Context {A B : Type} (za : A) (zb : B) (ua : A) (ub : B)
    (adda : A -> A -> A) (addb : B -> B -> B)
    (lea eqa lta : A -> A -> bool) (leb' eqb' ltb' : B -> B -> bool) (h : A -> B).
  Hypothesis h0 : h za = zb.
  Hypothesis h1 : h ua = ub.
  Hypothesis hadd : forall x y, h (adda x y) = addb (h x) (h y).
  Hypothesis hle : forall x y, leb' (h x) (h y) = lea x y.
  Hypothesis heq : forall x y, eqb' (h x) (h y) = eqa x y.
  Hypothesis hlt : forall x y, ltb' (h x) (h y) = lta x y.

  Lemma running_map l : forall a, running addb (h a) (map h l) = map h (running adda a l).
  Proof. induction l; intros; cbn; auto; rewrite <- hadd, IHl; auto. Qed.

  Lemma sort_insert_map x l : sort_insert leb' (h x) (map h l) = map h (sort_insert lea x l).
  Proof. induction l; cbn; auto; rewrite hle; destruct (lea x a); cbn; auto; rewrite IHl; auto. Qed.
  Lemma sort_map l : sort leb' (map h l) = map h (sort lea l).
  Proof.
    unfold sort; induction l; cbn; auto; rewrite IHl; apply sort_insert_map.
  Qed.
  Lemma group_map l : group eqb' (map h l) = map (fun p => (h (fst p), snd p)) (group eqa l).
  Proof.
    induction l; cbn; auto; rewrite IHl; destruct (group eqa l) as [|[y c] g]; cbn; auto.
    rewrite heq; destruct (eqa a y); auto.
  Qed.
  Lemma even_map l : even_count_values leb' eqb' (map h l) = map h (even_count_values lea eqa l).
  Proof.
    unfold even_count_values, unique_counts; rewrite sort_map, group_map.
    generalize (group eqa (sort lea l)); induction l0 as [|[y c] g IH]; cbn; auto.
    destruct (Nat.even c); cbn; rewrite IH; auto.
  Qed.
  Lemma xy_positions_map m o1 o2 cum :
    xy_positions zb ub addb m o1 o2 cum = map h (xy_positions za ua adda m o1 o2 cum).
  Proof.
    unfold xy_positions; rewrite <- h0 at 1; rewrite <- running_map, map_map; f_equal.
    apply map_ext; intros c; destruct (c =? m)%Z; auto.
  Qed.

  Definition slot_map (s : slot) : slot (T := B) :=
    MkSlot (h (sl_offset s)) (sl_rabi s) (sl_azimuthal s) (sl_detuning s).

  Lemma merge_map n : forall xs ys,
    merge_xy ltb' n (map h xs) (map h ys) = map slot_map (merge_xy lta n xs ys).
  Proof.
    induction n; intros [|x xs] [|y ys]; cbn; auto.
    - rewrite (IHn [] ys : merge_xy ltb' n [] (map h ys) = _); auto.
    - rewrite (IHn xs [] : merge_xy ltb' n (map h xs) [] = _); auto.
    - rewrite hlt; destruct (lta x y); cbn.
      + rewrite <- (IHn xs (y :: ys)); auto.
      + rewrite <- (IHn (x :: xs) ys); auto.
  Qed.

  Lemma blank_map : slot_map (blank za) = blank zb.
  Proof. unfold slot_map, blank; cbn; rewrite h0; auto. Qed.
  Lemma nth_slots i l : nth i (map slot_map l) (blank zb) = slot_map (nth i l (blank za)).
  Proof. rewrite <- blank_map; apply map_nth. Qed.

  Lemma insert_map i z l : insert_z zb i (h z) (map slot_map l) = map slot_map (insert_z za i z l).
  Proof.
    unfold insert_z; rewrite map_length, map_map; apply map_ext; intros j.
    rewrite !nth_slots; destruct (j <? i)%nat; auto; destruct (j =? i)%nat; auto.
  Qed.
  Lemma z_loop_map idx : forall zs l,
    z_loop zb ltb' idx (map h zs) (map slot_map l) = map slot_map (z_loop za lta idx zs l).
  Proof.
    induction idx as [|i idx IH]; intros [|z zs] l; cbn [z_loop map]; auto.
    rewrite nth_slots; cbn [slot_map sl_offset]; rewrite hlt.
    destruct (lta z _); [rewrite insert_map; apply IH|apply (IH (z :: zs))].
  Qed.

  Lemma xy_slots_map n :
    xy_slots zb ub addb leb' eqb' ltb' n = map slot_map (xy_slots za ua adda lea eqa lta n).
  Proof.
    unfold xy_slots, rabi_offsets, azimuthal_offsets, detuning_offsets; cbv zeta.
    rewrite !xy_positions_map, !even_map, !map_length, merge_map.
    assert (E : forall m n, map slot_map m ++ repeat (blank zb) n = map slot_map (m ++ repeat (blank za) n)).
    { intros m k; rewrite map_app; f_equal; induction k; cbn; auto; rewrite IHk, blank_map; auto. }
    rewrite E, map_length, z_loop_map; auto.
  Qed.
End Transport.

(** ** Values with even multiplicity, on integers *)

Fixpoint nondecreasing (l : list Z) : Prop :=
  match l with [] => True | x :: l' => (forall y, In y l' -> (x <= y)%Z) /\ nondecreasing l' end.
Fixpoint increasing (l : list Z) : Prop :=
  match l with [] => True | x :: l' => (forall y, In y l' -> (x < y)%Z) /\ increasing l' end.

Lemma sort_insert_perm x l : Permutation (sort_insert Z.leb x l) (x :: l).
Proof.
  induction l; cbn; auto; destruct (x <=? a)%Z; auto.
  rewrite IHl; apply perm_swap.
Qed.
Lemma sort_perm l : Permutation (sort Z.leb l) l.
Proof. unfold sort; induction l; cbn; auto; rewrite sort_insert_perm, IHl; auto. Qed.
Lemma sort_insert_nondecreasing x l : nondecreasing l -> nondecreasing (sort_insert Z.leb x l).
Proof.
  induction l as [|a l IH]; cbn [sort_insert nondecreasing]; intros H; [cbn; tauto|].
  destruct H as [H1 H2]; destruct (Z.leb_spec x a).
  - cbn [nondecreasing]; split; auto; intros y [<-|I]; auto; specialize (H1 y I); lia.
  - cbn [nondecreasing]; split; auto; intros y I.
    apply (Permutation_in _ (sort_insert_perm x l)) in I; destruct I as [<-|I]; [lia|auto].
Qed.
Lemma sort_nondecreasing l : nondecreasing (sort Z.leb l).
Proof. unfold sort; induction l; cbn; auto; apply sort_insert_nondecreasing; auto. Qed.

Notation zcount := (count_occ Z.eq_dec).

Lemma count_perm l l' v : Permutation l l' -> zcount l v = zcount l' v.
Proof. intros H; revert v; apply Permutation_count_occ; auto. Qed.

Lemma group_spec l : nondecreasing l ->
  increasing (map fst (group Z.eqb l)) /\
  (forall v c, In (v, c) (group Z.eqb l) <-> In v l /\ c = zcount l v).
Proof.
  induction l as [|x l IH]; intros H; [cbn; split; auto; intros; tauto|].
  destruct H as [H1 H2]; destruct (IH H2) as [I1 I2]; clear IH.
  cbn [group]; destruct (group Z.eqb l) as [|[y c] g].
  - destruct l as [|z l].
    + cbn; split; [tauto|]; intros v c; split.
      * intros [E|[]]; injection E as <- <-; destruct (Z.eq_dec x x); tauto.
      * intros [[<-|[]] ->]; destruct (Z.eq_dec x x); tauto.
    + exfalso; apply (I2 z (zcount (z :: l) z)); split; [left|]; auto.
  - assert (Y : In y l /\ c = zcount l y) by (apply I2; left; auto).
    cbn [map fst increasing] in I1; destruct I1 as [I1 I1'].
    destruct (Z.eqb_spec x y) as [->|NE].
    + split; [cbn [map fst increasing]; auto|].
      intros v d; cbn [In count_occ]; destruct (Z.eq_dec y v) as [<-|N].
      * split; [|intros [_ ->]; left; destruct Y as [_ ->]; auto].
        intros [E|I]; [injection E as <-; destruct Y as [_ ->]; auto|].
        exfalso; assert (y < y)%Z by (apply I1, in_map_iff; exists (y, d); auto); lia.
      * split.
        -- intros [E|I]; [congruence|]; destruct (proj1 (I2 v d) (or_intror I)); auto.
        -- intros [[E|I] E']; [congruence|]; right.
           assert (J : In (v, d) ((y, c) :: g)) by (apply I2; auto).
           destruct J as [J|J]; [congruence|auto].
    + assert (XY : (x < y)%Z) by (specialize (H1 y (proj1 Y)); lia).
      assert (B : forall v, In v l -> (x < v)%Z).
      { intros v V; assert (J : In (v, zcount l v) ((y, c) :: g)) by (apply I2; auto).
        destruct J as [J|J]; [congruence|].
        assert (y < v)%Z by (apply I1, in_map_iff; exists (v, zcount l v); auto); lia. }
      split.
      * cbn [map fst increasing]; split; [|split; auto].
        intros v V; apply (in_map_iff fst ((y, c) :: g)) in V; destruct V as [[v' d] [<- V]]; apply I2 in V; apply B; tauto.
      * intros v d; cbn [In count_occ]; destruct (Z.eq_dec x v) as [<-|N].
        -- assert (X0 : zcount l x = 0%nat).
           { apply count_occ_not_In; intros I; apply B in I; lia. }
           rewrite X0; split; [|intros [_ ->]; left; auto].
           intros [E|I]; [injection E as <-; auto|].
           exfalso; change (In (x, d) ((y, c) :: g)) in I; apply I2 in I; destruct I as [I _]; apply B in I; lia.
        -- split.
           ++ intros [E|I]; [congruence|]; change (In (v, d) ((y, c) :: g)) in I; apply I2 in I; tauto.
           ++ intros [[E|I] E']; [congruence|]; right; change (In (v, d) ((y, c) :: g)); apply I2; auto.
Qed.

Lemma even_values_spec l :
  increasing (even_count_values Z.leb Z.eqb l) /\
  (forall v, In v (even_count_values Z.leb Z.eqb l) <-> In v l /\ Nat.even (zcount l v) = true).
Proof.
  unfold even_count_values, unique_counts.
  destruct (group_spec (sort Z.leb l) (sort_nondecreasing l)) as [A B].
  set (g := group Z.eqb (sort Z.leb l)) in *; clearbody g.
  split.
  - clear B; induction g as [|[v c] g IH]; cbn [filter map snd]; auto.
    cbn [map fst increasing] in A; destruct A as [A1 A2].
    destruct (Nat.even c); cbn [map fst increasing]; auto; split; auto.
    intros y I; apply A1; apply in_map_iff in I; destruct I as [p [E I]]; apply filter_In in I.
    apply in_map_iff; exists p; tauto.
  - intros v; rewrite in_map_iff; split.
    + intros [[v' c] [E I]]; cbn in E; subst v'; apply filter_In in I; destruct I as [I E]; cbn in E.
      apply B in I; destruct I as [I ->]; rewrite (count_perm _ _ _ (sort_perm l)) in E; split; auto.
      apply (Permutation_in _ (sort_perm l)); auto.
    + intros [I E]; exists (v, zcount l v); split; auto; apply filter_In; split; auto.
      apply B; split; [apply (Permutation_in _ (Permutation_sym (sort_perm l))); auto|].
      symmetry; apply count_perm, sort_perm.
Qed.

(** ** Merging *)

Definition slot_of (p : axis * Z) : slot :=
  match fst p with
  | AX => MkSlot (snd p) true false false
  | AY => MkSlot (snd p) true true false
  | AZ => MkSlot (snd p) false false true
  end.

Fixpoint merge_p (n : nat) (xs ys : list Z) : list (axis * Z) :=
  match n with
  | O => []
  | S n' =>
      match xs, ys with
      | x :: xs', y :: ys' => if Z.ltb x y then (AX, x) :: merge_p n' xs' ys else (AY, y) :: merge_p n' xs ys'
      | x :: xs', [] => (AX, x) :: merge_p n' xs' []
      | [], y :: ys' => (AY, y) :: merge_p n' [] ys'
      | [], [] => []
      end
  end.

Lemma merge_slots n : forall xs ys, merge_xy Z.ltb n xs ys = map slot_of (merge_p n xs ys).
Proof.
  induction n; intros [|x xs] [|y ys]; cbn; auto; rewrite ?IHn; auto.
  destruct (x <? y)%Z; auto.
Qed.

Lemma merge_perm n : forall xs ys, (List.length xs + List.length ys <= n)%nat ->
  Permutation (merge_p n xs ys) (map (pair AX) xs ++ map (pair AY) ys).
Proof.
  induction n; intros [|x xs] [|y ys] H; cbn [List.length] in H; try lia; cbn [merge_p]; auto.
  - rewrite IHn by (cbn [List.length]; lia); auto.
  - rewrite IHn by (cbn [List.length]; lia); auto.
  - destruct (x <? y)%Z; rewrite IHn by (cbn [List.length]; lia); auto.
    cbn [map]; apply (Permutation_middle ((AX, x) :: map (pair AX) xs)).
Qed.

Lemma merge_nondecreasing n : forall xs ys, (List.length xs + List.length ys <= n)%nat ->
  increasing xs -> increasing ys -> nondecreasing (map snd (merge_p n xs ys)).
Proof.
  induction n; intros [|x xs] [|y ys] H X Y; cbn [List.length] in H; try lia; cbn [merge_p map nondecreasing snd]; auto.
  - destruct Y as [Y1 Y2]; split; [|apply IHn; auto; cbn; lia].
    intros z I; apply in_map_iff in I; destruct I as [[a v] [<- I]].
    apply (Permutation_in _ (merge_perm n [] ys ltac:(cbn; lia))) in I; cbn in I.
    apply in_map_iff in I; destruct I as [w [E I]]; injection E as <- <-; apply Y1 in I; cbn; lia.
  - destruct X as [X1 X2]; split; [|apply IHn; auto; cbn; lia].
    intros z I; apply in_map_iff in I; destruct I as [[a v] [<- I]].
    apply (Permutation_in _ (merge_perm n xs [] ltac:(cbn; lia))) in I; cbn in I; rewrite app_nil_r in I.
    apply in_map_iff in I; destruct I as [w [E I]]; injection E as <- <-; apply X1 in I; cbn; lia.
  - destruct X as [X1 X2], Y as [Y1 Y2]; destruct (Z.ltb_spec x y) as [L|L]; cbn [map nondecreasing snd].
    + split; [|apply IHn; auto; [cbn; lia|split; auto]].
      intros z I; apply in_map_iff in I; destruct I as [[a v] [<- I]].
      apply (Permutation_in _ (merge_perm n xs (y :: ys) ltac:(cbn; lia))) in I; apply in_app_or in I.
      destruct I as [I|I]; apply in_map_iff in I; destruct I as [w [E I]]; injection E as <- <-; cbn.
      * apply X1 in I; lia.
      * destruct I as [<-|I]; [lia|apply Y1 in I; lia].
    + split; [|apply IHn; auto; [cbn; lia|split; auto]].
      intros z I; apply in_map_iff in I; destruct I as [[a v] [<- I]].
      apply (Permutation_in _ (merge_perm n (x :: xs) ys ltac:(cbn; lia))) in I; apply in_app_or in I.
      destruct I as [I|I]; apply in_map_iff in I; destruct I as [w [E I]]; injection E as <- <-; cbn.
      * destruct I as [<-|I]; [lia|apply X1 in I; lia].
      * apply Y1 in I; lia.
Qed.

(** insertion of the Z pulses *)
Lemma insert_z_spec (A L : list (slot (T := Z))) z :
  (forall s, In s L -> sl_detuning s = false) ->
  insert_z 0%Z (List.length A) z (A ++ L ++ [blank 0%Z]) = (A ++ [MkSlot z false false true]) ++ L.
Proof.
  intros D; unfold insert_z, range; set (l := A ++ L ++ [blank 0%Z]).
  assert (LL : List.length l = (List.length A + List.length L + 1)%nat) by (unfold l; rewrite !app_length; cbn; lia).
  apply (nth_ext _ _ (blank 0%Z) (blank 0%Z)).
  - rewrite map_length, seq_length, LL, !app_length; cbn; lia.
  - intros j J; rewrite map_length, seq_length in J.
    assert (N : forall f : nat -> slot (T := Z), nth j (map f (seq 0 (List.length l))) (blank 0%Z) = f j).
    { intros f; rewrite (nth_indep _ _ (f O)) by (rewrite map_length, seq_length; auto).
      rewrite map_nth, seq_nth by auto; auto. }
    rewrite N; clear N; cbv zeta.
    destruct (Nat.ltb_spec j (List.length A)).
    + unfold l; rewrite <- app_assoc, !app_nth1 by auto; auto.
    + destruct (Nat.eqb_spec j (List.length A)) as [->|NE].
      * rewrite <- app_assoc, app_nth2, Nat.sub_diag by lia; reflexivity.
      * unfold l at 1 2 3; rewrite (app_nth2 A) by lia; rewrite (app_nth1 L) by lia.
        rewrite (app_nth2 (A ++ _)) by (rewrite app_length; cbn; lia); rewrite app_length; cbn [List.length].
        replace (j - (List.length A + 1))%nat with (j - 1 - List.length A)%nat by lia.
        set (s := nth (j - 1 - List.length A) L (blank 0%Z)).
        assert (S1 : sl_detuning s = false) by (apply D, nth_In; lia).
        assert (S2 : sl_detuning (nth j l (blank 0%Z)) = false).
        { unfold l; rewrite app_nth2 by lia.
          assert (I : In (nth (j - List.length A) (L ++ [blank 0%Z]) (blank 0%Z)) (L ++ [blank 0%Z])).
          { apply nth_In; rewrite app_length; cbn; lia. }
          apply in_app_or in I; destruct I as [I|[<-|[]]]; auto. }
        fold l; rewrite S2; destruct s; cbn in *; congruence.
Qed.

Fixpoint zm (k : nat) (B : list (axis * Z)) (zs : list Z) : list (axis * Z) :=
  match k with
  | O => []
  | S k' =>
      match B, zs with
      | _, [] => B
      | [], _ => []
      | b :: B', z :: zs' => if Z.ltb z (snd b) then (AZ, z) :: zm k' B zs' else b :: zm k' B' zs
      end
  end.

Lemma sl_offset_of b : sl_offset (slot_of b) = snd b.
Proof. destruct b as [[] t]; reflexivity. Qed.

Lemma z_loop_spec k : forall A B zs, k = (List.length B + List.length zs)%nat ->
  (forall b, In b B -> fst b <> AZ) ->
  (exists b, In b B /\ forall z, In z zs -> (z < snd b)%Z) ->
  z_loop 0%Z Z.ltb (seq (List.length A) k) zs (A ++ map slot_of B ++ repeat (blank 0%Z) (List.length zs)) =
  A ++ map slot_of (zm k B zs).
Proof.
  induction k as [|k IH]; intros A B zs K NZ [b [Ib Hb]].
  - destruct B; [destruct Ib|discriminate].
  - destruct B as [|c B]; [destruct Ib|]; destruct zs as [|z zs].
    + cbn [seq z_loop zm List.length repeat]; rewrite app_nil_r; auto.
    + cbn [seq z_loop zm].
      replace (nth (List.length A) (A ++ map slot_of (c :: B) ++ repeat (blank 0%Z) (List.length (z :: zs))) (blank 0%Z))
        with (slot_of c) by (rewrite app_nth2, Nat.sub_diag by lia; reflexivity).
      rewrite sl_offset_of; destruct (Z.ltb_spec z (snd c)) as [L|L].
      * assert (E : A ++ map slot_of (c :: B) ++ repeat (blank 0%Z) (List.length (z :: zs)) =
          A ++ (map slot_of (c :: B) ++ repeat (blank 0%Z) (List.length zs)) ++ [blank 0%Z]).
        { cbn [List.length]; rewrite repeat_snoc, <- !app_assoc; auto. }
        rewrite E, insert_z_spec.
        2:{ intros s I; apply in_app_or in I; destruct I as [I|I].
            - apply in_map_iff in I; destruct I as [d [<- I]]; apply NZ in I; destruct d as [[] t]; cbn in *; auto; congruence.
            - apply repeat_spec in I; subst; auto. }
        assert (LA : S (List.length A) = List.length (A ++ [slot_of (AZ, z)])) by (rewrite app_length; cbn; lia).
        rewrite LA; change (MkSlot z false false true) with (slot_of (AZ, z)).
        rewrite IH; auto.
        -- cbn [map]; rewrite <- app_assoc; auto.
        -- cbn [List.length] in *; lia.
        -- exists b; split; auto; intros; apply Hb; right; auto.
      * assert (LA : S (List.length A) = List.length (A ++ [slot_of c])) by (rewrite app_length; cbn; lia).
        rewrite LA; cbn [map].
        replace (A ++ (slot_of c :: map slot_of B) ++ repeat (blank 0%Z) (List.length (z :: zs)))
          with ((A ++ [slot_of c]) ++ map slot_of B ++ repeat (blank 0%Z) (List.length (z :: zs)))
          by (rewrite <- app_assoc; auto).
        rewrite IH.
        -- rewrite <- app_assoc; auto.
        -- cbn [List.length] in *; lia.
        -- intros; apply NZ; right; auto.
        -- destruct Ib as [<-|Ib]; [specialize (Hb z (or_introl eq_refl)); lia|]; exists b; auto.
Qed.

Lemma zm_perm k : forall B zs, (List.length B + List.length zs <= k)%nat ->
  (zs = [] \/ exists b, In b B /\ forall z, In z zs -> (z < snd b)%Z) ->
  Permutation (zm k B zs) (B ++ map (pair AZ) zs).
Proof.
  induction k as [|k IH]; intros B zs K H.
  - destruct B, zs; cbn in K; try lia; constructor.
  - destruct B as [|c B], zs as [|z zs]; cbn [zm map]; rewrite ?app_nil_r; auto.
    + destruct H as [H|[b [[] _]]]; discriminate.
    + destruct H as [H|[b [Ib Hb]]]; [discriminate|].
      destruct (Z.ltb_spec z (snd c)) as [L|L].
      * rewrite IH; [apply Permutation_middle|cbn in *; lia|].
        right; exists b; split; auto; intros; apply Hb; right; auto.
      * rewrite IH; [reflexivity|cbn in *; lia|].
        right; exists b; split; auto.
        destruct Ib as [<-|Ib]; auto; specialize (Hb z (or_introl eq_refl)); lia.
Qed.

Lemma zm_nondecreasing k : forall B zs, (List.length B + List.length zs <= k)%nat ->
  (zs = [] \/ exists b, In b B /\ forall z, In z zs -> (z < snd b)%Z) ->
  nondecreasing (map snd B) -> increasing zs -> nondecreasing (map snd (zm k B zs)).
Proof.
  induction k as [|k IH]; intros B zs K H NB IZ; [destruct B, zs; cbn in *; auto; lia|].
  destruct B as [|c B], zs as [|z zs]; cbn [zm]; auto.
  destruct H as [H|[b [Ib Hb]]]; [discriminate|].
  destruct IZ as [Z1 Z2], NB as [N1 N2]; fold (map snd B) in *.
  destruct (Z.ltb_spec z (snd c)) as [L|L]; cbn [map snd nondecreasing].
  - assert (H' : zs = [] \/ exists b, In b (c :: B) /\ forall z, In z zs -> (z < snd b)%Z)
      by (right; exists b; split; auto; intros; apply Hb; right; auto).
    assert (K' : (List.length (c :: B) + List.length zs <= k)%nat) by (cbn in *; lia).
    split; [|apply IH; auto; split; auto].
    intros y I; apply in_map_iff in I; destruct I as [[a v] [<- I]].
    apply (Permutation_in _ (zm_perm k (c :: B) zs K' H')) in I; apply in_app_or in I; cbn [snd].
    destruct I as [[E|I]|I]; [subst c; cbn in L; lia| |].
    + specialize (N1 v (in_map snd _ _ I)); lia.
    + apply in_map_iff in I; destruct I as [w [E I]]; injection E as <- <-; apply Z1 in I; lia.
  - assert (H' : (z :: zs) = [] \/ exists b, In b B /\ forall w, In w (z :: zs) -> (w < snd b)%Z).
    { right; exists b; split; auto; destruct Ib as [<-|Ib]; auto; specialize (Hb z (or_introl eq_refl)); lia. }
    assert (K' : (List.length B + List.length (z :: zs) <= k)%nat) by (cbn in *; lia).
    split; [|apply IH; auto; split; auto].
    intros y I; apply in_map_iff in I; destruct I as [[a v] [<- I]].
    apply (Permutation_in _ (zm_perm k B (z :: zs) K' H')) in I; apply in_app_or in I; cbn [snd].
    destruct I as [I|I].
    + apply (N1 v (in_map snd _ _ I)).
    + apply in_map_iff in I; destruct I as [w [E I]]; injection E as <- <-; destruct I as [<-|I]; [lia|apply Z1 in I; lia].
Qed.

(** ** The codes *)

Definition is_marker (c : Z) : bool := Z.eqb c (-1) || Z.eqb c (-2) || Z.eqb c (-3).
Fixpoint units (l : list Z) : Z :=
  match l with [] => 0 | c :: l' => (if is_marker c then 0 else 1) + units l' end%Z.

Lemma units_app a b : units (a ++ b) = (units a + units b)%Z.
Proof. induction a; cbn [app units]; lia. Qed.
Lemma units_nonneg l : (0 <= units l)%Z.
Proof. induction l; cbn [units]; [lia|]; destruct (is_marker a); lia. Qed.
Lemma units_removelast l : (units (removelast l) <= units l)%Z.
Proof.
  destruct l as [|c l]; [cbn; lia|]; destruct (exists_last (l := c :: l)) as [a [d ->]]; [discriminate|].
  rewrite removelast_last, units_app; generalize (units_nonneg [d]); lia.
Qed.
Lemma units_set_last l : (units (set_last (-3) l) <= units l)%Z.
Proof.
  destruct l as [|c l]; [cbn; lia|].
  unfold set_last; rewrite units_app; generalize (units_removelast (c :: l)).
  change (units [(-3)%Z]) with 0%Z; lia.
Qed.
Lemma removelast_snoc2 {A} (l : list A) a b : removelast (removelast (l ++ [a; b])) = l.
Proof.
  change [a; b] with ([a] ++ [b]); rewrite app_assoc, !removelast_last; auto.
Qed.

Definition xy_step (prev : list Z) : list Z :=
  set_last (-3) ((set_last (-3) prev ++ removelast prev) ++ prev) ++ prev ++ [(-2)%Z].
Definition xy_trim (c4 : list Z) : list Z :=
  if (Z.eqb (last c4 0%Z) (-2) && Z.eqb (last (removelast c4) 0%Z) (-2))%bool
  then removelast (removelast c4) else c4.

Lemma concatenation_xy_S l : (1 <= l)%nat -> concatenation_xy l <> [] ->
  concatenation_xy (S l) = xy_trim (xy_step (concatenation_xy l)).
Proof.
  intros H NE; destruct l as [|l]; [lia|].
  change (concatenation_xy (S (S l))) with
    (let prev := concatenation_xy (S l) in
      let c1 := set_last (-3) (removelast (prev ++ [(-1)%Z])) in
      let c2 := removelast (removelast (c1 ++ prev ++ [(-2)%Z])) in
      let c3 := set_last (-3) (removelast (c2 ++ prev ++ [(-1)%Z])) in
      let c4 := (c3 ++ prev ++ [(-2)%Z])%list in
      if (Z.eqb (last c4 0%Z) (-2) && Z.eqb (last (removelast c4) 0%Z) (-2))%bool
      then removelast (removelast c4) else c4).
  set (prev := concatenation_xy (S l)) in *; cbv zeta.
  unfold xy_trim, xy_step.
  rewrite removelast_last.
  rewrite (app_assoc (set_last (-3) prev) prev), removelast_last.
  rewrite (removelast_app _ NE), (app_assoc (set_last (-3) prev ++ removelast prev) prev), removelast_last; auto.
Qed.

Lemma set_last_cons v a l : l <> [] -> set_last v (a :: l) = a :: set_last v l.
Proof. destruct l; [congruence|reflexivity]. Qed.

Lemma xy_shape l : (2 <= l)%nat -> exists P e,
  concatenation_xy l = 1%Z :: P ++ [-3; 1; -1; 1; -2; 1; -1; 1]%Z ++ e /\ (e = [] \/ e = [(-2)%Z]).
Proof.
  induction l as [|l IH]; intros H; [lia|].
  destruct (Nat.eq_dec l 1) as [->|NE].
  - exists [-1; 1; -2; 1; -1; 1; -3; 1; -1; 1; -2; 1; -1; 1; 1; -1; 1; -2; 1; -1; 1]%Z, []; split; [reflexivity|auto].
  - destruct IH as [P [e [E C]]]; [lia|].
    rewrite concatenation_xy_S by (try rewrite E; try lia; discriminate).
    set (prev := concatenation_xy l) in *.
    unfold xy_step.
    assert (HD : exists Q, set_last (-3) ((set_last (-3) prev ++ removelast prev) ++ prev) = 1%Z :: Q).
    { destruct (P ++ [-3; 1; -1; 1; -2; 1; -1; 1]%Z ++ e) as [|p W] eqn:EW; [destruct P; discriminate|].
      rewrite E; rewrite (set_last_cons _ 1%Z (p :: W)) by discriminate; cbn [app].
      rewrite set_last_cons; [eauto|]; unfold set_last; destruct (removelast (p :: W)); discriminate. }
    destruct HD as [Q ->].
    destruct C as [-> | ->].
    + exists (Q ++ 1%Z :: P), [(-2)%Z]; split; auto.
      unfold xy_trim.
      assert (X : (1%Z :: Q) ++ prev ++ [(-2)%Z] = ((1%Z :: Q ++ 1%Z :: P) ++ [-3; 1; -1; 1; -2; 1; -1]%Z) ++ [1%Z; (-2)%Z]).
      { rewrite E; repeat (cbn [app]; rewrite <- ?app_assoc); reflexivity. }
      rewrite X; change [1%Z; (-2)%Z] with ([1%Z] ++ [(-2)%Z]); rewrite app_assoc, last_last, removelast_last, last_last.
      cbn [Z.eqb Pos.eqb andb]; repeat (cbn [app]; rewrite <- ?app_assoc); reflexivity.
    + exists (Q ++ 1%Z :: P), []; split; auto.
      unfold xy_trim.
      assert (X : (1%Z :: Q) ++ prev ++ [(-2)%Z] =
        ((1%Z :: Q ++ 1%Z :: P) ++ [-3; 1; -1; 1; -2; 1; -1; 1]%Z) ++ [(-2)%Z; (-2)%Z]).
      { rewrite E; repeat (cbn [app]; rewrite <- ?app_assoc); reflexivity. }
      rewrite X, removelast_snoc2; change [(-2)%Z; (-2)%Z] with ([(-2)%Z] ++ [(-2)%Z]).
      rewrite (app_assoc _ [(-2)%Z]), last_last, removelast_last, last_last.
      cbn [Z.eqb Pos.eqb andb]; repeat (cbn [app]; rewrite <- ?app_assoc); reflexivity.
Qed.

Lemma concatenation_xy_nonempty l : (1 <= l)%nat -> concatenation_xy l <> [].
Proof.
  intros H; destruct (Nat.eq_dec l 1) as [->|NE]; [discriminate|].
  destruct (xy_shape l) as [P [e [-> _]]]; [lia|discriminate].
Qed.

Lemma units_step l : (1 <= l)%nat -> (units (concatenation_xy (S l)) <= 4 * units (concatenation_xy l))%Z.
Proof.
  intros H; rewrite concatenation_xy_S by (auto; apply concatenation_xy_nonempty; auto).
  set (prev := concatenation_xy l).
  assert (A : (units (xy_step prev) <= 4 * units prev)%Z).
  { unfold xy_step; rewrite !units_app; change (units [(-2)%Z]) with 0%Z.
    generalize (units_set_last ((set_last (-3) prev ++ removelast prev) ++ prev)); rewrite !units_app.
    generalize (units_set_last prev) (units_removelast prev); lia. }
  unfold xy_trim; destruct (_ && _); auto.
  generalize (units_removelast (xy_step prev)) (units_removelast (removelast (xy_step prev))); lia.
Qed.

Lemma units_bound l : (1 <= l)%nat -> (units (concatenation_xy l) <= 4 ^ Z.of_nat l)%Z.
Proof.
  induction l as [|l IH]; intros H; [lia|].
  destruct (Nat.eq_dec l 0) as [->|NE]; [reflexivity|].
  generalize (units_step l ltac:(lia)) (IH ltac:(lia)).
  rewrite Nat2Z.inj_succ, Z.pow_succ_r by lia; lia.
Qed.

Lemma units_short l : (3 <= l)%nat -> (units (concatenation_xy l) <= 4 ^ Z.of_nat l - 2)%Z.
Proof.
  induction l as [|l IH]; intros H; [lia|].
  destruct (Nat.eq_dec l 2) as [->|NE]; [vm_compute; discriminate|].
  generalize (units_step l ltac:(lia)) (IH ltac:(lia)).
  rewrite Nat2Z.inj_succ, Z.pow_succ_r by lia; lia.
Qed.

(** ** Positions *)

Definition steps (m o1 o2 : Z) (cum : list Z) : list Z :=
  map (fun c => if Z.eqb c m then 0%Z else 1%Z)
    (filter (fun c => negb (Z.eqb c o2)) (filter (fun c => negb (Z.eqb c o1)) cum)).
Definition total_z (l : list Z) : Z := fold_right Z.add 0%Z l.

Definition markers (m o1 o2 : Z) : Prop :=
  (m = -1 /\ o1 = -2 /\ o2 = -3 \/ m = -2 /\ o1 = -1 /\ o2 = -3 \/ m = -3 /\ o1 = -2 /\ o2 = -1)%Z.

Lemma steps_app m o1 o2 a b : steps m o1 o2 (a ++ b) = steps m o1 o2 a ++ steps m o1 o2 b.
Proof. unfold steps; rewrite !filter_app, map_app; auto. Qed.
Lemma steps_cons m o1 o2 c cum : total_z (steps m o1 o2 (c :: cum)) =
  ((if Z.eqb c o1 then 0 else if Z.eqb c o2 then 0 else if Z.eqb c m then 0 else 1) + total_z (steps m o1 o2 cum))%Z.
Proof.
  unfold steps, total_z; cbn [filter]; destruct (c =? o1)%Z; cbn [negb filter]; [lia|].
  destruct (c =? o2)%Z; cbn [negb map fold_right]; lia.
Qed.
Lemma steps_total m o1 o2 cum : markers m o1 o2 -> total_z (steps m o1 o2 cum) = units cum.
Proof.
  intros M; induction cum as [|c cum IH]; [reflexivity|].
  rewrite steps_cons, IH; cbn [units]; unfold is_marker.
  destruct M as [[-> [-> ->]]|[[-> [-> ->]]|[-> [-> ->]]]];
    destruct (Z.eqb c (-1)), (Z.eqb c (-2)), (Z.eqb c (-3)); cbn [orb]; lia.
Qed.

Lemma running_app a l1 l2 :
  running Z.add a (l1 ++ l2) = running Z.add a l1 ++ running Z.add (a + total_z l1)%Z l2.
Proof.
  revert a; induction l1 as [|x l1 IH]; intros a; cbn [app running total_z fold_right].
  - rewrite Z.add_0_r; auto.
  - rewrite IH; cbn [app]; do 2 f_equal; unfold total_z; f_equal; lia.
Qed.
Lemma running_bounds m o1 o2 cum a v :
  In v (running Z.add a (steps m o1 o2 cum)) -> (a <= v <= a + total_z (steps m o1 o2 cum))%Z.
Proof.
  unfold steps; generalize (filter (fun c => negb (Z.eqb c o2)) (filter (fun c => negb (Z.eqb c o1)) cum)).
  intros l; revert a; induction l as [|c l IH]; intros a; cbn [map running In total_z fold_right]; [tauto|].
  assert (NN : (0 <= total_z (map (fun c => if (c =? m)%Z then 0%Z else 1%Z) l))%Z).
  { clear; induction l; cbn; [lia|]; unfold total_z in IHl; destruct (a =? m)%Z; lia. }
  unfold total_z in *; intros [<-|I]; [destruct (c =? m)%Z; lia|].
  apply IH in I; destruct (c =? m)%Z; lia.
Qed.

Lemma positions_steps m o1 o2 cum :
  xy_positions 0%Z 1%Z Z.add m o1 o2 cum = running Z.add 0%Z (steps m o1 o2 cum).
Proof. reflexivity. Qed.

(** every kept position is between 1 and the number of units *)
Lemma offsets_bounds m o1 o2 cum v : markers m o1 o2 ->
  In v (even_count_values Z.leb Z.eqb (xy_positions 0%Z 1%Z Z.add m o1 o2 (1%Z :: cum))) ->
  (1 <= v <= units (1%Z :: cum))%Z.
Proof.
  intros M I; apply even_values_spec in I; destruct I as [I _].
  rewrite positions_steps in I.
  change (1%Z :: cum) with ([1%Z] ++ cum) in *; rewrite steps_app, running_app in I.
  assert (S1 : steps m o1 o2 [1%Z] = [1%Z]).
  { destruct M as [[-> [-> ->]]|[[-> [-> ->]]|[-> [-> ->]]]]; reflexivity. }
  rewrite S1 in I; cbn [running total_z fold_right Z.add app] in I.
  rewrite units_app; change (units [1%Z]) with 1%Z; generalize (units_nonneg cum).
  destruct I as [<-|I]; [lia|].
  apply running_bounds in I; rewrite steps_total in I by auto; lia.
Qed.

(** the last X pulse is later than every Z pulse *)
Lemma late_x P e : e = [] \/ e = [(-2)%Z] ->
  let cum := P ++ [-3; 1; -1; 1; -2; 1; -1; 1]%Z ++ e in
  exists v, In v (rabi_offsets 0%Z 1%Z Z.add Z.leb Z.eqb cum) /\
    forall z, In z (detuning_offsets 0%Z 1%Z Z.add Z.leb Z.eqb cum) -> (z < v)%Z.
Proof.
  intros HE cum; exists (units P + 3)%Z; split.
  - unfold rabi_offsets; apply even_values_spec; rewrite positions_steps; unfold cum.
    rewrite steps_app, running_app, steps_total by (left; auto).
    assert (E : steps (-1) (-2) (-3) ([-3; 1; -1; 1; -2; 1; -1; 1]%Z ++ e) = [1; 0; 1; 1; 0; 1]%Z)
      by (destruct HE as [-> | ->]; reflexivity).
    rewrite E; cbn [running]; set (n := units P).
    replace (running Z.add 0%Z (steps (-1) (-2) (-3) P) ++ _) with
      (running Z.add 0%Z (steps (-1) (-2) (-3) P) ++ [n + 1; n + 1; n + 2; n + 3; n + 3; n + 4]%Z)
      by (f_equal; repeat (f_equal; try lia)).
    split; [apply in_or_app; right; cbn; auto|].
    rewrite count_occ_app.
    replace (zcount (running Z.add 0%Z (steps (-1) (-2) (-3) P)) (n + 3)%Z) with 0%nat.
    2:{ symmetry; apply count_occ_not_In; intros I; apply running_bounds in I; rewrite steps_total in I by (left; auto); unfold n in I; lia. }
    cbn [count_occ Nat.add].
    repeat match goal with |- context [Z.eq_dec ?a ?b] => destruct (Z.eq_dec a b); try lia end; reflexivity.
  - intros z I; unfold detuning_offsets in I; apply even_values_spec in I; destruct I as [I EV].
    rewrite positions_steps in *; unfold cum in *.
    change [-3; 1; -1; 1; -2; 1; -1; 1]%Z with ([(-3)%Z] ++ [1; -1; 1; -2; 1; -1; 1]%Z) in *.
    rewrite <- app_assoc, app_assoc in I, EV.
    rewrite steps_app, running_app, steps_total, units_app in I by (right; right; auto).
    rewrite steps_app, running_app, steps_total, units_app in EV by (right; right; auto).
    change (units [(-3)%Z]) with 0%Z in *; rewrite Z.add_0_r in I, EV.
    assert (E : steps (-3) (-2) (-1) ([1; -1; 1; -2; 1; -1; 1]%Z ++ e) = [1; 1; 1; 1]%Z)
      by (destruct HE as [-> | ->]; reflexivity).
    rewrite E in I, EV; cbn [running] in I, EV; set (n := units P) in *.
    apply in_app_or in I; destruct I as [I|I].
    + apply running_bounds in I; rewrite steps_total, units_app in I by (right; right; auto).
      change (units [(-3)%Z]) with 0%Z in I; unfold n; lia.
    + exfalso; rewrite count_occ_app in EV.
      replace (zcount (running Z.add 0%Z (steps (-3) (-2) (-1) (P ++ [(-3)%Z]))) z) with 0%nat in EV.
      2:{ symmetry; apply count_occ_not_In; intros J; apply running_bounds in J; rewrite steps_total, units_app in J by (right; right; auto).
          change (units [(-3)%Z]) with 0%Z in J; cbn [In] in I; unfold n in I; lia. }
      cbn [count_occ Nat.add] in EV; cbn [In] in I.
      repeat match type of EV with context [Z.eq_dec ?a ?b] => destruct (Z.eq_dec a b); try lia end; discriminate.
Qed.

(** ** All the pulses, in units of the spacing *)

Lemma xy_pulses_perm l : (1 <= l)%nat -> exists ps,
  xy_slots 0%Z 1%Z Z.add Z.leb Z.eqb Z.ltb l = map slot_of ps /\
  nondecreasing (map snd ps) /\
  (forall p, In p ps -> (1 <= snd p <= units (concatenation_xy l))%Z) /\
  Permutation ps ((map (pair AX) (rabi_offsets 0%Z 1%Z Z.add Z.leb Z.eqb (concatenation_xy l)) ++
     map (pair AY) (azimuthal_offsets 0%Z 1%Z Z.add Z.leb Z.eqb (concatenation_xy l))) ++
     map (pair AZ) (detuning_offsets 0%Z 1%Z Z.add Z.leb Z.eqb (concatenation_xy l))).
Proof.
  intros H; unfold xy_slots; cbv zeta.
  set (cum := concatenation_xy l).
  set (xs := rabi_offsets 0%Z 1%Z Z.add Z.leb Z.eqb cum).
  set (ys := azimuthal_offsets 0%Z 1%Z Z.add Z.leb Z.eqb cum).
  set (zs := detuning_offsets 0%Z 1%Z Z.add Z.leb Z.eqb cum).
  assert (C1 : exists r, cum = 1%Z :: r).
  { unfold cum; destruct (Nat.eq_dec l 1) as [->|NE]; [eexists; reflexivity|].
    destruct (xy_shape l) as [P [e [-> _]]]; [lia|]; eauto. }
  assert (IX : increasing xs) by apply even_values_spec.
  assert (IY : increasing ys) by apply even_values_spec.
  assert (IZ : increasing zs) by apply even_values_spec.
  assert (BX : forall v, In v xs -> (1 <= v <= units cum)%Z).
  { intros v I; unfold xs, rabi_offsets in I; destruct C1 as [r E]; rewrite E in *; apply offsets_bounds in I; auto; left; auto. }
  assert (BY : forall v, In v ys -> (1 <= v <= units cum)%Z).
  { intros v I; unfold ys, azimuthal_offsets in I; destruct C1 as [r E]; rewrite E in *; apply offsets_bounds in I; auto; right; left; auto. }
  assert (BZ : forall v, In v zs -> (1 <= v <= units cum)%Z).
  { intros v I; unfold zs, detuning_offsets in I; destruct C1 as [r E]; rewrite E in *; apply offsets_bounds in I; auto; right; right; auto. }
  assert (LZ : zs = [] \/ exists v, In v xs /\ forall z, In z zs -> (z < v)%Z).
  { destruct (Nat.eq_dec l 1) as [E1|NE].
    - left; unfold zs, cum; rewrite E1; reflexivity.
    - right; unfold xs, zs, cum; destruct (xy_shape l) as [P [e [-> HE]]]; [lia|].
      apply (late_x (1%Z :: P) e HE). }
  clearbody xs ys zs cum; clear C1 H l.
  set (n := (List.length xs + List.length ys)%nat).
  rewrite merge_slots.
  set (B := merge_p n xs ys).
  assert (PB : Permutation B (map (pair AX) xs ++ map (pair AY) ys)) by (apply merge_perm; auto).
  assert (NB : nondecreasing (map snd B)) by (apply merge_nondecreasing; auto).
  assert (NZ : forall b, In b B -> fst b <> AZ).
  { intros b I; apply (Permutation_in _ PB), in_app_or in I; destruct I as [I|I]; apply in_map_iff in I;
      destruct I as [v [<- _]]; discriminate. }
  assert (BB : forall b, In b B -> (1 <= snd b <= units cum)%Z).
  { intros b I; apply (Permutation_in _ PB), in_app_or in I; destruct I as [I|I]; apply in_map_iff in I;
      destruct I as [v [<- I]]; cbn; auto. }
  assert (WB : zs = [] \/ exists b, In b B /\ forall z, In z zs -> (z < snd b)%Z).
  { destruct LZ as [->|[v [V L]]]; auto; right; exists (AX, v); split; auto.
    apply (Permutation_in _ (Permutation_sym PB)), in_or_app; left; apply in_map; auto. }
  clearbody B.
  destruct WB as [->|WB].
  - exists B; cbn [List.length repeat]; rewrite app_nil_r; split; [|split; auto; split; auto].
    + destruct (range 0 (List.length (map slot_of B))); reflexivity.
    + cbn [map]; rewrite app_nil_r; auto.
  - exists (zm (List.length B + List.length zs) B zs); split; [|split; [|split]].
    + unfold range; rewrite app_length, map_length, repeat_length.
      apply (z_loop_spec _ [] B zs); auto.
    + apply zm_nondecreasing; auto.
    + intros p I; apply (Permutation_in _ (zm_perm _ B zs (le_n _) (or_intror WB))), in_app_or in I.
      destruct I as [I|I]; auto; apply in_map_iff in I; destruct I as [v [<- I]]; cbn; auto.
    + rewrite (zm_perm _ B zs (le_n _) (or_intror WB)); apply Permutation_app_tail; auto.
Qed.

Lemma xy_pulses l : (1 <= l)%nat -> exists ps,
  xy_slots 0%Z 1%Z Z.add Z.leb Z.eqb Z.ltb l = map slot_of ps /\
  nondecreasing (map snd ps) /\
  (forall p, In p ps -> (1 <= snd p <= units (concatenation_xy l))%Z).
Proof. intros H; destruct (xy_pulses_perm l H) as [ps [A [B [C _]]]]; eauto. Qed.

(** ** Back to real times *)

Definition scale_z (u : R) (p : axis * Z) : axis * R := (fst p, IZR (snd p) * u).

Lemma xy_slots_real u l : 0 < u ->
  xy_slots 0 u Rplus leb eqb ltb l =
  map (slot_map (fun z => IZR z * u)) (xy_slots 0%Z 1%Z Z.add Z.leb Z.eqb Z.ltb l).
Proof.
  intros U; apply xy_slots_map.
  - ring.
  - ring.
  - intros; rewrite plus_IZR; ring.
  - intros x y; destruct (Z.leb_spec x y) as [L|L].
    + apply leb_true, Rmult_le_compat_r; [lra|apply IZR_le; auto].
    + apply leb_false; apply IZR_lt in L; nra.
  - intros x y; destruct (Z.eqb_spec x y) as [->|N]; [apply eqb_true; auto|].
    apply eqb_false; intros C; apply N, eq_IZR; nra.
  - intros x y; destruct (Z.ltb_spec x y) as [L|L].
    + apply ltb_true, Rmult_lt_compat_r; [lra|apply IZR_lt; auto].
    + apply ltb_false; apply IZR_le in L; nra.
Qed.

Lemma pow4_IZR l : IZR (4 ^ Z.of_nat l) = 2 ^ (l * 2).
Proof.
  rewrite Nat.mul_comm, pow_mult; replace (2 ^ 2) with 4 by ring.
  rewrite <- (pow_IZR 4 l); auto.
Qed.

Lemma xy_model T x l pre name ps : 0 < T -> truncates_to x l -> (1 <= l)%nat ->
  xy_slots 0%Z 1%Z Z.add Z.leb Z.eqb Z.ltb l = map slot_of ps ->
  (forall p, In p ps -> (1 <= snd p <= 4 ^ Z.of_nat l)%Z) ->
  new_xy_concatenated_sequence T x pre name =
  Ok (sequence_of T name (with_pre_post pre T (map (scale_z (T / 2 ^ (l * 2))) ps))).
Proof.
  intros HT HX HL EP BP; unfold new_xy_concatenated_sequence.
  rewrite check_duration_ok by auto; cbn [bind].
  unfold check_concatenation_order; rewrite check_true.
  2:{ apply leb_true; destruct HX as [A _]; apply le_INR in HL; simpl in HL; lra. }
  cbn [bind]; rewrite (int_count_truncates x l HX); cbv zeta.
  assert (P2 : 0 < 2 ^ (l * 2)) by (apply pow_lt; lra).
  set (u := T / 2 ^ (l * 2)); assert (U : 0 < u) by (apply Rdiv_lt_0_compat; auto).
  rewrite xy_slots_real, EP, !map_map by auto.
  match goal with |- finish T ?a _ _ = _ => assert (EA : a = arrays_of (map (scale_z u) ps)) end.
  { unfold arrays_of; rewrite !map_map; f_equal; apply map_ext; intros [[] z]; reflexivity. }
  rewrite EA; apply finish_ok; auto.
  intros p I; apply in_map_iff in I; destruct I as [q [<- I]]; apply BP in I; destruct I as [I1 I2].
  apply IZR_le in I1; apply IZR_le in I2; rewrite pow4_IZR in I2; cbn [scale_z snd].
  assert (E : T = 2 ^ (l * 2) * u) by (unfold u; field; lra).
  rewrite E; split; nra.
Qed.
