(** * Rounded pulse times *)

From Coq Require Import ZArith.
From Flocq Require Import Core.
From Verif Require Export L_FloatConcat.
Import ListNotations.
Open Scope string_scope.
Open Scope list_scope.
Open Scope R_scope.

Definition near_pulse (e : R) (p q : axis * R) : Prop := fst p = fst q /\ Rabs (snd p - snd q) <= e.

(** [flp] are rounded forms of the pulses [ps] of a sequence of duration [T] *)
Definition rounding (e T : R) (flp ps : list (axis * R)) : Prop :=
  Forall2 (near_pulse e) flp ps /\
  (forall p, In p flp -> 0 <= snd p <= T /\ binary64_format (snd p)) /\
  same_order (0 :: map snd flp ++ [T]) (0 :: map snd ps ++ [T]).

Lemma near_length e flp ps : Forall2 (near_pulse e) flp ps -> List.length flp = List.length ps.
Proof. induction 1; cbn; auto. Qed.

Lemma near_times e flp ps : Forall2 (near_pulse e) flp ps -> close_times e (map snd flp) (map snd ps).
Proof. induction 1 as [|p q l m [_ A] _ IH]; cbn [map]; constructor; auto. Qed.


Lemma same_order_inner x x' y y' a b : List.length a = List.length b ->
  same_order (x :: a ++ [x']) (y :: b ++ [y']) -> same_order a b.
Proof.
  intros L H i j I J; specialize (H (S i) (S j)); cbn [List.length nth] in H; rewrite app_length in H; cbn [List.length] in H.
  rewrite !app_nth1 in H by lia; apply H; lia.
Qed.

Lemma event_time p : e_time (pi_pulse p) = snd p. Proof. destruct p as [[] t]; reflexivity. Qed.

Lemma events_rounded e flp ps : Forall2 (near_pulse e) flp ps ->
  map e_rabi (map pi_pulse flp) = map e_rabi (map pi_pulse ps) /\
  map e_phi (map pi_pulse flp) = map e_phi (map pi_pulse ps) /\
  map e_det (map pi_pulse flp) = map e_det (map pi_pulse ps) /\
  closing_angle flp = closing_angle ps.
Proof.
  intros H.
  assert (A : map fst flp = map fst ps) by (induction H as [|p q l m [A _] _ IH]; cbn; congruence).
  assert (G : forall X (f : event -> X), (forall a t t', f (pi_pulse (a, t)) = f (pi_pulse (a, t'))) ->
             map f (map pi_pulse flp) = map f (map pi_pulse ps)).
  { clear H; intros X f F; revert ps A; induction flp as [|[a t] l IH]; intros [|[b u] m] A; try discriminate; auto.
    cbn [map fst] in *; injection A as -> A; rewrite (F b t u), (IH m A); auto. }
  split; [apply G; intros []; reflexivity|split; [apply G; intros []; reflexivity|split; [apply G; intros []; reflexivity|]]].
  unfold closing_angle.
  assert (L : forall l m : list (axis * R), map fst l = map fst m ->
     List.length (filter not_y l) = List.length (filter not_y m)).
  { induction l as [|[a t] l IH]; intros [|[b u] m] E; try discriminate; auto.
    cbn [map fst] in E; injection E as -> E; cbn [filter]; destruct b; cbn [not_y fst]; cbn [List.length]; rewrite (IH m E); auto. }
  rewrite (L flp ps A); reflexivity.
Qed.

Lemma with_pre_post_times pre T l : map e_time (with_pre_post pre T l) =
  if pre then 0 :: map snd l ++ [T] else map snd l.
Proof.
  assert (E : map e_time (map pi_pulse l) = map snd l) by (rewrite map_map; apply map_ext, event_time).
  unfold with_pre_post; destruct pre; cbn [map e_time]; rewrite ?map_app, E; reflexivity.
Qed.

Lemma rounding_sequence e T flp ps pre name : 0 <= e -> rounding e T flp ps ->
  rounded_sequence e (sequence_of T name (with_pre_post pre T flp)) (sequence_of T name (with_pre_post pre T ps)).
Proof.
  intros E [N [B O]]; destruct (events_rounded e flp ps N) as [E1 [E2 [E3 E4]]].
  assert (L := near_length _ _ _ N).
  unfold rounded_sequence, sequence_of; cbn [seq_duration seq_name offsets rabi_rotations seq_azimuthal_angles detuning_rotations].
  split; [reflexivity|].
  assert (W : map e_rabi (with_pre_post pre T flp) = map e_rabi (with_pre_post pre T ps) /\
              map e_phi (with_pre_post pre T flp) = map e_phi (with_pre_post pre T ps) /\
              map e_det (with_pre_post pre T flp) = map e_det (with_pre_post pre T ps)).
  { unfold with_pre_post; destruct pre; auto; rewrite E4; cbn [map e_rabi e_phi e_det]; rewrite !map_app, E1, E2, E3; auto. }
  destruct W as [W1 [W2 W3]]; rewrite W1, W2, W3; repeat (split; [reflexivity|]).
  rewrite !with_pre_post_times; assert (C := near_times _ _ _ N); split.
  - destruct pre; auto.
    assert (Z : forall x, Rabs (x - x) <= e) by (intros; rewrite Rminus_diag_eq, Rabs_R0; auto).
    constructor; auto; apply Forall2_app; auto.
  - destruct pre; auto; apply same_order_inner in O; auto; rewrite !map_length; auto.
Qed.

(** ** Well separated times keep their order *)

Lemma increasing_nth l : strictly_increasing l -> forall i j, (i < j < List.length l)%nat -> nth i l 0 < nth j l 0.
Proof.
  induction l as [|x l IH]; intros I i j [A B]; [cbn in B; lia|].
  destruct I as [I1 I2]; destruct j as [|j]; [lia|]; cbn [List.length] in B.
  destruct i as [|i]; cbn [nth]; [|apply IH; auto; lia].
  destruct l as [|y l]; [cbn in B; lia|]; destruct j as [|j]; [exact I1|].
  eapply Rlt_trans; [exact I1|]; apply (IH I2 0%nat (S j)); lia.
Qed.

Lemma increasing_nth_iff l : strictly_increasing l -> forall i j, (i < List.length l)%nat -> (j < List.length l)%nat ->
  (nth i l 0 < nth j l 0 <-> (i < j)%nat).
Proof.
  intros S i j I J; split; [|intros L; apply increasing_nth; auto].
  intros H; destruct (lt_eq_lt_dec i j) as [[L|E]|L]; auto; [subst; lra|].
  assert (Q := increasing_nth l S j i ltac:(lia)); lra.
Qed.

Lemma increasing_same_order a b : List.length a = List.length b -> strictly_increasing a -> strictly_increasing b ->
  same_order a b.
Proof. intros L A B i j I J; rewrite (increasing_nth_iff a), (increasing_nth_iff b) by (auto; lia); tauto. Qed.

Lemma close_spaced T e d a b : 0 < T -> 2 * e < d -> Forall2 (fun x y => Rabs (x - T * y) <= e * T) a b -> spaced d b ->
  strictly_increasing a.
Proof.
  intros HT E F; revert F; revert b; induction a as [|x a IH]; intros b F S; [cbn; auto|].
  inversion F as [|? y ? m H1 F']; subst.
  inversion F' as [|x' y' a' m' H2 F'']; subst; [cbn; auto|].
  change (d <= y' - y /\ spaced d (y' :: m')) in S; destruct S as [S1 S2].
  split; [|apply (IH (y' :: m')); auto].
  apply Rabs_le_inv in H1; apply Rabs_le_inv in H2.
  assert (T * d <= T * (y' - y)) by (apply Rmult_le_compat_l; lra).
  assert (T * (2 * e) < T * d) by (apply Rmult_lt_compat_l; auto); lra.
Qed.

Lemma good_rounding T e d flp rel : 0 < T -> 0 <= e -> 2 * e < d -> good_times d (map snd rel) ->
  Forall2 (near_pulse (e * T)) flp (map (scale T) rel) -> (forall p, In p flp -> binary64_format (snd p)) ->
  rounding (e * T) T flp (map (scale T) rel) /\ strictly_increasing (0 :: map snd flp ++ [T]).
Proof.
  intros HT E D [G1 [G2 [G3 G4]]] F B.
  assert (C : Forall2 (fun x y => Rabs (x - T * y) <= e * T) (0 :: map snd flp ++ [T]) (0 :: map snd rel ++ [1])).
  { assert (P : 0 <= e * T) by (apply Rmult_le_pos; lra).
    constructor; [rewrite Rmult_0_r, Rminus_diag_eq, Rabs_R0; auto|].
    apply Forall2_app; [|constructor; [rewrite Rmult_1_r, Rminus_diag_eq, Rabs_R0; auto|constructor]].
    clear - F; revert rel F; induction flp as [|p l IH]; intros [|q m] F; inversion F; subst; cbn [map]; constructor; auto.
    match goal with H : near_pulse _ _ _ |- _ => apply H end. }
  assert (I := close_spaced T e d _ _ HT D C G4).
  assert (I' : strictly_increasing (0 :: map snd (map (scale T) rel) ++ [T])).
  { replace (map snd (map (scale T) rel)) with (map (Rmult T) (map snd rel)) by (rewrite !map_map; reflexivity).
    replace (0 :: map (Rmult T) (map snd rel) ++ [T]) with (map (Rmult T) (0 :: map snd rel ++ [1]))
      by (cbn [map]; rewrite map_app; cbn [map]; rewrite Rmult_0_r, Rmult_1_r; reflexivity).
    apply (spaced_increasing (T * d)); [apply Rmult_lt_0_compat; auto|apply spaced_scale; auto]. }
  split; auto; split; auto; split.
  - intros p H; split; auto.
    assert (K : exists i, (i < List.length (map snd flp))%nat /\ nth i (map snd flp) 0 = snd p).
    { apply (In_nth (map snd flp) (snd p) 0), in_map; auto. }
    destruct K as [i [K1 K2]].
    assert (Q0 := increasing_nth _ I 0 (S i)); assert (Q1 := increasing_nth _ I (S i) (S (List.length (map snd flp)))).
    cbn [List.length nth] in Q0, Q1; rewrite app_length in Q0, Q1; cbn [List.length] in Q0, Q1.
    rewrite app_nth1, K2 in Q0, Q1 by lia; rewrite app_nth2, Nat.sub_diag in Q1 by lia; cbn [nth] in Q1.
    split; [apply Rlt_le, Q0; lia|apply Rlt_le, Q1; lia].
  - apply increasing_same_order; auto; cbn [List.length]; rewrite !app_length, !map_length.
    rewrite (near_length _ _ _ F), map_length; auto.
Qed.

(** ** Requests describe unique relative times *)

Lemma pi_pulse_inj p q : pi_pulse p = pi_pulse q -> p = q.
Proof.
  assert (P := PI_RGT_0).
  destruct p as [[] t], q as [[] u]; cbn [pi_pulse]; intros H; injection H; intros; subst; auto; lra.
Qed.

Lemma describes_unique r rel rel' : describes_request r rel -> describes_request r rel' -> rel = rel'.
Proof.
  intros A B; specialize (A 1 false None ltac:(lra)); specialize (B 1 false None ltac:(lra)); rewrite A in B.
  injection B as B1 B2 B3 B4; unfold with_pre_post in *.
  assert (E : map pi_pulse (map (scale 1) rel) = map pi_pulse (map (scale 1) rel')).
  { clear A; revert B1 B2 B3 B4; generalize (map pi_pulse (map (scale 1) rel)), (map pi_pulse (map (scale 1) rel')).
    induction l as [|[t r1 a d] l IH]; intros [|[t' r' a' d'] m] H1 H2 H3 H4; try discriminate; auto.
    cbn [map e_time e_rabi e_phi e_det] in *; injection H1; injection H2; injection H3; injection H4; intros; subst.
    f_equal; apply IH; auto. }
  clear - E; revert rel' E; induction rel as [|[a t] l IH]; intros [|[b u] m] E; try discriminate; auto.
  cbn [map] in E; assert (E1 := f_equal (hd (Event 0 0 0 0)) E); cbn [hd] in E1.
  apply pi_pulse_inj in E1; unfold scale in E1; cbn [fst snd] in E1; rewrite !Rmult_1_l in E1.
  assert (E2 := f_equal (@tl _) E); cbn [tl] in E2; rewrite (IH m E2); congruence.
Qed.
