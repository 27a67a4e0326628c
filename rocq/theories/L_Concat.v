(** * X concatenated sequences *)

From Verif Require Export L_Quadratic.
From Coq Require Import Lia.
Import ListNotations.
Open Scope string_scope.
Open Scope list_scope.
Open Scope R_scope.

(** ** Multiplicities of the pulses at the multiples of the unit spacing *)

Definition bump (l : list nat) : list nat :=
  match l with [] => [] | _ => removelast l ++ [S (last l 0%nat)] end.
Fixpoint marks (l : nat) : list nat :=
  match l with O => [0%nat] | S l' => bump (marks l') ++ bump (marks l') end.

Lemma bump_snoc cs c : bump (cs ++ [c]) = cs ++ [S c].
Proof.
  unfold bump; destruct (cs ++ [c]) eqn:E; [destruct cs; discriminate|].
  rewrite <- E, removelast_last, last_last; auto.
Qed.
Lemma bump_length cs : List.length (bump cs) = List.length cs.
Proof.
  destruct cs as [|c cs]; auto; destruct (exists_last (l := c :: cs)) as [a [d ->]]; [discriminate|].
  rewrite bump_snoc, !app_length; auto.
Qed.

Lemma marks_length l : List.length (marks l) = (2 ^ l)%nat.
Proof.
  induction l; [reflexivity|]; cbn [marks Nat.pow]; rewrite app_length, !bump_length, IHl; lia.
Qed.
Lemma marks_nonempty l : marks l <> [].
Proof. intros E; generalize (marks_length l); rewrite E; generalize (pow2_pos l); cbn; lia. Qed.

Lemma marks_snoc l : exists cs, marks l = cs ++ [l].
Proof.
  induction l as [|l [cs E]]; [exists []; auto|].
  cbn [marks]; rewrite E, bump_snoc; exists ((cs ++ [S l]) ++ cs); rewrite !app_assoc; auto.
Qed.

(** the codes of a list of multiplicities *)
Definition codes (cs : list nat) : list Z := List.concat (map (fun c => 1%Z :: repeat 0%Z c) cs).

Lemma codes_app a b : codes (a ++ b) = codes a ++ codes b.
Proof. unfold codes; rewrite map_app, concat_app; auto. Qed.

Lemma repeat_snoc {A} (x : A) n : repeat x (S n) = repeat x n ++ [x].
Proof. apply repeat_cons. Qed.

Lemma concatenation_x_codes l : (1 <= l)%nat -> concatenation_x l = codes (marks l).
Proof.
  induction l as [|l IH]; intros H; [lia|].
  destruct l as [|l]; [reflexivity|].
  change (concatenation_x (S (S l))) with (concatenation_x (S l) ++ [0%Z] ++ concatenation_x (S l) ++ [0%Z]).
  rewrite IH by lia.
  change (marks (S (S l))) with (bump (marks (S l)) ++ bump (marks (S l))); rewrite codes_app.
  destruct (marks_snoc (S l)) as [cs E]; rewrite E, bump_snoc.
  assert (C : codes (cs ++ [S (S l)]) = codes (cs ++ [S l]) ++ [0%Z]).
  { rewrite !codes_app, <- app_assoc; f_equal; unfold codes; cbn [map List.concat]; rewrite !app_nil_r.
    rewrite (repeat_snoc _ (S l)); reflexivity. }
  rewrite C, <- !app_assoc; reflexivity.
Qed.

(** ** Positions *)

(** c copies of [f k], then of [f (k+1)], ... *)
Fixpoint spread {A} (f : nat -> A) (k : nat) (cs : list nat) : list A :=
  match cs with [] => [] | c :: cs' => repeat (f k) c ++ spread f (S k) cs' end.

Lemma running_codes u cs : forall k,
  running Rplus (INR k * u) (map (fun c => if Z.eqb c 0 then 0 else u) (codes cs)) =
  spread (fun i => INR i * u) (S k) (map S cs).
Proof.
  induction cs as [|c cs IH]; intros k; [reflexivity|].
  unfold codes; cbn [map List.concat]; fold (codes cs).
  rewrite <- app_comm_cons; cbn [map Z.eqb running spread repeat]; rewrite <- app_comm_cons.
  assert (E : INR k * u + u = INR (S k) * u) by (rewrite S_INR; ring).
  rewrite !E; f_equal.
  rewrite <- (IH (S k)); generalize (INR (S k) * u); intros x; clear.
  induction c; cbn [repeat app map Z.eqb running]; auto.
  rewrite Rplus_0_r, IHc; auto.
Qed.

Definition all_le (x : R) (l : list R) : Prop := forall y, In y l -> x <= y.
Fixpoint sorted (l : list R) : Prop :=
  match l with [] => True | x :: l' => all_le x l' /\ sorted l' end.

Lemma sort_sorted l : sorted l -> sort leb l = l.
Proof.
  induction l as [|x l IH]; intros H; [reflexivity|].
  destruct H as [A B]; cbn [sort fold_right]; fold (sort leb l); rewrite IH by auto.
  destruct l as [|y l]; [reflexivity|]; cbn [sort_insert].
  rewrite (proj2 (leb_true x y)); auto; apply A; left; auto.
Qed.

Lemma in_spread {A} (f : nat -> A) cs : forall k y, In y (spread f k cs) -> exists i, (k <= i)%nat /\ y = f i.
Proof.
  induction cs as [|c cs IH]; intros k y H; [destruct H|].
  cbn [spread] in H; apply in_app_or in H; destruct H as [H|H].
  - apply repeat_spec in H; exists k; auto.
  - apply IH in H; destruct H as [i [I E]]; exists i; split; auto; lia.
Qed.

Lemma sorted_spread f cs : (forall i j, (i < j)%nat -> f i < f j) -> forall k, sorted (spread f k cs).
Proof.
  intros F; induction cs as [|c cs IH]; intros k; cbn [spread sorted]; auto.
  induction c as [|c IHc]; cbn [repeat app]; [apply IH|].
  split; auto; intros y H; apply in_app_or in H; destruct H as [H|H].
  - apply repeat_spec in H; subst; lra.
  - apply in_spread in H; destruct H as [i [A ->]]; left; apply F; lia.
Qed.

Lemma group_spread f cs : (forall i j, (i < j)%nat -> f i < f j) -> forall k,
  group eqb (spread f k (map S cs)) =
  map (fun ic => (f (fst ic), S (snd ic))) (combine (seq k (List.length cs)) cs).
Proof.
  intros F; induction cs as [|c cs IH]; intros k; [reflexivity|].
  cbn [map spread List.length seq combine fst snd].
  assert (H : forall c, group eqb (repeat (f k) (S c) ++ spread f (S k) (map S cs)) =
    (f k, S c) :: group eqb (spread f (S k) (map S cs))).
  { clear c; induction c.
    - cbn [repeat app group]; rewrite IH.
      destruct cs as [|d cs]; cbn [List.length seq combine map fst snd]; auto.
      rewrite (proj2 (eqb_false (f k) (f (S k)))); auto.
      intros E; assert (f k < f (S k)) by (apply F; lia); lra.
    - cbn [repeat app] in *; cbn [group] in *; rewrite IHc.
      rewrite (proj2 (eqb_true (f k) (f k))); auto. }
  rewrite H, IH; reflexivity.
Qed.

Lemma filter_combine_seq (cs : list nat) (g : nat -> bool) : forall k,
  map fst (filter (fun ic => g (snd ic)) (combine (seq k (List.length cs)) cs)) =
  filter (fun i => g (nth (i - k) cs 0%nat)) (seq k (List.length cs)).
Proof.
  induction cs as [|c cs IH]; intros k; [reflexivity|].
  cbn [List.length seq combine filter snd]; rewrite Nat.sub_diag; change (nth 0 (c :: cs) 0%nat) with c.
  assert (E : filter (fun i => g (nth (i - k) (c :: cs) 0%nat)) (seq (S k) (List.length cs)) =
              filter (fun i => g (nth (i - S k) cs 0%nat)) (seq (S k) (List.length cs))).
  { apply filter_ext_in; intros i I; apply in_seq in I.
    replace (i - k)%nat with (S (i - S k)) by lia; reflexivity. }
  destruct (g c); cbn [map fst]; rewrite IH, E; auto.
Qed.

Lemma even_counts_spread f cs : (forall i j, (i < j)%nat -> f i < f j) -> forall k,
  even_count_values leb eqb (spread f k (map S cs)) =
  map f (filter (fun i => Nat.odd (nth (i - k) cs 0%nat)) (seq k (List.length cs))).
Proof.
  intros F k; unfold even_count_values, unique_counts.
  rewrite sort_sorted by (apply sorted_spread; auto).
  rewrite group_spread, <- filter_combine_seq by auto.
  generalize (combine (seq k (List.length cs)) cs); induction l as [|[i c] l IH]; [reflexivity|].
  cbn [map filter fst snd]; rewrite Nat.even_succ.
  destruct (Nat.odd c); cbn [map fst]; rewrite IH; reflexivity.
Qed.

(** ** Marks and sign changes *)

Lemma dyadic_ones_last l : dyadic (repeat true l) (2 ^ l - 1) = (-1) ^ l.
Proof.
  induction l; [reflexivity|].
  replace (2 ^ S l - 1)%nat with (2 ^ l - 1 + 2 ^ List.length (repeat true l))%nat
    by (rewrite repeat_length; cbn [Nat.pow]; generalize (pow2_pos l); lia).
  change (repeat true (S l)) with (true :: repeat true l).
  rewrite dyadic_second by (rewrite repeat_length; generalize (pow2_pos l); lia).
  rewrite IHl; reflexivity.
Qed.

Lemma pow_m1_odd n : (-1) ^ n = if Nat.odd n then -1 else 1.
Proof.
  induction n; [reflexivity|].
  rewrite Nat.odd_succ, <- Nat.negb_odd; cbn [pow]; rewrite IHn; destruct (Nat.odd n); cbn [negb]; ring.
Qed.

Lemma nth_bump cs i : (S i < List.length cs)%nat -> nth i (bump cs) 0%nat = nth i cs 0%nat.
Proof.
  intros H; destruct (exists_last (l := cs)) as [a [c ->]]; [intros ->; cbn in H; lia|].
  rewrite app_length in H; cbn in H; rewrite bump_snoc, !app_nth1 by lia; auto.
Qed.
Lemma nth_bump_last cs : cs <> [] -> nth (List.length cs - 1) (bump cs) 0%nat = S (last cs 0%nat).
Proof.
  intros H; destruct (exists_last H) as [a [c ->]]; rewrite bump_snoc, last_last, app_length; cbn.
  rewrite app_nth2 by lia; replace (_ - _)%nat with 0%nat by lia; auto.
Qed.
Lemma marks_changes l : forall i, (S i < 2 ^ l)%nat ->
  neqb (dyadic (repeat true l) i) (dyadic (repeat true l) (S i)) = Nat.odd (nth i (marks l) 0%nat).
Proof.
  induction l as [|l IH]; intros i H; [cbn in H; lia|].
  cbn [Nat.pow] in H; change (repeat true (S l)) with (true :: repeat true l).
  assert (P := pow2_pos l). assert (L := marks_length l).
  set (M := (2 ^ l)%nat) in *; assert (RL : (2 ^ List.length (repeat true l))%nat = M) by (rewrite repeat_length; auto).
  cbn [marks].
  destruct (Nat.lt_trichotomy (S i) M) as [C|[C|C]].
  - rewrite !dyadic_first by lia; rewrite app_nth1 by (rewrite bump_length; lia).
    rewrite nth_bump by lia; apply IH; auto.
  - rewrite (dyadic_first true (repeat true l) i) by lia.
    replace (S i) with (0 + 2 ^ List.length (repeat true l))%nat by lia.
    rewrite dyadic_second by lia; rewrite dyadic_0.
    replace i with (2 ^ l - 1)%nat by (fold M; lia); rewrite dyadic_ones_last.
    rewrite app_nth1 by (rewrite bump_length; fold M; lia).
    fold M; rewrite <- L, nth_bump_last by apply marks_nonempty.
    destruct (marks_snoc l) as [cs ->]; rewrite last_last, Nat.odd_succ, <- Nat.negb_odd, pow_m1_odd.
    destruct (Nat.odd l); cbn [negb]; [apply neqb_false|apply neqb_true]; lra.
  - replace i with (i - M + 2 ^ List.length (repeat true l))%nat by lia.
    replace (S (i - M + 2 ^ List.length (repeat true l)))%nat with (S (i - M) + 2 ^ List.length (repeat true l))%nat by lia.
    rewrite !dyadic_second by lia.
    rewrite app_nth2 by (rewrite bump_length; lia); rewrite bump_length, L, RL.
    replace (i - M + M - M)%nat with (i - M)%nat by lia.
    rewrite nth_bump by lia; rewrite <- IH by lia.
    set (p := dyadic (repeat true l) (i - M)); set (q := dyadic (repeat true l) (S (i - M))).
    destruct (neqb p q) eqn:E; [apply neqb_true in E; apply neqb_true|apply neqb_false in E; apply neqb_false]; lra.
Qed.

(** ** The model *)

Definition x_times (T : R) (l : nat) : list R :=
  change_times (dyadic (repeat true l)) (fun i => T * INR i / INR (2 ^ l)) 0 (2 ^ l - 1).

Definition x_slots (l : nat) : list nat :=
  map S (filter (fun i => neqb (dyadic (repeat true l) i) (dyadic (repeat true l) (S i))) (seq 0 (2 ^ l - 1))).

Lemma x_offsets_slots (f : nat -> R) u add l : (1 <= l)%nat -> (forall i j, (i < j)%nat -> f i < f j) ->
  running add 0 (map (fun c => if (c =? 0)%Z then 0 else u) (codes (marks l))) = spread f 1 (map S (marks l)) ->
  x_offsets 0 u add leb eqb l = map f (x_slots l).
Proof.
  intros HL HF HR; unfold x_offsets, x_positions; cbv zeta.
  rewrite concatenation_x_codes, HR by auto.
  rewrite even_counts_spread by auto.
  rewrite marks_length.
  assert (P := pow2_pos l).
  replace (seq 1 (2 ^ l)) with (map S (seq 0 (2 ^ l - 1)) ++ [(2 ^ l)%nat]).
  2:{ rewrite seq_shift; replace (2 ^ l)%nat with (2 ^ l - 1 + 1)%nat at 3 by lia.
      rewrite seq_app; cbn [seq]; do 2 f_equal; lia. }
  rewrite filter_app; cbn [filter].
  destruct (marks_snoc l) as [cs E].
  assert (LN : nth (2 ^ l - 1) (marks l) 0%nat = l).
  { rewrite <- marks_length, E, app_length; cbn [List.length]; rewrite app_nth2 by lia.
    replace (_ - _)%nat with 0%nat by lia; auto. }
  rewrite LN.
  assert (OD : Nat.eqb (l mod 2) 1 = Nat.odd l).
  { destruct (Nat.Even_or_Odd l) as [[q ->]|[q ->]].
    - rewrite Nat.odd_mul, Nat.mul_comm, Nat.mod_mul by lia; reflexivity.
    - rewrite Nat.add_comm, Nat.mul_comm, Nat.mod_add by lia.
      rewrite Nat.odd_add, Nat.mul_comm, Nat.odd_mul; reflexivity. }
  rewrite OD.
  assert (FM : filter (fun i => Nat.odd (nth (i - 1) (marks l) 0%nat)) (map S (seq 0 (2 ^ l - 1))) =
               map S (filter (fun i => neqb (dyadic (repeat true l) i) (dyadic (repeat true l) (S i))) (seq 0 (2 ^ l - 1)))).
  { assert (G : forall q, (forall i, In i q -> (S i < 2 ^ l)%nat) ->
      filter (fun i => Nat.odd (nth (i - 1) (marks l) 0%nat)) (map S q) =
      map S (filter (fun i => neqb (dyadic (repeat true l) i) (dyadic (repeat true l) (S i))) q)).
    { induction q as [|i q IH]; intros H; [reflexivity|].
      cbn [map filter]; rewrite marks_changes by (apply H; left; auto).
      replace (S i - 1)%nat with i by lia.
      destruct (Nat.odd (nth i (marks l) 0%nat)); cbn [map]; rewrite IH; auto; intros; apply H; right; auto. }
    apply G; intros i I; apply in_seq in I; lia. }
  rewrite FM; unfold x_slots; destruct (Nat.odd l).
  - rewrite map_app; cbn [map]; rewrite removelast_last; reflexivity.
  - rewrite app_nil_r; reflexivity.
Qed.

Lemma x_offsets_model T l : 0 < T -> (1 <= l)%nat ->
  x_offsets 0 (T / 2 ^ l) Rplus leb eqb l = x_times T l.
Proof.
  intros HT HL.
  assert (P2 : 0 < 2 ^ l) by (apply pow_lt; lra).
  assert (U : 0 < T / 2 ^ l) by (apply Rdiv_lt_0_compat; auto).
  rewrite (x_offsets_slots (fun i => INR i * (T / 2 ^ l))); auto.
  - unfold x_slots, x_times, change_times; rewrite map_map; apply map_ext; intros i; rewrite pow2_INR; unfold Rdiv; ring.
  - intros i j H; apply lt_INR in H; apply Rmult_lt_compat_r; auto.
  - rewrite <- running_codes; cbn [INR]; rewrite Rmult_0_l; reflexivity.
Qed.

Lemma x_times_increasing T l : 0 < T -> strictly_increasing (x_times T l).
Proof.
  intros HT; apply change_times_increasing; intros i j H.
  assert (PR : 0 < INR (2 ^ l)) by (apply lt_0_INR, pow2_pos).
  apply lt_INR in H; unfold Rdiv; apply Rmult_lt_compat_r; [apply Rinv_0_lt_compat; auto|].
  apply Rmult_lt_compat_l; auto.
Qed.
Lemma x_times_within T l t : 0 < T -> In t (x_times T l) -> 0 < t < T.
Proof.
  intros HT I; apply in_change_times in I; destruct I as [i [I [_ ->]]].
  assert (PR : 0 < INR (2 ^ l)) by (apply lt_0_INR, pow2_pos).
  assert (0 < INR (S i)) by (apply lt_0_INR; lia).
  assert (INR (S i) < INR (2 ^ l)) by (apply lt_INR; lia).
  split; [apply Rdiv_lt_0_compat; auto; apply Rmult_lt_0_compat; auto|].
  apply (Rmult_lt_reg_r (INR (2 ^ l))); auto; replace (T * INR (S i) / INR (2 ^ l) * INR (2 ^ l)) with (T * INR (S i)) by (field; lra).
  apply Rmult_lt_compat_l; auto.
Qed.

Lemma x_model T x l pre name : 0 < T -> truncates_to x l -> (1 <= l)%nat ->
  new_x_concatenated_sequence T x pre name =
  Ok (sequence_of T name (with_pre_post pre T (map (fun t => (AX, t)) (x_times T l)))).
Proof.
  intros HT HX HL; unfold new_x_concatenated_sequence.
  rewrite check_duration_ok by auto; cbn [bind].
  unfold check_concatenation_order; rewrite check_true.
  2:{ apply leb_true; destruct HX as [A _]; apply le_INR in HL; simpl in HL; lra. }
  cbn [bind]; rewrite (int_count_truncates x l HX); cbv zeta.
  rewrite x_offsets_model by auto; apply (uniform_finish AX); auto.
  intros t I; apply x_times_within in I; auto; lra.
Qed.

(** ** The recursion *)

Lemma spread_app {A} (f : nat -> A) a b : forall k,
  spread f k (a ++ b) = spread f k a ++ spread f (k + List.length a) b.
Proof.
  induction a as [|c a IH]; intros k; cbn [app spread List.length]; [rewrite Nat.add_0_r; auto|].
  rewrite IH, <- app_assoc; do 3 f_equal; lia.
Qed.
Lemma spread_bump {A} (f : nat -> A) cs k : cs <> [] ->
  spread f k (bump cs) = spread f k cs ++ [f (k + List.length cs - 1)%nat].
Proof.
  intros H; destruct (exists_last H) as [a [c ->]]; rewrite bump_snoc, !spread_app, app_length.
  cbn [spread List.length]; rewrite !app_nil_r, repeat_snoc, app_assoc; do 3 f_equal; lia.
Qed.
Lemma spread_ext {A} (f g : nat -> A) cs : forall k k', (forall i, f (k + i)%nat = g (k' + i)%nat) ->
  spread f k cs = spread g k' cs.
Proof.
  induction cs as [|c cs IH]; intros k k' H; cbn [spread]; auto.
  f_equal; [generalize (H O); rewrite !Nat.add_0_r; intros ->; auto|].
  apply IH; intros i; generalize (H (S i)); rewrite !Nat.add_succ_r; auto.
Qed.

Lemma x_recursion_spread l : forall t0 tau,
  x_recursion l t0 tau = spread (fun i => t0 + INR i * tau / 2 ^ l) 1 (marks l).
Proof.
  induction l as [|l IH]; intros t0 tau; [reflexivity|].
  assert (P2 : 0 < 2 ^ l) by (apply pow_lt; lra).
  cbn [x_recursion marks]; rewrite spread_app, bump_length, !spread_bump by apply marks_nonempty.
  rewrite !IH, marks_length, <- app_assoc.
  assert (E : forall k, INR (k + 2 ^ l) = INR k + 2 ^ l) by (intros; rewrite plus_INR, pow2_INR; auto).
  f_equal; [apply spread_ext; intros; cbn [pow]; field; lra|].
  f_equal; [|f_equal].
  - f_equal; replace (1 + 2 ^ l - 1)%nat with (0 + 2 ^ l)%nat by lia; rewrite E; cbn [INR pow]; field; lra.
  - apply spread_ext; intros i; replace (1 + 2 ^ l + i)%nat with (1 + i + 2 ^ l)%nat by lia; rewrite E; cbn [pow]; field; lra.
  - f_equal; replace (1 + 2 ^ l + 2 ^ l - 1)%nat with (0 + 2 ^ l + 2 ^ l)%nat by lia; rewrite !E; cbn [INR pow]; field; lra.
Qed.

Lemma multiplicity_repeat t x c : multiplicity t (repeat x c) = if Req_EM_T x t then c else 0%nat.
Proof.
  unfold multiplicity; induction c; cbn; [destruct (Req_EM_T x t); auto|].
  rewrite IHc; destruct (Req_EM_T x t); auto.
Qed.
Lemma multiplicity_app t a b : multiplicity t (a ++ b) = (multiplicity t a + multiplicity t b)%nat.
Proof. apply count_occ_app. Qed.

Lemma multiplicity_spread f cs : (forall i j, f i = f j -> i = j) -> forall k i, (k <= i)%nat ->
  multiplicity (f i) (spread f k cs) = nth (i - k) cs 0%nat.
Proof.
  intros F; induction cs as [|c cs IH]; intros k i H; cbn [spread]; [destruct (i - k)%nat; reflexivity|].
  rewrite multiplicity_app, multiplicity_repeat.
  destruct (Req_EM_T (f k) (f i)) as [E|E].
  - apply F in E; subst k; rewrite Nat.sub_diag; cbn [nth].
    assert (Z : multiplicity (f i) (spread f (S i) cs) = 0%nat); [|lia].
    apply count_occ_not_In; intros I; apply in_spread in I; destruct I as [j [A B]]; apply F in B; lia.
  - assert (i <> k) by (intros ->; auto).
    rewrite IH by lia; replace (i - k)%nat with (S (i - S k)) by lia; reflexivity.
Qed.

Theorem x_concatenation T x l pre name :
  (0 < T -> truncates_to x l -> (1 <= l)%nat ->
   exists ts, new_x_concatenated_sequence T x pre name =
       Ok (sequence_of T name (with_pre_post pre T (map (fun t => (AX, t)) ts))) /\
     strictly_increasing ts /\
     forall t, In t ts <-> Nat.Odd (multiplicity t (x_recursion l 0 T)) /\ t <> T) /\
  (~ (0 < T /\ 1 <= x) -> argument_error (new_x_concatenated_sequence T x pre name)).
Proof.
  split.
  - intros HT HX HL; exists (x_times T l); split; [apply x_model; auto|split; [apply x_times_increasing; auto|]].
    assert (P := pow2_pos l). assert (PR : 0 < INR (2 ^ l)) by (apply lt_0_INR; auto).
    assert (P2 := pow2_INR l).
    rewrite x_recursion_spread.
    set (f := fun i => 0 + INR i * T / 2 ^ l).
    assert (FI : forall i, f i = T * INR i / INR (2 ^ l)) by (intros; unfold f; rewrite P2; field; lra).
    assert (INJ : forall i j, f i = f j -> i = j).
    { intros i j E; rewrite !FI in E; apply INR_eq.
      assert (E' : T * INR i = T * INR j).
      { replace (T * INR i) with (T * INR i / INR (2 ^ l) * INR (2 ^ l)) by (field; lra).
        rewrite E; field; lra. }
      nra. }
    assert (FT : f (2 ^ l)%nat = T) by (rewrite FI; field; lra).
    intros t; unfold x_times; rewrite in_change_times; split.
    + intros [i [I [D ->]]]; rewrite <- FI.
      split; [|rewrite <- FT; intros E; apply INJ in E; lia].
      rewrite multiplicity_spread by (auto; lia); replace (S i - 1)%nat with i by lia.
      apply Nat.odd_spec; rewrite <- marks_changes by lia; apply neqb_true; auto.
    + intros [O N].
      assert (I : In t (spread f 1 (marks l))).
      { apply (count_occ_In Req_EM_T); unfold multiplicity in O; destruct O as [q ->]; lia. }
      destruct (in_spread f _ _ _ I) as [i [A ->]].
      rewrite multiplicity_spread in O by auto.
      destruct (Nat.lt_ge_cases (i - 1) (2 ^ l)) as [L|L].
      2:{ rewrite nth_overflow in O by (rewrite marks_length; lia); destruct O; lia. }
      assert (i <> 2 ^ l)%nat by (intros ->; auto).
      exists (i - 1)%nat; split; [lia|]; split; [|rewrite FI; repeat f_equal; lia].
      apply neqb_true; rewrite marks_changes by lia; apply Nat.odd_spec; auto.
  - intros H; unfold new_x_concatenated_sequence; destruct (Rlt_dec 0 T) as [HT|HT].
    + rewrite check_duration_ok by auto; cbn [bind]; unfold check_concatenation_order.
      rewrite check_false by (apply leb_false; lra); do 3 eexists; reflexivity.
    + destruct (check_duration_bad T HT) as [s [a [b ->]]]; do 3 eexists; reflexivity.
Qed.

(** ** C61 *)

Lemma x_moments T l m : (m <= l)%nat -> switched (fun t => t ^ m) T (x_times T l) = 0.
Proof.
  intros H; unfold x_times, switched.
  assert (PN := pow2_pos l). assert (PR : 0 < INR (2 ^ l)) by (apply lt_0_INR; auto).
  set (tau := fun i => T * INR i / INR (2 ^ l)).
  assert (T0 : tau O = 0) by (unfold tau; cbn [INR]; field; lra).
  assert (T1 : tau (S (0 + (2 ^ l - 1))) = T).
  { unfold tau; replace (S (0 + (2 ^ l - 1))) with (2 ^ l)%nat by lia; field; lra. }
  rewrite <- (dyadic_0 (repeat true l)) at 1; rewrite <- T0 at 1; rewrite <- T1 at 1.
  rewrite (switched_changes (fun t => t ^ m) (dyadic (repeat true l)) tau)
    by (intros; apply dyadic_cases).
  replace (S (2 ^ l - 1)) with (2 ^ l)%nat by lia.
  rewrite (weighted_ext _ (dyadic (repeat true l)) _
    (fun i => (fun t => t ^ m) (0 + INR (S i) * (T / INR (2 ^ l))) -
              (fun t => t ^ m) (0 + INR i * (T / INR (2 ^ l))))).
  - pattern (2 ^ l)%nat at 3; rewrite <- (repeat_length true l) at 1.
    assert (F : List.length (filter (fun b : bool => b) (repeat true l)) = l).
    { clear; induction l; cbn; auto. }
    apply (dyadic_moments (repeat true l) (fun t => t ^ m)), (poly_le m); [rewrite F; exact H|apply poly_pow].
  - intros i _; cbn [Nat.add]; f_equal; unfold tau; do 2 f_equal; field; lra.
Qed.

Lemma log2_ones l : Nat.log2 (2 ^ S l - 1) = l.
Proof. apply (Nat.log2_unique' _ _ (2 ^ l - 1)); cbn [Nat.pow]; generalize (pow2_pos l); lia. Qed.

Lemma binary_ones l : (1 <= l)%nat -> binary_digits (2 ^ l - 1) = repeat true l.
Proof.
  intros H; destruct l as [|l]; [lia|]; unfold binary_digits; rewrite log2_ones.
  rewrite <- (repeat_map_const true (S l) 0); apply map_ext_in; intros i I; apply in_seq in I.
  replace (2 ^ S l - 1)%nat with (Nat.ones (S l)) by (rewrite Nat.ones_equiv; lia).
  apply Nat.ones_spec_low; lia.
Qed.

Theorem x_cancels T x l pre name :
  0 < T -> truncates_to x l -> (1 <= l)%nat ->
  exists ts, let s := sequence_of T name (with_pre_post pre T (map (fun t => (AX, t)) ts)) in
    new_x_concatenated_sequence T x pre name = Ok s /\ refocuses s /\
    (forall c, (List.length c <= l)%nat -> cancels c s /\ switched_integral (polynomial c) T ts = 0) /\
    ((l <= 10)%nat -> new_walsh_sequence T (2 ^ l - 1) pre name = Ok s).
Proof.
  intros HT HX HL; exists (x_times T l); cbv zeta; split; [apply x_model; auto|].
  assert (F : flip_times (map (fun t => (AX, t)) (x_times T l)) = x_times T l)
    by (apply flip_times_uniform; discriminate).
  assert (M : forall m, (1 <= m <= l)%nat -> switched (fun t => t ^ m) T (x_times T l) = 0)
    by (intros; apply x_moments; lia).
  split; [|split; [intros c L; split|]].
  - apply refocuses_intro; rewrite F.
    transitivity (switched (fun t => t ^ 1) T (x_times T l)); [|apply M; lia].
    apply switched_from_ext; intros; simpl; ring.
  - apply (cancels_intro l); auto; rewrite F; auto.
  - rewrite switched_integral_polynomial; apply (switched_polynomial l); auto.
  - intros L10.
    assert (P := pow2_pos l).
    assert (LO : 2 <= 2 ^ l).
    { replace 2 with (2 ^ 1) at 1 by ring; apply Rle_pow; [lra|auto]. }
    assert (HI : 2 ^ l <= 2 ^ 10) by (apply Rle_pow; [lra|auto]).
    replace (2 ^ 10) with 1024 in HI by (simpl; ring).
    rewrite (walsh_model T (2 ^ l - 1) (2 ^ l - 1)); auto.
    + unfold walsh_times, x_times, samples_count; rewrite binary_ones by auto.
      replace (S (Nat.log2 (2 ^ l - 1))) with l; auto.
      destruct l as [|l]; [lia|]; rewrite log2_ones; auto.
    + lra.
    + unfold truncates_to; rewrite minus_INR by lia; rewrite pow2_INR; cbn [INR]; lra.
Qed.
