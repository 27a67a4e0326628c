(** * Printed floats: lemmas *)

From Coq Require Import ZArith Ascii Lia Lra.
From Flocq Require Import Core.
From Verif Require Import L_Float L_Text.
From Verif Require Export Spec_FloatText.
Import ListNotations.
Open Scope string_scope.
Open Scope list_scope.
Open Scope R_scope.

Local Notation fexp := (FLT_exp (-1074) 53).
Local Notation p10 := (bpow radix10).
Local Instance prec_gt : Prec_gt_0 53. Proof. reflexivity. Qed.
Local Existing Instance FLT_exp_monotone.

(** ** Numbers close to a float are read as it *)

Lemma ulp_lower p : 0 <= p -> bpow radix2 (mag radix2 p) * eps <= ulp radix2 fexp p \/ p = 0.
Proof.
  intros P; destruct (Req_dec p 0) as [->|N]; [auto|left].
  rewrite ulp_neq_0 by auto; rewrite <- bpow_53, <- bpow_plus; apply bpow_le; unfold cexp, FLT_exp; lia.
Qed.

Lemma gap_above x : 0 < x -> x * eps <= ulp radix2 fexp x.
Proof.
  intros P; destruct (ulp_lower x ltac:(lra)) as [H|H]; [|lra].
  pose proof (bpow_mag_gt radix2 x) as G; rewrite Rabs_pos_eq in G by lra; pose proof eps_pos; nra.
Qed.

Lemma gap_below x : binary64_format x -> 0 < x -> x * eps <= x - pred radix2 fexp x.
Proof.
  intros F P; pose proof (pred_plus_ulp radix2 fexp x P F) as E.
  assert (Q : 0 <= pred radix2 fexp x) by (apply (pred_ge_0 radix2 fexp); auto).
  set (p := pred radix2 fexp x) in *.
  destruct (Req_dec p 0) as [Z|Z]; [rewrite Z; unfold eps; lra|].
  destruct (ulp_lower p Q) as [H|H]; [|contradiction].
  assert (K : (-1074 < mag radix2 p)%Z).
  { assert (G : (cexp radix2 fexp p < mag radix2 p)%Z).
    { apply (mag_generic_gt radix2 fexp); auto; apply (generic_format_pred radix2 fexp); auto. }
    change (Z.max (mag radix2 p - 53) (-1074) < mag radix2 p)%Z in G; lia. }
  assert (L : x <= bpow radix2 (mag radix2 p)).
  { destruct (Rle_or_lt x (bpow radix2 (mag radix2 p))) as [A|A]; auto; exfalso.
    assert (B : bpow radix2 (mag radix2 p) <= p).
    { unfold p at 2; apply (pred_ge_gt radix2 fexp); auto.
      apply generic_format_bpow; change (Z.max (mag radix2 p + 1 - 53) (-1074) <= mag radix2 p)%Z; lia. }
    pose proof (bpow_mag_gt radix2 p) as G; rewrite Rabs_pos_eq in G by lra; lra. }
  pose proof eps_pos; nra.
Qed.

Lemma reads_near x d : binary64_format x -> 0 < x -> Rabs (d - x) < x * eps / 2 -> binary64 d = x.
Proof.
  intros F P H; destruct (Req_dec (binary64 d) x) as [E|N]; auto; exfalso.
  assert (C : Rabs (binary64 d - d) <= Rabs (x - d)).
  { unfold binary64; apply (round_N_pt radix2 fexp (fun z => negb (Z.even z)) d); auto. }
  assert (D : Rabs (binary64 d - x) < x * eps).
  { replace (binary64 d - x) with ((binary64 d - d) + (d - x)) by ring.
    eapply Rle_lt_trans; [apply Rabs_triang|]; rewrite (Rabs_minus_sym x d) in C; lra. }
  destruct (Rdichotomy _ _ N) as [L|G].
  - assert (Q : binary64 d <= pred radix2 fexp x) by (apply (pred_ge_gt radix2 fexp); auto; apply format_rnd).
    pose proof (gap_below x F P); rewrite Rabs_left in D by lra; lra.
  - assert (Q : succ radix2 fexp x <= binary64 d) by (apply (succ_le_lt radix2 fexp); auto; apply format_rnd).
    rewrite succ_eq_pos in Q by lra; pose proof (gap_above x P); rewrite Rabs_pos_eq in D by lra; lra.
Qed.

(** ** Powers of ten *)

Lemma p10_pos k : 0 < p10 k. Proof. apply bpow_gt_0. Qed.
Lemma p10_nat n : p10 (Z.of_nat n) = 10 ^ n.
Proof.
  induction n as [|n IH]; [reflexivity|]; rewrite Nat2Z.inj_succ, <- Z.add_1_r, bpow_plus, IH.
  change (p10 1) with 10; cbn [pow]; ring.
Qed.
Lemma p10_powerRZ k : p10 k = powerRZ 10 k.
Proof.
  destruct k as [|p|p]; cbn [bpow powerRZ]; [reflexivity| |].
  - rewrite <- (p10_nat (Pos.to_nat p)), positive_nat_Z; reflexivity.
  - rewrite <- (p10_nat (Pos.to_nat p)), positive_nat_Z; reflexivity.
Qed.
Lemma p10_Z n : (0 <= n)%Z -> p10 n = IZR (10 ^ n).
Proof. intros H; rewrite <- (IZR_Zpower radix10) by auto; reflexivity. Qed.
Lemma p10_cancel k : p10 k * p10 (- k) = 1.
Proof. rewrite <- bpow_plus, Z.add_opp_diag_r; reflexivity. Qed.

(** ** The search for digits *)

Section Search.
  Variables (a : R) (e : Z).
  Hypothesis (P : 0 < a) (F : binary64_format a) (E : p10 (e - 1) <= a < p10 e).

  Definition scaled (n : nat) : R := a * p10 (- (e - Z.of_nat n)).
  Lemma scaled_back n : scaled n * p10 (e - Z.of_nat n) = a.
  Proof. unfold scaled; rewrite Rmult_assoc, (Rmult_comm (p10 (- _))), p10_cancel; ring. Qed.
  Lemma scaled_bounds n : p10 (Z.of_nat n - 1) <= scaled n < p10 (Z.of_nat n).
  Proof.
    unfold scaled; replace (p10 (Z.of_nat n - 1)) with (p10 (e - 1) * p10 (- (e - Z.of_nat n))) by (rewrite <- bpow_plus; f_equal; lia).
    replace (p10 (Z.of_nat n)) with (p10 e * p10 (- (e - Z.of_nat n))) by (rewrite <- bpow_plus; f_equal; lia).
    pose proof (p10_pos (- (e - Z.of_nat n))); split; nra.
  Qed.
  Lemma floor_bounds n : (1 <= n)%nat -> (10 ^ (Z.of_nat n - 1) <= Zfloor (scaled n) < 10 ^ Z.of_nat n)%Z.
  Proof.
    intros N; destruct (scaled_bounds n) as [A B]; rewrite p10_Z in A by lia; rewrite p10_Z in B by lia.
    split; [apply Zfloor_lub; auto|].
    apply lt_IZR; pose proof (Zfloor_lb (scaled n)); lra.
  Qed.

  Lemma reads_true m k : reads_as binary64 a m k = true <-> binary64 (IZR m * p10 k) = a.
  Proof. unfold reads_as; apply eqb_true. Qed.
  Lemma reads_false m k : reads_as binary64 a m k = false <-> binary64 (IZR m * p10 k) <> a.
  Proof. unfold reads_as; apply eqb_false. Qed.

  Lemma between_reads v w : binary64 v = a -> v <= w <= a \/ a <= w <= v -> binary64 w = a.
  Proof.
    intros H [[A B]|[A B]]; pose proof (rnd_format a F) as Q; apply Rle_antisym.
    - rewrite <- Q; apply rnd_mono; auto.
    - rewrite <- H; apply rnd_mono; auto.
    - rewrite <- H; apply rnd_mono; auto.
    - rewrite <- Q at 1; apply rnd_mono; auto.
  Qed.

  (** what [candidate] finds *)
  Definition grid (n : nat) (m : Z) : R := IZR m * p10 (e - Z.of_nat n).
  Lemma grid_le n m v : grid n m <= v * p10 (e - Z.of_nat n) <-> IZR m <= v.
  Proof. unfold grid; pose proof (p10_pos (e - Z.of_nat n)); split; intros; nra. Qed.

  Lemma candidate_some n m : (1 <= n)%nat -> candidate binary64 a e n = Some m ->
    binary64 (grid n m) = a /\ (10 ^ (Z.of_nat n - 1) <= m <= 10 ^ Z.of_nat n)%Z /\
    (m = Zfloor (scaled n) \/ m = Zfloor (scaled n) + 1)%Z /\
    (forall m', (m' = Zfloor (scaled n) \/ m' = Zfloor (scaled n) + 1)%Z -> binary64 (grid n m') = a ->
      Rabs (IZR m - scaled n) <= Rabs (IZR m' - scaled n)).
  Proof.
    intros N; unfold candidate; fold (scaled n); pose proof (floor_bounds n N) as B.
    pose proof (Zfloor_lb (scaled n)) as L; pose proof (Zfloor_ub (scaled n)) as U.
    set (lo := Zfloor (scaled n)) in *.
    destruct (reads_as binary64 a lo (e - Z.of_nat n)) eqn:RL; destruct (reads_as binary64 a (lo + 1) (e - Z.of_nat n)) eqn:RH;
      intros H; try discriminate; injection H as <-.
    - apply reads_true in RL; apply reads_true in RH; fold (grid n lo) in RL; fold (grid n (lo + 1)) in RH.
      assert (A1 : Rabs (IZR lo - scaled n) = scaled n - IZR lo) by (rewrite Rabs_left1 by lra; ring).
      assert (A2 : Rabs (IZR (lo + 1) - scaled n) = IZR (lo + 1) - scaled n) by (rewrite plus_IZR in *; rewrite Rabs_pos_eq by lra; ring).
      destruct (ltb (scaled n - IZR lo) (IZR (lo + 1) - scaled n)) eqn:X; [apply ltb_true in X|apply ltb_false in X;
        destruct (ltb (IZR (lo + 1) - scaled n) (scaled n - IZR lo)) eqn:Y; [apply ltb_true in Y|apply ltb_false in Y;
          destruct (Z.even lo)]]; (split; [auto|split; [lia|split; [lia|]]]); intros m' [->| ->] _; rewrite ?A1, ?A2; lra.
    - apply reads_true in RL; apply reads_false in RH; (split; [auto|split; [lia|split; [lia|]]]); intros m' [->| ->] Q; [lra|destruct (RH Q)].
    - apply reads_true in RH; apply reads_false in RL; (split; [auto|split; [lia|split; [lia|]]]); intros m' [->| ->] Q; [destruct (RL Q)|lra].
  Qed.

  Lemma candidate_none n : candidate binary64 a e n = None ->
    binary64 (grid n (Zfloor (scaled n))) <> a /\ binary64 (grid n (Zfloor (scaled n) + 1)) <> a.
  Proof.
    unfold candidate; fold (scaled n); set (lo := Zfloor (scaled n)).
    destruct (reads_as binary64 a lo (e - Z.of_nat n)) eqn:RL; destruct (reads_as binary64 a (lo + 1) (e - Z.of_nat n)) eqn:RH; try discriminate.
    apply reads_false in RL; apply reads_false in RH; auto.
  Qed.

  (** a decimal number with at most [n] digits that is read as [a] lies beyond
      one of the two candidates *)
  Lemma decimal_on_grid n m k : (1 <= n)%nat -> (0 <= m < 10 ^ Z.of_nat n)%Z ->
    IZR m * p10 k <= grid n (Zfloor (scaled n)) \/ grid n (Zfloor (scaled n) + 1) <= IZR m * p10 k.
  Proof.
    intros N M; pose proof (floor_bounds n N) as B; set (lo := Zfloor (scaled n)) in *.
    destruct (Z_lt_le_dec k (e - Z.of_nat n)) as [K|K].
    - left; assert (Q : p10 (e - 1) <= grid n lo).
      { replace (e - 1)%Z with ((Z.of_nat n - 1) + (e - Z.of_nat n))%Z by lia; rewrite bpow_plus; unfold grid.
        apply Rmult_le_compat_r; [apply bpow_ge_0|]; rewrite p10_Z by lia; apply IZR_le; lia. }
      eapply Rle_trans; [|apply Q].
      replace (e - 1)%Z with (Z.of_nat n + (e - 1 - Z.of_nat n))%Z by lia; rewrite bpow_plus.
      rewrite (p10_Z (Z.of_nat n)) by lia; apply Rmult_le_compat; [apply IZR_le; lia|apply bpow_ge_0|apply IZR_le; lia|apply bpow_le; lia].
    - replace k with ((k - (e - Z.of_nat n)) + (e - Z.of_nat n))%Z by lia; rewrite bpow_plus, <- Rmult_assoc, (p10_Z (k - _)), <- mult_IZR by lia.
      set (m' := (m * 10 ^ (k - (e - Z.of_nat n)))%Z); fold (grid n m'); pose proof (p10_pos (e - Z.of_nat n)).
      unfold grid; destruct (Z_le_gt_dec m' lo); [left|right]; apply Rmult_le_compat_r; try lra; apply IZR_le; lia.
  Qed.
  Lemma reads_candidate n m k : (1 <= n)%nat -> (0 <= m < 10 ^ Z.of_nat n)%Z -> binary64 (IZR m * p10 k) = a ->
    exists m', (m' = Zfloor (scaled n) \/ m' = Zfloor (scaled n) + 1)%Z /\ binary64 (grid n m') = a /\
      Rabs (grid n m' - a) <= Rabs (IZR m * p10 k - a).
  Proof.
    intros N M H; pose proof (Zfloor_lb (scaled n)) as L; pose proof (Zfloor_ub (scaled n)) as U.
    pose proof (p10_pos (e - Z.of_nat n)) as Q; pose proof (scaled_back n) as S.
    assert (GL : grid n (Zfloor (scaled n)) <= a) by (unfold grid; nra).
    assert (GU : a <= grid n (Zfloor (scaled n) + 1)) by (unfold grid; rewrite plus_IZR; nra).
    destruct (decimal_on_grid n m k N M) as [A|A]; [exists (Zfloor (scaled n))|exists (Zfloor (scaled n) + 1)%Z]; split; auto;
      (split; [apply (between_reads (IZR m * p10 k)); auto|]).
    - rewrite !Rabs_left1 by lra; lra.
    - rewrite !Rabs_pos_eq by lra; lra.
  Qed.

  (** 17 digits are enough *)
  Lemma candidate_17 : candidate binary64 a e 17 <> None.
  Proof.
    intros H; apply candidate_none in H; destruct H as [H1 H2].
    pose proof (Zfloor_lb (scaled 17)) as L; pose proof (Zfloor_ub (scaled 17)) as U; pose proof (scaled_back 17) as S.
    set (q := p10 (e - Z.of_nat 17)) in *; assert (Q : 0 < q) by apply p10_pos.
    assert (B : q * 10 ^ 16 <= a).
    { rewrite <- (p10_nat 16); unfold q; rewrite <- bpow_plus; replace (e - Z.of_nat 17 + Z.of_nat 16)%Z with (e - 1)%Z by lia; apply E. }
    assert (G : forall m, grid 17 m = IZR m * q) by reflexivity.
    assert (X : q / 2 < a * eps / 2) by (unfold eps; nra).
    destruct (Rle_or_lt (scaled 17 - IZR (Zfloor (scaled 17))) (/ 2)) as [A|A].
    - apply H1, reads_near; auto; rewrite G, Rabs_left1 by nra; nra.
    - apply H2, reads_near; auto; rewrite G, plus_IZR, Rabs_pos_eq by nra; nra.
  Qed.

  Lemma shortest_spec fuel n : (1 <= n)%nat -> (n + fuel = 17)%nat -> exists n' m, shortest binary64 a e fuel n = (n', m) /\
    (n <= n' <= 17)%nat /\ candidate binary64 a e n' = Some m /\ (forall j, (n <= j < n')%nat -> candidate binary64 a e j = None).
  Proof.
    revert n; induction fuel as [|fuel IH]; intros n N1 N; cbn [shortest]; destruct (candidate binary64 a e n) as [m|] eqn:C.
    - exists n, m; split; auto; split; [lia|split; auto; intros j J; lia].
    - assert (n = 17%nat) by lia; subst n; destruct (candidate_17 C).
    - exists n, m; split; auto; split; [lia|split; auto; intros j J; lia].
    - destruct (IH (S n) ltac:(lia) ltac:(lia)) as [n' [m [A [B [D G]]]]]; exists n', m; split; auto; split; [lia|split; auto].
      intros j J; destruct (Nat.eq_dec j n) as [->|]; auto; apply G; lia.
  Qed.
End Search.

(** ** Digits *)

Definition is_digit (d : Z) : Prop := (0 <= d <= 9)%Z.
Definition make (acc : Z) (l : list Z) : Z := fold_left (fun v d => 10 * v + d)%Z l acc.
Definition no_digit (s : string) : Prop := forall c s', s = String c s' -> digit_value c = None.

Lemma digits_length n m : List.length (digits n m) = n.
Proof. revert m; induction n as [|n IH]; intros m; auto; cbn; rewrite app_length, IH; cbn; lia. Qed.
Lemma digits_digits n m : Forall is_digit (digits n m).
Proof.
  revert m; induction n as [|n IH]; intros m; cbn [digits]; auto; apply Forall_app; split; auto.
  constructor; auto; pose proof (Z.mod_pos_bound m 10 ltac:(lia)); unfold is_digit; lia.
Qed.
Lemma make_digits n m : (0 <= m < 10 ^ Z.of_nat n)%Z -> make 0 (digits n m) = m.
Proof.
  revert m; induction n as [|n IH]; intros m M; [cbn in *; lia|].
  rewrite Nat2Z.inj_succ, Z.pow_succ_r in M by lia; unfold make in *; cbn [digits]; rewrite fold_left_app, IH; cbn [fold_left].
  - pose proof (Z.div_mod m 10 ltac:(lia)); lia.
  - split; [apply Z.div_pos; lia|apply Z.div_lt_upper_bound; lia].
Qed.
Lemma make_zeros acc k : make acc (repeat 0%Z k) = (acc * 10 ^ Z.of_nat k)%Z.
Proof.
  unfold make; revert acc; induction k as [|k IH]; intros acc; [cbn; lia|].
  rewrite Nat2Z.inj_succ, Z.pow_succ_r by lia; cbn [repeat fold_left]; rewrite IH; lia.
Qed.
Lemma make_app acc l l' : make acc (l ++ l') = make (make acc l) l'.
Proof. apply fold_left_app. Qed.
Lemma zeros_digits k : Forall is_digit (repeat 0%Z k).
Proof. induction k; constructor; auto; unfold is_digit; lia. Qed.

Lemma digit_value_char d : is_digit d -> digit_value (digit_char d) = Some d.
Proof.
  intros H; assert (C : (d = 0 \/ d = 1 \/ d = 2 \/ d = 3 \/ d = 4 \/ d = 5 \/ d = 6 \/ d = 7 \/ d = 8 \/ d = 9)%Z) by (unfold is_digit in H; lia).
  repeat (destruct C as [->|C]; [reflexivity|]); subst d; reflexivity.
Qed.
Lemma digit_char_number d : is_digit d -> number_char (digit_char d) = true.
Proof.
  intros H; assert (C : (d = 0 \/ d = 1 \/ d = 2 \/ d = 3 \/ d = 4 \/ d = 5 \/ d = 6 \/ d = 7 \/ d = 8 \/ d = 9)%Z) by (unfold is_digit in H; lia).
  repeat (destruct C as [->|C]; [reflexivity|]); subst d; reflexivity.
Qed.
Lemma digit_char_not n d : is_digit d -> (n < 48 \/ 57 < n)%nat -> is_char n (digit_char d) = false.
Proof.
  intros H N; unfold is_char; apply Nat.eqb_neq; unfold digit_char; unfold is_digit in H.
  rewrite nat_ascii_embedding by lia; lia.
Qed.

Lemma read_digits_text l acc r : Forall is_digit l -> no_digit r ->
  read_digits acc (digits_text l ++ r)%string = (List.length l, make acc l, r).
Proof.
  intros F N; revert acc; induction F as [|d l D F IH]; intros acc; cbn [digits_text append].
  - destruct r as [|c r]; [reflexivity|]; cbn [read_digits]; rewrite (N c r eq_refl); reflexivity.
  - cbn [read_digits]; rewrite digit_value_char by auto; rewrite IH; reflexivity.
Qed.
Lemma no_digit_empty : no_digit "". Proof. intros c s' H; discriminate H. Qed.
Lemma no_digit_char c s : digit_value c = None -> no_digit (String c s).
Proof. intros H d s' E; injection E as -> ->; auto. Qed.
Lemma digits_text_app l l' : digits_text (l ++ l') = (digits_text l ++ digits_text l')%string.
Proof. induction l as [|d l IH]; auto; cbn; rewrite IH; auto. Qed.
Lemma append_nil s : (s ++ "" = s)%string.
Proof. induction s as [|c s IH]; auto; cbn; rewrite IH; auto. Qed.
Lemma append_assoc s t u : ((s ++ t) ++ u = s ++ (t ++ u))%string.
Proof. induction s as [|c s IH]; auto; cbn; rewrite IH; auto. Qed.

Lemma exponent_read z : (Z.abs z < 1000)%Z -> read_exponent ("e" ++ exponent_text z) = Some z.
Proof.
  intros B; unfold exponent_text; set (n := if Z.ltb (Z.abs z) 100 then 2%nat else 3%nat).
  assert (M : (0 <= Z.abs z < 10 ^ Z.of_nat n)%Z) by (unfold n; destruct (Z.ltb_spec (Z.abs z) 100); cbn; lia).
  assert (K : exists k, n = S k) by (unfold n; destruct (Z.ltb (Z.abs z) 100); [exists 1%nat|exists 2%nat]; auto).
  destruct K as [k K].
  assert (R : read_digits 0 (digits_text (digits n (Z.abs z))) = (S k, Z.abs z, "")).
  { rewrite <- (append_nil (digits_text _)), read_digits_text by (apply digits_digits || apply no_digit_empty).
    rewrite digits_length, make_digits, K; auto. }
  destruct (Z.ltb_spec z 0) as [N|N]; cbn [append read_exponent is_char]; cbn [skip_char].
  - change (match read_digits 0 (digits_text (digits n (Z.abs z))) with (S _, v, EmptyString) => Some (- v)%Z | _ => None end = Some z).
    rewrite R; f_equal; lia.
  - change (match read_digits 0 (digits_text (digits n (Z.abs z))) with (S _, v, EmptyString) => Some v | _ => None end = Some z).
    rewrite R; f_equal; lia.
Qed.

(** ** The layout *)

Lemma read_layout n m decpt : (1 <= n)%nat -> (0 <= m < 10 ^ Z.of_nat n)%Z -> (Z.abs (decpt - 1) < 1000)%Z ->
  read_unsigned (format_float_short (digits n m) decpt) = Some (IZR m * p10 (decpt - Z.of_nat n)).
Proof.
  intros N M B; unfold format_float_short; pose proof (digits_length n m) as L; pose proof (digits_digits n m) as D.
  pose proof (make_digits n m M) as V; revert L D V; generalize (digits n m) as ds; intros ds L D V.
  assert (FD : forall k, Forall is_digit (firstn k ds) /\ Forall is_digit (skipn k ds)).
  { intros k; rewrite <- (firstn_skipn k ds), Forall_app in D; auto. }
  assert (FV : forall k, make (make 0 (firstn k ds)) (skipn k ds) = m) by (intros k; rewrite <- make_app, firstn_skipn; auto).
  destruct (Z.leb decpt (-4) || Z.ltb 16 decpt)%bool eqn:X.
  - rewrite L; destruct (Nat.ltb_spec 1 n) as [Q|Q].
    + unfold read_unsigned; rewrite read_digits_text by (try apply FD; apply no_digit_char; reflexivity).
      rewrite firstn_length, L, Nat.min_l by lia.
      rewrite append_assoc; cbn [append skip_char]; change (is_char 46 (Ascii false true true true false true false false)) with true; cbv iota.
      change (String (Ascii true false true false false true true false) (exponent_text (decpt - 1))) with ("e" ++ exponent_text (decpt - 1))%string.
      rewrite read_digits_text by (try apply FD; apply no_digit_char; reflexivity).
      rewrite skipn_length, L, FV, exponent_read by auto; replace (n - 1)%nat with (S (n - 2)) by lia.
      rewrite p10_powerRZ; do 3 f_equal; lia.
    + assert (E1 : n = 1%nat) by lia; rewrite E1 in *; clear E1; unfold read_unsigned; cbn [append].
      rewrite (firstn_all2 ds) by lia.
      change (String (Ascii true false true false false true true false) (exponent_text (decpt - 1))) with ("e" ++ exponent_text (decpt - 1))%string.
      rewrite read_digits_text by (auto; apply no_digit_char; reflexivity).
      rewrite L, V; change (skip_char 46 ("e" ++ exponent_text (decpt - 1))) with (@None string); cbv iota.
      rewrite exponent_read by auto; rewrite p10_powerRZ; reflexivity.
  - apply Bool.orb_false_iff in X; destruct X as [X1 X2]; apply Z.leb_gt in X1; apply Z.ltb_ge in X2.
    destruct (Z.leb_spec decpt 0) as [Y|Y].
    + unfold read_unsigned.
      change ("0." ++ digits_text (repeat 0%Z (Z.to_nat (- decpt)) ++ ds))%string with (digits_text [0%Z] ++ ("." ++ digits_text (repeat 0%Z (Z.to_nat (- decpt)) ++ ds)))%string.
      rewrite read_digits_text by (try (apply no_digit_char; reflexivity); constructor; auto; unfold is_digit; lia).
      cbn [append skip_char List.length]; change (is_char 46 (Ascii false true true true false true false false)) with true; cbv iota.
      rewrite <- (append_nil (digits_text _)), read_digits_text by (try apply no_digit_empty; apply Forall_app; split; auto; apply zeros_digits).
      rewrite make_app, make_zeros; change (make 0 [0%Z] * 10 ^ Z.of_nat (Z.to_nat (- decpt)))%Z with 0%Z; rewrite V.
      rewrite app_length, repeat_length, L.
      destruct (Z.to_nat (- decpt) + n)%nat as [|q] eqn:QE; [lia|]; cbn [read_exponent]; rewrite p10_powerRZ; do 3 f_equal; lia.
    + rewrite L; destruct (Nat.ltb_spec (Z.to_nat decpt) n) as [Q|Q].
      * unfold read_unsigned; rewrite read_digits_text by (try apply FD; apply no_digit_char; reflexivity).
        rewrite firstn_length, L, Nat.min_l by lia; destruct (Z.to_nat decpt) as [|w] eqn:W; [lia|].
        cbn [append skip_char]; change (is_char 46 (Ascii false true true true false true false false)) with true; cbv iota.
        rewrite <- (append_nil (digits_text (skipn _ _))), read_digits_text by (try apply no_digit_empty; apply FD).
        rewrite FV, skipn_length, L; destruct (n - S w)%nat as [|q] eqn:QE; [lia|]; cbn [read_exponent].
        rewrite p10_powerRZ; do 3 f_equal; lia.
      * unfold read_unsigned; rewrite read_digits_text by (try (apply no_digit_char; reflexivity); apply Forall_app; split; auto; apply zeros_digits).
        rewrite app_length, repeat_length, L, make_app, V, make_zeros.
        destruct (n + (Z.to_nat decpt - n))%nat as [|w] eqn:W; [lia|]; cbn [skip_char].
        change (is_char 46 (Ascii false true true true false true false false)) with true; cbv iota.
        cbn -[Z.mul Z.add Z.pow powerRZ IZR digit_value]; change (digit_value "0") with (Some 0%Z); cbn -[Z.mul Z.add Z.pow powerRZ IZR].
        rewrite Z.add_0_r, mult_IZR, mult_IZR.
        rewrite <- p10_Z by lia; rewrite <- p10_powerRZ.
        replace (p10 (0 - 1)) with (/ 10) by reflexivity.
        replace (decpt - Z.of_nat n)%Z with (Z.of_nat (Z.to_nat decpt - n)) by lia; f_equal; field.
Qed.

(** ** Exponents of finite numbers *)

Lemma p10_309 : 2 ^ 1024 <= p10 309.
Proof.
  rewrite <- (bpow_pow 1024), <- (IZR_Zpower radix2), <- (IZR_Zpower radix10) by lia.
  apply IZR_le, Z.leb_le; vm_compute; reflexivity.
Qed.
Lemma p10_324 : p10 (-324) <= bpow radix2 (-1074).
Proof.
  change (-324)%Z with (- (324))%Z; change (-1074)%Z with (- (1074))%Z; rewrite !bpow_opp; apply Rinv_le; [apply bpow_gt_0|].
  rewrite <- (IZR_Zpower radix2), <- (IZR_Zpower radix10) by lia.
  apply IZR_le, Z.leb_le; vm_compute; reflexivity.
Qed.

Definition magnitude (a : R) : Z := mag_val radix10 a (mag radix10 a).
Lemma magnitude_bounds a : 0 < a -> p10 (magnitude a - 1) <= a < p10 (magnitude a).
Proof.
  intros P; unfold magnitude; pose proof (bpow_mag_le radix10 a ltac:(lra)) as A; pose proof (bpow_mag_gt radix10 a) as B.
  rewrite Rabs_pos_eq in A, B by lra; auto.
Qed.
Lemma magnitude_range a : 0 < a -> finite_binary64 a -> (-324 < magnitude a <= 309)%Z.
Proof.
  intros P [F U]; destruct (magnitude_bounds a P) as [A B]; rewrite Rabs_pos_eq in U by lra.
  pose proof (generic_format_ge_bpow radix2 fexp (-1074) ltac:(unfold FLT_exp; lia) a P F) as L.
  split.
  - apply (lt_bpow radix10); pose proof p10_324; lra.
  - assert ((magnitude a - 1 < 309)%Z); [|lia]; apply (lt_bpow radix10); pose proof p10_309; lra.
Qed.

(** ** The digits of a float *)

Lemma float_digits_spec a : 0 < a -> finite_binary64 a ->
  exists n m decpt, float_digits binary64 a = (digits n m, decpt) /\ (1 <= n <= 17)%nat /\ (-324 < decpt <= 310)%Z /\
    (10 ^ (Z.of_nat n - 1) <= m < 10 ^ Z.of_nat n)%Z /\ binary64 (IZR m * p10 (decpt - Z.of_nat n)) = a /\
    (forall j m' k, (0 <= m' < 10 ^ Z.of_nat j)%Z -> binary64 (IZR m' * p10 k) = a -> (n <= j)%nat) /\
    (forall m' k, (0 <= m' < 10 ^ Z.of_nat n)%Z -> binary64 (IZR m' * p10 k) = a ->
      Rabs (IZR m * p10 (decpt - Z.of_nat n) - a) <= Rabs (IZR m' * p10 k - a)).
Proof.
  intros P FB; pose proof (magnitude_range a P FB) as Rg; pose proof (magnitude_bounds a P) as E; destruct FB as [F _].
  unfold float_digits; fold (magnitude a); set (e := magnitude a) in *.
  destruct (shortest_spec a e P F E 16 1 ltac:(lia) ltac:(lia)) as [n [m [S [N [C No]]]]]; rewrite S.
  destruct (candidate_some a e E n m ltac:(lia) C) as [R [B [_ Cl]]].
  assert (Min : forall j m' k, (0 <= m' < 10 ^ Z.of_nat j)%Z -> binary64 (IZR m' * p10 k) = a -> (n <= j)%nat).
  { intros j m' k M H; destruct (le_lt_dec n j) as [|J]; auto; exfalso.
    destruct j as [|j]; [assert (m' = 0%Z) by (cbn in M; lia); subst m'; rewrite Rmult_0_l, rnd_format in H by apply format_0; lra|].
    destruct (reads_candidate a e F E (Datatypes.S j) m' k ltac:(lia) M H) as [q [Q [X _]]].
    pose proof (No (Datatypes.S j) ltac:(lia)) as NN; apply candidate_none in NN; destruct NN as [N1 N2].
    destruct Q as [->| ->]; contradiction. }
  assert (Clo : forall m' k, (0 <= m' < 10 ^ Z.of_nat n)%Z -> binary64 (IZR m' * p10 k) = a ->
    Rabs (grid e n m - a) <= Rabs (IZR m' * p10 k - a)).
  { intros m' k M H; destruct (reads_candidate a e F E n m' k ltac:(lia) M H) as [q [Q [X Y]]].
    eapply Rle_trans; [|apply Y]; specialize (Cl q Q X); pose proof (scaled_back a e n) as SB.
    pose proof (p10_pos (e - Z.of_nat n)) as PP; unfold grid; rewrite <- SB, <- !Rmult_minus_distr_r, !Rabs_mult.
    apply Rmult_le_compat_r; [apply Rabs_pos|auto]. }
  destruct (Z.eqb_spec m (10 ^ Z.of_nat n)) as [Eq|Ne].
  - assert (G : IZR (10 ^ (Z.of_nat n - 1)) * p10 (e + 1 - Z.of_nat n) = grid e n m).
    { unfold grid; rewrite Eq, <- !p10_Z, <- !bpow_plus by lia; f_equal; lia. }
    exists n, (10 ^ (Z.of_nat n - 1))%Z, (e + 1)%Z; split; auto; split; auto; split; [lia|]; split; [split; [lia|apply Z.pow_lt_mono_r; lia]|].
    rewrite G; auto.
  - exists n, m, e; split; auto; split; auto; split; [lia|split; [lia|auto]].
Qed.

Lemma read_positive a : 0 < a -> finite_binary64 a ->
  exists v, read_unsigned (positive_text binary64 a) = Some v /\ binary64 v = a.
Proof.
  intros P F; destruct (float_digits_spec a P F) as [n [m [decpt [D [N [B [M [R _]]]]]]]].
  unfold positive_text; rewrite D; exists (IZR m * p10 (decpt - Z.of_nat n)); split; auto.
  apply read_layout; [lia| |lia]; split; [|lia]; pose proof (Z.pow_nonneg 10 (Z.of_nat n - 1)); lia.
Qed.

Lemma unsigned_no_sign s v : read_unsigned s = Some v -> skip_char 45 s = None.
Proof.
  destruct s as [|c s]; auto; unfold read_unsigned; cbn [read_digits skip_char]; unfold digit_value, Spec_Text.between, is_char.
  destruct (Nat.leb_spec 48 (nat_of_ascii c)); destruct (Nat.leb_spec (nat_of_ascii c) 57); cbn [andb]; try discriminate.
  intros _; destruct (Nat.eqb_spec (nat_of_ascii c) 45); auto; lia.
Qed.
Lemma decimal_float s v : read_decimal s = Some v -> read_float s = Some (Fin (binary64 v)).
Proof.
  intros H; unfold read_float.
  assert (W : forall w, read_decimal w = None -> String.eqb s w = false).
  { intros w E; apply String.eqb_neq; intros ->; congruence. }
  rewrite !W by reflexivity; rewrite H; reflexivity.
Qed.

Lemma read_finite x : finite_binary64 x ->
  exists v, read_decimal (finite_text binary64 x) = Some v /\ binary64 v = x.
Proof.
  intros F; unfold finite_text; destruct (eqb x 0) eqn:Z; [apply eqb_true in Z|apply eqb_false in Z].
  - exists (IZR 0 * powerRZ 10 (0 - 1)); split; [reflexivity|]; rewrite Rmult_0_l, rnd_format by apply format_0; auto.
  - destruct (ltb x 0) eqn:L; [apply ltb_true in L|apply ltb_false in L].
    + assert (F' : finite_binary64 (- x)) by (destruct F as [A B]; split; [apply generic_format_opp; auto|rewrite Rabs_Ropp; auto]).
      destruct (read_positive (- x) ltac:(lra) F') as [v [A B]]; exists (- v); split.
      * unfold read_decimal; cbn [append skip_char]; change (is_char 45 "-") with true; cbv iota; rewrite A; reflexivity.
      * unfold binary64 in *; rewrite round_NE_opp, B; ring.
    + destruct (read_positive x ltac:(lra) F) as [v [A B]]; exists v; split; auto.
      unfold read_decimal; rewrite (unsigned_no_sign _ _ A); auto.
Qed.

(** the characters are those of numbers *)
Definition number_chars (s : string) : Prop := forall c, In c (list_ascii_of_string s) -> number_char c = true.
Lemma number_chars_app s t : number_chars s -> number_chars t -> number_chars (s ++ t).
Proof.
  intros A B; induction s as [|c s IH]; cbn; auto; intros d [<-|I]; [apply A; cbn; auto|apply IH; auto].
  intros x J; apply A; cbn; auto.
Qed.
Lemma number_chars_digits l : Forall is_digit l -> number_chars (digits_text l).
Proof. intros F; induction F as [|d l D F IH]; [intros c []|]; intros c [<-|I]; auto; apply digit_char_number; auto. Qed.
Lemma number_chars_char c s : number_char c = true -> number_chars s -> number_chars (String c s).
Proof. intros C N d [<-|I]; auto. Qed.
Lemma number_chars_layout ds decpt : Forall is_digit ds -> number_chars (format_float_short ds decpt).
Proof.
  intros D; assert (FD : forall k, Forall is_digit (firstn k ds) /\ Forall is_digit (skipn k ds)).
  { intros k; rewrite <- (firstn_skipn k ds), Forall_app in D; auto. }
  assert (Nil : number_chars "") by (intros c []).
  unfold format_float_short, exponent_text.
  destruct (Z.leb decpt (-4) || Z.ltb 16 decpt)%bool; [|destruct (Z.leb decpt 0); [|destruct (Nat.ltb (Z.to_nat decpt) (List.length ds))]].
  - apply number_chars_app; [apply number_chars_digits, FD|]; apply number_chars_app.
    + destruct (Nat.ltb 1 (List.length ds)); auto; apply number_chars_char; [reflexivity|]; apply number_chars_digits, FD.
    + apply number_chars_char; [reflexivity|]; apply number_chars_app; [destruct (Z.ltb (decpt - 1) 0); apply number_chars_char; auto|].
      apply number_chars_digits, digits_digits.
  - do 2 (apply number_chars_char; [reflexivity|]); apply number_chars_digits, Forall_app; split; auto; apply zeros_digits.
  - apply number_chars_app; [apply number_chars_digits, FD|]; apply number_chars_char; [reflexivity|]; apply number_chars_digits, FD.
  - apply number_chars_app; [apply number_chars_digits, Forall_app; split; auto; apply zeros_digits|].
    do 2 (apply number_chars_char; [reflexivity|]); auto.
Qed.
Lemma number_chars_positive a : 0 < a -> finite_binary64 a -> number_chars (positive_text binary64 a).
Proof.
  intros P F; destruct (float_digits_spec a P F) as [n [m [decpt [D _]]]]; unfold positive_text; rewrite D.
  apply number_chars_layout, digits_digits.
Qed.
Lemma number_finite x : finite_binary64 x -> number_text (finite_text binary64 x).
Proof.
  intros F; split.
  - intros E; destruct (read_finite x F) as [v [A _]]; rewrite E in A; discriminate A.
  - unfold finite_text; destruct (eqb x 0) eqn:Z; [apply eqb_true in Z|apply eqb_false in Z].
    + intros c I; cbn in I; destruct I as [<-|[<-|[<-|[]]]]; reflexivity.
    + destruct (ltb x 0) eqn:L; [apply ltb_true in L|apply ltb_false in L].
      * apply number_chars_char; [reflexivity|]; apply number_chars_positive; [lra|].
        destruct F as [A B]; split; [apply generic_format_opp; auto|rewrite Rabs_Ropp; auto].
      * apply number_chars_positive; auto; lra.
Qed.

(** ** The text of a float is read back as the float *)

Theorem float_text_round_trip x :
  printable x ->
  read_float (float_repr binary64 x) = Some x /\
  read_float (json_floatstr binary64 x) = Some x /\ number_text (json_floatstr binary64 x).
Proof.
  destruct x as [r|neg|]; cbn [printable float_repr json_floatstr]; intros F.
  - destruct (read_finite r F) as [v [A B]]; pose proof (decimal_float _ _ A) as Q; rewrite B in Q; split; auto; split; auto.
    apply number_finite; auto.
  - destruct neg; (split; [reflexivity|split; [reflexivity|]]); (split; [discriminate|]);
      intros c I; cbn in I; repeat (destruct I as [<-|I]; [reflexivity|]); destruct I.
  - split; [reflexivity|split; [reflexivity|]]; (split; [discriminate|]);
      intros c I; cbn in I; repeat (destruct I as [<-|I]; [reflexivity|]); destruct I.
Qed.

Theorem float_text_distinct x y :
  printable x -> printable y -> float_repr binary64 x = float_repr binary64 y -> x = y.
Proof.
  intros X Y E; destruct (float_text_round_trip x X) as [A _]; destruct (float_text_round_trip y Y) as [B _]; congruence.
Qed.

(** ** and is the shortest one *)

Lemma mantissa_digits l s : Forall is_digit l -> mantissa (digits_text l ++ s) = l ++ mantissa s.
Proof.
  intros F; induction F as [|d l D F IH]; auto; cbn [digits_text append mantissa].
  rewrite digit_char_not by (auto; lia); rewrite digit_value_char, IH by auto; reflexivity.
Qed.
Lemma skip_zeros_repeat i l : skip_zeros (repeat 0%Z i ++ l) = skip_zeros l.
Proof. induction i; auto. Qed.
Lemma skip_zeros_length l : (List.length (skip_zeros l) <= List.length l)%nat.
Proof. induction l as [|d l IH]; cbn; auto; destruct d; cbn; lia. Qed.
Lemma skip_zeros_app l j : skip_zeros (l ++ repeat 0%Z j) = skip_zeros l ++ repeat 0%Z j \/ skip_zeros (l ++ repeat 0%Z j) = [].
Proof.
  induction l as [|d l IH]; cbn.
  - right; rewrite <- (app_nil_r (repeat 0%Z j)), skip_zeros_repeat; reflexivity.
  - destruct d; auto.
Qed.
Lemma repeat_rev {A} (x : A) n : rev (repeat x n) = repeat x n.
Proof.
  induction n as [|n IH]; auto; cbn; rewrite IH; clear IH; induction n as [|n IH]; auto; cbn; rewrite IH; auto.
Qed.
Lemma significant_bound s i ds j : mantissa s = repeat 0%Z i ++ ds ++ repeat 0%Z j -> (significant_digits s <= List.length ds)%nat.
Proof.
  intros E; unfold significant_digits; rewrite E, skip_zeros_repeat; destruct (skip_zeros_app ds j) as [->| ->]; [|cbn; lia].
  rewrite rev_app_distr, repeat_rev, skip_zeros_repeat; eapply Nat.le_trans; [apply skip_zeros_length|].
  rewrite rev_length; apply skip_zeros_length.
Qed.
Lemma significant_layout ds decpt : Forall is_digit ds -> (significant_digits (format_float_short ds decpt) <= List.length ds)%nat.
Proof.
  intros D; assert (FD : forall k, Forall is_digit (firstn k ds) /\ Forall is_digit (skipn k ds)).
  { intros k; rewrite <- (firstn_skipn k ds), Forall_app in D; auto. }
  unfold format_float_short.
  destruct (Z.leb decpt (-4) || Z.ltb 16 decpt)%bool; [|destruct (Z.leb decpt 0); [|destruct (Nat.ltb (Z.to_nat decpt) (List.length ds))]].
  - apply (significant_bound _ 0 ds 0); rewrite mantissa_digits by apply FD.
    destruct (Nat.ltb_spec 1 (List.length ds)).
    + change (mantissa (("." ++ digits_text (skipn 1 ds)) ++ "e" ++ exponent_text (decpt - 1))) with (mantissa (digits_text (skipn 1 ds) ++ "e" ++ exponent_text (decpt - 1))).
      rewrite mantissa_digits by apply FD; change (mantissa ("e" ++ exponent_text (decpt - 1))) with (@nil Z).
      rewrite app_nil_r, firstn_skipn; cbn [repeat app]; rewrite app_nil_r; auto.
    + change (mantissa ("" ++ "e" ++ exponent_text (decpt - 1))) with (@nil Z).
      rewrite firstn_all2 by lia; auto.
  - apply (significant_bound _ (1 + Z.to_nat (- decpt)) ds 0).
    change (mantissa ("0." ++ digits_text (repeat 0%Z (Z.to_nat (- decpt)) ++ ds))) with (0%Z :: mantissa (digits_text (repeat 0%Z (Z.to_nat (- decpt)) ++ ds))).
    rewrite <- (append_nil (digits_text _)), mantissa_digits by (apply Forall_app; split; auto; apply zeros_digits).
    cbn [mantissa repeat app Nat.add]; rewrite !app_nil_r; auto.
  - apply (significant_bound _ 0 ds 0); rewrite mantissa_digits by apply FD.
    change (mantissa ("." ++ digits_text (skipn (Z.to_nat decpt) ds))) with (mantissa (digits_text (skipn (Z.to_nat decpt) ds))).
    rewrite <- (append_nil (digits_text _)), mantissa_digits by apply FD; cbn [mantissa repeat app]; rewrite !app_nil_r, firstn_skipn; auto.
  - apply (significant_bound _ 0 ds (Z.to_nat decpt - List.length ds + 1)).
    rewrite mantissa_digits by (apply Forall_app; split; auto; apply zeros_digits).
    change (mantissa ".0") with (repeat 0%Z 1); rewrite repeat_app, <- app_assoc; reflexivity.
Qed.
Lemma significant_minus s : significant_digits ("-" ++ s) = significant_digits s.
Proof. reflexivity. Qed.

Lemma positive_shortest a m k j : 0 < a -> finite_binary64 a -> (0 <= m < 10 ^ Z.of_nat j)%Z -> binary64 (IZR m * p10 k) = a ->
  (significant_digits (positive_text binary64 a) <= j)%nat.
Proof.
  intros P F M H; destruct (float_digits_spec a P F) as [n [m0 [decpt [D [_ [_ [_ [_ [Min _]]]]]]]]]; unfold positive_text; rewrite D.
  pose proof (significant_layout (digits n m0) decpt (digits_digits n m0)) as S; rewrite digits_length in S.
  specialize (Min j m k M H); lia.
Qed.
Lemma positive_closest a v m k : 0 < a -> finite_binary64 a -> read_unsigned (positive_text binary64 a) = Some v ->
  (0 <= m < 10 ^ Z.of_nat (significant_digits (positive_text binary64 a)))%Z -> binary64 (IZR m * p10 k) = a ->
  Rabs (v - a) <= Rabs (IZR m * p10 k - a).
Proof.
  intros P F; destruct (float_digits_spec a P F) as [n [m0 [decpt [D [N [B [M0 [_ [_ Clo]]]]]]]]]; unfold positive_text; rewrite D.
  pose proof (significant_layout (digits n m0) decpt (digits_digits n m0)) as S; rewrite digits_length in S.
  assert (P0 : (0 <= 10 ^ (Z.of_nat n - 1))%Z) by (apply Z.pow_nonneg; lia).
  rewrite read_layout; [|lia|lia|lia].
  intros V M H; injection V as <-; apply Clo; auto; split; [lia|].
  eapply Z.lt_le_trans; [apply M|]; apply Z.pow_le_mono_r; lia.
Qed.

Theorem float_text_shortest x m k j :
  finite_binary64 x -> (0 <= m < 10 ^ Z.of_nat j)%Z -> binary64 (IZR m * powerRZ 10 k) = Rabs x ->
  (significant_digits (finite_text binary64 x) <= j)%nat.
Proof.
  intros F M; rewrite <- p10_powerRZ; unfold finite_text; intros H.
  destruct (eqb x 0) eqn:Z; [apply eqb_true in Z|apply eqb_false in Z]; [change (significant_digits "0.0") with 0%nat; lia|].
  destruct (ltb x 0) eqn:L; [apply ltb_true in L|apply ltb_false in L].
  - rewrite significant_minus; rewrite Rabs_left in H by auto; apply (positive_shortest _ m k); auto; [lra|].
    destruct F as [A B]; split; [apply generic_format_opp; auto|rewrite Rabs_Ropp; auto].
  - rewrite Rabs_pos_eq in H by auto; apply (positive_shortest _ m k); auto; lra.
Qed.

Theorem float_text_closest x v m k :
  finite_binary64 x -> read_decimal (finite_text binary64 x) = Some v ->
  (0 <= m < 10 ^ Z.of_nat (significant_digits (finite_text binary64 x)))%Z ->
  binary64 (IZR m * powerRZ 10 k) = Rabs x ->
  Rabs (v - x) <= Rabs (IZR m * powerRZ 10 k - Rabs x).
Proof.
  intros F; rewrite <- p10_powerRZ; unfold finite_text.
  destruct (eqb x 0) eqn:Z; [apply eqb_true in Z|apply eqb_false in Z].
  - intros V _ _; assert (v = 0) as -> by (change (Some (0 * powerRZ 10 (0 - 1)) = Some v) in V; injection V as <-; ring); rewrite Z, Rminus_0_r, Rabs_R0; apply Rabs_pos.
  - destruct (ltb x 0) eqn:L; [apply ltb_true in L|apply ltb_false in L].
    + rewrite significant_minus; intros V M H; rewrite (Rabs_left x) in * by auto.
      assert (F' : finite_binary64 (- x)) by (destruct F as [A B]; split; [apply generic_format_opp; auto|rewrite Rabs_Ropp; auto]).
      unfold read_decimal in V; cbn [append skip_char] in V; change (is_char 45 "-") with true in V; cbv iota in V.
      destruct (read_positive (- x) ltac:(lra) F') as [w [A _]]; rewrite A in V; injection V as <-.
      replace (- w - x) with (- (w - - x)) by ring; rewrite Rabs_Ropp; apply positive_closest; auto; lra.
    + intros V M H; rewrite (Rabs_pos_eq x) in * by auto; destruct (read_positive x ltac:(lra) F) as [w [A _]].
      unfold read_decimal in V; rewrite (unsigned_no_sign _ _ A), A in V; injection V as <-; apply positive_closest; auto; lra.
Qed.

(** ** Numbers with one digit *)

Lemma one_digit_text a e m : p10 (e - 1) <= a < p10 e -> candidate binary64 a e 1 = Some m ->
  positive_text binary64 a = if Z.eqb m 10 then format_float_short [1%Z] (e + 1) else format_float_short [(m mod 10)%Z] e.
Proof.
  intros E C; unfold positive_text, float_digits; assert (M : mag_val radix10 a (mag radix10 a) = e) by (apply mag_unique_pos; auto).
  rewrite M; cbn [shortest]; rewrite C; change (10 ^ Z.of_nat 1)%Z with 10%Z; destruct (Z.eqb m 10); reflexivity.
Qed.
Lemma candidate_one a e lo : IZR lo <= a * p10 (1 - e) < IZR lo + 1 ->
  (binary64 (IZR lo * p10 (e - 1)) = a -> binary64 (IZR (lo + 1) * p10 (e - 1)) <> a -> candidate binary64 a e 1 = Some lo) /\
  (binary64 (IZR lo * p10 (e - 1)) <> a -> binary64 (IZR (lo + 1) * p10 (e - 1)) = a -> candidate binary64 a e 1 = Some (lo + 1)%Z).
Proof.
  intros S; unfold candidate; replace (- (e - Z.of_nat 1))%Z with (1 - e)%Z by lia; rewrite (Zfloor_imp lo) by (rewrite plus_IZR; auto).
  change (Z.of_nat 1) with 1%Z; split; intros A B.
  - rewrite (proj2 (reads_true _ _ _) A), (proj2 (reads_false _ _ _) B); auto.
  - rewrite (proj2 (reads_false _ _ _) A), (proj2 (reads_true _ _ _) B); auto.
Qed.
Lemma rnd_far x y a : x <= y -> binary64_format x -> a < x -> binary64 y <> a.
Proof. intros H F L E; assert (Q := rnd_mono x y H); rewrite (rnd_format x F) in Q; lra. Qed.
