(** * Concatenated XY sequences: the recursion they are compared with *)
From Coq Require Import ZArith Permutation.
From Verif Require Export L_XY.
Import ListNotations.
Open Scope string_scope.
Open Scope list_scope.
Open Scope R_scope.

(** ** The recursion *)

Fixpoint xyz (l : nat) (z : Z) : list (axis * Z) :=
  match l with
  | O => []
  | S l' =>
      let q := (4 ^ Z.of_nat l')%Z in
      (xyz l' z ++ [(AX, z + q)] ++ xyz l' (z + q) ++ [(AY, z + 2 * q)] ++
       xyz l' (z + 2 * q) ++ [(AX, z + 3 * q)] ++ xyz l' (z + 3 * q) ++ [(AY, z + 4 * q)])%Z
  end.

Lemma xy_recursion_z u l : forall z,
  xy_recursion l (IZR z * u) (IZR (4 ^ Z.of_nat l) * u) = map (scale_z u) (xyz l z).
Proof.
  induction l as [|l IH]; intros z; [reflexivity|].
  cbn [xy_recursion xyz]; cbv zeta.
  rewrite Nat2Z.inj_succ, Z.pow_succ_r by lia; rewrite mult_IZR.
  set (q := (4 ^ Z.of_nat l)%Z) in *.
  replace (4 * IZR q * u / 4) with (IZR q * u) by field.
  assert (E : forall k, IZR z * u + IZR k * (IZR q * u) = IZR (z + k * q) * u)
    by (intros; rewrite plus_IZR, mult_IZR; ring).
  assert (E1 : IZR z * u + IZR q * u = IZR (z + q) * u) by (rewrite plus_IZR; ring).
  rewrite E1, !E, !IH, !map_app; reflexivity.
Qed.

Lemma xyz_bounds l : forall z p, In p (xyz l z) -> (z < snd p <= z + 4 ^ Z.of_nat l)%Z.
Proof.
  induction l as [|l IH]; intros z p I; [destruct I|].
  cbn [xyz] in I; cbv zeta in I; rewrite Nat2Z.inj_succ, Z.pow_succ_r by lia.
  assert (Q : (0 < 4 ^ Z.of_nat l)%Z) by (apply Z.pow_pos_nonneg; lia).
  set (q := (4 ^ Z.of_nat l)%Z) in *.
  repeat (apply in_app_or in I; destruct I as [I|I]);
    try (apply IH in I; lia); destruct I as [<-|[]]; cbn [snd]; lia.
Qed.

Definition ztimes (a : axis) (l : list (axis * Z)) : list Z :=
  map snd (filter (fun p => axis_eqb (fst p) a) l).

Lemma times_about_scale u a l : times_about a (map (scale_z u) l) = map (fun z => IZR z * u) (ztimes a l).
Proof.
  unfold times_about, ztimes; induction l as [|[b z] l IH]; [reflexivity|].
  cbn [map filter scale_z fst]; destruct (axis_eqb b a); cbn [map snd]; rewrite IH; auto.
Qed.

Lemma multiplicity_scale u l z : 0 < u -> multiplicity (IZR z * u) (map (fun z => IZR z * u) l) = zcount l z.
Proof.
  intros U; induction l as [|y l IH]; [reflexivity|].
  unfold multiplicity in *; cbn [map count_occ].
  destruct (Req_EM_T (IZR y * u) (IZR z * u)) as [E|E], (Z.eq_dec y z) as [E'|E']; auto.
  - exfalso; apply E', eq_IZR; nra.
  - subst; congruence.
Qed.

Definition merges_z (l : list (axis * Z)) (z : Z) (a : axis) : bool :=
  let nx := Nat.odd (zcount (ztimes AX l) z) in
  let ny := Nat.odd (zcount (ztimes AY l) z) in
  match a with AX => nx && negb ny | AY => negb nx && ny | AZ => nx && ny end.

Lemma merges_to_scale u l z a : 0 < u -> merges_to (map (scale_z u) l) (IZR z * u) a <-> merges_z l z a = true.
Proof.
  intros U; unfold merges_to, merges_z; cbv zeta; rewrite !times_about_scale, !multiplicity_scale by auto.
  assert (E : forall n, Nat.Even n <-> negb (Nat.odd n) = true) by (intros; rewrite Nat.negb_odd, Nat.even_spec; tauto).
  assert (O : forall n, Nat.Odd n <-> Nat.odd n = true) by (intros; rewrite Nat.odd_spec; tauto).
  destruct a; rewrite andb_true_iff, ?E, ?O; tauto.
Qed.

Lemma merges_to_time u l t a : merges_to (map (scale_z u) l) t a -> exists p, In p l /\ t = IZR (snd p) * u.
Proof.
  unfold merges_to; cbv zeta; rewrite !times_about_scale; intros H.
  assert (K : forall b, Nat.Odd (multiplicity t (map (fun z => IZR z * u) (ztimes b l))) ->
    exists p, In p l /\ t = IZR (snd p) * u).
  { intros b O; assert (I : In t (map (fun z => IZR z * u) (ztimes b l))).
    { apply (count_occ_In Req_EM_T); unfold multiplicity in O; destruct O as [q ->]; lia. }
    apply in_map_iff in I; destruct I as [z [<- I]]; unfold ztimes in I; apply in_map_iff in I.
    destruct I as [p [<- I]]; apply filter_In in I; exists p; tauto. }
  destruct a; destruct H as [H1 H2]; eauto.
Qed.

(** ** Orders one and two *)

Definition xy_small (l : nat) : list (axis * Z) :=
  match l with
  | 1%nat => [(AX, 1); (AY, 2); (AX, 3); (AY, 4)]%Z
  | _ => [(AX, 1); (AY, 2); (AX, 3); (AZ, 4); (AX, 5); (AY, 6); (AX, 7);
          (AX, 9); (AY, 10); (AX, 11); (AZ, 12); (AX, 13); (AY, 14); (AX, 15)]%Z
  end.

Definition small (l : nat) : Prop := l = 1%nat \/ l = 2%nat.

Lemma xy_small_slots l : small l -> xy_slots 0%Z 1%Z Z.add Z.leb Z.eqb Z.ltb l = map slot_of (xy_small l).
Proof. intros [-> | ->]; vm_compute; reflexivity. Qed.

Lemma xy_small_bounds l p : small l -> In p (xy_small l) -> (1 <= snd p <= 4 ^ Z.of_nat l)%Z.
Proof.
  intros [-> | ->] I; cbn [xy_small In] in I;
    repeat (destruct I as [<-|I]; [split; vm_compute; discriminate|]); destruct I.
Qed.

Definition axis_z_eqb (p q : axis * Z) : bool := axis_eqb (fst p) (fst q) && Z.eqb (snd p) (snd q).
Lemma axis_z_eqb_spec p q : axis_z_eqb p q = true <-> p = q.
Proof.
  destruct p as [a z], q as [b y]; unfold axis_z_eqb; cbn [fst snd]; rewrite andb_true_iff, Z.eqb_eq.
  split; [intros [A ->]; destruct a, b; auto; discriminate|intros E; injection E as -> ->; destruct b; auto].
Qed.

Lemma xy_small_merges l a z : small l -> (In (a, z) (xy_small l) <-> merges_z (xyz l 0) z a = true).
Proof.
  intros SM.
  set (zrange := map Z.of_nat (seq 1 16)).
  assert (C : forallb (fun z => forallb (fun a => Bool.eqb (existsb (axis_z_eqb (a, z)) (xy_small l))
                (merges_z (xyz l 0) z a)) [AX; AY; AZ]) zrange = true)
    by (destruct SM as [-> | ->]; vm_compute; reflexivity).
  assert (R : (1 <= z <= 16)%Z -> In z zrange).
  { intros B; unfold zrange; apply in_map_iff; exists (Z.to_nat z); split; [lia|apply in_seq; lia]. }
  assert (L16 : (4 ^ Z.of_nat l <= 16)%Z) by (destruct SM as [-> | ->]; vm_compute; discriminate).
  assert (W : (1 <= z <= 16)%Z -> (In (a, z) (xy_small l) <-> merges_z (xyz l 0) z a = true)).
  { intros B; rewrite forallb_forall in C; specialize (C z (R B)); rewrite forallb_forall in C.
    specialize (C a ltac:(destruct a; cbn; tauto)); apply eqb_prop in C; rewrite <- C, existsb_exists.
    split; [intros I; exists (a, z); split; auto; apply axis_z_eqb_spec; auto|].
    intros [p [I E]]; apply axis_z_eqb_spec in E; subst; auto. }
  split; intros H; apply W; auto.
  - apply xy_small_bounds in H; auto; cbn [snd] in H; lia.
  - assert (M : merges_to (map (scale_z 1) (xyz l 0)) (IZR z * 1) a) by (apply merges_to_scale; auto; lra).
    apply merges_to_time in M; destruct M as [p [I E]]; apply xyz_bounds in I.
    assert (z = snd p) by (apply eq_IZR; lra); lia.
Qed.

Lemma unit_total T l : T = IZR (4 ^ Z.of_nat l) * (T / 2 ^ (l * 2)).
Proof. rewrite pow4_IZR; field; apply pow_nonzero; lra. Qed.
Lemma unit_pos T l : 0 < T -> 0 < T / 2 ^ (l * 2).
Proof. intros; apply Rdiv_lt_0_compat; auto; apply pow_lt; lra. Qed.

Lemma xy_recursion_scaled T l : xy_recursion l 0 T = map (scale_z (T / 2 ^ (l * 2))) (xyz l 0).
Proof.
  rewrite <- xy_recursion_z, <- unit_total; f_equal; ring.
Qed.

Theorem xy_concatenation T x l pre name :
  0 < T -> truncates_to x l -> (l = 1 \/ l = 2)%nat ->
  exists ps, new_xy_concatenated_sequence T x pre name =
      Ok (sequence_of T name (with_pre_post pre T ps)) /\
    strictly_increasing (map snd ps) /\
    forall a t, In (a, t) ps <-> merges_to (xy_recursion l 0 T) t a.
Proof.
  intros HT HX SM; change (small l) in SM.
  assert (U := unit_pos T l HT); set (u := T / 2 ^ (l * 2)) in *.
  exists (map (scale_z u) (xy_small l)); split; [|split].
  - apply xy_model; auto; [destruct SM; lia|apply xy_small_slots; auto|intros; apply xy_small_bounds; auto].
  - rewrite map_map; cbn [scale_z snd].
    destruct SM as [-> | ->]; cbn [xy_small map snd strictly_increasing]; repeat (split; [nra|]); auto.
  - intros a t; rewrite xy_recursion_scaled; fold u; split.
    + intros I; apply in_map_iff in I; destruct I as [[b z] [E I]]; injection E as -> <-.
      apply merges_to_scale, xy_small_merges; auto.
    + intros M; destruct (merges_to_time u _ _ _ M) as [p [_ ->]].
      apply in_map_iff; exists (a, snd p); split; auto.
      apply xy_small_merges; auto; apply (merges_to_scale u); auto.
Qed.

(** ** Orders three and more *)

Lemma count_none l : forall (z v : Z) a, (v <= z \/ z + 4 ^ Z.of_nat l < v)%Z -> zcount (ztimes a (xyz l z)) v = 0%nat.
Proof.
  intros z v a H; apply count_occ_not_In; intros I; unfold ztimes in I; apply in_map_iff in I.
  destruct I as [p [E I]]; apply filter_In in I; destruct I as [I _]; apply xyz_bounds in I; lia.
Qed.

Lemma ztimes_app a l1 l2 : ztimes a (l1 ++ l2) = ztimes a l1 ++ ztimes a l2.
Proof. unfold ztimes; rewrite filter_app, map_app; auto. Qed.

Lemma last_x l : (1 <= l)%nat -> forall z,
  zcount (ztimes AX (xyz l z)) (z + 4 ^ Z.of_nat l - 1)%Z = 1%nat /\
  zcount (ztimes AY (xyz l z)) (z + 4 ^ Z.of_nat l - 1)%Z = 0%nat.
Proof.
  induction l as [|l IH]; intros H z; [lia|].
  destruct (Nat.eq_dec l 0) as [->|NE].
  - cbn [xyz app]; change (4 ^ Z.of_nat 1)%Z with 4%Z; change (4 ^ Z.of_nat 0)%Z with 1%Z; unfold ztimes; cbn [filter fst axis_eqb map snd count_occ].
    repeat match goal with |- context [Z.eq_dec ?a ?b] => destruct (Z.eq_dec a b); try lia end; auto.
  - assert (Q : (4 <= 4 ^ Z.of_nat l)%Z).
    { change 4%Z with (4 ^ 1)%Z at 1; apply Z.pow_le_mono_r; lia. }
    cbn [xyz]; cbv zeta; rewrite Nat2Z.inj_succ, Z.pow_succ_r by lia.
    set (q := (4 ^ Z.of_nat l)%Z) in *.
    replace (z + 4 * q - 1)%Z with (z + 3 * q + q - 1)%Z by lia.
    destruct (IH ltac:(lia) (z + 3 * q)%Z) as [I1 I2].
    rewrite !ztimes_app, !count_occ_app.
    rewrite (count_none l z), (count_none l (z + q)%Z), (count_none l (z + 2 * q)%Z) by (fold q; lia).
    rewrite (count_none l z), (count_none l (z + q)%Z), (count_none l (z + 2 * q)%Z) by (fold q; lia).
    rewrite I1, I2; unfold ztimes; cbn [filter fst axis_eqb map snd count_occ].
    repeat match goal with |- context [Z.eq_dec ?a ?b] => destruct (Z.eq_dec a b); try lia end; auto.
Qed.

Lemma Zpow4_large l : (3 <= l)%nat -> (64 <= 4 ^ Z.of_nat l)%Z.
Proof. intros H; change 64%Z with (4 ^ 3)%Z; apply Z.pow_le_mono_r; lia. Qed.

Theorem xy_concatenation_refuted T x l pre name :
  0 < T -> truncates_to x l -> (3 <= l)%nat ->
  exists s, new_xy_concatenated_sequence T x pre name = Ok s /\
  exists t, 0 < t < T /\ merges_to (xy_recursion l 0 T) t AX /\ ~ In t (offsets s).
Proof.
  intros HT HX HL.
  assert (U := unit_pos T l HT); set (u := T / 2 ^ (l * 2)) in *.
  assert (TU : T = IZR (4 ^ Z.of_nat l) * u) by apply unit_total.
  destruct (xy_pulses l) as [ps [E [_ B]]]; [lia|].
  assert (K := units_short l HL). assert (L64 := Zpow4_large l HL).
  eexists; split; [apply (xy_model T x l pre name ps); auto; [lia|intros p I; apply B in I; lia]|].
  fold u; set (N := (4 ^ Z.of_nat l)%Z) in *.
  exists (IZR (N - 1) * u); split; [|split].
  - assert (IZR 63 <= IZR (N - 1)) by (apply IZR_le; lia); rewrite minus_IZR in *; rewrite TU; split; nra.
  - rewrite xy_recursion_scaled; apply merges_to_scale; auto.
    destruct (last_x l ltac:(lia) 0%Z) as [X Y]; fold N in X, Y; cbn [Z.add] in X, Y.
    unfold merges_z; cbv zeta; rewrite X, Y; reflexivity.
  - assert (G : forall t, In t (map e_time (map pi_pulse (map (scale_z u) ps))) -> t <> IZR (N - 1) * u).
    { intros t I; rewrite !map_map in I; apply in_map_iff in I; destruct I as [[a z] [<- I]]; apply B in I; cbn [snd] in I.
      assert (ET : e_time (pi_pulse (scale_z u (a, z))) = IZR z * u) by (destruct a; reflexivity).
      rewrite ET; intros C; assert (z = N - 1)%Z by (apply eq_IZR; nra); lia. }
    cbn [sequence_of offsets]; unfold with_pre_post; destruct pre.
    + cbn [map e_time]; rewrite map_app; cbn [map e_time].
      assert (IZR 63 <= IZR (N - 1)) by (apply IZR_le; lia).
      intros [I|I]; [nra|]; apply in_app_or in I; destruct I as [I|[I|[]]]; [apply G in I; auto|].
      rewrite TU in I; assert (N = N - 1)%Z by (apply eq_IZR; nra); lia.
    + intros I; apply G in I; auto.
Qed.

(** every order: the builder returns a sequence of pi pulses in time order *)
Fixpoint nondecreasing_times (l : list R) : Prop :=
  match l with [] => True | x :: l' => (match l' with [] => True | y :: _ => x <= y end) /\ nondecreasing_times l' end.

Theorem xy_sequence T x l pre name :
  (0 < T -> truncates_to x l -> (1 <= l)%nat ->
   exists ps, new_xy_concatenated_sequence T x pre name =
       Ok (sequence_of T name (with_pre_post pre T ps)) /\
     nondecreasing_times (map snd ps) /\ (forall p, In p ps -> 0 < snd p <= T)) /\
  (~ (0 < T /\ 1 <= x) -> argument_error (new_xy_concatenated_sequence T x pre name)).
Proof.
  split.
  - intros HT HX HL.
    assert (U := unit_pos T l HT); set (u := T / 2 ^ (l * 2)) in *.
    assert (TU : T = IZR (4 ^ Z.of_nat l) * u) by apply unit_total.
    destruct (xy_pulses l HL) as [ps [E [ND B]]]; assert (K := units_bound l HL).
    exists (map (scale_z u) ps); split; [apply xy_model; auto; intros p I; apply B in I; lia|]; split.
    + rewrite map_map; clear - ND U.
      induction ps as [|[a z] ps IH]; cbn [map nondecreasing_times]; auto.
      destruct ND as [N1 N2]; split; [|apply IH; auto].
      destruct ps as [|[b y] ps]; cbn [map]; auto; cbn [scale_z snd].
      apply Rmult_le_compat_r; [lra|]; apply IZR_le, N1; left; auto.
    + intros p I; apply in_map_iff in I; destruct I as [[a z] [<- I]]; apply B in I; cbn [snd scale_z] in *.
      destruct I as [I1 I2]; assert (I3 : (z <= 4 ^ Z.of_nat l)%Z) by lia.
      apply IZR_le in I1; apply IZR_le in I3; rewrite TU; split; nra.
  - intros H; unfold new_xy_concatenated_sequence; destruct (Rlt_dec 0 T) as [HT|HT].
    + rewrite check_duration_ok by auto; cbn [bind]; unfold check_concatenation_order.
      rewrite check_false by (apply leb_false; lra); do 3 eexists; reflexivity.
    + destruct (check_duration_bad T HT) as [s [a [b ->]]]; do 3 eexists; reflexivity.
Qed.

(** ** Static dephasing *)

Fixpoint zflips (l : list (axis * Z)) : list Z :=
  match l with [] => [] | (AZ, _) :: l' => zflips l' | (_, z) :: l' => z :: zflips l' end.
Fixpoint zswitched (s t0 T : Z) (l : list Z) : Z :=
  match l with [] => s * (T - t0) | t :: l' => s * (t - t0) + zswitched (- s) t T l' end%Z.

Lemma flips_scale u l : flip_times (map (scale_z u) l) = map (fun z => IZR z * u) (zflips l).
Proof. induction l as [|[[] z] l IH]; cbn; auto; rewrite IH; auto. Qed.
Lemma zswitched_real u l : forall s t0 T,
  switched_from (fun t => t) (IZR s) (IZR t0 * u) (IZR T * u) (map (fun z => IZR z * u) l) =
  IZR (zswitched s t0 T l) * u.
Proof.
  induction l as [|t l IH]; intros s t0 T; cbn [map switched_from zswitched].
  - rewrite mult_IZR, minus_IZR; ring.
  - rewrite <- opp_IZR, IH, plus_IZR, mult_IZR, minus_IZR; ring.
Qed.

Lemma xy_switched T l ps : switched (fun t => t) T (flip_times (map (scale_z (T / 2 ^ (l * 2))) ps)) =
  IZR (zswitched 1 0 (4 ^ Z.of_nat l) (zflips ps)) * (T / 2 ^ (l * 2)).
Proof.
  unfold switched; rewrite flips_scale, <- zswitched_real, <- unit_total; f_equal; ring.
Qed.

Definition xy_three : list (axis * Z) :=
  map (fun s => (if sl_rabi s then if sl_azimuthal s then AY else AX else AZ, sl_offset s))
    (xy_slots 0%Z 1%Z Z.add Z.leb Z.eqb Z.ltb 3).

Lemma xy_three_slots : xy_slots 0%Z 1%Z Z.add Z.leb Z.eqb Z.ltb 3 = map slot_of xy_three.
Proof. vm_compute; reflexivity. Qed.
Lemma xy_three_bounds p : In p xy_three -> (1 <= snd p <= 4 ^ Z.of_nat 3)%Z.
Proof.
  assert (C : forallb (fun p => Z.leb 1 (snd p) && Z.leb (snd p) 64) xy_three = true) by (vm_compute; reflexivity).
  intros I; rewrite forallb_forall in C; apply C in I; apply andb_true_iff in I; destruct I as [I1 I2].
  apply Z.leb_le in I1; apply Z.leb_le in I2; change (4 ^ Z.of_nat 3)%Z with 64%Z; lia.
Qed.
Lemma xy_three_switched : zswitched 1 0 (4 ^ Z.of_nat 3) (zflips xy_three) = (-6)%Z.
Proof. vm_compute; reflexivity. Qed.
Lemma xy_small_switched l : small l -> zswitched 1 0 (4 ^ Z.of_nat l) (zflips (xy_small l)) = 0%Z.
Proof. intros [-> | ->]; vm_compute; reflexivity. Qed.

Theorem xy_refocusing T x l pre name :
  0 < T -> truncates_to x l -> (1 <= l <= 3)%nat ->
  exists s, new_xy_concatenated_sequence T x pre name = Ok s /\
    ((l <= 2)%nat -> refocuses s) /\ (l = 3%nat -> dephases s).
Proof.
  intros HT HX HL.
  destruct (Nat.eq_dec l 3) as [->|NE].
  - exists (sequence_of T name (with_pre_post pre T (map (scale_z (T / 2 ^ (3 * 2))) xy_three))); split.
    + apply (xy_model T x 3 pre name xy_three HT HX); [lia|exact xy_three_slots|exact xy_three_bounds].
    + split; [lia|intros _]; apply dephases_intro; rewrite xy_switched, xy_three_switched.
      assert (U := unit_pos T 3 HT); intros C; nra.
  - assert (SM : small l) by (unfold small; lia).
    exists (sequence_of T name (with_pre_post pre T (map (scale_z (T / 2 ^ (l * 2))) (xy_small l)))); split.
    + apply (xy_model T x l pre name (xy_small l) HT HX); [lia|apply xy_small_slots; auto|intros; apply xy_small_bounds; auto].
    + split; [intros _|lia]; apply refocuses_intro; rewrite xy_switched, xy_small_switched by auto; ring.
Qed.
