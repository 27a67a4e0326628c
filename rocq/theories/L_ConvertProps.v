(** * Properties of the conversion *)

From Verif Require Export L_Convert.
Import ListNotations.
Open Scope string_scope.
Open Scope list_scope.
Open Scope R_scope.

Lemma sequence_bounds T n0 l : constructible_sequence (sequence_of T n0 l) ->
  0 < T /\ forall e, In e l -> 0 <= e_time e <= T.
Proof.
  intros C; apply constructible_well_formed in C; destruct C as [HT [B _]]; cbn in *; split; auto.
  intros e I; apply B, in_map; auto.
Qed.

Lemma conversion_result T n0 l maxr maxd mn name c :
  constructible_sequence (sequence_of T n0 l) ->
  convert_dds_to_driven_control (sequence_of T n0 l) maxr maxd mn name = Ok c ->
  0 < T /\ (forall e, In e l -> 0 <= e_time e <= T) /\ convertible maxr maxd mn T l /\
  describes (converted maxr maxd mn T l) c /\ dc_name c = name.
Proof.
  intros CS E; destruct (sequence_bounds _ _ _ CS) as [HT B]; split; auto; split; auto.
  destruct (convert_model T n0 l maxr maxd mn name HT B) as [M1 M2]; rewrite E in M1, M2.
  assert (C : convertible maxr maxd mn T l).
  { apply Classical_Prop.NNPP; intros N; destruct (M2 N) as [s [a [x X]]]; discriminate. }
  split; auto; destruct (M1 C) as [c' [E' D]]; injection E' as <-; auto.
Qed.

(** ** C51: acceptance *)

Theorem conversion_acceptance T n0 l maxr maxd mn name :
  constructible_sequence (sequence_of T n0 l) ->
  let r := convert_dds_to_driven_control (sequence_of T n0 l) maxr maxd mn name in
  (convertible maxr maxd mn T l <-> exists c, r = Ok c) /\
  (forall c, r = Ok c -> dc_name c = name /\ constructible c) /\
  (~ convertible maxr maxd mn T l -> argument_error r).
Proof.
  intros CS r; destruct (sequence_bounds _ _ _ CS) as [HT B].
  destruct (convert_model T n0 l maxr maxd mn name HT B) as [M1 M2]; split; [split|split; auto].
  - intros C; destruct (M1 C) as [c [E _]]; exists c; auto.
  - intros [c E]; apply (conversion_result T n0 l maxr maxd mn name c CS E).
  - intros c E; destruct (conversion_result T n0 l maxr maxd mn name c CS E) as [_ [_ [C [D N]]]]; split; auto.
    destruct C as [Hr [Hd [Hmn [P _]]]].
    assert (V := fun g => converted_valid maxr maxd mn T HT Hr l g P).
    destruct (segments_constructible _ name V) as [c' [E' [D' N']]].
    assert (c' = c).
    { destruct c, c', D as [D1 [D2 [D3 D4]]], D' as [D1' [D2' [D3' D4']]]; cbn in *; congruence. }
    subst c'; do 5 eexists; exact E'.
Qed.

Lemma Forall2_imp {X Y} (P Q : X -> Y -> Prop) a b :
  (forall x y, P x y -> Q x y) -> Forall2 P a b -> Forall2 Q a b.
Proof. intros H F; induction F; constructor; auto. Qed.

Section Converted.
  Variables (maxr maxd mn T : R) (l : list event).
  Hypothesis C : convertible maxr maxd mn T l.
  Hypothesis HT : 0 < T.
  Hypothesis B : forall e, In e l -> 0 <= e_time e <= T.
  Notation E := (with_ends T l).
  Notation W := (pulse_width maxr maxd mn).
  Notation win := (win maxr maxd mn T).
  Notation pulse_seg := (pulse_seg maxr maxd mn).
  Notation weave := (weave maxr maxd mn T).

  Lemma Hr : 0 < maxr. Proof. apply C. Qed.
  Lemma Hd : 0 < maxd. Proof. apply C. Qed.
  Lemma Hmn : 0 <= mn. Proof. apply C. Qed.
  Lemma rabi_pos e : In e E -> 0 <= e_rabi e.
  Proof. intros I; apply with_ends_in in I; destruct I as [I|[->| ->]]; [apply C; auto|cbn; lra|cbn; lra]. Qed.

  Lemma in_converted g : In g (converted maxr maxd mn T l) ->
    0 < g_dur g /\
    ((exists e, In e E /\ g = pulse_seg e) \/
     (g = Seg 0 0 0 (g_dur g) /\ (In (g_dur g) (idle_times maxr maxd mn T l) \/
        allclose0 (map win E) = true /\ g_dur g = T))).
  Proof.
    intros I; split; [apply (converted_valid maxr maxd mn T HT Hr l g); auto; apply C|].
    unfold converted in I; destruct (allclose0 (map win E)) eqn:A.
    - destruct I as [<-|[]]; right; cbn; auto.
    - apply filter_In in I; destruct I as [I L]; apply ltb_true in L.
      apply in_weave in I; destruct I as [I|[Q [I|I]]]; auto; lra.
  Qed.

  Lemma shape : exists e0 mid en, E = e0 :: mid ++ [en] /\ e_time e0 = 0 /\ e_time en = T /\
    forall e, In e mid -> 0 < e_time e < T.
  Proof. apply with_ends_shape; auto; apply C. Qed.

  Lemma not_allclose : / 10 ^ 8 < T -> allclose0 (map win E) = false.
  Proof.
    intros L; destruct (allclose0 (map win E)) eqn:A; auto; exfalso.
    destruct shape as [e0 [mid [en [S [_ [EN _]]]]]]; rewrite S in A.
    unfold allclose0 in A; rewrite forallb_forall in A.
    assert (I : In (win en) (map win (e0 :: mid ++ [en]))).
    { apply in_map; right; apply in_or_app; right; left; auto. }
    apply A in I; apply andb_true_iff in I; destruct I as [_ I].
    rewrite isclose0_dec in I; destruct (Rle_dec (Rabs (snd (win en))) (/ 10 ^ 8)) as [K|]; [|discriminate].
    unfold L_Convert.win, window, centre in K; rewrite EN in K.
    destruct (Req_EM_T T 0); [lra|]; destruct (Req_EM_T T T); [|lra]; cbn [fst snd] in K.
    replace (T - W en / 2 + W en / 2) with T in K by field.
    rewrite Rabs_pos_eq in K; lra.
  Qed.

  Lemma converted_long : / 10 ^ 8 < T -> converted maxr maxd mn T l = filter lasting (weave E).
  Proof. intros L; unfold converted; rewrite not_allclose; auto. Qed.

  (** ** Durations *)

  Lemma total_filter segs : (forall g, In g segs -> 0 <= g_dur g) ->
    total (map g_dur (filter lasting segs)) = total (map g_dur segs).
  Proof.
    induction segs as [|g segs IH]; intros P; [reflexivity|]; cbn [filter map total].
    assert (0 <= g_dur g) by (apply P; left; auto).
    unfold lasting at 1; destruct (ltb 0 (g_dur g)) eqn:L; cbn [map total]; rewrite IH by (intros; apply P; right; auto); auto.
    apply ltb_false in L; lra.
  Qed.

  Lemma pulse_lasting e segs : total (map g_dur (filter lasting (pulse_seg e :: segs))) = W e + total (map g_dur (filter lasting segs)).
  Proof.
    cbn [filter]; unfold lasting at 1; rewrite pulse_seg_dur; assert (0 <= W e) by apply width_nonneg, Hmn.
    destruct (ltb 0 (W e)) eqn:L; cbn [map total]; [rewrite pulse_seg_dur; auto|]; apply ltb_false in L; lra.
  Qed.
  Lemma gap_lasting x segs : total (map g_dur (filter lasting (Seg 0 0 0 x :: segs))) = x + Rmax 0 (- x) + total (map g_dur (filter lasting segs)).
  Proof.
    cbn [filter]; unfold lasting at 1; cbn [g_dur]; destruct (ltb 0 x) eqn:L; cbn [map total g_dur].
    - apply ltb_true in L; rewrite Rmax_left by lra; ring.
    - apply ltb_false in L; rewrite Rmax_right by lra; ring.
  Qed.
  Lemma win_width e : snd (win e) = fst (win e) + W e.
  Proof. unfold L_Convert.win, window; cbn [fst snd]; field. Qed.

  Lemma weave_total F : forall e,
    total (map g_dur (filter lasting (weave (e :: F)))) =
    snd (win (last (e :: F) e)) - fst (win e) + overlap (gaps (map win (e :: F))).
  Proof.
    induction F as [|f F IH]; intros e.
    - cbn [L_Convert.weave gap_after]; rewrite pulse_lasting, gap_lasting; cbn [filter map total last gaps].
      unfold overlap; cbn [map total gaps]; destruct (win e) eqn:Q; rewrite <- Q, win_width, Q; cbn [fst].
      rewrite Ropp_0, Rmax_left by lra; cbn; ring.
    - change (weave (e :: f :: F)) with (pulse_seg e :: Seg 0 0 0 (fst (win f) - snd (win e)) :: weave (f :: F)).
      rewrite pulse_lasting, gap_lasting, IH.
      change (last (e :: f :: F) e) with (last (f :: F) e).
      assert (LE : forall d d' : event, last (f :: F) d = last (f :: F) d').
      { clear; intros d d'; revert f; induction F as [|g F IH]; intros f; auto; apply (IH g). }
      rewrite (LE e f).
      assert (G : gaps (map win (e :: f :: F)) = (fst (win f) - snd (win e)) :: gaps (map win (f :: F))).
      { cbn [map gaps]; destruct (win e), (win f); reflexivity. }
      rewrite G; unfold overlap; cbn [map total]; rewrite win_width; ring.
  Qed.

  Lemma first_last : exists e0 F, E = e0 :: F /\ fst (win e0) = 0 /\ snd (win (last (e0 :: F) e0)) = T.
  Proof.
    destruct shape as [e0 [mid [en [S [E0 [EN _]]]]]]; exists e0, (mid ++ [en]); split; auto; split.
    - unfold L_Convert.win, window, centre; rewrite E0; destruct (Req_EM_T 0 0); [cbn; lra|lra].
    - change (e0 :: mid ++ [en]) with ((e0 :: mid) ++ [en]); rewrite last_last.
      unfold L_Convert.win, window, centre; rewrite EN; destruct (Req_EM_T T 0); [lra|]; destruct (Req_EM_T T T); [cbn; lra|lra].
  Qed.

  Lemma converted_total : / 10 ^ 8 < T ->
    total (map g_dur (converted maxr maxd mn T l)) = T + overlap (idle_times maxr maxd mn T l).
  Proof.
    intros L; rewrite converted_long by auto; destruct first_last as [e0 [F [S [A Z]]]]; unfold idle_times.
    change (map (fun e => window T (W e) (e_time e)) E) with (map win E).
    rewrite S, weave_total, A, Z; ring.
  Qed.

  Lemma gaps_length F : List.length (gaps F) = (List.length F - 1)%nat.
  Proof. induction F as [|[a b] [|[c d] F] IH]; auto; cbn [gaps List.length] in *; rewrite IH; lia. Qed.
  Lemma with_ends_length : (List.length E <= List.length l + 2)%nat.
  Proof.
    clear C B; unfold with_ends; rewrite !app_length.
    destruct (Req_EM_T (e_time (last l (idle 0))) T); destruct l as [|ev l']; try destruct (Req_EM_T (e_time ev) 0);
      cbn [List.length]; lia.
  Qed.

  Lemma overlap_bounds : 0 <= overlap (idle_times maxr maxd mn T l) <= INR (List.length l + 1) / 10 ^ 8.
  Proof.
    destruct C as [_ [_ [M [_ [_ [_ G]]]]]].
    assert (K : forall gs, (forall g, In g gs -> long_enough mn g) -> 0 <= overlap gs <= INR (List.length gs) / 10 ^ 8).
    { assert (P : 0 < / 10 ^ 8) by (apply Rinv_0_lt_compat, pow_lt; lra).
      induction gs as [|g gs IH]; intros H; [unfold overlap; cbn; lra|].
      destruct IH as [I1 I2]; [intros; apply H; right; auto|].
      specialize (H g (or_introl eq_refl)); unfold overlap in *; cbn [map total]; cbn [List.length]; rewrite (S_INR (List.length gs)).
      assert (0 <= Rmax 0 (- g) <= / 10 ^ 8); [|lra].
      split; [apply Rmax_l|]; apply Rmax_lub; [lra|].
      destruct H as [H|H]; [lra|]; unfold near in H; rewrite (Rabs_pos_eq mn) in H by auto.
      assert (A := Rle_abs (- (g - mn))); rewrite Rabs_Ropp in A; lra. }
    destruct (K _ G) as [K1 K2]; split; auto; eapply Rle_trans; [exact K2|].
    apply Rmult_le_compat_r; [left; apply Rinv_0_lt_compat, pow_lt; lra|].
    apply le_INR; unfold idle_times; rewrite gaps_length, map_length; assert (X := with_ends_length); lia.
  Qed.

  Lemma no_overlap gs : overlap gs = 0 <-> forall g, In g gs -> 0 <= g.
  Proof.
    assert (N : forall gs, 0 <= overlap gs).
    { clear; induction gs as [|g gs IH]; unfold overlap in *; cbn [map total]; [lra|]; assert (0 <= Rmax 0 (- g)) by apply Rmax_l; lra. }
    induction gs as [|g gs IH]; [split; [intros _ g []|reflexivity]|].
    unfold overlap in *; cbn [map total]; assert (P := N gs); unfold overlap in P.
    assert (M0 : 0 <= Rmax 0 (- g)) by apply Rmax_l; assert (M1 : - g <= Rmax 0 (- g)) by apply Rmax_r; split.
    - intros H g' [<-|I]; [lra|]; apply IH; auto; lra.
    - intros H; rewrite (proj2 IH) by (intros; apply H; right; auto).
      rewrite Rmax_left; [ring|]; assert (0 <= g) by (apply H; left; auto); lra.
  Qed.

  Lemma long_enough_pos g : 11 / 10 / 10 ^ 8 <= mn -> long_enough mn g -> 0 <= g.
  Proof.
    intros M [H|H]; [assert (Q := Hmn); lra|].
    unfold near in H; rewrite (Rabs_pos_eq mn Hmn) in H.
    assert (A := Rle_abs (- (g - mn))); rewrite Rabs_Ropp in A; lra.
  Qed.

  (** ** Rotations *)

  Lemma pulse_seg_effective e : In e E -> effective e = true ->
    active (pulse_seg e) = true /\ lasting (pulse_seg e) = true /\ performs e (pulse_seg e) /\
    g_dur (pulse_seg e) = W e.
  Proof.
    intros I F; assert (P := rabi_pos e I); rewrite pulse_seg_dur; unfold effective in F.
    assert (S0 : 0 < / 10 ^ 8) by (apply Rinv_0_lt_compat, pow_lt; lra).
    unfold lasting; rewrite pulse_seg_dur; unfold active, performs, negligible, L_Convert.pulse_seg.
    destruct (Rle_dec (Rabs (e_rabi e)) (/ 10 ^ 8)) as [A|A].
    - destruct (Rle_dec (Rabs (e_det e)) (/ 10 ^ 8)) as [D|D]; [discriminate|].
      destruct (width_det maxr maxd mn Hd e A) as [_ Q]; [lra|]; cbn [g_rabi g_det g_phi g_dur].
      assert (e_det e <> 0) by (intros Z; rewrite Z, Rabs_R0 in D; lra).
      repeat split.
      + destruct (Req_EM_T 0 0); [|lra]; destruct (Req_EM_T (e_det e / W e) 0) as [Z|]; auto.
        exfalso; apply H; apply (f_equal (Rmult (W e))) in Z; rewrite Rmult_0_r in Z; rewrite <- Z; field; lra.
      + apply ltb_true; auto.
      + right; repeat split; auto; field; lra.
    - destruct (width_rabi maxr maxd mn Hr e P) as [_ Q]; [lra|]; cbn [g_rabi g_det g_phi g_dur].
      assert (e_rabi e <> 0) by (intros Z; rewrite Z, Rabs_R0 in A; lra).
      repeat split.
      + destruct (Req_EM_T (e_rabi e / W e) 0) as [Z|]; auto.
        exfalso; apply H; apply (f_equal (Rmult (W e))) in Z; rewrite Rmult_0_r in Z; rewrite <- Z; field; lra.
      + apply ltb_true; auto.
      + left; repeat split; auto; field; lra.
  Qed.
  Lemma pulse_seg_idle e : effective e = false -> pulse_seg e = Seg 0 0 0 0 /\ W e = 0.
  Proof.
    unfold effective, L_Convert.pulse_seg, pulse_width; destruct (Rle_dec (Rabs (e_rabi e)) (/ 10 ^ 8)); [|discriminate].
    destruct (Rle_dec (Rabs (e_det e)) (/ 10 ^ 8)); [auto|discriminate].
  Qed.
  Lemma idle_inactive x : active (Seg 0 0 0 x) = false.
  Proof. unfold active; cbn; destruct (Req_EM_T 0 0); auto; lra. Qed.
  Lemma zero_not_lasting : lasting (Seg 0 0 0 0) = false.
  Proof. unfold lasting; cbn; apply ltb_false; lra. Qed.
  Lemma effective_idle t : effective (idle t) = false.
  Proof.
    assert (S0 : 0 < / 10 ^ 8) by (apply Rinv_0_lt_compat, pow_lt; lra).
    unfold effective; cbn [idle e_rabi e_det]; rewrite Rabs_R0; destruct (Rle_dec 0 (/ 10 ^ 8)); auto; lra.
  Qed.
  Lemma effective_with_ends : filter effective E = filter effective l.
  Proof.
    clear C B; unfold with_ends; rewrite !filter_app.
    assert (A : filter effective match l with [] => [idle 0] | e :: _ => if Req_EM_T (e_time e) 0 then [] else [idle 0] end = []).
    { destruct l as [|ev l']; [|destruct (Req_EM_T (e_time ev) 0)]; cbn [filter]; rewrite ?effective_idle; auto. }
    assert (Z : filter effective (if Req_EM_T (e_time (last l (idle 0))) T then [] else [idle T]) = []).
    { destruct (Req_EM_T (e_time (last l (idle 0))) T); cbn [filter]; rewrite ?effective_idle; auto. }
    rewrite A, Z, app_nil_r; auto.
  Qed.

  Lemma active_weave F : (forall e, In e F -> In e E) ->
    filter active (filter lasting (weave F)) = map pulse_seg (filter effective F).
  Proof.
    induction F as [|e F IH]; intros S; [reflexivity|].
    assert (IH' := IH (fun x I => S x (or_intror I))).
    assert (G : filter active (filter lasting (Seg 0 0 0 (gap_after maxr maxd mn T F e) :: weave F)) =
                filter active (filter lasting (weave F))).
    { cbn [filter]; destruct (lasting (Seg 0 0 0 (gap_after maxr maxd mn T F e))); auto.
      cbn [filter]; rewrite idle_inactive; auto. }
    cbn [L_Convert.weave]; cbn [filter] in *; destruct (effective e) eqn:Ef.
    - destruct (pulse_seg_effective e (S e (or_introl eq_refl)) Ef) as [A [L _]]; rewrite L; cbn [filter map]; rewrite A.
      f_equal; rewrite <- IH'; exact G.
    - destruct (pulse_seg_idle e Ef) as [-> _]; rewrite zero_not_lasting, <- IH'; exact G.
  Qed.

  (** ** Timing *)

  Lemma midpoints_weave F : forall e t s, (forall x, In x (e :: F) -> In x E) -> 0 <= s -> t = fst (win e) + s ->
    Forall2 (fun e0 p => performs e0 (snd p) /\ g_dur (snd p) = W e0 /\
        centre T (W e0) (e_time e0) <= fst p <= centre T (W e0) (e_time e0) + s + overlap (gaps (map win (e :: F))))
      (filter effective (e :: F))
      (filter (fun p => active (snd p)) (midpoints t (filter lasting (weave (e :: F))))).
  Proof.
    assert (OV : forall gs, 0 <= overlap gs).
    { clear; induction gs as [|g gs IH]; unfold overlap in *; cbn [map total]; [lra|]; assert (0 <= Rmax 0 (- g)) by apply Rmax_l; lra. }
    induction F as [|f F IH]; intros e t s S Hs Ht.
    - cbn [L_Convert.weave gap_after filter]; rewrite zero_not_lasting.
      destruct (effective e) eqn:Ef.
      + destruct (pulse_seg_effective e (S e (or_introl eq_refl)) Ef) as [A [L [P D]]]; rewrite L; cbn [midpoints filter snd]; rewrite A.
        constructor; [|constructor]; cbn [fst snd]; split; auto; split; auto.
        rewrite D, Ht; unfold L_Convert.win, window; cbn [fst]; cbn [map]; assert (Q := OV (gaps [win e])).
        unfold L_Convert.win, window in Q; lra.
      + destruct (pulse_seg_idle e Ef) as [-> _]; rewrite zero_not_lasting; constructor.
    - assert (G : gaps (map win (e :: f :: F)) = (fst (win f) - snd (win e)) :: gaps (map win (f :: F))).
      { cbn [map gaps]; destruct (win e), (win f); reflexivity. }
      rewrite G; set (g := fst (win f) - snd (win e)) in *.
      assert (OG : overlap (g :: gaps (map win (f :: F))) = Rmax 0 (- g) + overlap (gaps (map win (f :: F)))) by reflexivity.
      assert (M0 : 0 <= Rmax 0 (- g)) by apply Rmax_l. assert (Q := OV (gaps (map win (f :: F)))).
      assert (Rest : forall u, u = snd (win e) + s ->
        Forall2 (fun e0 p => performs e0 (snd p) /\ g_dur (snd p) = W e0 /\
            centre T (W e0) (e_time e0) <= fst p <= centre T (W e0) (e_time e0) + s + overlap (g :: gaps (map win (f :: F))))
          (filter effective (f :: F))
          (filter (fun p => active (snd p)) (midpoints u (filter lasting (Seg 0 0 0 g :: weave (f :: F)))))).
      { intros u Hu.
        assert (K : forall v, v = fst (win f) + (s + Rmax 0 (- g)) ->
          Forall2 (fun e0 p => performs e0 (snd p) /\ g_dur (snd p) = W e0 /\
            centre T (W e0) (e_time e0) <= fst p <= centre T (W e0) (e_time e0) + s + overlap (g :: gaps (map win (f :: F))))
          (filter effective (f :: F))
          (filter (fun p => active (snd p)) (midpoints v (filter lasting (weave (f :: F)))))).
        { intros v Hv; assert (X := IH f v (s + Rmax 0 (- g)) (fun x I => S x (or_intror I)) ltac:(lra) Hv).
          eapply Forall2_imp; [|exact X]; cbv beta; intros e0 p [X1 [X2 X3]]; rewrite OG; repeat split; auto; lra. }
        remember (weave (f :: F)) as wf; cbn [filter]; unfold lasting at 1; cbn [g_dur]; destruct (ltb 0 g) eqn:L.
        - apply ltb_true in L; cbn [midpoints filter snd]; rewrite idle_inactive; cbn [g_dur]; apply K.
          rewrite Rmax_left by lra; rewrite Hu; unfold g; ring.
        - apply ltb_false in L; apply K; rewrite Rmax_right by lra; rewrite Hu; unfold g; ring. }
      change (weave (e :: f :: F)) with (pulse_seg e :: Seg 0 0 0 g :: weave (f :: F)).
      remember (Seg 0 0 0 g :: weave (f :: F)) as R eqn:ER.
      change (filter effective (e :: f :: F)) with (if effective e then e :: filter effective (f :: F) else filter effective (f :: F)).
      cbn [filter]; destruct (effective e) eqn:Ef.
      + destruct (pulse_seg_effective e (S e (or_introl eq_refl)) Ef) as [A [L [P D]]]; rewrite L; cbn [midpoints filter snd]; rewrite A.
        constructor.
        * cbn [fst snd]; split; auto; split; auto; rewrite D, Ht, OG.
          assert (FW : fst (win e) = centre T (W e) (e_time e) - W e / 2) by reflexivity; rewrite FW; lra.
        * rewrite D; subst R; apply Rest; rewrite win_width, Ht; ring.
      + destruct (pulse_seg_idle e Ef) as [-> W0]; rewrite zero_not_lasting; subst R; apply Rest.
        rewrite win_width, Ht, W0; ring.
  Qed.

  (** ** Net operation *)

  Lemma qseg_rescale x y z w : 0 < w -> qseg (x / w) (y / w) (z / w) w = qseg x y z 1.
  Proof.
    intros Hw; unfold qseg.
    assert (N : sqrt ((x / w) ^ 2 + (y / w) ^ 2 + (z / w) ^ 2) = sqrt (x ^ 2 + y ^ 2 + z ^ 2) / w).
    { replace ((x / w) ^ 2 + (y / w) ^ 2 + (z / w) ^ 2) with ((x ^ 2 + y ^ 2 + z ^ 2) / Rsqr w) by (unfold Rsqr; field; lra).
      rewrite sqrt_div_alt by (unfold Rsqr; nra); rewrite sqrt_Rsqr by lra; auto. }
    rewrite N; set (n := sqrt (x ^ 2 + y ^ 2 + z ^ 2)).
    replace (n / w * w) with (n * 1) by (field; lra).
    destruct (Req_dec n 0) as [Z|Z].
    - rewrite Z; replace (0 * 1 / 2) with 0 by field; rewrite sin_0; apply q_eq; cbn; ring.
    - apply q_eq; cbn; auto; field; lra.
  Qed.

  Lemma idle_unitary x : noisy_segment 0 0 (Seg 0 0 0 x) = mone.
  Proof.
    unfold noisy_segment; cbn [g_rabi g_phi g_det g_dur]; rewrite segment_unitary_qmat.
    replace ((1 + 0) * 0 * cos 0) with 0 by ring; replace ((1 + 0) * 0 * sin 0) with 0 by ring; rewrite Rplus_0_r.
    rewrite <- qmat_one; f_equal; unfold qseg; rewrite !pow_ne_zero, !Rplus_0_r, sqrt_0 by discriminate.
    rewrite Rmult_0_l; replace (0 / 2) with 0 by field; rewrite sin_0, cos_0; apply q_eq; cbn; ring.
  Qed.

  Lemma pulse_seg_unitary e : In e E -> clean e -> noisy_segment 0 0 (pulse_seg e) = pulse_unitary e.
  Proof.
    assert (S0 : 0 < / 10 ^ 8) by (apply Rinv_0_lt_compat, pow_lt; lra).
    intros I K; unfold pulse_unitary; assert (P := rabi_pos e I).
    unfold L_Convert.pulse_seg, negligible in *; destruct K as [[D K]|[R0 K]].
    - rewrite D; destruct (Rle_dec (Rabs (e_rabi e)) (/ 10 ^ 8)) as [A|A].
      + destruct K as [K|K]; [|contradiction]; rewrite Rabs_R0.
        destruct (Rle_dec 0 (/ 10 ^ 8)); [|lra]; rewrite idle_unitary, K, !Rmult_0_l.
        rewrite segment_unitary_qmat, <- qmat_one; f_equal; unfold qseg; rewrite !pow_ne_zero, !Rplus_0_r, sqrt_0 by discriminate.
        rewrite Rmult_0_l; replace (0 / 2) with 0 by field; rewrite sin_0, cos_0; apply q_eq; cbn; ring.
      + destruct (width_rabi maxr maxd mn Hr e P) as [_ Q]; [lra|].
        unfold noisy_segment; cbn [g_rabi g_phi g_det g_dur]; rewrite !segment_unitary_qmat; f_equal.
        rewrite <- (qseg_rescale _ _ 0 (W e) Q); f_equal; field; lra.
    - rewrite R0, Rabs_R0; destruct (Rle_dec 0 (/ 10 ^ 8)); [|lra].
      destruct (Rle_dec (Rabs (e_det e)) (/ 10 ^ 8)) as [A|A]; [contradiction|].
      destruct (width_det maxr maxd mn Hd e) as [_ Q]; [rewrite R0, Rabs_R0; lra|lra|].
      unfold noisy_segment; cbn [g_rabi g_phi g_det g_dur]; rewrite !segment_unitary_qmat; f_equal.
      rewrite !Rmult_0_l, <- (qseg_rescale 0 0 (e_det e) (W e) Q); f_equal; field; lra.
  Qed.

  Lemma weave_evolution F : (forall e, In e F -> In e E /\ clean e) ->
    noisy_evolution 0 0 (filter lasting (weave F)) = pulse_product F.
  Proof.
    induction F as [|e F IH]; intros S; [reflexivity|].
    assert (IH' := IH (fun x I => S x (or_intror I))); destruct (S e (or_introl eq_refl)) as [I K].
    assert (U := pulse_seg_unitary e I K).
    cbn [L_Convert.weave pulse_product]; rewrite <- IH', <- U.
    assert (G : forall g segs, noisy_segment 0 0 g = mone -> noisy_evolution 0 0 (filter lasting (g :: segs)) = noisy_evolution 0 0 (filter lasting segs)).
    { intros g segs H; cbn [filter]; destruct (lasting g); auto; cbn [noisy_evolution]; rewrite H, mmul_1_r; auto. }
    remember (Seg 0 0 0 (gap_after maxr maxd mn T F e) :: weave F) as R eqn:ER.
    assert (GR : noisy_evolution 0 0 (filter lasting R) = noisy_evolution 0 0 (filter lasting (weave F))).
    { subst R; apply G, idle_unitary. }
    cbn [filter]; destruct (lasting (pulse_seg e)) eqn:L.
    - cbn [noisy_evolution]; rewrite GR; auto.
    - destruct (effective e) eqn:Ef; [destruct (pulse_seg_effective e I Ef) as [_ [X _]]; congruence|].
      destruct (pulse_seg_idle e Ef) as [-> _]; rewrite idle_unitary, mmul_1_r; exact GR.
  Qed.
End Converted.
