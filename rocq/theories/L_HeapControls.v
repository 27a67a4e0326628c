(** * Programs on the heap: predefined controls *)

From Coq Require Import Lia Lra.
From Verif Require Import Spec_Qubit L_Base.
From Verif Require Export L_HeapXY Spec_HeapControls.
Import ListNotations.
Open Scope string_scope.
Open Scope list_scope.
Open Scope R_scope.

Lemma nodup_split {A} (P : A -> bool) : forall l,
  NoDup (filter P l) -> NoDup (filter (fun x => negb (P x)) l) -> NoDup l.
Proof.
  induction l as [|x l IH]; intros N M; [constructor|]; cbn [filter] in *; destruct (P x) eqn:E; cbn [negb] in *.
  - inversion N as [|? ? NI N']; subst; constructor; auto; intros I; apply NI, filter_In; auto.
  - inversion M as [|? ? NI M']; subst; constructor; auto; intros I; apply NI, filter_In; rewrite E; auto.
Qed.

(** arguments that are lists, or arrays of floats made after [h0] *)
Definition fine (h0 h : heap) (a : array_like) : Prop :=
  match a with AList _ _ => True | AArray v => lives h v /\ fresh h0 v /\ c_float (cell_at h (nd_base v)) = true end.
Definition array_bases (l : list array_like) : list nat :=
  flat_map (fun a => match a with AList _ _ => [] | AArray v => [nd_base v] end) l.

Lemma fine_stored h0 h a v : preserves h0 h -> fine h0 h a -> stored h (Some a) v ->
  fresh h0 v /\ filter (fun b => negb (Nat.leb (List.length h) b)) [nd_base v] = array_bases [a].
Proof.
  intros P F [S1 S2]; apply preserves_length in P; destruct a as [f xs|u]; cbn in *.
  - assert (Q := S2 (fun x => x)); unfold fresh in *; split; [lia|]; rewrite (proj2 (Nat.leb_le _ _) Q); auto.
  - destruct F as [[L _] [F C]]; rewrite (S1 C); split; auto.
    rewrite (proj2 (Nat.leb_gt _ _) L); auto.
Qed.

Lemma yields_control h0 h ts r a d name : preserves h0 h -> fine h0 h ts -> fine h0 h r -> fine h0 h a -> fine h0 h d ->
  NoDup (array_bases [r; a; d; ts]) ->
  forall x, x = hDrivenControl ts (Some r) (Some a) (Some d) name h ->
  exists res h', x = (res, h') /\ preserves h0 h' /\
  map_result (control_at h') res = DrivenControl (Spec_Heap.value h ts) (Some (Spec_Heap.value h r)) (Some (Spec_Heap.value h a)) (Some (Spec_Heap.value h d)) name /\
  (forall c, res = Ok c -> (forall v, In v (control_attributes c) -> lives h' v /\ fresh h0 v) /\
     NoDup (map nd_base (control_attributes c))).
Proof.
  intros P FT FR FA FD N x ->.
  assert (AL : forall b, fine h0 h b -> arg_lives h b) by (intros [|v]; cbn; [auto|tauto]).
  destruct (control_heap ts (Some r) (Some a) (Some d) name h (AL ts FT) (AL r FR) (AL a FA) (AL d FD)) as [res [h' [E [P' [V S]]]]].
  exists res, h'; split; auto; split; [apply (preserves_trans _ h); auto|]; split; auto.
  intros c EC; destruct (S c EC) as [L [S1 [S2 [S3 [S4 SE]]]]].
  destruct (fine_stored h0 h ts _ P FT S1) as [F1 B1]; destruct (fine_stored h0 h r _ P FR S2) as [F2 B2].
  destruct (fine_stored h0 h a _ P FA S3) as [F3 B3]; destruct (fine_stored h0 h d _ P FD S4) as [F4 B4].
  split.
  - intros v I; split; auto; destruct I as [<-|[<-|[<-|[<-|[]]]]]; auto.
  - apply (nodup_split (fun b => Nat.leb (List.length h) b)); auto.
    unfold control_attributes; cbn [map].
    assert (AP : forall f (x y z w : nat), filter f [x; y; z; w] = (filter f [x] ++ filter f [y] ++ filter f [z] ++ filter f [w])%list).
    { clear; intros f x y z w; cbn; destruct (f x), (f y), (f z), (f w); auto. }
    rewrite AP, B1, B2, B3, B4; unfold array_bases in *; cbn [flat_map] in *; rewrite !app_nil_r in *; auto.
Qed.

Lemma yields_lists h ft ts fr r fa a fd d name :
  yields h (hDrivenControl (AList ft ts) (Some (AList fr r)) (Some (AList fa a)) (Some (AList fd d)) name)
    (DrivenControl ts (Some r) (Some a) (Some d) name).
Proof.
  apply (yields_control h h (AList ft ts) (AList fr r) (AList fa a) (AList fd d) name (preserves_refl h) I I I I (NoDup_nil _) _ eq_refl).
Qed.

Lemma yields_constant h rotations f a rate name :
  yields h (hconstant_rate_control rotations (AList f a) rate name) (constant_rate_control rotations a rate name).
Proof. apply yields_lists. Qed.

Lemma yields_lift {A} h (r : result A) p q : (forall x, r = Ok x -> yields h (p x) (q x)) -> yields h (pbind (lift r) p) (bind r q).
Proof.
  destruct r as [x|e]; intros H; cbn [bind].
  - destruct (H x eq_refl) as [res [h' K]]; exists res, h'; exact K.
  - exists (Raise e), h; split; [reflexivity|]; split; [apply preserves_refl|]; split; [reflexivity|discriminate].
Qed.

Lemma yields_columns h rate name az t1 p1 t2 p2 t3 p3 :
  yields h (let! ms := for_each [(t1, p1); (t2, p2); (t3, p3)] (hcorpse_rows az) [] in
    let! total_angles := vstack 2 ms in
    let! rotations := get (column total_angles 0 0 9) in
    hDrivenControl (AList true (map (fun r => r / rate) rotations))
      (Some (AList true (repeat rate 9))) (Some (AArray (column total_angles 1 0 9)))
      (Some (AList false (repeat 0 9%nat))) name)
    (let l := flat_map (corpse_rows az) [(t1, p1); (t2, p2); (t3, p3)] in constant_rate_control (map fst l) (map snd l) rate name).
Proof.
  unfold yields; cbn [for_each hcorpse_rows].
  set (rows := fun t p => let k := asin (sin (t / 2) / 2) in
    [2 * PI + t / 2 - k; p + az; 2 * PI - 2 * k; PI + p + az; t / 2 - k; p + az]).
  set (h1 := h ++ [Cell true (rows t1 p1)]); set (h2 := h1 ++ [Cell true (rows t2 p2)]); set (h3 := h2 ++ [Cell true (rows t3 p3)]).
  set (all := rows t1 p1 ++ rows t2 p2 ++ rows t3 p3); set (h4 := h3 ++ [Cell true all]).
  assert (L1 : List.length h1 = S (List.length h)) by (unfold h1; rewrite app_length; cbn; lia).
  assert (L2 : List.length h2 = S (S (List.length h))) by (unfold h2; rewrite app_length, L1; cbn; lia).
  assert (L3 : List.length h3 = S (S (S (List.length h)))) by (unfold h3; rewrite app_length, L2; cbn; lia).
  assert (C1 : contents h3 (whole (List.length h) 6) = rows t1 p1).
  { unfold h3, h2, h1; rewrite <- !app_assoc; apply (contents_new true (rows t1 p1)). }
  assert (C2 : contents h3 (whole (List.length h1) 6) = rows t2 p2).
  { unfold h3, h2; rewrite <- !app_assoc; apply (contents_new true (rows t2 p2)). }
  assert (C3 : contents h3 (whole (List.length h2) 6) = rows t3 p3).
  { unfold h3; apply (contents_new true (rows t3 p3)). }
  set (m := Matrix (whole (List.length h3) 18) 2).
  assert (RUN : forall B (k : matrix -> prog B),
    (let! ms := for_each [(t1, p1); (t2, p2); (t3, p3)] (hcorpse_rows az) [] in let! t := vstack 2 ms in k t) h = k m h4).
  { intros B k; unfold for_each, hcorpse_rows, vstack, read_all, pbind, new, ret, get; cbn [app].
    fold (rows t1 p1) (rows t2 p2) (rows t3 p3).
    change (List.length (rows t1 p1)) with 6%nat; change (List.length (rows t2 p2)) with 6%nat; change (List.length (rows t3 p3)) with 6%nat.
    fold h1; fold h2; fold h3; fold (whole (List.length h) 6); fold (whole (List.length h1) 6); fold (whole (List.length h2) 6).
    rewrite C1, C2, C3, app_nil_r; fold all; fold h4; reflexivity. }
  match goal with |- exists res h', ?p h = _ /\ _ => set (P := p) end.
  set (k := fun t : matrix => let! rotations := get (column t 0 0 9) in
    hDrivenControl (AList true (map (fun r => r / rate) rotations))
      (Some (AList true (repeat rate 9))) (Some (AArray (column t 1 0 9)))
      (Some (AList false (repeat 0 9%nat))) name).
  assert (RP : P h = k m h4) by (rewrite <- (RUN _ k); reflexivity).
  assert (CA : cell_at h4 (List.length h3) = Cell true all) by (unfold h4; apply cell_at_end).
  assert (CO : forall j, contents h4 (column m j 0 9) = map (fun i => nth (nth (i * 2 + j) (seq 0 18) 0%nat) all 0) (seq 0 9)).
  { intros j; unfold contents, column; cbn [nd_base nd_at m m_data m_columns whole]; rewrite CA, map_map; reflexivity. }
  unfold k in RP; rewrite get_run, CO in RP.
  assert (P4 : preserves h h4) by (unfold h4, h3, h2, h1; repeat (eapply preserves_trans; [|apply preserves_new]); apply preserves_refl).
  destruct (yields_control h h4 (AList true (map (fun r => r / rate) (map (fun i => nth (nth (i * 2 + 0) (seq 0 18) 0%nat) all 0) (seq 0 9))))
    (AList true (repeat rate 9)) (AArray (column m 1 0 9)) (AList false (repeat 0 9%nat)) name P4) with (x := P h)
    as [res [h' [E [Q [V S]]]]]; try exact I.
  - cbn [fine]; split; [split|].
    + cbn; unfold h4; rewrite app_length; cbn; lia.
    + cbn [nd_base column m m_data whole]; rewrite CA; cbn [c_values].
      intros p IN; change (List.length all) with 18%nat; cbn in IN; repeat destruct IN as [<-|IN]; try lia; destruct IN.
    + split; [unfold fresh; cbn; lia|cbn [nd_base column m m_data whole]; rewrite CA; auto].
  - cbn; constructor; [auto|constructor].
  - rewrite RP; reflexivity.
  - exists res, h'; split; auto; split; auto; split; auto; rewrite V; cbn [Spec_Heap.value]; rewrite CO; reflexivity.
Qed.

Theorem controls_heap s theta omega phi name h : yields h (hbuild s theta omega phi name) (build s theta omega phi name).
Proof.
  destruct s; cbn [hbuild build].
  - apply yields_lift; intros _ _; apply yields_constant.
  - apply yields_lift; intros _ _; apply yields_lift; intros x _; apply yields_constant.
  - apply yields_lift; intros _ _; apply yields_lift; intros x _; apply yields_constant.
  - apply yields_lift; intros _ _; apply yields_lift; intros x _; apply yields_constant.
  - apply yields_lift; intros _ _; apply yields_constant.
  - apply yields_lift; intros _ _; apply yields_lift; intros x _; apply yields_constant.
  - apply yields_lift; intros _ _; apply yields_lift; intros x _; apply yields_constant.
  - apply yields_lift; intros _ _; apply yields_lift; intros x _; apply yields_columns.
  - apply yields_lift; intros _ _; apply yields_lift; intros x _; destruct (wamf1_thetas theta); apply yields_lists.
Qed.

Theorem gaussian_heap rate mn T f h :
  yields h (hnew_modulated_gaussian_control rate mn T f) (new_modulated_gaussian_control rate mn T f).
Proof.
  unfold hnew_modulated_gaussian_control, new_modulated_gaussian_control.
  do 3 (apply yields_lift; intros _ _); cbv zeta; apply yields_lift; intros _ _.
  set (n := gaussian_segment_count T mn); set (d := T / INR n).
  unfold yields; rewrite new_step.
  set (t0 := map (fun i => INR i * d) (range 0 n)); set (h1 := h ++ [Cell true t0]).
  rewrite get_run; unfold h1 at 1; rewrite contents_new; fold h1; rewrite new_step.
  set (h2 := h1 ++ [Cell true (map (fun t => t + d / 2) t0)]).
  rewrite get_run; unfold h2 at 1; rewrite contents_new; fold h2.
  replace (map (fun t => t + d / 2) t0) with (gaussian_midpoints n d) by (unfold t0, gaussian_midpoints; rewrite map_map; auto).
  assert (P2 : preserves h h2) by (unfold h2, h1; repeat (eapply preserves_trans; [|apply preserves_new]); apply preserves_refl).
  clearbody h2; clear h1 t0.
  unfold pbind at 1, lift at 1; destruct (gaussian_segments rate T f d (gaussian_midpoints n d)) as [segments|e]; cbn [bind].
  2:{ eexists _, _; split; [reflexivity|]; split; auto; split; [reflexivity|discriminate]. }
  destruct (all_finite segments) as [segs|].
  2:{ eexists _, _; split; [reflexivity|]; split; auto; split; [reflexivity|discriminate]. }
  rewrite new_step; set (h3 := h2 ++ [Cell true segs]); rewrite get_run.
  replace (contents h3 (whole (List.length h2) (List.length segs))) with segs by (symmetry; apply contents_new).
  rewrite new_step; set (h4 := h3 ++ [Cell true (map Rabs segs)]).
  rewrite zeros_step; set (h5 := h4 ++ [Cell true (np_zeros n)]); rewrite new_step; set (h6 := h5 ++ [Cell true (repeat d n)]).
  assert (P3 : preserves h h3) by (eapply preserves_trans; [exact P2|apply preserves_new]).
  assert (L3 := preserves_length _ _ P3).
  assert (L4 : List.length h4 = S (List.length h3)) by (unfold h4; rewrite app_length; cbn; lia).
  assert (L5 : List.length h5 = S (S (List.length h3))) by (unfold h5; rewrite app_length, L4; cbn; lia).
  assert (P6 : preserves h h6) by (unfold h6, h5, h4; repeat (eapply preserves_trans; [|apply preserves_new]); auto).
  assert (E6 : h6 = h3 ++ [Cell true (map Rabs segs); Cell true (np_zeros n); Cell true (repeat d n)]).
  { unfold h6, h5, h4; rewrite <- !app_assoc; reflexivity. }
  assert (K1 : cell_at h6 (List.length h3) = Cell true (map Rabs segs)) by (rewrite E6; apply cell_at_end).
  assert (K2 : cell_at h6 (List.length h4) = Cell true (np_zeros n)).
  { rewrite E6, L4, <- Nat.add_1_r; rewrite cell_at_new; reflexivity. }
  assert (K3 : cell_at h6 (List.length h5) = Cell true (repeat d n)) by (apply cell_at_end).
  assert (LN : forall b xs m, cell_at h6 b = Cell true xs -> m = List.length xs -> (List.length h <= b < List.length h6)%nat ->
    fine h h6 (AArray (whole b m)) /\ contents h6 (whole b m) = xs).
  { intros b xs m C -> B; split; [|eapply contents_whole; eauto].
    split; [split; [cbn; lia|]|split; [unfold fresh; cbn; lia|cbn; rewrite C; auto]].
    cbn [whole nd_at nd_base]; intros p I; apply in_seq in I; rewrite C; cbn; lia. }
  assert (L6 : List.length h6 = S (S (S (List.length h3)))) by (unfold h6; rewrite app_length, L5; cbn; lia).
  destruct (LN _ _ _ K1 eq_refl) as [F1 V1]; [lia|].
  destruct (LN _ _ n K2) as [F2 V2]; [symmetry; apply full_length|lia|].
  destruct (LN _ _ _ K3 eq_refl) as [F3 V3]; [lia|].
  destruct (yields_control h h6 (AArray (whole (List.length h5) (List.length (repeat d n)))) (AArray (whole (List.length h3) (List.length (map Rabs segs))))
    (AList true (map (fun v => if leb 0 v then 0 else PI) segs)) (AArray (whole (List.length h4) n)) None P6 F3 F1 I F2)
    with (x := hDrivenControl (AArray (whole (List.length h5) (List.length (repeat d n)))) (Some (AArray (whole (List.length h3) (List.length (map Rabs segs)))))
    (Some (AList true (map (fun v => if leb 0 v then 0 else PI) segs))) (Some (AArray (whole (List.length h4) n))) None h6)
    as [res [h' [E [Q [V S]]]]].
  - cbn; repeat constructor; cbn; lia.
  - reflexivity.
  - exists res, h'; split; auto; split; auto; split; auto; rewrite V; cbn [Spec_Heap.value]; rewrite V1, V2, V3; reflexivity.
Qed.

Lemma yields_independent p r h c h' : yields h p r -> p h = (Ok c, h') ->
  (forall h'', only_below (List.length h) h' h'' -> control_at h'' c = control_at h' c) /\
  (forall v h'' w, In v (control_attributes c) -> only_block v h' h'' ->
     (lives h w -> contents h'' w = contents h w) /\
     (In w (control_attributes c) -> nd_base w <> nd_base v -> contents h'' w = contents h' w)) /\
  (forall v w, In v (control_attributes c) -> In w (control_attributes c) -> nd_base v = nd_base w -> v = w).
Proof.
  intros [res [h1 [E' [P [_ S]]]]] E; rewrite E in E'; injection E' as <- <-.
  destruct (S c eq_refl) as [F N]; split; [|split].
  - intros h'' O; unfold control_at; f_equal; apply (below_contents (List.length h)); auto; apply F; unfold control_attributes; cbn; tauto.
  - intros v h'' w I [_ O]; split.
    + intros L; rewrite <- (preserves_contents h h' w P L); apply contents_cell, O; intros X; assert (Y := proj2 (F v I)); unfold fresh in Y; destruct L; lia.
    + intros _ D; apply contents_cell, O; auto.
  - intros v w I J X; clear - N I J X; revert N I J; generalize (control_attributes c) as l; induction l as [|u l IH]; intros N I J; [destruct I|].
    cbn in N; inversion N as [|? ? NI N']; subst; destruct I as [->|I], J as [->|J]; auto.
    + destruct NI; rewrite X; apply in_map; auto.
    + destruct NI; rewrite <- X; apply in_map; auto.
Qed.
