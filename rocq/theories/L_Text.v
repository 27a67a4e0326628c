(** * Readers invert the text encoders *)

From Coq Require Import Ascii Lia.
From Verif Require Export L_DrivenExport Spec_Text.
Import ListNotations.
Open Scope string_scope.
Open Scope list_scope.

Lemma sapp_assoc (a b c : string) : ((a ++ b) ++ c = a ++ (b ++ c))%string.
Proof. induction a; cbn; f_equal; auto. Qed.
Lemma sapp_nil (a : string) : (a ++ "" = a)%string.
Proof. induction a; cbn; f_equal; auto. Qed.
Lemma snoc_app s c r : (snoc s c ++ r = s ++ String c r)%string.
Proof. unfold snoc; rewrite sapp_assoc; reflexivity. Qed.

(** ** Lexing *)

(** [r] is at the end of the text or starts with a character that ends a number *)
Definition ends (r : string) : Prop :=
  match r with EmptyString => True | String c _ => number_char c = false end.

(** text [s] stands for the tokens [ts] *)
Definition lexes (s : string) (ts : list token) : Prop :=
  forall r, ends r -> lex Outside (s ++ r) = option_map (app ts) (lex Outside r).

Lemma lex_cons ts st c s st' : lexer_step st c = Some (ts, st') -> lex st (String c s) = option_map (app ts) (lex st' s).
Proof. intros E; cbn [lex]; rewrite E; destruct (lex st' s); reflexivity. Qed.

Lemma option_map_nil {A} (o : option (list A)) : option_map (app []) o = o.
Proof. destruct o; reflexivity. Qed.

Lemma lex_spaces n r : lex Outside (spaces n ++ r) = lex Outside r.
Proof.
  induction n as [|n IH]; auto; cbn [spaces append]; rewrite (lex_cons [] _ _ _ Outside) by reflexivity.
  rewrite IH, option_map_nil; auto.
Qed.
Lemma lex_newline n r : lex Outside (newline_indent n ++ r) = lex Outside r.
Proof.
  unfold newline_indent; rewrite sapp_assoc; change (newline ++ (spaces (4 * n) ++ r))%string with (String (ascii_of_nat 10) (spaces (4 * n) ++ r)).
  rewrite (lex_cons [] _ _ _ Outside) by reflexivity; rewrite lex_spaces, option_map_nil; auto.
Qed.

Lemma lex_escape_char acc c r : lex (InString acc) (escape_char c ++ r) = lex (InString (snoc acc c)) r.
Proof.
  destruct c as [[] [] [] [] [] [] [] []];
    match goal with |- lex _ (escape_char ?c ++ _) = _ => let e := eval vm_compute in (escape_char c) in change (escape_char c) with e end;
    cbn [append];
    repeat match goal with |- lex ?st (String ?c _) = _ =>
      let x := eval cbv -[snoc] in (lexer_step st c) in
      match x with Some (?ts, ?st') => rewrite (lex_cons ts st c _ st') by reflexivity; rewrite option_map_nil end end; reflexivity.
Qed.

Lemma lex_escape s : forall acc r, lex (InString acc) (escape s ++ r) = lex (InString (acc ++ s)) r.
Proof.
  induction s as [|c s IH]; intros acc r; cbn [escape]; [rewrite sapp_nil; auto|].
  rewrite sapp_assoc, lex_escape_char, IH, snoc_app; auto.
Qed.

Lemma lex_string s r : lex Outside (json_string s ++ r) = option_map (app [TString s]) (lex Outside r).
Proof.
  unfold json_string, quote, chr; rewrite !sapp_assoc; cbn [append].
  rewrite (lex_cons [] _ _ _ (InString "")) by reflexivity; rewrite option_map_nil, lex_escape; cbn [append].
  apply lex_cons; reflexivity.
Qed.

Lemma lex_in_number t : forall acc r, (forall c, In c (list_ascii_of_string t) -> number_char c = true) -> ends r ->
  lex (InNumber acc) (t ++ r) = option_map (app [TNumber (acc ++ t)%string]) (lex Outside r).
Proof.
  induction t as [|c t IH]; intros acc r N E; cbn [append].
  - rewrite sapp_nil; destruct r as [|c r]; [reflexivity|].
    cbn in E; cbn [lex lexer_step]; rewrite E; destruct (outside c) as [[ts st]|]; auto.
    destruct (lex st r); reflexivity.
  - rewrite (lex_cons [] _ _ _ (InNumber (snoc acc c))).
    + rewrite option_map_nil, IH; auto; [rewrite snoc_app; auto|intros c' I; apply N; right; auto].
    + cbn; rewrite (N c) by (left; auto); auto.
Qed.

Lemma number_outside c : number_char c = true -> outside c = Some ([], InNumber (String c "")).
Proof. destruct c as [[] [] [] [] [] [] [] []]; vm_compute; intros H; congruence. Qed.

Lemma lexes_number t : number_text t -> lexes t [TNumber t].
Proof.
  intros [NE N] r E; destruct t as [|c t]; [congruence|]; cbn [append].
  rewrite (lex_cons [] _ _ _ (InNumber (String c ""))), option_map_nil, lex_in_number; auto.
  - intros c' I; apply N; right; auto.
  - apply number_outside, N; left; auto.
Qed.

Lemma lexes_string s : lexes (json_string s) [TString s].
Proof. intros r _; apply lex_string. Qed.

(** tokens separated by commas *)
Fixpoint comma_join (l : list (list token)) : list token :=
  match l with
  | [] => []
  | [x] => x
  | x :: l' => x ++ Comma :: comma_join l'
  end.

Lemma omap_app {A} (a b : list A) o : option_map (app a) (option_map (app b) o) = option_map (app (a ++ b)) o.
Proof. destruct o; cbn; rewrite ?app_assoc; auto. Qed.

Lemma lexes_join level texts tokss : Forall2 lexes texts tokss -> texts <> [] ->
  lexes (str_join ("," ++ newline_indent level) texts) (comma_join tokss).
Proof.
  intros F; induction F as [|x ts texts tokss L F IH]; [congruence|]; intros _ r E.
  destruct F as [|y us texts tokss L' F]; [apply L; auto|].
  specialize (IH ltac:(discriminate) r E).
  change (str_join ("," ++ newline_indent level) (x :: y :: texts)) with
    (x ++ ("," ++ newline_indent level) ++ str_join ("," ++ newline_indent level) (y :: texts))%string.
  set (J := str_join ("," ++ newline_indent level) (y :: texts)) in *.
  change (comma_join (ts :: us :: tokss)) with (ts ++ Comma :: comma_join (us :: tokss)).
  rewrite !sapp_assoc, L by (cbn; reflexivity).
  cbn [append]; rewrite (lex_cons [Comma] _ _ _ Outside) by reflexivity.
  rewrite lex_newline, IH, !omap_app; f_equal; f_equal; rewrite <- app_assoc; reflexivity.
Qed.

(** ** Tokens of a value *)

Section JsonInd.
  Context (P : json -> Prop) (Hn : forall t, P (JNumber t)) (Hs : forall s, P (JString s))
    (Ha : forall l, Forall P l -> P (JArray l)) (Ho : forall l, Forall (fun kv => P (snd kv)) l -> P (JObject l)).
  Fixpoint json_induction (v : json) : P v :=
    match v with
    | JNumber t => Hn t
    | JString s => Hs s
    | JArray l => Ha l ((fix go l : Forall P l := match l with [] => Forall_nil _ | x :: l' => Forall_cons _ (json_induction x) (go l') end) l)
    | JObject l => Ho l ((fix go l : Forall (fun kv => P (snd kv)) l :=
        match l with [] => Forall_nil _ | x :: l' => Forall_cons _ (json_induction (snd x)) (go l') end) l)
    end.
End JsonInd.

Fixpoint tokens (v : json) : list token :=
  match v with
  | JNumber t => [TNumber t]
  | JString s => [TString s]
  | JArray l => OpenBracket :: comma_join (map tokens l) ++ [CloseBracket]
  | JObject l => OpenBrace :: comma_join (map (fun kv => TString (fst kv) :: Colon :: tokens (snd kv)) l) ++ [CloseBrace]
  end.

Lemma lexes_value v : (forall t, In t (json_numbers v) -> number_text t) -> forall level, lexes (json_text level v) (tokens v).
Proof.
  induction v as [t|s|l IH|l IH] using json_induction; intros N level.
  - apply lexes_number, N; left; auto.
  - apply lexes_string.
  - destruct l as [|x l]; [intros r E; cbn [json_text append]; rewrite (lex_cons [OpenBracket] _ _ _ Outside) by reflexivity; rewrite (lex_cons [CloseBracket] _ _ _ Outside) by reflexivity; rewrite omap_app; reflexivity|].
    set (m := x :: l) in *; intros r E.
    assert (F : Forall2 lexes (map (json_text (S level)) m) (map tokens m)).
    { assert (N' : forall y, In y m -> forall t, In t (json_numbers y) -> number_text t).
      { intros y I t J; apply N; cbn [json_numbers]; apply in_flat_map; exists y; auto. }
      clear - IH N'; induction IH as [|y m H IH IH']; [constructor|]; cbn [map]; constructor.
      - apply H; apply N'; left; auto.
      - apply IH'; intros z I; apply N'; right; auto. }
    change (json_text level (JArray m)) with ("[" ++ newline_indent (S level) ++
      str_join ("," ++ newline_indent (S level)) (map (json_text (S level)) m) ++ newline_indent level ++ "]")%string.
    assert (LJ := lexes_join (S level) _ _ F ltac:(discriminate)); set (J := str_join _ _) in *.
    rewrite !sapp_assoc; cbn [append]; rewrite (lex_cons [OpenBracket] _ _ _ Outside) by reflexivity.
    rewrite lex_newline, LJ by (cbn; reflexivity).
    rewrite lex_newline; cbn [append]; rewrite (lex_cons [CloseBracket] _ _ _ Outside) by reflexivity.
    rewrite !omap_app; f_equal; f_equal; cbn [tokens]; rewrite <- ?app_assoc; reflexivity.
  - destruct l as [|x l]; [intros r E; cbn [json_text append]; rewrite (lex_cons [OpenBrace] _ _ _ Outside) by reflexivity; rewrite (lex_cons [CloseBrace] _ _ _ Outside) by reflexivity; rewrite omap_app; reflexivity|].
    set (m := x :: l) in *; intros r E.
    assert (F : Forall2 lexes (map (fun kv => (json_string (fst kv) ++ ": " ++ json_text (S level) (snd kv))%string) m)
       (map (fun kv => TString (fst kv) :: Colon :: tokens (snd kv)) m)).
    { assert (N' : forall y, In y m -> forall t, In t (json_numbers (snd y)) -> number_text t).
      { intros y I t J; apply N; cbn [json_numbers]; apply in_flat_map; exists y; auto. }
      clear - IH N'; induction IH as [|y m H IH IH']; [constructor|]; cbn [map]; constructor.
      - intros r E; rewrite !sapp_assoc, lex_string; cbn [append].
        rewrite (lex_cons [Colon] _ _ _ Outside) by reflexivity; rewrite (lex_cons [] _ _ _ Outside) by reflexivity.
        rewrite H by (auto; apply N'; left; auto); rewrite !omap_app; reflexivity.
      - apply IH'; intros z I; apply N'; right; auto. }
    change (json_text level (JObject m)) with ("{" ++ newline_indent (S level) ++
      str_join ("," ++ newline_indent (S level)) (map (fun kv => (json_string (fst kv) ++ ": " ++ json_text (S level) (snd kv))%string) m) ++ newline_indent level ++ "}")%string.
    assert (LJ := lexes_join (S level) _ _ F ltac:(discriminate)); set (J := str_join _ _) in *.
    rewrite !sapp_assoc; cbn [append]; rewrite (lex_cons [OpenBrace] _ _ _ Outside) by reflexivity.
    rewrite lex_newline, LJ by (cbn; reflexivity).
    rewrite lex_newline; cbn [append]; rewrite (lex_cons [CloseBrace] _ _ _ Outside) by reflexivity.
    rewrite !omap_app; f_equal; f_equal; cbn [tokens]; rewrite <- ?app_assoc; reflexivity.
Qed.

(** ** Parsing *)

Lemma tokens_head v : exists t r, tokens v = t :: r /\ t <> CloseBracket /\ t <> CloseBrace.
Proof. destruct v; cbn; do 2 eexists; (split; [reflexivity|split; discriminate]). Qed.

Lemma parse_value v : forall n r, (List.length (tokens v) <= n)%nat -> parse n (tokens v ++ r) = Some (v, r).
Proof.
  induction v as [t|s|l IH|l IH] using json_induction; intros n r L; (destruct n as [|n]; [cbn in L; lia|]); [reflexivity|reflexivity| |].
  - destruct l as [|x l]; [reflexivity|]; set (m := x :: l) in *.
    assert (K : forall m, Forall (fun v => forall n r, (List.length (tokens v) <= n)%nat -> parse n (tokens v ++ r) = Some (v, r)) m -> m <> [] ->
      forall n r, (List.length (comma_join (map tokens m)) + 1 <= n)%nat ->
      parse_items n (comma_join (map tokens m) ++ CloseBracket :: r) = Some (m, r)).
    { clear; intros m F; induction F as [|y m H F IH]; [congruence|]; intros _ n r L.
      destruct n as [|n]; [lia|]; destruct m as [|z m].
      - cbn [map comma_join parse_items] in *; rewrite H by lia; auto.
      - set (m' := z :: m) in *; change (comma_join (map tokens (y :: m'))) with (tokens y ++ Comma :: comma_join (map tokens m')) in *.
        rewrite app_length in L; cbn [List.length] in L.
        cbn [parse_items]; rewrite <- app_assoc; rewrite H by lia; cbn [app]; rewrite IH by (try discriminate; lia); auto. }
    cbn [tokens] in *; cbn [List.length] in L; rewrite app_length in L; cbn [List.length] in L.
    assert (Q := K m IH ltac:(discriminate) n r ltac:(lia)).
    assert (Hd : exists t r', comma_join (map tokens m) ++ CloseBracket :: r = t :: r' /\ t <> CloseBracket).
    { destruct (tokens_head x) as [t [r' [E [A _]]]]; unfold m; cbn [map]; destruct (map tokens l) as [|y q]; cbn [comma_join]; rewrite E; cbn; eauto. }
    change (OpenBracket :: comma_join (map tokens m) ++ [CloseBracket]) with ((OpenBracket :: comma_join (map tokens m)) ++ [CloseBracket]).
    rewrite <- app_assoc; cbn [app]; destruct Hd as [t [r' [E A]]]; rewrite E in *.
    cbn [parse]; destruct t; try congruence; rewrite Q; auto.
  - destruct l as [|x l]; [reflexivity|]; set (m := x :: l) in *.
    set (f := fun kv : string * json => TString (fst kv) :: Colon :: tokens (snd kv)).
    assert (K : forall m, Forall (fun kv => forall n r, (List.length (tokens (snd kv)) <= n)%nat -> parse n (tokens (snd kv) ++ r) = Some (snd kv, r)) m -> m <> [] ->
      forall n r, (List.length (comma_join (map f m)) + 1 <= n)%nat ->
      parse_members n (comma_join (map f m) ++ CloseBrace :: r) = Some (m, r)).
    { clear; intros m F; induction F as [|[k y] m H F IH]; [congruence|]; intros _ n r L; cbn [snd] in H.
      destruct n as [|n]; [lia|]; destruct m as [|z m].
      - change (comma_join (map f [(k, y)])) with (TString k :: Colon :: tokens y) in *; cbn [List.length] in L.
        cbn [parse_members app]; rewrite H by lia; auto.
      - set (m' := z :: m) in *; change (comma_join (map f ((k, y) :: m'))) with (TString k :: Colon :: tokens y ++ Comma :: comma_join (map f m')) in *.
        cbn [List.length] in L; rewrite app_length in L; cbn [List.length] in L.
        cbn [parse_members app]; rewrite <- app_assoc; rewrite H by lia; cbn [app]; rewrite IH by (try discriminate; lia); auto. }
    cbn [tokens] in *; fold f in L |- *; cbn [List.length] in L; rewrite app_length in L; cbn [List.length] in L.
    assert (Q := K m IH ltac:(discriminate) n r ltac:(lia)).
    assert (Hd : exists t r', comma_join (map f m) ++ CloseBrace :: r = t :: r' /\ t <> CloseBrace).
    { unfold m; cbn [map]; unfold f at 1; destruct (map f l) as [|y q]; cbn [comma_join app]; do 2 eexists; (split; [reflexivity|discriminate]). }
    change (OpenBrace :: comma_join (map f m) ++ [CloseBrace]) with ((OpenBrace :: comma_join (map f m)) ++ [CloseBrace]).
    rewrite <- app_assoc; cbn [app]; destruct Hd as [t [r' [E A]]]; rewrite E in *.
    cbn [parse]; destruct t; try congruence; rewrite Q; auto.
Qed.

Theorem json_round_trip_text v level : (forall t, In t (json_numbers v) -> number_text t) -> json_read (json_text level v) = Some v.
Proof.
  intros N; unfold json_read; rewrite <- (sapp_nil (json_text level v)), (lexes_value v N level "" I); cbn [lex option_map].
  rewrite (parse_value v) by (rewrite app_length; cbn; lia); auto.
Qed.

(** ** JSON text is plain ASCII *)

Lemma ascii_app a b : ascii_text (a ++ b)%string <-> ascii_text a /\ ascii_text b.
Proof.
  unfold ascii_text; split.
  - intros H; split; intros c I; apply H; clear H; induction a as [|x a IH]; cbn in *; try tauto.
    destruct I; auto.
  - intros [A B] c I; induction a as [|x a IH]; cbn in *; auto.
    destruct I as [<-|I]; [apply A; left; auto|apply IH; auto].
Qed.
Lemma ascii_escape_char c : ascii_text (escape_char c).
Proof.
  assert (K : forallb (fun x => Nat.leb 32 (nat_of_ascii x) && Nat.leb (nat_of_ascii x) 126) (list_ascii_of_string (escape_char c)) = true).
  { destruct c as [[] [] [] [] [] [] [] []]; vm_compute; reflexivity. }
  intros x I; rewrite forallb_forall in K; specialize (K x I); apply andb_true_iff in K; rewrite !Nat.leb_le in K; auto.
Qed.
Lemma ascii_escape s : ascii_text (escape s).
Proof. induction s as [|c s IH]; cbn [escape]; [intros x []|]; apply ascii_app; split; auto; apply ascii_escape_char. Qed.
Ltac plain_ascii := let x := fresh in let H := fresh in intros x H; vm_compute in H; repeat (destruct H as [<-|H]); try contradiction H; vm_compute; lia.
Lemma ascii_string s : ascii_text (json_string s).
Proof.
  assert (Q : ascii_text quote) by plain_ascii.
  unfold json_string; apply ascii_app; split; auto; apply ascii_app; split; auto; apply ascii_escape.
Qed.
Lemma ascii_number t : number_text t -> ascii_text t.
Proof.
  intros [_ N] c I; specialize (N c I); revert N; clear; destruct c as [[] [] [] [] [] [] [] []]; vm_compute; intros H; try discriminate; left; lia.
Qed.
Lemma ascii_newline n : ascii_text (newline_indent n).
Proof.
  unfold newline_indent; apply ascii_app; split; [plain_ascii|].
  induction (4 * n)%nat as [|k IH]; [intros x []|]; intros c [<-|I]; [left; vm_compute; lia|auto].
Qed.
Lemma ascii_join sep l : ascii_text sep -> Forall ascii_text l -> ascii_text (str_join sep l).
Proof.
  intros A F; induction F as [|x l H F IH]; [intros c []|]; destruct l as [|y l]; [exact H|].
  change (str_join sep (x :: y :: l)) with (x ++ sep ++ str_join sep (y :: l))%string; rewrite !ascii_app; auto.
Qed.

Theorem json_ascii v : (forall t, In t (json_numbers v) -> number_text t) -> forall level, ascii_text (json_text level v).
Proof.
  assert (SE : forall n, ascii_text ("," ++ newline_indent n)%string) by (intros n; apply ascii_app; split; [plain_ascii|apply ascii_newline]).
  induction v as [t|s|l IH|l IH] using json_induction; intros N level.
  - apply ascii_number, N; left; auto.
  - apply ascii_string.
  - destruct l as [|x l]; [plain_ascii|]; set (m := x :: l) in *.
    change (json_text level (JArray m)) with ("[" ++ newline_indent (S level) ++
      str_join ("," ++ newline_indent (S level)) (map (json_text (S level)) m) ++ newline_indent level ++ "]")%string.
    rewrite !ascii_app; repeat split; try apply ascii_newline; [plain_ascii| |plain_ascii].
    apply ascii_join; auto; apply Forall_forall; intros y I; apply in_map_iff in I; destruct I as [z [<- I]].
    rewrite Forall_forall in IH; apply IH; auto; intros t J; apply N, in_flat_map; exists z; auto.
  - destruct l as [|x l]; [plain_ascii|]; set (m := x :: l) in *.
    change (json_text level (JObject m)) with ("{" ++ newline_indent (S level) ++
      str_join ("," ++ newline_indent (S level)) (map (fun kv => (json_string (fst kv) ++ ": " ++ json_text (S level) (snd kv))%string) m) ++ newline_indent level ++ "}")%string.
    rewrite !ascii_app; repeat split; try apply ascii_newline; [plain_ascii| |plain_ascii].
    apply ascii_join; auto; apply Forall_forall; intros y I; apply in_map_iff in I; destruct I as [z [<- I]].
    rewrite !ascii_app; repeat split; [apply ascii_string|plain_ascii|].
    rewrite Forall_forall in IH; apply (IH z I); intros t J; apply N, in_flat_map; exists z; auto.
Qed.

(** ** CSV *)

Definition comma_s : string := ",".
Lemma csv_plain f : has_special f = false -> forall t row c r, (is_char 44 c || is_char 13 c)%bool = true ->
  csv_read_from (Plain t) row (f ++ String c r) =
  csv_read_from (if is_char 44 c then FieldStart else ReturnSeen) (row ++ [(t ++ f)%string]) r.
Proof.
  induction f as [|x f IH]; intros N t row c r S.
  - cbn [append csv_read_from]; rewrite sapp_nil; destruct (is_char 44 c) eqn:E1; auto.
    cbn in S; rewrite S; auto.
  - cbn [has_special] in N; apply orb_false_iff in N; destruct N as [N1 N2].
    unfold csv_special in N1; rewrite !orb_false_iff in N1; destruct N1 as [[[A B] C] D].
    cbn [append csv_read_from]; unfold is_char at 1 2 3 4; rewrite A, B, C, D; cbn [orb].
    rewrite IH by auto; rewrite snoc_app; auto.
Qed.

Lemma csv_quoted f : forall t row r, csv_read_from (Quoted t) row (double_quotes f ++ String (ascii_of_nat 34) r) =
  csv_read_from (QuoteSeen (t ++ f)) row r.
Proof.
  induction f as [|x f IH]; intros t row r.
  - cbn [double_quotes append csv_read_from]; rewrite sapp_nil; reflexivity.
  - cbn [double_quotes]; destruct (Nat.eqb (nat_of_ascii x) 34) eqn:E.
    + assert (X : x = ascii_of_nat 34) by (apply Nat.eqb_eq in E; rewrite <- E, ascii_nat_embedding; auto); subst x.
      unfold quote, chr; rewrite !sapp_assoc; cbn [append csv_read_from]; cbn [is_char nat_of_ascii].
      change (is_char 34 (ascii_of_nat 34)) with true; cbv iota.
      rewrite IH, snoc_app; auto.
    + cbn [append csv_read_from]; change (is_char 34 x) with (Nat.eqb (nat_of_ascii x) 34); rewrite E; cbv zeta; rewrite IH, snoc_app; auto.
Qed.

Lemma csv_field_read st f row c r : st = RowStart \/ st = FieldStart -> (is_char 44 c || is_char 13 c)%bool = true ->
  csv_read_from st row (csv_field f ++ String c r) =
  csv_read_from (if is_char 44 c then FieldStart else ReturnSeen) (row ++ [f]) r.
Proof.
  intros St S; unfold csv_field; destruct (has_special f) eqn:E.
  - unfold quote, chr; rewrite !sapp_assoc; cbn [append].
    assert (H : csv_read_from st row (String (ascii_of_nat 34) (double_quotes f ++ String (ascii_of_nat 34) (String c r))) =
      csv_read_from (Quoted "") row (double_quotes f ++ String (ascii_of_nat 34) (String c r))) by (destruct St as [-> | ->]; reflexivity).
    rewrite H, csv_quoted; cbn [append csv_read_from].
    destruct (is_char 44 c) eqn:E1.
    + assert (is_char 34 c = false) by (unfold is_char in *; apply Nat.eqb_eq in E1; rewrite E1; auto); rewrite H0; auto.
    + cbn in S; rewrite S; assert (is_char 34 c = false) by (unfold is_char in *; apply Nat.eqb_eq in S; rewrite S; auto); rewrite H0; auto.
  - destruct f as [|x f].
    + cbn [append]; destruct (is_char 44 c) eqn:E1; destruct St as [-> | ->]; cbn [csv_read_from]; rewrite E1; auto;
        cbn in S; rewrite S; assert (is_char 34 c = false) by (unfold is_char in *; apply Nat.eqb_eq in S; rewrite S; auto); rewrite H; auto.
    + assert (E' := E); cbn [has_special] in E; apply orb_false_iff in E; destruct E as [N1 N2].
      unfold csv_special in N1; rewrite !orb_false_iff in N1; destruct N1 as [[[A B] C] D].
      assert (H : csv_read_from st row (String x f ++ String c r) = csv_read_from (Plain (String x "")) row (f ++ String c r)).
      { destruct St as [-> | ->]; cbn [append csv_read_from]; unfold is_char at 1 2 3 4; rewrite A, B, C, D; auto. }
      rewrite H, csv_plain; auto.
Qed.

Lemma csv_fields_read fs : forall st row r, st = RowStart \/ st = FieldStart -> fs <> [] ->
  csv_read_from st row (str_join "," (map csv_field fs) ++ String (ascii_of_nat 13) r) = csv_read_from ReturnSeen (row ++ fs) r.
Proof.
  induction fs as [|f fs IH]; intros st row r St NE; [congruence|].
  destruct fs as [|g fs].
  - cbn [map str_join]; rewrite csv_field_read by auto; reflexivity.
  - change (str_join "," (map csv_field (f :: g :: fs))) with (csv_field f ++ ("," ++ str_join "," (map csv_field (g :: fs))))%string.
    set (J := str_join "," (map csv_field (g :: fs))) in *.
    rewrite !sapp_assoc; cbn [append]; rewrite csv_field_read by auto.
    change (is_char 44 ",") with true; cbv iota; rewrite IH by (auto; discriminate).
    rewrite <- app_assoc; reflexivity.
Qed.

Lemma csv_row_read fs r : fs <> [] -> csv_read_from RowStart [] (csv_row_text fs ++ r) = option_map (cons fs) (csv_read_from RowStart [] r).
Proof.
  intros NE; assert (K : csv_read_from ReturnSeen fs (newline ++ r) = option_map (cons fs) (csv_read_from RowStart [] r)).
  { unfold newline; cbn [append csv_read_from]; change (is_char 10 (ascii_of_nat 10)) with true; cbv iota; destruct (csv_read_from RowStart [] r); auto. }
  unfold csv_row_text; rewrite !sapp_assoc; unfold carriage_return, chr; cbn [append].
  destruct fs as [|f fs]; [congruence|].
  assert (G : csv_read_from RowStart [] (str_join "," (map csv_field (f :: fs)) ++ String (ascii_of_nat 13) (newline ++ r)) = option_map (cons (f :: fs)) (csv_read_from RowStart [] r)).
  { rewrite csv_fields_read by auto; exact K. }
  destruct f as [|x f]; [destruct fs as [|g fs]|]; [|exact G|exact G].
  exact K.
Qed.

Theorem csv_round_trip_text rows : (forall r, In r rows -> r <> []) -> csv_read (csv_text rows) = Some rows.
Proof.
  unfold csv_read; induction rows as [|r rows IH]; intros N; [reflexivity|].
  cbn [csv_text]; rewrite csv_row_read by (apply N; left; auto); rewrite IH by (intros x I; apply N; right; auto); auto.
Qed.

(** ** Exported controls *)

Lemma all_some_map {A B} (f : A -> option B) (g : A -> B) l : (forall x, In x l -> f x = Some (g x)) -> all_some (map f l) = Some (map g l).
Proof.
  induction l as [|x l IH]; intros H; auto; cbn; rewrite (H x) by (left; auto); rewrite IH; auto.
  intros y I; apply H; right; auto.
Qed.

Lemma decode_json number repr d : (forall x, written d x -> number (repr x) = Some x) -> decode_info number (json_of_info repr d) = Some d.
Proof.
  intros H; cbn [decode_info json_of_info]; rewrite map_map.
  rewrite (all_some_map _ (fun kv => kv)); [rewrite map_id; auto|].
  intros [k v] I; cbn [fst snd]; destruct v as [r|s|l]; cbn [json_of_value decode_value]; auto.
  - rewrite H; auto; left; eauto.
  - rewrite map_map, (all_some_map _ (fun x => x)); [rewrite map_id; auto|].
    intros x J; apply H; right; eauto.
Qed.

Lemma json_numbers_of repr d t : In t (json_numbers (json_of_info repr d)) -> exists x, written d x /\ t = repr x.
Proof.
  cbn [json_numbers json_of_info]; intros I; apply in_flat_map in I; destruct I as [[k v] [I J]]; apply in_map_iff in I.
  destruct I as [[k' v'] [E I]]; cbn [fst snd] in *; injection E as <- <-.
  destruct v' as [r|s|l]; cbn in J.
  - destruct J as [<-|[]]; exists (Fin r); split; auto; left; eauto.
  - destruct J.
  - apply in_flat_map in J; destruct J as [j [J K]]; apply in_map_iff in J; destruct J as [x [<- J]]; destruct K as [<-|[]].
    exists x; split; auto; right; eauto.
Qed.

Theorem json_text_of_control repr str number d :
  (forall x, written d x -> number_text (repr x)) ->
  json_read (file_text repr str (JsonFile d)) = Some (json_of_info repr d) /\
  ascii_text (file_text repr str (JsonFile d)) /\
  ((forall x, written d x -> number (repr x) = Some x) ->
   forall f1 f2 b, read_json_text number f1 f2 b (file_text repr str (JsonFile d)) = read_json f1 f2 b d).
Proof.
  intros N; assert (N' : forall t, In t (json_numbers (json_of_info repr d)) -> number_text t).
  { intros t I; apply json_numbers_of in I; destruct I as [x [W ->]]; auto. }
  cbn [file_text]; assert (R := json_round_trip_text (json_of_info repr d) 0 N').
  split; auto; split; [apply json_ascii; auto|].
  intros H f1 f2 b; unfold read_json_text; rewrite R, decode_json; auto.
Qed.

Theorem control_json_text repr str number d c l m f :
  constructible c -> describes l c -> is_maximum m (map g_rabi l) -> 0 < m ->
  (exists d' obj,
     export_to_file d c f FILE_FORMAT_QCTRL FILE_TYPE_JSON CARTESIAN = (d', None) /\ d' f = Some (JsonFile obj) /\
     ((forall x, written obj x -> number_text (repr x) /\ number (repr x) = Some x) ->
      ascii_text (file_text repr str (JsonFile obj)) /\
      read_json_text number "amplitude_x" "amplitude_y" true (file_text repr str (JsonFile obj)) =
        Some (map seg_x l, map seg_y l, detunings c, durations c, dc_name c))) /\
  (exists d' obj,
     export_to_file d c f FILE_FORMAT_QCTRL FILE_TYPE_JSON CYLINDRICAL = (d', None) /\ d' f = Some (JsonFile obj) /\
     ((forall x, written obj x -> number_text (repr x) /\ number (repr x) = Some x) ->
      ascii_text (file_text repr str (JsonFile obj)) /\
      read_json_text number "rabi_rates" "azimuthal_angles" false (file_text repr str (JsonFile obj)) =
        Some (rabi_rates c, azimuthal_angles c, detunings c, durations c, dc_name c))).
Proof.
  intros K D M P; destruct (json_round_trip d c l m f K D M P) as [[d1 [o1 [A1 [B1 [_ R1]]]]] [d2 [o2 [A2 [B2 [_ R2]]]]]].
  split; [exists d1, o1|exists d2, o2]; split; auto; split; auto; intros H;
    destruct (json_text_of_control repr str number _ (fun x W => proj1 (H x W))) as [_ [X Y]]; split; auto;
    rewrite (Y (fun x W => proj2 (H x W))); auto.
Qed.

Lemma lookup_map {A B} (f : A -> B) k (h : list string) row : lookup k (combine h (map f row)) = option_map f (lookup k (combine h row)).
Proof.
  revert row; induction h as [|x h IH]; intros row; auto; destruct row as [|y row]; auto; cbn.
  destruct (string_dec k x); auto.
Qed.

Lemma csv_text_rows repr str header rows : header <> [] -> (forall r, In r rows -> List.length r = List.length header) ->
  csv_read (file_text repr str (CsvFile header rows)) = Some (header :: map (map str) rows).
Proof.
  intros NE L; cbn [file_text]; apply csv_round_trip_text; intros r [<-|I]; auto.
  apply in_map_iff in I; destruct I as [r' [<- I]]; specialize (L r' I); destruct r'; [destruct header; [congruence|discriminate]|discriminate].
Qed.

Theorem control_csv_text repr str d c l m n f :
  constructible c -> describes l c -> is_maximum m (map g_rabi l) -> dc_name c = Some n ->
  (exists d' file header table,
     export_to_file d c f FILE_FORMAT_QCTRL FILE_TYPE_CSV CARTESIAN = (d', None) /\ d' f = Some file /\
     csv_read (file_text repr str file) = Some (header :: table) /\ List.length table = List.length l /\
     forall i g, nth_error l i = Some g ->
       exists row, nth_error table i = Some row /\ List.length row = List.length header /\
         lookup "amplitude_x" (combine header row) = Some (str (xdiv (seg_x g) m)) /\
         lookup "amplitude_y" (combine header row) = Some (str (xdiv (seg_y g) m)) /\
         lookup "detuning" (combine header row) = Some (str (Fin (g_det g))) /\
         lookup "duration" (combine header row) = Some (str (Fin (g_dur g))) /\
         lookup "maximum_rabi_rate" (combine header row) = Some (str (Fin m))) /\
  (exists d' file header table,
     export_to_file d c f FILE_FORMAT_QCTRL FILE_TYPE_CSV CYLINDRICAL = (d', None) /\ d' f = Some file /\
     csv_read (file_text repr str file) = Some (header :: table) /\ List.length table = List.length l /\
     forall i g, nth_error l i = Some g ->
       exists row, nth_error table i = Some row /\ List.length row = List.length header /\
         lookup "rabi_rates" (combine header row) = Some (str (xdiv (g_rabi g) m)) /\
         lookup "azimuthal_angles" (combine header row) = Some (str (Fin (g_phi g))) /\
         lookup "detuning" (combine header row) = Some (str (Fin (g_det g))) /\
         lookup "duration" (combine header row) = Some (str (Fin (g_dur g))) /\
         lookup "maximum_rabi_rate" (combine header row) = Some (str (Fin m))).
Proof.
  intros K D M N; destruct (csv_named d c l m n f K D M N) as [[d1 [h1 [r1 [A1 [B1 [L1 R1]]]]]] [d2 [h2 [r2 [A2 [B2 [L2 R2]]]]]]].
  destruct (csv_layout_cartesian d c l m n f d1 K D M N A1) as [h1' [r1' [B1' [H1 [_ W1]]]]].
  destruct (csv_layout_cylindrical d c l m n f d2 K D M N A2) as [h2' [r2' [B2' [H2 [_ [_ W2]]]]]].
  rewrite B1 in B1'; injection B1' as <- <-; rewrite B2 in B2'; injection B2' as <- <-.
  assert (Q : forall k h row v, csv_cell_of h row k = Some v -> lookup k (combine h (map str row)) = Some (str v)).
  { unfold csv_cell_of; intros k h row v E; rewrite lookup_map, E; auto. }
  split.
  - exists d1, (CsvFile h1 r1), h1, (map (map str) r1); split; auto; split; auto; split; [|split; [rewrite map_length; auto|]].
    + apply csv_text_rows; [destruct h1; discriminate|]; intros r I; rewrite H1; apply W1; auto.
    + intros i g I; destruct (R1 i g I) as [row [E [L [X1 [X2 [X3 [X4 X5]]]]]]]; exists (map str row).
      split; [apply map_nth_error; auto|split; [rewrite map_length; auto|]]; repeat split; apply Q; auto.
  - exists d2, (CsvFile h2 r2), h2, (map (map str) r2); split; auto; split; auto; split; [|split; [rewrite map_length; auto|]].
    + apply csv_text_rows; [destruct h2; discriminate|]; intros r I; rewrite H2; apply W2; auto.
    + intros i g I; destruct (R2 i g I) as [row [E [L [X1 [X2 [X3 [X4 X5]]]]]]]; exists (map str row).
      split; [apply map_nth_error; auto|split; [rewrite map_length; auto|]]; repeat split; apply Q; auto.
Qed.
