(** * Readers of JSON (RFC 8259) and CSV (RFC 4180) text *)

From Coq Require Import Ascii.
From Verif Require Export Spec_DrivenControl M_Text.
Import ListNotations.
Open Scope string_scope.
Open Scope list_scope.

(** ** JSON: tokens *)

Inductive token : Type :=
| OpenBracket | CloseBracket | OpenBrace | CloseBrace | Colon | Comma
| TString (s : string) | TNumber (s : string).

Definition is_char (n : nat) (c : ascii) : bool := Nat.eqb (nat_of_ascii c) n.
Definition between (a b : nat) (c : ascii) : bool :=
  Nat.leb a (nat_of_ascii c) && Nat.leb (nat_of_ascii c) b.
Definition is_space (c : ascii) : bool :=
  is_char 32 c || is_char 9 c || is_char 10 c || is_char 13 c.
(** characters of numbers, and of the words NaN and Infinity *)
Definition number_char (c : ascii) : bool :=
  between 48 57 c || between 65 90 c || between 97 122 c ||
  is_char 43 c || is_char 45 c || is_char 46 c.
Definition hex_value (c : ascii) : option nat :=
  if between 48 57 c then Some (nat_of_ascii c - 48)%nat
  else if between 97 102 c then Some (nat_of_ascii c - 87)%nat
  else if between 65 70 c then Some (nat_of_ascii c - 55)%nat
  else None.
Definition simple_escape (c : ascii) : option ascii :=
  if is_char 34 c then Some c            (* quotation mark *)
  else if is_char 92 c then Some c       (* backslash *)
  else if is_char 47 c then Some c       (* slash *)
  else if is_char 98 c then Some (ascii_of_nat 8)
  else if is_char 102 c then Some (ascii_of_nat 12)
  else if is_char 110 c then Some (ascii_of_nat 10)
  else if is_char 114 c then Some (ascii_of_nat 13)
  else if is_char 116 c then Some (ascii_of_nat 9)
  else None.
Definition punctuation (c : ascii) : option token :=
  if is_char 91 c then Some OpenBracket else if is_char 93 c then Some CloseBracket
  else if is_char 123 c then Some OpenBrace else if is_char 125 c then Some CloseBrace
  else if is_char 58 c then Some Colon else if is_char 44 c then Some Comma else None.

Inductive lexer : Type :=
| Outside                        (* between tokens *)
| InNumber (s : string)
| InString (s : string)
| InEscape (s : string)          (* after a backslash *)
| InHex (s : string) (digits value : nat).

Definition snoc (s : string) (c : ascii) : string := (s ++ String c "")%string.

(** one character outside tokens: tokens completed, new state *)
Definition outside (c : ascii) : option (list token * lexer) :=
  match punctuation c with
  | Some t => Some ([t], Outside)
  | None => if is_space c then Some ([], Outside)
            else if is_char 34 c then Some ([], InString "")
            else if number_char c then Some ([], InNumber (String c ""))
            else None
  end.
Definition lexer_step (st : lexer) (c : ascii) : option (list token * lexer) :=
  match st with
  | Outside => outside c
  | InNumber s =>
      if number_char c then Some ([], InNumber (snoc s c))
      else match outside c with
           | Some (ts, st') => Some (TNumber s :: ts, st')
           | None => None
           end
  | InString s =>
      if is_char 34 c then Some ([TString s], Outside)
      else if is_char 92 c then Some ([], InEscape s)
      else if Nat.ltb (nat_of_ascii c) 32 then None
      else Some ([], InString (snoc s c))
  | InEscape s =>
      if is_char 117 c then Some ([], InHex s 0 0)
      else match simple_escape c with
           | Some d => Some ([], InString (snoc s d))
           | None => None
           end
  | InHex s k n =>
      match hex_value c with
      | None => None
      | Some h =>
          let n' := (16 * n + h)%nat in
          if Nat.eqb k 3 then
            if Nat.ltb n' 256 then Some ([], InString (snoc s (ascii_of_nat n'))) else None
          else Some ([], InHex s (S k) n')
      end
  end.
Fixpoint lex (st : lexer) (s : string) : option (list token) :=
  match s with
  | EmptyString =>
      match st with
      | Outside => Some []
      | InNumber t => Some [TNumber t]
      | _ => None
      end
  | String c s' =>
      match lexer_step st c with
      | Some (ts, st') => match lex st' s' with Some ts' => Some (ts ++ ts') | None => None end
      | None => None
      end
  end.

(** ** JSON: values *)

Fixpoint parse (fuel : nat) (ts : list token) : option (json * list token) :=
  match fuel with
  | O => None
  | S n =>
      match ts with
      | TNumber t :: r => Some (JNumber t, r)
      | TString s :: r => Some (JString s, r)
      | OpenBracket :: CloseBracket :: r => Some (JArray [], r)
      | OpenBracket :: r =>
          match parse_items n r with Some (l, r') => Some (JArray l, r') | None => None end
      | OpenBrace :: CloseBrace :: r => Some (JObject [], r)
      | OpenBrace :: r =>
          match parse_members n r with Some (l, r') => Some (JObject l, r') | None => None end
      | _ => None
      end
  end
with parse_items (fuel : nat) (ts : list token) : option (list json * list token) :=
  match fuel with
  | O => None
  | S n =>
      match parse n ts with
      | Some (v, CloseBracket :: r) => Some ([v], r)
      | Some (v, Comma :: r) =>
          match parse_items n r with Some (l, r') => Some (v :: l, r') | None => None end
      | _ => None
      end
  end
with parse_members (fuel : nat) (ts : list token) : option (list (string * json) * list token) :=
  match fuel with
  | O => None
  | S n =>
      match ts with
      | TString k :: Colon :: r =>
          match parse n r with
          | Some (v, CloseBrace :: r') => Some ([(k, v)], r')
          | Some (v, Comma :: r') =>
              match parse_members n r' with Some (l, r'') => Some ((k, v) :: l, r'') | None => None end
          | _ => None
          end
      | _ => None
      end
  end.

Definition json_read (s : string) : option json :=
  match lex Outside s with
  | Some ts => match parse (List.length ts) ts with Some (v, []) => Some v | _ => None end
  | None => None
  end.

(** ** CSV *)

Inductive csv_state : Type :=
| RowStart | FieldStart | Plain (s : string) | Quoted (s : string)
| QuoteSeen (s : string)         (* a quotation mark inside a quoted field *)
| ReturnSeen.                    (* after CR *)

(** [row]: the fields of the current row so far *)
Fixpoint csv_read_from (st : csv_state) (row : list string) (s : string)
  : option (list (list string)) :=
  match s with
  | EmptyString => match st with RowStart => Some [] | _ => None end
  | String c s' =>
      let comma := is_char 44 c in let quoted := is_char 34 c in
      let cr := is_char 13 c in let lf := is_char 10 c in
      let start := if comma then csv_read_from FieldStart (row ++ [""%string]) s'
        else if quoted then csv_read_from (Quoted "") row s'
        else if cr then csv_read_from ReturnSeen (row ++ [""%string]) s'
        else if lf then None else csv_read_from (Plain (String c "")) row s' in
      match st with
      | RowStart => start
      | FieldStart => start
      | Plain t =>
          if comma then csv_read_from FieldStart (row ++ [t]) s'
          else if cr then csv_read_from ReturnSeen (row ++ [t]) s'
          else if quoted || lf then None else csv_read_from (Plain (snoc t c)) row s'
      | Quoted t =>
          if quoted then csv_read_from (QuoteSeen t) row s' else csv_read_from (Quoted (snoc t c)) row s'
      | QuoteSeen t =>
          if quoted then csv_read_from (Quoted (snoc t c)) row s'
          else if comma then csv_read_from FieldStart (row ++ [t]) s'
          else if cr then csv_read_from ReturnSeen (row ++ [t]) s'
          else None
      | ReturnSeen =>
          if lf then match csv_read_from RowStart [] s' with Some rows => Some (row :: rows) | None => None end
          else None
      end
  end.
Definition csv_read (s : string) : option (list (list string)) := csv_read_from RowStart [] s.

(** ** Numbers *)

(** a text that can stand for a number in a JSON file *)
Definition number_text (s : string) : Prop :=
  s <> ""%string /\ forall c, In c (list_ascii_of_string s) -> number_char c = true.
(** only printable ASCII characters and newlines *)
Definition ascii_text (s : string) : Prop :=
  forall c, In c (list_ascii_of_string s) -> (32 <= nat_of_ascii c <= 126)%nat \/ nat_of_ascii c = 10%nat.

(** every number inside *)
Fixpoint json_numbers (v : json) : list string :=
  match v with
  | JNumber t => [t]
  | JString _ => []
  | JArray l => flat_map json_numbers l
  | JObject l => flat_map (fun kv => json_numbers (snd kv)) l
  end.

Fixpoint all_some {A} (l : list (option A)) : option (list A) :=
  match l with
  | [] => Some []
  | Some x :: l' => match all_some l' with Some xs => Some (x :: xs) | None => None end
  | None :: _ => None
  end.

(** reading a control back: numbers are decoded by [number] *)
Definition decode_value (number : string -> option xfloat) (v : json) : option info_value :=
  match v with
  | JNumber t => match number t with Some (Fin r) => Some (VNum r) | _ => None end
  | JString s => Some (VStr s)
  | JArray l =>
      match all_some (map (fun x => match x with JNumber t => number t | _ => None end) l) with
      | Some xs => Some (VList xs)
      | None => None
      end
  | JObject _ => None
  end.
Definition decode_info (number : string -> option xfloat) (v : json) : option info :=
  match v with
  | JObject l =>
      all_some (map (fun kv => match decode_value number (snd kv) with
                               | Some x => Some (fst kv, x)
                               | None => None
                               end) l)
  | _ => None
  end.
(** the JSON file as text, read by [read_json] of Spec_DrivenControl.v *)
Definition read_json_text (number : string -> option xfloat) (f1 f2 : string) (norm2 : bool) (s : string)
  : option (list R * list R * list R * list R * option string) :=
  match json_read s with
  | Some v => match decode_info number v with Some d => read_json f1 f2 norm2 d | None => None end
  | None => None
  end.
(** the numbers of a dictionary *)
Definition written (d : info) (x : xfloat) : Prop :=
  (exists k r, In (k, VNum r) d /\ x = Fin r) \/ (exists k l, In (k, VList l) d /\ In x l).
