(** * The text written to exported files

    [json.dump(..., indent=4)] and [csv.DictWriter] as used at
    /repo/qctrlopencontrols/driven_controls/driven_control.py:399-410.  These
    are functions of the Python standard library; they are modelled from
    Lib/json/encoder.py and Modules/_csv.c (excel dialect).  Texts are strings
    of characters with code points below 256.  How a float is printed
    ([float.__repr__] in JSON, [str] in CSV) is a parameter. *)

From Coq Require Import Ascii.
From Verif Require Export M_DrivenControl.
Import ListNotations.
Open Scope list_scope.
Open Scope string_scope.

(** ** JSON *)

(** values without booleans and null, numbers by their text *)
Inductive json : Type :=
| JNumber (text : string)
| JString (s : string)
| JArray (items : list json)
| JObject (members : list (string * json)).

Definition chr (n : nat) : string := String (ascii_of_nat n) EmptyString.
Definition quote : string := chr 34.
Definition backslash : string := chr 92.

Definition hex_digit (n : nat) : ascii :=
  ascii_of_nat (if Nat.ltb n 10 then 48 + n else 87 + n).

(** json/encoder.py:41-72 [py_encode_basestring_ascii] ([ESCAPE_ASCII],
    [ESCAPE_DCT]), the encoder used because [ensure_ascii] is true *)
Definition escape_char (c : ascii) : string :=
  let n := nat_of_ascii c in
  if Nat.eqb n 34 then backslash ++ quote
  else if Nat.eqb n 92 then backslash ++ backslash
  else if Nat.eqb n 8 then backslash ++ "b"
  else if Nat.eqb n 12 then backslash ++ "f"
  else if Nat.eqb n 10 then backslash ++ "n"
  else if Nat.eqb n 13 then backslash ++ "r"
  else if Nat.eqb n 9 then backslash ++ "t"
  else if Nat.leb 32 n && Nat.leb n 126 then String c EmptyString
  else backslash ++ "u00" ++ String (hex_digit (Nat.div n 16))
         (String (hex_digit (Nat.modulo n 16)) EmptyString).
Fixpoint escape (s : string) : string :=
  match s with
  | EmptyString => EmptyString
  | String c s' => escape_char c ++ escape s'
  end.
Definition json_string (s : string) : string := quote ++ escape s ++ quote.

(** newline and indentation by 4 spaces per level *)
Fixpoint spaces (n : nat) : string :=
  match n with O => "" | S n' => String " " (spaces n') end.
Definition newline_indent (level : nat) : string := newline ++ spaces (4 * level).

(** json/encoder.py:277-442 [_make_iterencode] with [indent=4], item separator
    "," and key separator ": " *)
Fixpoint json_text (level : nat) (v : json) : string :=
  match v with
  | JNumber t => t
  | JString s => json_string s
  | JArray [] => "[]"
  | JArray l =>
      "[" ++ newline_indent (S level) ++
      str_join ("," ++ newline_indent (S level)) (map (json_text (S level)) l) ++
      newline_indent level ++ "]"
  | JObject [] => "{}"
  | JObject l =>
      "{" ++ newline_indent (S level) ++
      str_join ("," ++ newline_indent (S level))
        (map (fun kv => json_string (fst kv) ++ ": " ++ json_text (S level) (snd kv)) l) ++
      newline_indent level ++ "}"
  end.

(** the dictionary as JSON value, floats printed by [repr] *)
Definition json_of_value (repr : xfloat -> string) (v : info_value) : json :=
  match v with
  | VNum r => JNumber (repr (Fin r))
  | VStr s => JString s
  | VList l => JArray (map (fun x => JNumber (repr x)) l)
  end.
Definition json_of_info (repr : xfloat -> string) (d : info) : json :=
  JObject (map (fun kv => (fst kv, json_of_value repr (snd kv))) d).

(** ** CSV *)

Definition carriage_return : string := chr 13.
Definition csv_special (c : ascii) : bool :=
  let n := nat_of_ascii c in
  Nat.eqb n 44 || Nat.eqb n 34 || Nat.eqb n 13 || Nat.eqb n 10.
Fixpoint has_special (s : string) : bool :=
  match s with EmptyString => false | String c s' => csv_special c || has_special s' end.
(** [doublequote] *)
Fixpoint double_quotes (s : string) : string :=
  match s with
  | EmptyString => EmptyString
  | String c s' =>
      if Nat.eqb (nat_of_ascii c) 34 then quote ++ quote ++ double_quotes s'
      else String c (double_quotes s')
  end.
(** [QUOTE_MINIMAL] *)
Definition csv_field (s : string) : string :=
  if has_special s then quote ++ double_quotes s ++ quote else s.
(** a row; a single empty field is quoted; lines end with CR LF *)
Definition csv_row_text (fields : list string) : string :=
  match fields with
  | [""%string] => quote ++ quote
  | _ => str_join "," (map csv_field fields)
  end ++ carriage_return ++ newline.
Fixpoint csv_text (rows : list (list string)) : string :=
  match rows with
  | [] => ""
  | r :: rows' => csv_row_text r ++ csv_text rows'
  end.

(** ** Exported files *)

(** the characters of an exported file *)
Definition file_text (repr str : xfloat -> string) (f : file) : string :=
  match f with
  | JsonFile d => json_text 0 (json_of_info repr d)
  | CsvFile header rows => csv_text (header :: map (map str) rows)
  end.
