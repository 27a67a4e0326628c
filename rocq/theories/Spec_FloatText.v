(** * Reading decimal numbers *)

From Coq Require Import ZArith Ascii.
From Verif Require Export Spec_Text M_FloatText.
Import ListNotations.
Open Scope string_scope.
Open Scope list_scope.
Open Scope R_scope.

Definition digit_value (c : ascii) : option Z :=
  if Spec_Text.between 48 57 c then Some (Z.of_nat (nat_of_ascii c) - 48)%Z else None.

(** the longest prefix of digits: their number, the integer they make after
    [acc], and the rest of the text *)
Fixpoint read_digits (acc : Z) (s : string) : nat * Z * string :=
  match s with
  | EmptyString => (O, acc, s)
  | String c s' =>
      match digit_value c with
      | Some d => match read_digits (10 * acc + d) s' with (n, v, r) => (S n, v, r) end
      | None => (O, acc, s)
      end
  end.

(** a leading character with code [n] *)
Definition skip_char (n : nat) (s : string) : option string :=
  match s with
  | String c s' => if is_char n c then Some s' else None
  | EmptyString => None
  end.
(** optional exponent: e or E, optional sign, digits, end of the text *)
Definition read_exponent (s : string) : option Z :=
  match s with
  | EmptyString => Some 0%Z
  | String c s' =>
      if is_char 101 c || is_char 69 c then
        let (negative, t) := match skip_char 45 s', skip_char 43 s' with
                             | Some t, _ => (true, t)
                             | None, Some t => (false, t)
                             | None, None => (false, s')
                             end in
        match read_digits 0 t with
        | (S _, v, EmptyString) => Some (if negative then - v else v)%Z
        | _ => None
        end
      else None
  end.
(** digits, optional point and digits, optional exponent *)
Definition read_unsigned (s : string) : option R :=
  match read_digits 0 s with
  | (S _, whole, r) =>
      match skip_char 46 r with
      | Some f =>
          match read_digits whole f with
          | (S n, v, r') =>
              match read_exponent r' with
              | Some e => Some (IZR v * powerRZ 10 (e - Z.of_nat (S n)))
              | None => None
              end
          | _ => None
          end
      | None =>
          match read_exponent r with
          | Some e => Some (IZR whole * powerRZ 10 e)
          | None => None
          end
      end
  | _ => None
  end.
(** the real number denoted by a text (the numbers of RFC 8259) *)
Definition read_decimal (s : string) : option R :=
  match skip_char 45 s with
  | Some t => option_map Ropp (read_unsigned t)
  | None => read_unsigned s
  end.
(** the float nearest to it, and the words of Python and of JSON *)
Definition read_float (s : string) : option xfloat :=
  if String.eqb s "nan" || String.eqb s "NaN" then Some NaN
  else if String.eqb s "inf" || String.eqb s "Infinity" then Some (Inf false)
  else if String.eqb s "-inf" || String.eqb s "-Infinity" then Some (Inf true)
  else option_map (fun r => Fin (binary64 r)) (read_decimal s).

(** the finite binary64 numbers *)
Definition finite_binary64 (x : R) : Prop := binary64_format x /\ Rabs x < 2 ^ 1024.
Definition printable (x : xfloat) : Prop := match x with Fin r => finite_binary64 r | _ => True end.

(** the number of significant digits of a text: digits before the exponent,
    without leading and trailing zeros *)
Fixpoint mantissa (s : string) : list Z :=
  match s with
  | EmptyString => []
  | String c s' =>
      if is_char 101 c then []
      else match digit_value c with Some d => d :: mantissa s' | None => mantissa s' end
  end.
Fixpoint skip_zeros (l : list Z) : list Z :=
  match l with 0%Z :: l' => skip_zeros l' | _ => l end.
Definition significant_digits (s : string) : nat :=
  List.length (skip_zeros (rev (skip_zeros (mantissa s)))).
