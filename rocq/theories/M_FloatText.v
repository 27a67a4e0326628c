(** * How Python prints a float

    [float.__repr__], used by [json.dump] for every number, and [str] of a
    float64, used by [csv.DictWriter]
    (/repo/qctrlopencontrols/driven_controls/driven_control.py:399-410).  Modelled
    from CPython: [_Py_dg_dtoa] in mode 0 (Python/dtoa.c) finds the shortest
    sequence of digits that reads back as the number, the closest one if there
    are several; [format_float_short] with format code 'r' (Python/pystrtod.c)
    lays it out.  Simplification: there is no negative zero. *)

From Coq Require Import ZArith Ascii.
From Flocq Require Import Core.
From Verif Require Export M_Text M_Float.
Import ListNotations.
Open Scope string_scope.
Open Scope list_scope.
Open Scope R_scope.

Definition radix10 : radix := Build_radix 10 (refl_equal _).

Section Printing.
  (** rounding of a decimal number to a float *)
  Variable rnd : R -> R.

  (** whether the decimal number [m * 10^k] is read as [a] *)
  Definition reads_as (a : R) (m k : Z) : bool := eqb (rnd (IZR m * bpow radix10 k)) a.

  (** the closest number with [n] digits that is read as [a], where
      [10^(e-1) <= a < 10^e] *)
  Definition candidate (a : R) (e : Z) (n : nat) : option Z :=
    let k := (e - Z.of_nat n)%Z in
    let s := a * bpow radix10 (- k) in
    let lo := Zfloor s in
    let hi := (lo + 1)%Z in
    match reads_as a lo k, reads_as a hi k with
    | true, true =>
        Some (if ltb (s - IZR lo) (IZR hi - s) then lo
              else if ltb (IZR hi - s) (s - IZR lo) then hi
              else if Z.even lo then lo else hi)
    | true, false => Some lo
    | false, true => Some hi
    | false, false => None
    end.

  (** the first number of digits for which there is one; 17 digits are always
      enough (C82), so the last case is not reached *)
  Fixpoint shortest (a : R) (e : Z) (fuel n : nat) : nat * Z :=
    match candidate a e n with
    | Some m => (n, m)
    | None => match fuel with
              | O => (n, 0%Z)
              | S fuel' => shortest a e fuel' (S n)
              end
    end.

  (** [n] digits of the integer [m] *)
  Fixpoint digits (n : nat) (m : Z) : list Z :=
    match n with O => [] | S n' => digits n' (m / 10) ++ [(m mod 10)%Z] end.
  Definition digit_char (d : Z) : ascii := ascii_of_nat (48 + Z.to_nat d).
  Fixpoint digits_text (l : list Z) : string :=
    match l with [] => "" | d :: l' => String (digit_char d) (digits_text l') end.

  (** pystrtod.c: [%+.02d] *)
  Definition exponent_text (exp : Z) : string :=
    ((if Z.ltb exp 0 then "-" else "+") ++
     digits_text (digits (if Z.ltb (Z.abs exp) 100 then 2 else 3) (Z.abs exp)))%string.

  (** pystrtod.c: [format_float_short], code 'r', [Py_DTSF_ADD_DOT_0]: the number
      0.d1 d2 ... * 10^decpt *)
  Definition format_float_short (ds : list Z) (decpt : Z) : string :=
    if Z.leb decpt (-4) || Z.ltb 16 decpt then
      (digits_text (firstn 1 ds) ++
       (if Nat.ltb 1 (List.length ds) then "." ++ digits_text (skipn 1 ds) else "") ++
       "e" ++ exponent_text (decpt - 1))%string
    else if Z.leb decpt 0 then
      ("0." ++ digits_text (repeat 0%Z (Z.to_nat (- decpt)) ++ ds))%string
    else
      let whole := Z.to_nat decpt in
      if Nat.ltb whole (List.length ds) then
        (digits_text (firstn whole ds) ++ "." ++ digits_text (skipn whole ds))%string
      else
        (digits_text (ds ++ repeat 0%Z (whole - List.length ds)) ++ ".0")%string.

  (** digits and position of the decimal point *)
  Definition float_digits (a : R) : list Z * Z :=
    let e := mag_val radix10 a (mag radix10 a) in
    let (n, m) := shortest a e 16 1 in
    if Z.eqb m (10 ^ Z.of_nat n) then (digits n (10 ^ (Z.of_nat n - 1)), (e + 1)%Z)
    else (digits n m, e).
  Definition positive_text (a : R) : string :=
    let (ds, decpt) := float_digits a in format_float_short ds decpt.
  Definition finite_text (x : R) : string :=
    if eqb x 0 then "0.0"%string
    else if ltb x 0 then ("-" ++ positive_text (- x))%string
    else positive_text x.

  (** [str] and [repr] of a float *)
  Definition float_repr (x : xfloat) : string :=
    match x with
    | Fin r => finite_text r
    | Inf negative => if negative then "-inf" else "inf"
    | NaN => "nan"
    end.

  (** json/encoder.py:223-243 [floatstr] *)
  Definition json_floatstr (x : xfloat) : string :=
    match x with
    | Fin r => finite_text r
    | Inf negative => if negative then "-Infinity" else "Infinity"
    | NaN => "NaN"
    end.
End Printing.
