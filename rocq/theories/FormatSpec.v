(* Specification side of the printed text: how a reader understands it. Independent of Format.v. *)
From Coq Require Import List ZArith Reals Bool String Ascii.
From Flocq Require Import Core BinarySingleNaN.
Require Import Verif.F64.
Import ListNotations.
Open Scope string_scope.
Open Scope Z_scope.

Definition ten : radix := Build_radix 10 eq_refl.

Definition is_digit (c : ascii) : bool := (48 <=? nat_of_ascii c)%nat && (nat_of_ascii c <=? 57)%nat.
Definition digit_value (c : ascii) : Z := Z.of_nat (nat_of_ascii c) - 48.

(* the longest run of digits at the start: its number appended to acc, how many digits were read, and the rest *)
Fixpoint read_digits (acc : Z) (count : nat) (s : string) : Z * nat * string :=
  match s with
  | String c s' => if is_digit c then read_digits (10 * acc + digit_value c) (S count) s' else (acc, count, s)
  | "" => (acc, count, "")
  end.
Fixpoint trim (s : string) : string :=
  match s with
  | String c s' => if Ascii.eqb c " " then trim s' else s
  | "" => ""
  end.
(* the rest rest_after a given character *)
Definition rest_after (c : ascii) (s : string) : option string :=
  match s with
  | String a s' => if Ascii.eqb a c then Some s' else None
  | "" => None
  end.

(* nothing but spaces *)
Definition blank (s : string) : bool := match trim s with "" => true | _ => false end.

(* a whole number, spaces around it allowed *)
Definition read_whole (s : string) : option Z :=
  match read_digits 0 0 (trim s) with
  | (v, S _, rest) => if blank rest then Some v else None
  | _ => None
  end.

(* a number in scientific notation: spaces, an optional minus, digits, a point, digits, e, a sign, digits,
   spaces *)
Definition read_sci (s : string) : option R :=
  let '(neg, s) := match rest_after "-" (trim s) with Some s' => (true, s') | None => (false, trim s) end in
  let '(a, na, s) := read_digits 0 0 s in
  match na, rest_after "." s with
  | S _, Some s =>
      let '(b, nb, s) := read_digits a 0 s in
      match nb, rest_after "e" s with
      | S _, Some s =>
          let '(eneg, s) := match rest_after "-" s with
                            | Some s' => (Some true, s')
                            | None => match rest_after "+" s with Some s' => (Some false, s') | None => (None, s) end
                            end in
          match eneg, read_digits 0 0 s with
          | Some eneg, (e, S _, rest) =>
              let e := if eneg : bool then - e else e in
              let v := (IZR b * bpow ten (e - Z.of_nat nb))%R in
              if blank rest then Some (if neg : bool then (- v)%R else v) else None
          | _, _ => None
          end
      | _, _ => None
      end
  | _, _ => None
  end.

(* a word, spaces around it allowed *)
Definition is_word (w s : string) : Prop := exists rest, trim s = w ++ rest /\ blank rest = true.

(* The text s shows the number x with the given number of significant digits: it reads as a number that differs
   from x by at most half a unit of the last digit shown (in relative terms), or it names the special value. *)
Definition shows (digits : Z) (s : string) (x : f64) : Prop :=
  match x with
  | B754_nan => is_word "NaN" s
  | B754_infinity b => is_word (if b : bool then "-inf" else "inf") s
  | _ => exists q, read_sci s = Some q /\ (Rabs (q - B2R x) <= / 2 * bpow ten (1 - digits) * Rabs (B2R x))%R
  end.

(* the cells of a line, separated by bars *)
Fixpoint cells (s : string) : list string :=
  match s with
  | "" => [""]
  | String c s' =>
      if Ascii.eqb c "|" then "" :: cells s'
      else match cells s' with
           | [] => []
           | p :: ps => String c p :: ps
           end
  end.

(* where the column separators of a line are *)
Fixpoint bars_from (pos : nat) (s : string) : list nat :=
  match s with
  | "" => []
  | String c s' => if Ascii.eqb c "|" then pos :: bars_from (S pos) s' else bars_from (S pos) s'
  end.
Definition bars (s : string) : list nat := bars_from 0 s.
