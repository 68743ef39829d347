(* Model of the text the optimiser prints: /repo/src/utils.rs lines 10-25 (format_num) and the printing
   methods of /repo/src/lib.rs lines 490-585, in binary64. *)
From Coq Require Import List NArith ZArith Bool String Ascii.
From Flocq Require Import IEEE754.BinarySingleNaN.
Require Import Verif.Base Verif.Num Verif.F64 Verif.LinAlg Verif.Mode Verif.Weights Verif.Options Verif.Params Verif.Env
  Verif.State Verif.Sampling Verif.History Verif.Termination Verif.Plot Verif.Cmaes.
Import ListNotations.
Open Scope string_scope.
Open Scope Z_scope.

(* ---- decimal text, the formatting of core::fmt that utils.rs and lib.rs use ---- *)

(* the character of a digit *)
Definition digit (d : Z) : ascii := ascii_of_nat (48 + Z.to_nat d).

(* `{}` of a non-negative integer; the fuel is the number of binary digits, which is always enough *)
Fixpoint dec_fuel (fuel : nat) (q : Z) : string :=
  match fuel with
  | O => String (digit (q mod 10)) ""
  | S fuel' =>
      if q <? 10 then String (digit q) ""
      else dec_fuel fuel' (q / 10) ++ String (digit (q mod 10)) ""
  end.
Definition dec (q : Z) : string := dec_fuel (Z.to_nat (Z.log2 q)) q.

(* `{}` of an integer *)
Definition dec_signed (k : Z) : string := if k <? 0 then "-" ++ dec (- k) else dec k.

(* a character repeated *)
Fixpoint repeat_char (c : ascii) (n : nat) : string :=
  match n with O => "" | S n' => String c (repeat_char c n') end.

(* `{:w}` of a number: at least w characters, spaces on the left *)
Definition pad_left (w : nat) (s : string) : string := repeat_char " " (w - String.length s) ++ s.

(* `{:^w}` of a string: at least w characters, the extra space of an odd number on the right *)
Definition center (w : nat) (s : string) : string :=
  let pad := (w - String.length s)%nat in
  repeat_char " " (pad / 2) ++ s ++ repeat_char " " ((pad + 1) / 2).

(* the decimal exponent of n / d, floor of its decimal logarithm; n and d are positive *)
Definition exponent10 (n d : Z) : Z :=
  if d <=? n then Z.of_nat (String.length (dec (n / d))) - 1
  else - Z.of_nat (String.length (dec ((d - 1) / n))).

(* n / d rounded to an integer, ties to even *)
Definition round_half_even (n d : Z) : Z :=
  let q := n / d in
  match 2 * (n mod d) ?= d with
  | Lt => q
  | Gt => q + 1
  | Eq => if Z.even q then q else q + 1
  end.

(* the value as an integer significand of p + 1 digits and a decimal exponent *)
Definition scientific (n d : Z) (p : N) : Z * Z :=
  let k := exponent10 n d in
  let p := Z.of_N p in
  let s := round_half_even (n * 10 ^ Z.max 0 (p - k)) (d * 10 ^ Z.max 0 (k - p)) in
  if 10 ^ (p + 1) <=? s then (10 ^ p, k + 1) else (s, k).

(* insert the decimal point after the first character *)
Definition point_after_first (s : string) : string :=
  match s with
  | "" => ""
  | String c s' => String c (String "." s')
  end.

(* `{:.p$e}` of a finite number that is not negative, with p >= 1 (core::fmt rounds the exact value to p + 1
   significant digits) *)
Definition format_exp (x : f64) (p : N) : string :=
  match x with
  | B754_finite _ m e _ =>
      let n := Zpos m * 2 ^ Z.max 0 e in
      let d := 2 ^ Z.max 0 (- e) in
      let '(s, k) := scientific n d p in
      point_after_first (dec s) ++ "e" ++ dec_signed k
  | _ => "0." ++ repeat_char "0" (N.to_nat p) ++ "e0"
  end.

(* str::split at a character, as the list of the parts *)
Fixpoint split_at (c : ascii) (s : string) : list string :=
  match s with
  | "" => [""]
  | String a s' =>
      if Ascii.eqb a c then "" :: split_at c s'
      else match split_at c s' with
           | [] => [String a ""]
           | p :: ps => String a p :: ps
           end
  end.

(* str::parse::<i32> *)
Fixpoint parse_digits (acc : Z) (s : string) : option Z :=
  match s with
  | "" => Some acc
  | String c s' =>
      let d := Z.of_nat (nat_of_ascii c) - 48 in
      if (0 <=? d) && (d <=? 9) then parse_digits (10 * acc + d) s' else None
  end.
Definition parse_i32 (s : string) : option Z :=
  let '(neg, t) := match s with
                   | String c s' => if Ascii.eqb c "-" then (true, s')
                                    else if Ascii.eqb c "+" then (false, s') else (false, s)
                   | "" => (false, "")
                   end in
  match t with
  | "" => None
  | _ => match parse_digits 0 t with
         | None => None
         | Some v => let v := if neg : bool then - v else v in
                     if (-2147483648 <=? v) && (v <=? 2147483647) then Some v else None
         end
  end.

(* `{:+03}` of an integer: a sign and at least two digits *)
Definition format_sign3 (k : Z) : string :=
  let t := dec (Z.abs k) in
  (if k <? 0 then "-" else "+") ++ repeat_char "0" (2 - String.length t) ++ t.

(* utils.rs lines 10-25 *)
Definition format_num (num : f64) (target_width : N) : outcome string :=
  match num with
  | B754_nan => Ret (pad_left (N.to_nat target_width) "NaN")
  | B754_infinity s => Ret (pad_left (N.to_nat target_width) (if s : bool then "-inf" else "inf"))
  | _ =>
      let sign := if nleb n0 num then " " else "-" in
      let pad_width := (N.max target_width 8 - 7)%N in
      let num_parts := split_at "e" (format_exp (nabs num) pad_width) in
      num_digits <- unwrap (nth_error num_parts 0) ;;
      e <- unwrap (nth_error num_parts 1) ;;
      num_exponent <- unwrap (parse_i32 e) ;;
      Ret (sign ++ num_digits ++ "e" ++ format_sign3 num_exponent)
  end.

(* ---- lib.rs ---- *)

(* lib.rs lines 513-516 *)
Definition title_string : string :=
  center 7 "Gen #" ++ " | " ++ center 7 "f evals" ++ " | " ++ center 19 "Best function value" ++ " | " ++
  center 10 "Axis Ratio" ++ " | " ++ center 10 "Sigma" ++ " | " ++ center 10 "Min std" ++ " | " ++ center 10 "Max std".

Section Lines.
  Context {E : Env f64} {F : Type}.

  (* lib.rs lines 499-520: the three lines print_initial_info prints *)
  Definition initial_lines (c : cmaes f64 F) : list string :=
    let p := c_params c in
    let variant := match p_weights_setting p with
                   | WPositive | WUniform => "CMA-ES"
                   | WNegative => "aCMA-ES"
                   end in
    [variant ++ " with dimension=" ++ dec (Z.of_N (p_dim p)) ++ ", lambda=" ++ dec (Z.of_N (p_lambda p)) ++
       ", seed=" ++ dec (Z.of_N (p_seed p));
     title_string;
     repeat_char "-" (String.length title_string)].

  (* lib.rs lines 532-551: the row print_info prints; nalgebra's min and max of the diagonal are vmin and vmax *)
  Definition info_row (c : cmaes f64 F) : outcome string :=
    let generations := pad_left 7 (dec (Z.of_N (generation c))) in
    let evals := pad_left 7 (dec (Z.of_N (function_evals c))) in
    best_function_value <- match current_best_individual c with
                           | Some i => format_num (i_value i) 19
                           | None => Ret (repeat_char " " 19)
                           end ;;
    axis_ratio <- format_num (cmaes_axis_ratio c) 11 ;;
    sigma_text <- format_num (sigma c) 11 ;;
    let cov_diag := diagonal (covariance_matrix c) in
    min_std <- format_num (nmul (sigma c) (nsqrt (vmin cov_diag))) 11 ;;
    max_std <- format_num (nmul (sigma c) (nsqrt (vmax cov_diag))) 11 ;;
    Ret (generations ++ " | " ++ evals ++ " | " ++ best_function_value ++ " |" ++ axis_ratio ++ " |" ++ sigma_text ++
         " |" ++ min_std ++ " |" ++ max_std).
End Lines.
