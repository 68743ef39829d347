(* Exact arithmetic with the IEEE special values: the second instance of the numeric operations.
   Differences from binary64: no rounding, no overflow or underflow, and zero has no sign (a division of a
   non-zero number by zero has the sign of the dividend). *)
From Coq Require Import List NArith ZArith Bool Reals.
From Flocq Require Import Core.
Require Import Verif.Num.
Open Scope R_scope.

Inductive xreal :=
| XNaN
| XInf (neg : bool)
| XFin (r : R).

Definition Rltb (a b : R) : bool := if Rlt_dec a b then true else false.
Definition Rleb (a b : R) : bool := if Rle_dec a b then true else false.
Definition Reqb (a b : R) : bool := if Req_EM_T a b then true else false.

Definition x_neg (a : xreal) : xreal :=
  match a with XNaN => XNaN | XInf s => XInf (negb s) | XFin r => XFin (- r) end.

Definition x_add (a b : xreal) : xreal :=
  match a, b with
  | XNaN, _ | _, XNaN => XNaN
  | XFin r, XFin s => XFin (r + s)
  | XInf s, XFin _ => XInf s
  | XFin _, XInf s => XInf s
  | XInf s, XInf t => if Bool.eqb s t then XInf s else XNaN
  end.

Definition x_sub (a b : xreal) : xreal := x_add a (x_neg b).

(* sign of a number as infinity, NaN for zero *)
Definition x_signed_inf (flip : bool) (r : R) : xreal :=
  if Rltb 0 r then XInf flip else if Rltb r 0 then XInf (negb flip) else XNaN.

Definition x_mul (a b : xreal) : xreal :=
  match a, b with
  | XNaN, _ | _, XNaN => XNaN
  | XFin r, XFin s => XFin (r * s)
  | XInf s, XFin r => x_signed_inf s r
  | XFin r, XInf s => x_signed_inf s r
  | XInf s, XInf t => XInf (xorb s t)
  end.

Definition x_div (a b : xreal) : xreal :=
  match a, b with
  | XNaN, _ | _, XNaN => XNaN
  | XFin r, XFin s => if Reqb s 0 then x_signed_inf false r else XFin (r / s)
  | XInf s, XFin r => if Rltb r 0 then XInf (negb s) else XInf s
  | XFin _, XInf _ => XFin 0
  | XInf _, XInf _ => XNaN
  end.

Definition x_abs (a : xreal) : xreal :=
  match a with XNaN => XNaN | XInf _ => XInf false | XFin r => XFin (Rabs r) end.

Definition x_sqrt (a : xreal) : xreal :=
  match a with
  | XNaN => XNaN
  | XInf true => XNaN
  | XInf false => XInf false
  | XFin r => if Rltb r 0 then XNaN else XFin (sqrt r)
  end.

Definition x_floor (a : xreal) : xreal :=
  match a with XFin r => XFin (IZR (Zfloor r)) | _ => a end.
Definition x_ceil (a : xreal) : xreal :=
  match a with XFin r => XFin (IZR (Zceil r)) | _ => a end.

Definition x_ltb (a b : xreal) : bool :=
  match a, b with
  | XNaN, _ | _, XNaN => false
  | XFin r, XFin s => Rltb r s
  | XInf s, XFin _ => s
  | XFin _, XInf s => negb s
  | XInf s, XInf t => andb s (negb t)
  end.
Definition x_eqb (a b : xreal) : bool :=
  match a, b with
  | XFin r, XFin s => Reqb r s
  | XInf s, XInf t => Bool.eqb s t
  | _, _ => false
  end.
Definition x_leb (a b : xreal) : bool := x_ltb a b || x_eqb a b.

Definition x_is_nan (a : xreal) : bool := match a with XNaN => true | _ => false end.
(* no subnormals in exact arithmetic: finite and non-zero *)
Definition x_is_normal (a : xreal) : bool :=
  match a with XFin r => negb (Reqb r 0) | _ => false end.

Definition x_to_usize (a : xreal) : N :=
  match a with
  | XNaN => 0%N
  | XInf s => if s then 0%N else 18446744073709551615%N
  | XFin r => Z.to_N (Z.max 0 (Z.min (Ztrunc r) 18446744073709551615))
  end.

#[global] Instance Num_xreal : Num xreal := {
  nadd := x_add;
  nsub := x_sub;
  nmul := x_mul;
  ndiv := x_div;
  nneg := x_neg;
  nabs := x_abs;
  nsqrt := x_sqrt;
  nfloor := x_floor;
  nceil := x_ceil;
  nltb := x_ltb;
  nleb := x_leb;
  neqb := x_eqb;
  nis_nan := x_is_nan;
  nis_normal := x_is_normal;
  nnan := XNaN;
  nofZ := fun z => XFin (IZR z);
  nto_usize := x_to_usize
}.

Definition x_ln (a : xreal) : xreal :=
  match a with
  | XNaN => XNaN
  | XInf true => XNaN
  | XInf false => XInf false
  | XFin r => if Rltb 0 r then XFin (ln r) else if Reqb r 0 then XInf true else XNaN
  end.
Definition x_exp (a : xreal) : xreal :=
  match a with
  | XNaN => XNaN
  | XInf true => XFin 0
  | XInf false => XInf false
  | XFin r => XFin (exp r)
  end.
(* Only finite positive bases with finite exponents occur in the modelled code; anything else is NaN here
   (simplification). *)
Definition x_powf (a b : xreal) : xreal :=
  match a, b with
  | XFin r, XFin s => if Rltb 0 r then XFin (Rpower r s) else XNaN
  | _, _ => XNaN
  end.

#[global] Instance Libm_xreal : Libm xreal := {
  lm_ln := x_ln;
  lm_exp := x_exp;
  lm_powf := x_powf
}.
