(* IEEE-754 binary64 instance of the numeric operations, on Flocq's binary_float 53 1024
   (one NaN: Rust never lets the payload influence control flow in the modelled code). *)
From Coq Require Import List NArith ZArith Bool.
From Flocq Require Import Core.
From Flocq Require Import IEEE754.BinarySingleNaN.
Require Import Verif.Num.
Open Scope Z_scope.

Definition f64 := binary_float 53 1024.

Definition f64_prec : Prec_gt_0 53 := eq_refl.
Definition f64_emax : Prec_lt_emax 53 1024 := eq_refl.

(* All operations round to nearest, ties to even. *)
Definition f64_add (a b : f64) : f64 := @Bplus 53 1024 f64_prec f64_emax mode_NE a b.
Definition f64_sub (a b : f64) : f64 := @Bminus 53 1024 f64_prec f64_emax mode_NE a b.
Definition f64_mul (a b : f64) : f64 := @Bmult 53 1024 f64_prec f64_emax mode_NE a b.
Definition f64_div (a b : f64) : f64 := @Bdiv 53 1024 f64_prec f64_emax mode_NE a b.
Definition f64_sqrt (a : f64) : f64 := @Bsqrt 53 1024 f64_prec f64_emax mode_NE a.
Definition f64_neg (a : f64) : f64 := Bopp a.
Definition f64_abs (a : f64) : f64 := Babs a.
Definition f64_floor (a : f64) : f64 := @Bnearbyint 53 1024 f64_emax mode_DN a.
Definition f64_ceil (a : f64) : f64 := @Bnearbyint 53 1024 f64_emax mode_UP a.
Definition f64_nan : f64 := B754_nan.
Definition f64_inf (s : bool) : f64 := B754_infinity s.
(* integer to f64, rounded to nearest even (as in `x as f64`) *)
Definition f64_ofZ (z : Z) : f64 := @binary_normalize 53 1024 f64_prec f64_emax mode_NE z 0 false.

(* f64::is_normal: finite with a full 53-bit significand (canonical representation) *)
Definition f64_is_normal (a : f64) : bool :=
  match a with
  | B754_finite _ m _ _ => (4503599627370496 <=? Zpos m)%Z
  | _ => false
  end.

(* `x as usize`: truncates, saturates at 0 and 2^64-1, NaN becomes 0 *)
Definition f64_to_usize (a : f64) : N :=
  match a with
  | B754_nan => 0%N
  | B754_infinity s => if s then 0%N else 18446744073709551615%N
  | _ => Z.to_N (Z.max 0 (Z.min (Btrunc a) 18446744073709551615))
  end.

#[global] Instance Num_f64 : Num f64 := {
  nadd := f64_add;
  nsub := f64_sub;
  nmul := f64_mul;
  ndiv := f64_div;
  nneg := f64_neg;
  nabs := f64_abs;
  nsqrt := f64_sqrt;
  nfloor := f64_floor;
  nceil := f64_ceil;
  nltb := fun a b => Bltb a b;
  nleb := fun a b => Bleb a b;
  neqb := fun a b => Beqb a b;
  nis_nan := fun a => is_nan a;
  nis_normal := f64_is_normal;
  nnan := f64_nan;
  nofZ := f64_ofZ;
  nto_usize := f64_to_usize
}.
