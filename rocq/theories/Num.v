(* The numeric operations the code uses, as a record, so that one model of the code can be
   instantiated at IEEE binary64 (F64.v) and at exact arithmetic (XReal.v). *)
From Coq Require Import List NArith ZArith Bool.
Import ListNotations.

(* Operations of Rust's f64 used in /repo/src. *)
Class Num (T : Type) := {
  nadd : T -> T -> T;
  nsub : T -> T -> T;
  nmul : T -> T -> T;
  ndiv : T -> T -> T;
  nneg : T -> T;
  nabs : T -> T;          (* f64::abs *)
  nsqrt : T -> T;         (* f64::sqrt *)
  nfloor : T -> T;        (* f64::floor *)
  nceil : T -> T;         (* f64::ceil *)
  nltb : T -> T -> bool;  (* < *)
  nleb : T -> T -> bool;  (* <= *)
  neqb : T -> T -> bool;  (* == *)
  nis_nan : T -> bool;    (* f64::is_nan *)
  nis_normal : T -> bool; (* f64::is_normal *)
  nnan : T;               (* f64::NAN *)
  nofZ : Z -> T;          (* integer as f64 *)
  nto_usize : T -> N      (* f64 as usize (truncating, saturating, NaN to 0) *)
}.

(* Functions of the platform's mathematical library. *)
Class Libm (T : Type) := {
  lm_ln : T -> T;         (* f64::ln *)
  lm_exp : T -> T;        (* f64::exp *)
  lm_powf : T -> T -> T   (* f64::powf *)
}.

Section Derived.
  Context {T : Type} {NT : Num T}.

  Definition n0 : T := nofZ 0.
  Definition n1 : T := nofZ 1.
  Definition n2 : T := nofZ 2.
  (* usize as f64 *)
  Definition nofN (n : N) : T := nofZ (Z.of_N n).
  (* decimal literal p/q; both are exactly representable, so the division is the correctly rounded literal *)
  Definition nlit (p q : Z) : T := ndiv (nofZ p) (nofZ q).
  Definition ngtb (a b : T) : bool := nltb b a.
  Definition ngeb (a b : T) : bool := nleb b a.

  (* f64::min and f64::max: a NaN argument is ignored. (Rust leaves the sign of the result for zeros of
     different sign open; the model returns the second argument on ties.) *)
  Definition nmin (a b : T) : T :=
    if nis_nan a then b else if nis_nan b then a else if nltb a b then a else b.
  Definition nmax (a b : T) : T :=
    if nis_nan a then b else if nis_nan b then a else if nltb b a then a else b.

  (* f64::powi: the loop of compiler-rt's __powidf2 *)
  Fixpoint powi_loop (r a : T) (p : positive) : T :=
    match p with
    | xH => nmul r a
    | xO p' => powi_loop r (nmul a a) p'
    | xI p' => powi_loop (nmul r a) (nmul a a) p'
    end.
  Definition powi (a : T) (e : Z) : T :=
    match e with
    | Z0 => n1
    | Zpos p => powi_loop n1 a p
    | Zneg p => ndiv n1 (powi_loop n1 a p)
    end.

  (* Iterator<Item = f64>::sum *)
  Definition nsum (l : list T) : T := fold_left nadd l n0.

  (* partial_cmp of f64 *)
  Definition npartial_cmp (a b : T) : option comparison :=
    if nltb a b then Some Lt else if nltb b a then Some Gt else if neqb a b then Some Eq else None.
End Derived.
