(* Outcomes of Rust computations.
   Modelling device, no counterpart in /repo: a Rust function returns a value, panics, or (for the
   unbounded loops) does not finish within the fuel given to the model. *)
From Coq Require Import List NArith ZArith Bool.
Import ListNotations.

(* The panics the modelled code can raise. *)
Inductive panic :=
| PIndex          (* slice / Vec / matrix index out of bounds *)
| PUnwrap         (* Option/Result::unwrap or expect on None/Err *)
| PDimension      (* nalgebra operand size mismatch *)
| PEmptySum       (* nalgebra: sum of an empty iterator of dynamic matrices *)
| PUnderflow      (* usize subtraction below zero *)
| POverflow       (* usize overflow with overflow checks enabled *)
| PDivZero        (* integer remainder by zero *)
| PRange.         (* rand: cannot sample empty or non-finite range *)

Inductive outcome (A : Type) :=
| Ret (a : A)
| Panic (p : panic)
| NoFuel.
Arguments Ret {A} _.
Arguments Panic {A} _.
Arguments NoFuel {A}.

Definition obind {A B} (o : outcome A) (k : A -> outcome B) : outcome B :=
  match o with
  | Ret a => k a
  | Panic p => Panic p
  | NoFuel => NoFuel
  end.

Notation "x <- e ;; k" := (obind e (fun x => k))
  (at level 100, e at next level, right associativity).
Notation "' p <- e ;; k" := (obind e (fun p => k))
  (at level 100, p strict pattern, e at next level, right associativity).

(* slice[i] (panics when out of bounds) *)
Definition index {A} (l : list A) (i : nat) : outcome A :=
  match nth_error l i with
  | Some a => Ret a
  | None => Panic PIndex
  end.

(* Option::unwrap / expect *)
Definition unwrap {A} (o : option A) : outcome A :=
  match o with
  | Some a => Ret a
  | None => Panic PUnwrap
  end.

(* map with a fallible function, left to right *)
Fixpoint omap {A B} (f : A -> outcome B) (l : list A) : outcome (list B) :=
  match l with
  | [] => Ret []
  | a :: l' => b <- f a ;; bs <- omap f l' ;; Ret (b :: bs)
  end.

(* filter with a fallible predicate, left to right *)
Fixpoint ofilter {A} (f : A -> outcome bool) (l : list A) : outcome (list A) :=
  match l with
  | [] => Ret []
  | a :: l' => b <- f a ;; r <- ofilter f l' ;; Ret (if b then a :: r else r)
  end.

(* Iterator::all, short-circuiting *)
Fixpoint oall {A} (f : A -> outcome bool) (l : list A) : outcome bool :=
  match l with
  | [] => Ret true
  | a :: l' => b <- f a ;; if b then oall f l' else Ret false
  end.

(* Iterator::any, short-circuiting *)
Fixpoint oany {A} (f : A -> outcome bool) (l : list A) : outcome bool :=
  match l with
  | [] => Ret false
  | a :: l' => b <- f a ;; if b then Ret true else oany f l'
  end.

(* usize addition as compiled in a release build (64-bit target): wraps around on overflow. No counterpart in
   /repo; a build with overflow checks panics where this wraps. *)
Definition wrapping_add (a b : N) : N := ((a + b) mod 18446744073709551616)%N.
