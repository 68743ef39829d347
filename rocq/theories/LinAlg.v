(* The part of nalgebra (0.33) the code uses, on lists.
   Vectors are lists; matrices are lists of rows. The `_c` operations check operand sizes and panic
   on a mismatch like nalgebra's operators do. Simplification: sums inside products and norms run left to
   right from zero, nalgebra's kernels may associate differently. *)
From Coq Require Import List NArith ZArith Bool Arith.
Require Import Verif.Base Verif.Num.
Import ListNotations.

Section LinAlg.
  Context {T : Type} {NT : Num T}.

  Definition vec := list T.
  Definition mat := list (list T).

  (* zipWith *)
  Fixpoint map2 {A B C} (f : A -> B -> C) (a : list A) (b : list B) : list C :=
    match a, b with
    | x :: a', y :: b' => f x y :: map2 f a' b'
    | _, _ => []
    end.

  Definition vadd (a b : vec) : vec := map2 nadd a b.
  Definition vscale (s : T) (v : vec) : vec := map (nmul s) v.      (* s * v *)
  Definition vscale_r (v : vec) (s : T) : vec := map (fun x => nmul x s) v.  (* v * s *)
  Definition dot (a b : vec) : T := nsum (map2 nmul a b).
  Definition vzeros (n : nat) : vec := repeat n0 n.
  (* norm_squared / magnitude (= norm) *)
  Definition norm2 (v : vec) : T := nsum (map (fun x => nmul x x) v).
  Definition magnitude (v : vec) : T := nsqrt (norm2 v).

  Definition mnth (m : mat) (i j : nat) : T := nth j (nth i m []) n0.
  Definition mbuild (r c : nat) (f : nat -> nat -> T) : mat :=
    map (fun i => map (fun j => f i j) (seq 0 c)) (seq 0 r).
  Definition ncols (m : mat) : nat := match m with [] => 0 | r :: _ => length r end.
  Definition identity (n : nat) : mat := mbuild n n (fun i j => if Nat.eqb i j then n1 else n0).
  Definition mzeros (n : nat) : mat := mbuild n n (fun _ _ => n0).
  Definition transpose (m : mat) : mat := mbuild (ncols m) (length m) (fun i j => mnth m j i).
  Definition column (m : mat) (j : nat) : vec := map (fun r => nth j r n0) m.
  Definition from_diagonal (d : vec) : mat :=
    mbuild (length d) (length d) (fun i j => if Nat.eqb i j then nth i d n0 else n0).
  Definition diagonal (m : mat) : vec := map (fun i => mnth m i i) (seq 0 (length m)).
  Definition mmap (f : T -> T) (m : mat) : mat := map (map f) m.
  Definition madd (a b : mat) : mat := map2 vadd a b.
  Definition mscale (s : T) (m : mat) : mat := mmap (nmul s) m.
  Definition mvmul (m : mat) (v : vec) : vec := map (fun row => dot row v) m.
  Definition mmul (a b : mat) : mat :=
    map (fun row => map (fun j => dot row (column b j)) (seq 0 (ncols b))) a.
  (* column vector times row vector *)
  Definition outer (a b : vec) : mat := map (fun x => map (fun y => nmul x y) b) a.
  (* fill_lower_triangle_with_upper_triangle *)
  Definition fill_lower (m : mat) : mat :=
    mbuild (length m) (length m) (fun i j => if Nat.ltb j i then mnth m j i else mnth m i j).
  (* Matrix::max / Matrix::min of nalgebra (simba's simd_max / simd_min folds) on a vector *)
  Definition vmax (v : vec) : T :=
    match v with [] => n0 | x :: l => fold_left (fun a b => if ngeb a b then a else b) l x end.
  Definition vmin (v : vec) : T :=
    match v with [] => n0 | x :: l => fold_left (fun a b => if nleb a b then a else b) l x end.
  (* matrix/vector equality (entrywise ==) *)
  Fixpoint veqb (a b : vec) : bool :=
    match a, b with
    | [], [] => true
    | x :: a', y :: b' => neqb x y && veqb a' b'
    | _, _ => false
    end.

  (* shapes *)
  Definition rows_have (c : nat) (m : mat) : bool := forallb (fun r => Nat.eqb (length r) c) m.
  Definition is_shape (r c : nat) (m : mat) : bool := Nat.eqb (length m) r && rows_have c m.

  Definition check {A} (b : bool) (a : A) : outcome A := if b then Ret a else Panic PDimension.

  Definition vadd_c (a b : vec) : outcome vec := check (Nat.eqb (length a) (length b)) (vadd a b).
  Definition mvmul_c (m : mat) (v : vec) : outcome vec := check (rows_have (length v) m) (mvmul m v).
  Definition mmul_c (a b : mat) : outcome mat := check (rows_have (length b) a) (mmul a b).
  Definition same_shape (a b : mat) : bool := is_shape (length a) (ncols a) b && is_shape (length a) (ncols a) a.
  Definition madd_c (a b : mat) : outcome mat := check (same_shape a b) (madd a b).
  Definition mget_c (m : mat) (i j : nat) : outcome T := r <- index m i ;; index r j.

  (* iter::Sum for dynamically sized vectors/matrices: panics on an empty iterator *)
  Fixpoint vsum_from (acc : vec) (l : list vec) : outcome vec :=
    match l with
    | [] => Ret acc
    | v :: l' => a <- vadd_c acc v ;; vsum_from a l'
    end.
  Definition vsum_c (l : list vec) : outcome vec :=
    match l with [] => Panic PEmptySum | v :: l' => vsum_from v l' end.
  Fixpoint msum_from (acc : mat) (l : list mat) : outcome mat :=
    match l with
    | [] => Ret acc
    | m :: l' => a <- madd_c acc m ;; msum_from a l'
    end.
  Definition msum_c (l : list mat) : outcome mat :=
    match l with [] => Panic PEmptySum | m :: l' => msum_from m l' end.
End LinAlg.
Arguments vec : clear implicits.
Arguments mat : clear implicits.
