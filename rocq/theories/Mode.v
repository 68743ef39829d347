(* Model of /repo/src/mode.rs and of partial_cmp and range of /repo/src/utils.rs. *)
From Coq Require Import List NArith ZArith Bool.
Require Import Verif.Base Verif.Num.
Import ListNotations.

(* mode.rs lines 10-16 *)
Inductive mode := Minimize | Maximize.

Section Mode.
  Context {T : Type} {NT : Num T}.

  (* utils.rs lines 6-8: NaN operands compare as Equal *)
  Definition partial_cmp (a b : T) : comparison :=
    match npartial_cmp a b with Some c => c | None => Eq end.

  (* mode.rs lines 27-32 *)
  Definition sort_cmp (m : mode) (a b : T) : comparison :=
    match m with
    | Minimize => partial_cmp a b
    | Maximize => partial_cmp b a
    end.

  (* mode.rs lines 35-40 *)
  Definition is_better (m : mode) (a b : T) : bool :=
    match m with
    | Minimize => nltb a b
    | Maximize => ngtb a b
    end.

  (* mode.rs lines 42-47 *)
  Definition choose_best (m : mode) (a b : T) : T :=
    match m with
    | Minimize => nmin a b
    | Maximize => nmax a b
    end.

  (* utils.rs lines 39-51: the loop over the remaining elements; None = early return *)
  Fixpoint range_loop (mn mx : T) (l : list T) : option (T * T) :=
    match l with
    | [] => Some (mn, mx)
    | x :: l' =>
        if nis_nan x then None
        else
          let mn' := match partial_cmp x mn with Lt => x | _ => mn end in
          let mx' := match partial_cmp x mx with Gt => x | _ => mx end in
          range_loop mn' mx' l'
    end.

  (* utils.rs lines 31-54 *)
  Definition range (l : list T) : option T :=
    match l with
    | [] => None
    | x :: l' =>
        match range_loop x x l' with
        | Some (mn, mx) => Some (nsub mx mn)
        | None => None
        end
    end.

  (* slice::sort_by: a stable sort. Modelled by insertion (std uses a merge sort; both are the stable
     sort when the comparison is a total preorder, which it is for the non-NaN values sorted here). *)
  Fixpoint insert_by {A} (cmp : A -> A -> comparison) (x : A) (l : list A) : list A :=
    match l with
    | [] => [x]
    | y :: l' => match cmp x y with
                 | Gt => y :: insert_by cmp x l'
                 | _ => x :: y :: l'
                 end
    end.
  Fixpoint sort_by {A} (cmp : A -> A -> comparison) (l : list A) : list A :=
    match l with
    | [] => []
    | x :: l' => insert_by cmp x (sort_by cmp l')
    end.
End Mode.
