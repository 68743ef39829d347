(* Model of /repo/src/functions.rs and of Scale in /repo/src/objective_function.rs. *)
From Coq Require Import List NArith ZArith Bool.
Require Import Verif.Base Verif.Num Verif.LinAlg Verif.Mode Verif.Weights Verif.Options Verif.Params Verif.Env
  Verif.State Verif.Sampling Verif.History Verif.Termination Verif.Plot Verif.Cmaes.
Import ListNotations.

Section Functions.
  Context {T : Type} {NT : Num T} {LT : Libm T} {E : Env T}.
  Context {F : Type} (ev : F -> vec T -> outcome (T * F)).

  (* objective_function.rs lines 193-197 *)
  Record scale_fn := mkScale { sc_function : F; sc_scales : vec T }.

  (* objective_function.rs lines 209-212: component_mul panics when the lengths differ *)
  Definition scale_apply (s : scale_fn) (x : vec T) : outcome (vec T) :=
    check (Nat.eqb (length x) (length (sc_scales s))) (map2 nmul x (sc_scales s)).

  (* objective_function.rs lines 225-230 (and 238-243 for evaluate_parallel; 232-236 and 245-249 forward
     to these) *)
  Definition scale_evaluate (s : scale_fn) (x : vec T) : outcome (T * scale_fn) :=
    scaled <- scale_apply s x ;;
    ' (v, f) <- ev (sc_function s) scaled ;;
    Ret (v, mkScale f (sc_scales s)).

  (* functions.rs line 7 *)
  Definition print_gap_evals : N := 200.

  (* functions.rs lines 26-38 (fmin), 53-65 (fmin_parallel), 83-96 (fmax), 111-124 (fmax_parallel) *)
  Definition fopt (m : mode) (par : bool) (random_seed now : N) (fuel : nat) (env : nat -> tick)
    (f : F) (initial_mean : vec T) (initial_step_size : T) : outcome (individual T) :=
    let o := options_new initial_mean initial_step_size in
    let o := match m with Maximize => apply_setter o (SMode Maximize) | Minimize => o end in
    let o := apply_setter o (SEnablePrinting print_gap_evals) in
    b <- cmaes_new random_seed now f o ;;
    match b with
    | inr _ => Panic PUnwrap
    | inl c =>
        ' (d, _) <- run ev par fuel env c ;;
        unwrap (td_overall_best d)
    end.
End Functions.
Arguments scale_fn : clear implicits.
