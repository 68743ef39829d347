(* Model of /repo/src/termination.rs. *)
From Coq Require Import List NArith ZArith Bool.
Require Import Verif.Base Verif.Num Verif.LinAlg Verif.Mode Verif.Params Verif.Env Verif.State Verif.History.
Import ListNotations.

(* termination.rs lines 19-67 *)
Inductive reason :=
| MaxFunctionEvals | MaxGenerations | MaxTime | FunTarget | TolFun | TolFunRel | TolFunHist | TolX
| TolStagnation | TolXUp | NoEffectAxis | NoEffectCoord | TolConditionCov | InvalidFunctionValue
| PosDefCov.

Section Termination.
  Context {T : Type} {NT : Num T} {E : Env T}.

  (* `if cond { result.push(r) }` *)
  Definition push_if (b : bool) (r : reason) : list reason := if b then [r] else [].

  (* termination.rs lines 113-117 *)
  Definition check_max_evals (p : params T) (function_evals : N) : bool :=
    match tp_max_function_evals (p_term p) with
    | Some m => (m <=? function_evals)%N
    | None => false
    end.
  (* lines 120-124 *)
  Definition check_max_generations (p : params T) (s : state T) : bool :=
    match tp_max_generations (p_term p) with
    | Some m => (m <=? st_generation s)%N
    | None => false
    end.
  (* lines 127-131; elapsed saturates at zero *)
  Definition check_max_time (p : params T) (created now : N) : bool :=
    match tp_max_time (p_term p) with
    | Some m => (m <=? now - created)%N
    | None => false
    end.
  (* lines 134-142 *)
  Definition check_fun_target (p : params T) (individuals : list (point T)) : bool :=
    match tp_fun_target (p_term p) with
    | Some t => existsb (fun i => is_better (p_mode p) (pt_value i) t) individuals
    | None => false
    end.

  (* line 145 *)
  Definition past_generations (p : params T) : N :=
    (10 + nto_usize (nceil (ndiv (nmul (nofZ 30) (nofN (p_dim p))) (nofN (p_lambda p)))))%N.
  (* lines 147-178 *)
  Definition check_tol_fun (p : params T) (h : history T) (individuals : list (point T))
    : outcome (list reason) :=
    let tp := p_term p in
    if (past_generations p <=? N.of_nat (length (h_best_values h)))%N then
      range_history <- unwrap (range (firstn (N.to_nat (past_generations p)) (h_best_values h))) ;;
      range_current <- unwrap (range (map pt_value individuals)) ;;
      Ret (push_if (nltb range_history (tp_tol_fun_hist tp)) TolFunHist
           ++ push_if (nltb range_history (tp_tol_fun tp) && nltb range_current (tp_tol_fun tp)) TolFun
           ++ match h_first_median h, h_best_median h with
              | Some first, Some best =>
                  let r := nmul (tp_tol_fun_rel tp) (nabs (nsub first best)) in
                  push_if (nltb range_history r && nltb range_current r) TolFunRel
              | _, _ => []
              end)
    else Ret [].

  (* lines 181-185 *)
  Definition check_tol_x (p : params T) (s : state T) : outcome bool :=
    let tol_x := tp_tol_x (p_term p) in
    b <- oall (fun i => c <- mget_c (cm_cov (st_cov s)) i i ;;
                        Ret (nltb (nabs (nmul (st_sigma s) c)) tol_x))
              (seq 0 (N.to_nat (p_dim p))) ;;
    Ret (b && forallb (fun x => nltb (nabs (nmul (st_sigma s) x)) tol_x) (st_path_c s)).

  (* lines 188-192 *)
  Definition check_condition_cov (p : params T) (s : state T) : bool :=
    let cond := powi (axis_ratio s) 2 in
    negb (nis_normal cond) || ngtb cond (tp_tol_condition_cov (p_term p)).

  (* lines 196-205 *)
  Definition check_no_effect_axis (p : params T) (s : state T) : outcome bool :=
    if (p_dim p =? 0)%N then Panic PDivZero
    else
      let i := N.to_nat (st_generation s mod p_dim p) in
      d <- mget_c (cm_sqrt_eigenvalues (st_cov s)) i i ;;
      if (ncols (cm_eigenvectors (st_cov s)) <=? i)%nat then Panic PIndex
      else
        m <- vadd_c (st_mean s)
                    (vscale (nmul (nmul (nlit 1 10) (st_sigma s)) d) (column (cm_eigenvectors (st_cov s)) i)) ;;
        Ret (veqb (st_mean s) m).

  (* lines 208-210 *)
  Definition check_no_effect_coord (p : params T) (s : state T) : outcome bool :=
    oany (fun i => m <- index (st_mean s) i ;;
                   c <- mget_c (cm_cov (st_cov s)) i i ;;
                   Ret (neqb m (nadd m (nmul (nmul (nlit 2 10) (st_sigma s)) c))))
         (seq 0 (N.to_nat (p_dim p))).

  (* lines 285-300 *)
  Definition tol_stagnation_generations (lower generation : N) : option N :=
    let generations := N.min (generation / 5) max_history_length in
    if (generations <? lower)%N then None else Some generations.

  (* the middle value, or the mean of the two middle values; NaN if there are none *)
  Definition median (l : list T) : T :=
    let s := sort_by (fun a b => partial_cmp a b) l in
    let n := length l in
    match l with
    | [] => nnan
    | _ => if Nat.even n
           then ndiv (nadd (nth (n / 2 - 1) s n0) (nth (n / 2) s n0)) n2
           else nth (n / 2) s n0
    end.

  (* statrs 0.18 Data::median: the median if no value is NaN (statrs selects it without sorting). If there is
     a NaN, which is possible for medians of generations containing both infinities, the outcome is left open. *)
  Definition data_median (l : list T) : outcome T :=
    if existsb nis_nan l then match nan_median l with Some m => Ret m | None => Panic PIndex end
    else Ret (median l).

  (* lines 222-250 *)
  Definition did_values_regress (m : mode) (gens : N) (values : list T) : outcome bool :=
    let subrange_length := nto_usize (nmul (nofN gens) (nlit 3 10)) in
    let recent := firstn (N.to_nat gens) values in
    let first_values := firstn (N.to_nat (N.min subrange_length gens)) recent in
    if (gens <? subrange_length)%N then Panic PUnderflow
    else
      let last_values := skipn (N.to_nat (gens - subrange_length)) recent in
      a <- data_median last_values ;;
      b <- data_median first_values ;;
      Ret (is_better m a b).

  (* lines 213-258 *)
  Definition check_tol_stagnation (p : params T) (s : state T) (h : history T) : outcome bool :=
    match tol_stagnation_generations (tp_tol_stagnation (p_term p)) (st_generation s) with
    | Some gens =>
        if (gens <=? N.of_nat (length (h_best_values h)))%N
           && (gens <=? N.of_nat (length (h_median_values h)))%N
        then
          b <- did_values_regress (p_mode p) gens (h_best_values h) ;;
          if b then did_values_regress (p_mode p) gens (h_median_values h) else Ret false
        else Ret false
    | None => Ret false
    end.

  (* Iterator::max_by: the last of the maximal elements *)
  Definition max_by (cmp : T -> T -> comparison) (l : list T) : option T :=
    match l with
    | [] => None
    | x :: l' => Some (fold_left (fun a b => match cmp a b with Gt => a | _ => b end) l' x)
    end.
  (* lines 261-270 *)
  Definition check_tol_x_up (p : params T) (s : state T) : outcome bool :=
    d <- unwrap (max_by partial_cmp (diagonal (cm_sqrt_eigenvalues (st_cov s)))) ;;
    Ret (ngtb (ndiv (nmul (st_sigma s) d) (p_initial_sigma p)) (tp_tol_x_up (p_term p))).

  (* lines 90-273 *)
  Definition check_termination (p : params T) (function_evals created now : N) (s : state T)
    (h : history T) (individuals : list (point T)) : outcome (list reason) :=
    let r1 := push_if (check_max_evals p function_evals) MaxFunctionEvals in
    let r2 := push_if (check_max_generations p s) MaxGenerations in
    let r3 := push_if (check_max_time p created now) MaxTime in
    let r4 := push_if (check_fun_target p individuals) FunTarget in
    r5 <- check_tol_fun p h individuals ;;
    tx <- check_tol_x p s ;;
    let r7 := push_if (check_condition_cov p s) TolConditionCov in
    nea <- check_no_effect_axis p s ;;
    nec <- check_no_effect_coord p s ;;
    ts <- check_tol_stagnation p s h ;;
    txu <- check_tol_x_up p s ;;
    Ret (r1 ++ r2 ++ r3 ++ r4 ++ r5 ++ push_if tx TolX ++ r7 ++ push_if nea NoEffectAxis
         ++ push_if nec NoEffectCoord ++ push_if ts TolStagnation ++ push_if txu TolXUp).
End Termination.
