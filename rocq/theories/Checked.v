(* Model of next as compiled with overflow checks (debug builds): every usize and i32 addition and multiplication of
   /repo/src/lib.rs, state.rs, sampling.rs, termination.rs and plotting/mod.rs that a call of next performs panics when the
   result does not fit, where the model of release builds (Cmaes.next) wraps around or uses unbounded numbers. Subtractions
   are in the model of release builds already (PUnderflow). Not included: the counter of resampling rounds (sampling.rs line
   143; it would need 2^64 rounds) and index arithmetic inside the dependencies. *)
From Coq Require Import List NArith ZArith Bool.
Require Import Verif.Base Verif.Num Verif.LinAlg Verif.Mode Verif.Weights Verif.Options Verif.Params Verif.Env
  Verif.State Verif.Sampling Verif.History Verif.Termination Verif.Plot Verif.Cmaes.
Import ListNotations.

(* + and * on usize and i32 with overflow checks (64-bit target; language semantics, no counterpart in /repo) *)
Definition usize (z : N) : outcome N := if (z <=? 18446744073709551615)%N then Ret z else Panic POverflow.
Definition i32 (z : Z) : outcome Z := if ((-2147483648 <=? z) && (z <=? 2147483647))%Z then Ret z else Panic POverflow.

Section Checked.
  Context {T : Type} {NT : Num T} {LT : Libm T} {E : Env T}.

  (* state.rs line 87: 2 * (self.generation as i32 + 1); the conversion truncates in every build *)
  Definition hs_exponent_checked (generation : N) : outcome Z :=
    g <- i32 (i32_wrap (Z.of_N generation) + 1) ;; i32 (2 * g).

  (* state.rs lines 50-144: dim.pow(2) (lines 84 and 188), the exponent (line 87), last_eigen_update_evals + evals_per_eigen
     (line 133), generation += 1 (line 141). Simplified: the checks of lines 84 to 133 come before the rest of the update;
     a panic ends the session wherever it happens. *)
  Definition state_update_checked (tree : rtree) (function_evals : N) (p : params T) (individuals : list (point T))
    (s : state T) : outcome (bool * state T) :=
    _ <- usize (p_dim p * p_dim p) ;;
    _ <- hs_exponent_checked (st_generation s) ;;
    _ <- usize (st_last_eigen s + evals_per_eigen_update p) ;;
    ' (ok, s') <- state_update tree function_evals p individuals s ;;
    _ <- (if ok : bool then usize (st_generation s + 1) else Ret 0%N) ;;
    Ret (ok, s').

  (* plotting/mod.rs lines 99-104 *)
  Definition next_data_point_evals_checked (p : plot T) : outcome N :=
    match pl_last_evals p with
    | Some e => usize (e + po_min_gap_evals (pl_options p))
    | None => Ret 0%N
    end.

  Context {F : Type} (ev : F -> vec T -> outcome (T * F)).

  (* lib.rs lines 319-369, with the additions of line 342 and of termination.rs line 145 *)
  Definition next_internal_checked (tk : tick) (individuals : list (point T)) (c : cmaes T F)
    : outcome (option (term_data T) * cmaes T F) :=
    ' (ok, st) <- state_update_checked (t_tree tk) (function_evals c) (c_params c) individuals (c_state c) ;;
    let c := mkCmaes (c_sampler c) (c_params c) st (c_history c) (c_plot c) (c_print_gap c)
                     (c_last_print c) (c_created c) (c_out c) in
    if negb ok then Ret (Some (get_termination_data c [PosDefCov]), c)
    else
      c <- match c_plot c with
           | Some p =>
               if (generation c <=? 1)%N then add_plot_point c
               else
                 e <- next_data_point_evals_checked p ;;
                 if (e <=? function_evals c)%N then add_plot_point c else Ret c
           | None => Ret c
           end ;;
      c <- match c_print_gap c with
           | Some gap =>
               e <- usize (c_last_print c + gap) ;;
               Ret (if (e <=? function_evals c)%N then set_last_print (function_evals c) (print_info c)
                    else if (generation c <? 4)%N then print_info c else c)
           | None => Ret c
           end ;;
      _ <- usize (past_generations (c_params c)) ;;
      reasons <- check_termination (c_params c) (function_evals c) (c_created c) (t_now tk) (c_state c)
                                   (c_history c) individuals ;;
      match reasons with
      | [] => Ret (None, c)
      | _ => Ret (Some (get_termination_data c reasons), c)
      end.

  (* lib.rs lines 628-640 and 677-691, with function_evals += points.len() (sampling.rs line 148) *)
  Definition next_checked (par : bool) (tk : tick) (c : cmaes T F) : outcome (option (term_data T) * cmaes T F) :=
    ' (r, c) <- cmaes_sample ev par tk c ;;
    match r with
    | None => Ret (Some (get_termination_data c [InvalidFunctionValue]), c)
    | Some individuals =>
        _ <- usize (function_evals c) ;;
        next_internal_checked tk individuals c
    end.
End Checked.
