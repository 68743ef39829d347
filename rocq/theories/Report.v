(* Model of the text of the reports: print_final_info of /repo/src/lib.rs lines 564-585 and the lines a Restarter
   prints, /repo/src/restart/mod.rs lines 84-93 and 438-497, in binary64. *)
From Coq Require Import List NArith ZArith Bool String Ascii.
From Flocq Require Import IEEE754.BinarySingleNaN.
Require Import Verif.Base Verif.Num Verif.F64 Verif.LinAlg Verif.Mode Verif.Weights Verif.Options Verif.Params Verif.Env
  Verif.State Verif.Sampling Verif.History Verif.Termination Verif.Plot Verif.Cmaes Verif.Restart Verif.Format.
Import ListNotations.
Open Scope string_scope.

(* termination.rs lines 19-66: Display is the derived Debug, which is the name of the variant *)
Definition reason_name (r : reason) : string :=
  match r with
  | MaxFunctionEvals => "MaxFunctionEvals"
  | MaxGenerations => "MaxGenerations"
  | MaxTime => "MaxTime"
  | FunTarget => "FunTarget"
  | TolFun => "TolFun"
  | TolFunRel => "TolFunRel"
  | TolFunHist => "TolFunHist"
  | TolX => "TolX"
  | TolStagnation => "TolStagnation"
  | TolXUp => "TolXUp"
  | NoEffectAxis => "NoEffectAxis"
  | NoEffectCoord => "NoEffectCoord"
  | TolConditionCov => "TolConditionCov"
  | InvalidFunctionValue => "InvalidFunctionValue"
  | PosDefCov => "PosDefCov"
  end.
(* restart/mod.rs lines 45-64, the same way *)
Definition restart_reason_name (r : restart_reason) : string :=
  match r with
  | RMaxRuns => "MaxRuns"
  | RFunTarget => "FunTarget"
  | RMaxFunctionEvals => "MaxFunctionEvals"
  | RMaxTime => "MaxTime"
  | RInvalidFunctionValue => "InvalidFunctionValue"
  end.

(* format!("`{}`", r) *)
Definition quote (s : string) : string := "`" ++ s ++ "`".
(* [T]::join of strings *)
Fixpoint join (sep : string) (l : list string) : string :=
  match l with
  | [] => ""
  | [s] => s
  | s :: l' => s ++ sep ++ join sep l'
  end.
(* lib.rs lines 569-573 and restart/mod.rs lines 486-490 *)
Definition reasons_str (l : list reason) : string := join ", " (map (fun r => quote (reason_name r)) l).
(* `{}` of a usize or u64 *)
Definition dec_n (n : N) : string := dec (Z.of_N n).

Section Reports.
  Context {E : Env f64} {RE : REnv f64} {F : Type}.
  (* `{}` and `{:e}` of an f64 and `{}` of a DVector: not modelled further *)
  Variables (show show_e : f64 -> string) (show_point : vec f64 -> string).

  (* lib.rs lines 564-585. The text of a DVector has several lines; it is one entry of the list here. *)
  Definition final_lines (c : cmaes f64 F) (termination_reasons : list reason) : outcome (list string) :=
    row <- (if (function_evals c =? c_last_print c)%N then Ret [] else r <- info_row c ;; Ret [r]) ;;
    Ret (app row
         (("Terminated with reason(s): " ++ reasons_str termination_reasons) ::
          app match current_best_individual c, overall_best_individual c with
              | Some current, Some overall =>
                  ["Current best function value: " ++ show_e (i_value current);
                   "Overall best function value: " ++ show_e (i_value overall)]
              | _, _ => []
              end
          ["Final mean: " ++ show_point (mean c)])).

  (* restart/mod.rs lines 468-477 *)
  Definition run_info_line (run : N) (p : params f64) : outcome string :=
    s <- format_num (p_initial_sigma p) 12 ;;
    Ret ("Run " ++ dec_n run ++ " parameters: lambda=" ++ dec_n (p_lambda p) ++ ", sigma0=" ++ s ++
         ", seed=" ++ dec_n (p_seed p)).

  (* restart/mod.rs lines 480-498 *)
  Definition run_results_line (run : N) (c : cmaes f64 F) (termination_reasons : list reason) : outcome string :=
    best_value_str <- match overall_best_individual c with
                      | Some ind => format_num (i_value ind) 19
                      | None => Ret "None"
                      end ;;
    Ret ("Run " ++ dec_n run ++ " results: best f-val=" ++ best_value_str ++ ", termination_reasons=[" ++
         reasons_str termination_reasons ++ "], f-evals=" ++ dec_n (function_evals c)).

  (* restart/mod.rs lines 84-93 *)
  Definition results_lines (res : restart_results f64) : list string :=
    ("Terminated in " ++ dec_n (rr_function_evals res) ++ " f-evals with reason: `" ++
     restart_reason_name (rr_reason res) ++ "`") ::
    match rr_best res with
    | Some best => ["Best function value: " ++ show_e (i_value best); "Best point: " ++ show_point (i_point best)]
    | None => []
    end.

  (* local.rs lines 91-93, ipop.rs lines 95-97, bipop.rs lines 195-197, strategy.rs lines 114-120 *)
  Definition algorithm_name (s : strategy f64) : string :=
    match s with
    | SLocal _ => "LR-aCMA-ES"
    | SIpop _ => "IPOP-aCMA-ES"
    | SBipop _ => "BIPOP-aCMA-ES"
    end.
  (* local.rs lines 95-101, ipop.rs lines 99-105, bipop.rs lines 199-211, strategy.rs lines 122-128 *)
  Definition parameters_as_strings (s : strategy f64) : list (string * string) :=
    match s with
    | SLocal l => [("sigma0_factor", show (lo_factor l))]
    | SIpop i => [("increase_factor", dec_n (ip_factor i))]
    | SBipop b => [("lr_sigma0_factor", show (bi_lr_factor b)); ("ipop_increase_factor", dec_n (bi_increase b))]
    end.
  (* restart/mod.rs lines 438-457 *)
  Definition restarter_line (r : restarter f64) : string :=
    let parameters_str := join ", " (map (fun '(name, value) => name ++ "=" ++ value) (parameters_as_strings (rs_strategy r))) in
    let search_range_str := "[" ++ show (rs_lo r) ++ ", " ++ show (rs_hi r) ++ "]" in
    algorithm_name (rs_strategy r) ++ " with dimension=" ++ dec_n (N.of_nat (rs_dimensions r)) ++ ", search_range=" ++
    search_range_str ++ ", " ++ parameters_str ++ ", seed=" ++ dec_n (rs_seed r).

  (* The two lines of each run, the first with the number runs + 1: restart/mod.rs lines 350-375. The parameters are
     those of the optimiser before the run; they never change (C71), so they are read from the final one here. The
     lines a run prints itself are not part of this list. *)
  Fixpoint runs_lines (runs : N) (ts : list (run_record f64 F)) : outcome (list string) :=
    match ts with
    | [] => Ret []
    | t :: ts' =>
        a <- run_info_line (runs + 1) (c_params (ru_final t)) ;;
        b <- run_results_line (runs + 1) (ru_final t) (ru_reasons t) ;;
        rest <- runs_lines (runs + 1) ts' ;;
        Ret (a :: b :: rest)
    end.

  (* What run_internal prints, restart/mod.rs lines 278-280, 350-375, 415-419, for a restarter r (as it was before
     the call) that performed the runs ts in this order and returned res. *)
  Definition restart_lines (r : restarter f64) (ts : list (run_record f64 F)) (res : restart_results f64)
    : outcome (list string) :=
    if rs_print_info r then
      body <- runs_lines 0 ts ;;
      Ret (restarter_line r :: app body (results_lines res))
    else Ret [].
End Reports.
