(* Specification side of the reports: how a reader understands them. Independent of Report.v. *)
From Coq Require Import List NArith ZArith Reals Bool String Ascii.
From Flocq Require Import Core BinarySingleNaN.
Require Import Verif.F64 Verif.Termination Verif.Restart Verif.FormatSpec.
Import ListNotations.
Open Scope string_scope.

(* the pieces of a text between the occurrences of a character *)
Fixpoint pieces (c : ascii) (s : string) : list string :=
  match s with
  | "" => [""]
  | String a s' =>
      if Ascii.eqb a c then "" :: pieces c s'
      else match pieces c s' with
           | [] => []
           | p :: ps => String a p :: ps
           end
  end.
(* what stands between backquotes *)
Fixpoint every_second {A} (l : list A) : list A :=
  match l with
  | _ :: y :: l' => y :: every_second l'
  | _ => []
  end.
Definition quoted (s : string) : list string := every_second (pieces "`" s).

(* the names of the reasons, as documented *)
Definition reason_names : list (string * reason) :=
  [("MaxFunctionEvals", MaxFunctionEvals); ("MaxGenerations", MaxGenerations); ("MaxTime", MaxTime); ("FunTarget", FunTarget);
   ("TolFun", TolFun); ("TolFunRel", TolFunRel); ("TolFunHist", TolFunHist); ("TolX", TolX); ("TolStagnation", TolStagnation);
   ("TolXUp", TolXUp); ("NoEffectAxis", NoEffectAxis); ("NoEffectCoord", NoEffectCoord); ("TolConditionCov", TolConditionCov);
   ("InvalidFunctionValue", InvalidFunctionValue); ("PosDefCov", PosDefCov)].
Definition restart_reason_names : list (string * restart_reason) :=
  [("MaxRuns", RMaxRuns); ("FunTarget", RFunTarget); ("MaxFunctionEvals", RMaxFunctionEvals); ("MaxTime", RMaxTime);
   ("InvalidFunctionValue", RInvalidFunctionValue)].
Definition look_up {A} (names : list (string * A)) (s : string) : option A :=
  option_map snd (find (fun p => String.eqb (fst p) s) names).
Definition read_reason : string -> option reason := look_up reason_names.
Definition read_restart_reason : string -> option restart_reason := look_up restart_reason_names.

Definition read_n (s : string) : option N := option_map Z.to_N (read_whole s).

(* "Run 3 parameters: lambda=12, sigma0= 5.00000e-01, seed=42" *)
Definition parameters_line (line : string) (run lambda : N) (sigma0 : f64) (seed : N) : Prop :=
  exists head n l s last,
    pieces "=" line = [head; l ++ ", sigma0"; s ++ ", seed"; last] /\
    pieces " " head = ["Run"; n; "parameters:"; "lambda"] /\ read_n n = Some run /\
    read_n l = Some lambda /\ shows 6 s sigma0 /\ read_n last = Some seed.

(* "Run 3 results: best f-val= 1.000000000000e-02, termination_reasons=[`TolX`, `TolFun`], f-evals=120" *)
Definition results_line (line : string) (run : N) (best : option f64) (reasons : list reason) (evals : N) : Prop :=
  exists head n v rs last,
    pieces "=" line = [head; v ++ ", termination_reasons"; rs ++ ", f-evals"; last] /\
    pieces " " head = ["Run"; n; "results:"; "best"; "f-val"] /\ read_n n = Some run /\
    match best with Some x => shows 13 v x | None => v = "None" end /\
    map read_reason (quoted rs) = map Some reasons /\ read_n last = Some evals.

(* "Terminated in 360 f-evals with reason: `MaxRuns`" *)
Definition closing_line (line : string) (evals : N) (reason : restart_reason) : Prop :=
  exists n last, pieces " " line = ["Terminated"; "in"; n; "f-evals"; "with"; "reason:"; last] /\
    read_n n = Some evals /\ map read_restart_reason (quoted last) = [Some reason].

(* "IPOP-aCMA-ES with dimension=10, search_range=[-5, 5], increase_factor=2, seed=7": a name, then values with names;
   the pieces of the line between the signs "=" when the value before was v *)
Fixpoint named_pieces (v : string) (values : list (string * string)) : list string :=
  match values with
  | [] => [v]
  | (k, x) :: l => (v ++ ", " ++ k) :: named_pieces x l
  end.
Definition opening_line (line name dimension range : string) (values : list (string * string)) (seed : string) : Prop :=
  pieces "=" line = (name ++ " with dimension") :: named_pieces dimension (("search_range", range) :: (values ++ [("seed", seed)])%list).
