(* Model of the builder methods of /repo/src/restart/options.rs. *)
From Coq Require Import List NArith ZArith Bool.
Require Import Verif.Base Verif.Num Verif.LinAlg Verif.Mode Verif.Weights Verif.Options Verif.Params Verif.Env
  Verif.State Verif.Sampling Verif.History Verif.Termination Verif.Plot Verif.Cmaes Verif.Restart.
Import ListNotations.

Section RestartSetters.
  Context {T : Type}.

  (* restart/options.rs lines 115-172, one constructor per method *)
  Inductive restart_setter :=
  | RMode (v : mode)                            (* 115-118 *)
  | RParallelUpdate (v : bool)                  (* 121-124 *)
  | RDefaultOptions (v : options T)             (* 127-130 *)
  | RSFunTarget (v : T)                         (* 133-136 *)
  | RSMaxFunctionEvals (v : N)                  (* 139-142 *)
  | RSMaxTime (v : N)                           (* 145-148 *)
  | RMaxFunctionEvalsPerRun (v : N)             (* 151-154 *)
  | RMaxGenerationsPerRun (v : N)               (* 157-160 *)
  | REnablePrinting (v : bool)                  (* 163-166 *)
  | RSeed (v : N)                              .   (* 169-172 *)

  (* restart/options.rs lines 115-172 *)
  Definition apply_restart_setter (o : restart_options T) (s : restart_setter) : restart_options T :=
    let '(mkRestartOptions st dm md pu d0 lo hi ft mfe mt mfr mgr ep sd) := o in
    match s with
    | RMode v => mkRestartOptions st dm v pu d0 lo hi ft mfe mt mfr mgr ep sd
    | RParallelUpdate v => mkRestartOptions st dm md v d0 lo hi ft mfe mt mfr mgr ep sd
    | RDefaultOptions v => mkRestartOptions st dm md pu v lo hi ft mfe mt mfr mgr ep sd
    | RSFunTarget v => mkRestartOptions st dm md pu d0 lo hi (Some v) mfe mt mfr mgr ep sd
    | RSMaxFunctionEvals v => mkRestartOptions st dm md pu d0 lo hi ft (Some v) mt mfr mgr ep sd
    | RSMaxTime v => mkRestartOptions st dm md pu d0 lo hi ft mfe (Some v) mfr mgr ep sd
    | RMaxFunctionEvalsPerRun v => mkRestartOptions st dm md pu d0 lo hi ft mfe mt (Some v) mgr ep sd
    | RMaxGenerationsPerRun v => mkRestartOptions st dm md pu d0 lo hi ft mfe mt mfr (Some v) ep sd
    | REnablePrinting v => mkRestartOptions st dm md pu d0 lo hi ft mfe mt mfr mgr v sd
    | RSeed v => mkRestartOptions st dm md pu d0 lo hi ft mfe mt mfr mgr ep (Some v)
    end.
  Definition apply_restart_setters (o : restart_options T) (l : list restart_setter) : restart_options T :=
    fold_left apply_restart_setter l o.
End RestartSetters.
Arguments restart_setter : clear implicits.
