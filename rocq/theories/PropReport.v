(* C76: the text of the final report and of the report of a restarter. *)
From Coq Require Import String Ascii List NArith ZArith Bool Arith Lia Reals Lra.
From Flocq Require Import Core BinarySingleNaN.
Require Import Verif.Base Verif.Num Verif.F64 Verif.LinAlg Verif.Mode Verif.Weights Verif.Options
  Verif.Params Verif.Env Verif.State Verif.Sampling Verif.History Verif.Termination Verif.Plot Verif.Cmaes Verif.Restart Verif.Lib Verif.Order
  Verif.NextInv Verif.Spec Verif.LogLemmas Verif.TraceLemmas Verif.BuildLemmas Verif.Toy Verif.ToyLemmas Verif.PropPlot Verif.PropRun Verif.RestartLemmas
  Verif.PropRestart Verif.PropRestartRuns Verif.PropRestartConfig
  Verif.Format Verif.FormatSpec Verif.FormatLemmas Verif.PropFormat Verif.Report Verif.ReportSpec Verif.ReportLemmas.
Import ListNotations.
Open Scope string_scope.
Open Scope nat_scope.

(* a line made of a label and a value *)
Definition labelled (label value line : string) : Prop := line = label ++ ": " ++ value.

(* C76, print_final_info. It never panics. Before the report it prints the row of the progress table, unless this was
   done at the same number of evaluations. The line of the reasons names, in order, exactly the reasons given. Then
   come the best values, if there are any, and the mean. *)
Theorem C76_final : forall {E : Env f64} {F} (show_e : f64 -> string) (show_point : vec f64 -> string) (c : cmaes f64 F) reasons,
  exists row line best last,
    final_lines show_e show_point c reasons = Ret (row ++ line :: best ++ [last])%list /\
    (if (function_evals c =? c_last_print c)%N then row = [] else exists r, row = [r] /\ info_row c = Ret r) /\
    (exists text, labelled "Terminated with reason(s)" text line) /\
    map read_reason (quoted line) = map Some reasons /\
    match current_best_individual c, overall_best_individual c with
    | Some i, Some j => exists a b, best = [a; b] /\ labelled "Current best function value" (show_e (i_value i)) a /\
        labelled "Overall best function value" (show_e (i_value j)) b
    | _, _ => best = []
    end /\
    labelled "Final mean" (show_point (mean c)) last.
Proof.
  intros E F show_e show_point c reasons.
  assert (R : exists row, (if (function_evals c =? c_last_print c)%N then Ret [] else r <- info_row c ;; Ret [r]) = Ret row /\
    (if (function_evals c =? c_last_print c)%N then row = [] else exists r, row = [r] /\ info_row c = Ret r)).
  { destruct (function_evals c =? c_last_print c)%N; [eauto|]. destruct (row_parts c) as [b [r [s [lo [hi [X _]]]]]]. rewrite X. cbn [obind]. eauto. }
  destruct R as [row [R1 R2]]. unfold final_lines. rewrite R1. cbn [obind].
  exists row, ("Terminated with reason(s): " ++ reasons_str reasons).
  eexists. exists ("Final mean: " ++ show_point (mean c)). split; [reflexivity|]. split; [exact R2|]. split; [exists (reasons_str reasons); reflexivity|].
  split; [|split; [|reflexivity]].
  - pose proof (reasons_read reasons "Terminated with reason(s): " "" eq_refl eq_refl) as K. rewrite app_nil in K. exact K.
  - destruct (current_best_individual c) as [i|]; [|reflexivity]. destruct (overall_best_individual c) as [j|]; [|reflexivity].
    do 2 eexists. split; [reflexivity|]. split; reflexivity.
Qed.
Print Assumptions C76_final.

Section Body.
  Context {E : Env f64} {F : Type}.

  (* the two lines of one run *)
  Definition run_described (a b : string) (n : N) (t : run_record f64 F) : Prop :=
    let p := c_params (ru_final t) in
    parameters_line a n (p_lambda p) (p_initial_sigma p) (p_seed p) /\
    results_line b n (option_map i_value (overall_best_individual (ru_final t))) (td_reasons (ru_data t)) (function_evals (ru_final t)).

  Lemma body_lines : forall (ts : list (run_record f64 F)) n, exists body, runs_lines n ts = Ret body /\ length body = 2 * length ts /\
    forall pre t post, ts = (pre ++ t :: post)%list -> exists a b,
      nth_error body (2 * length pre) = Some a /\ nth_error body (2 * length pre + 1) = Some b /\
      run_described a b (n + N.of_nat (length pre) + 1) t.
  Proof.
    induction ts as [|t ts IH]; intros n.
    - exists []. split; [reflexivity|]. split; [reflexivity|]. intros pre t post H. destruct pre; discriminate H.
    - destruct (parameters_read (n + 1) (c_params (ru_final t))) as [a [A1 A2]].
      destruct (results_read (n + 1) (ru_final t) (ru_reasons t)) as [b [B1 B2]].
      destruct (IH (n + 1)%N) as [body [C1 [C2 C3]]]. exists (a :: b :: body). cbn [runs_lines]. rewrite A1. cbn [obind]. rewrite B1. cbn [obind].
      rewrite C1. split; [reflexivity|]. split; [cbn [length]; lia|].
      intros pre u post H. destruct pre as [|v pre].
      + injection H as <- <-. exists a, b. split; [reflexivity|]. split; [reflexivity|]. cbn [length N.of_nat]. rewrite N.add_0_r. split; assumption.
      + injection H as <- H. destruct (C3 pre u post H) as [a' [b' [D1 [D2 D3]]]]. exists a', b'. cbn [length].
        replace (2 * S (length pre)) with (S (S (2 * length pre))) by lia. replace (S (S (2 * length pre)) + 1) with (S (S (2 * length pre + 1))) by lia.
        split; [exact D1|]. split; [exact D2|]. replace (n + N.of_nat (S (length pre)) + 1)%N with (n + 1 + N.of_nat (length pre) + 1)%N by lia. exact D3.
  Qed.
End Body.

Section Restarts.
  Context {LT : Libm f64} {E : Env f64} {RE : REnv f64}.
  Context {F : Type} (ev : F -> vec f64 -> outcome (f64 * F)) (checks : bool).
  Context {G : Type} (get : G -> outcome (F * G)).
  Variables (show show_e : f64 -> string) (show_point : vec f64 -> string).
  Variables (par reuse : bool) (started : N) (fuel : nat) (env : nat -> rtick) (g : G).
  Variables (seed : N) (o : restart_options f64) (r : restarter f64).
  Hypothesis Hr : restarter_of seed o r.
  Variables (res : restart_results f64) (l : loop_state f64 F G).
  Hypothesis H : restart_run_internal ev checks get par reuse started fuel env g r = Ret (res, l).

  Lemma run_params : forall pre t post, runs_of l = (pre ++ t :: post)%list -> exists s, o_seed (ru_options t) = Some s /\
    p_lambda (c_params (ru_final t)) = o_population_size (ru_options t) /\
    p_initial_sigma (c_params (ru_final t)) = o_initial_step_size (ru_options t) /\ p_seed (c_params (ru_final t)) = s.
  Proof.
    intros pre t post Hs. pose proof (C56_options ev checks get par reuse started fuel env g seed o r Hr res l H pre t post Hs) as C.
    cbv zeta in C. destruct C as [_ [_ [_ [_ [[s Hseed] _]]]]]. exists s. split; [exact Hseed|].
    destruct (C52_totals ev checks get par reuse started fuel env g seed o r Hr res l H) as [_ [_ K]]. destruct (K _ _ _ Hs) as [c0 [K1 K2]].
    assert (Rc : reaches ev (ru_options t) (ru_objective t) (ru_final t)).
    { exists c0, [ORun par (rt_fuel (env (length pre))) (rt_env (env (length pre)))]. split; [do 2 eexists; exact K1|].
      cbn [steps step]. rewrite K2. reflexivity. }
    destruct (reaches_setup ev _ _ _ Rc) as [rs [now [c1 [Hb Hset]]]]. apply cmaes_new_inv in Hb. cbv zeta in Hb. destruct Hb as [_ [_ [Hp _]]].
    destruct Hset as [Hset _]. rewrite Hset, Hp. rewrite Hseed. cbn [params_of_options p_lambda p_initial_sigma p_seed]. auto.
  Qed.

  (* C76, the report of a restarter. Nothing is printed unless printing is enabled. *)
  Theorem C76_silent : ro_enable_printing o = false -> restart_lines show show_e show_point r (runs_of l) res = Ret [].
  Proof.
    intros Hp. destruct Hr as [_ H0]. unfold restarter_new in H0. destruct (Nat.eqb (ro_dimensions o) 0); [discriminate H0|].
    destruct (neqb _ _); [discriminate H0|]. injection H0 as <-. unfold restart_lines. cbn [rs_print_info]. rewrite Hp. reflexivity.
  Qed.

  (* Otherwise there are: an opening line, two lines for each run in the order of the runs, and the closing lines. The
     lines of the n-th run carry its number, the population size, step size (6 digits) and seed of the options it was
     built with, the best value it found (13 digits) or None, exactly the reasons it returned, and its evaluations.
     The closing line has the evaluations of all runs and the reason returned. *)
  Theorem C76_restart : ro_enable_printing o = true -> exists first body closing best,
    restart_lines show show_e show_point r (runs_of l) res = Ret (first :: body ++ closing :: best)%list /\
    length body = 2 * length (runs_of l) /\
    (forall pre t post, runs_of l = (pre ++ t :: post)%list -> exists a b s,
      nth_error body (2 * length pre) = Some a /\ nth_error body (2 * length pre + 1) = Some b /\ o_seed (ru_options t) = Some s /\
      parameters_line a (N.of_nat (length pre) + 1) (o_population_size (ru_options t)) (o_initial_step_size (ru_options t)) s /\
      results_line b (N.of_nat (length pre) + 1) (option_map i_value (overall_best_individual (ru_final t)))
        (td_reasons (ru_data t)) (function_evals (ru_final t))) /\
    closing_line closing (evals (runs_of l)) (rr_reason res) /\
    match rr_best res with
    | Some i => exists a b, best = [a; b] /\ labelled "Best function value" (show_e (i_value i)) a /\
        labelled "Best point" (show_point (i_point i)) b
    | None => best = []
    end.
  Proof.
    intros Hp. destruct (body_lines (runs_of l) 0) as [body [B1 [B2 B3]]].
    exists (restarter_line show r), body, ("Terminated in " ++ dec_n (rr_function_evals res) ++ " f-evals with reason: `" ++
      restart_reason_name (rr_reason res) ++ "`").
    assert (Hq : rs_print_info r = true).
    { destruct Hr as [_ H0]. unfold restarter_new in H0. destruct (Nat.eqb (ro_dimensions o) 0); [discriminate H0|].
      destruct (neqb _ _); [discriminate H0|]. injection H0 as <-. exact Hp. }
    eexists. unfold restart_lines. rewrite Hq, B1. cbn [obind]. split; [reflexivity|]. split; [exact B2|]. split; [|split].
    - intros pre t post Hs. destruct (B3 _ _ _ Hs) as [a [b [D1 [D2 [D3 D4]]]]]. destruct (run_params _ _ _ Hs) as [s [S1 [S2 [S3 S4]]]].
      rewrite S2, S3, S4 in D3. exists a, b, s. auto.
    - destruct (C52_totals ev checks get par reuse started fuel env g seed o r Hr res l H) as [_ [-> _]]. apply closing_read.
    - destruct (rr_best res) as [i|]; [|reflexivity]. do 2 eexists. split; [reflexivity|]. split; reflexivity.
  Qed.

  (* the named values of the opening line, by strategy *)
  Definition strategy_values (s : strategy f64) (name : string) (values : list (string * string)) : Prop :=
    match s with
    | SLocal s => name = "LR-aCMA-ES" /\ values = [("sigma0_factor", show (lo_factor s))]
    | SIpop s => name = "IPOP-aCMA-ES" /\ exists n, values = [("increase_factor", n)] /\ read_n n = Some (ip_factor s)
    | SBipop s => name = "BIPOP-aCMA-ES" /\ exists n, values = [("lr_sigma0_factor", show (bi_lr_factor s)); ("ipop_increase_factor", n)] /\
        read_n n = Some (bi_increase s)
    end.
  (* The opening line: the algorithm, the dimension, the search range, the settings of the strategy and the seed, each
     after its name (if the text of a number has no equals sign). *)
  Theorem C76_opening : ro_enable_printing o = true -> (forall x, without "=" (show x)) ->
    exists first rest name d values sd,
      restart_lines show show_e show_point r (runs_of l) res = Ret (first :: rest) /\
      opening_line first name d ("[" ++ show (ro_lo o) ++ ", " ++ show (ro_hi o) ++ "]") values sd /\
      read_n d = Some (N.of_nat (ro_dimensions o)) /\
      read_n sd = Some (match ro_seed o with Some s => s | None => seed end) /\
      strategy_values (ro_strategy o) name values.
  Proof.
    intros Hp Hw. destruct (body_lines (runs_of l) 0) as [body [B1 _]].
    destruct Hr as [_ H0]. unfold restarter_new in H0. destruct (Nat.eqb (ro_dimensions o) 0); [discriminate H0|].
    destruct (neqb _ _); [discriminate H0|]. injection H0 as <-.
    set (sd := match ro_seed o with Some s => s | None => seed end) in *.
    exists (algorithm_name (ro_strategy o) ++ " with dimension" ++ String "=" (dec_n (N.of_nat (ro_dimensions o)) ++
      fold_right (fun '(k, x) s => ", " ++ k ++ "=" ++ x ++ s) ""
        (("search_range", "[" ++ show (ro_lo o) ++ ", " ++ show (ro_hi o) ++ "]") :: (parameters_as_strings show (ro_strategy o) ++ [("seed", dec_n sd)])%list))).
    eexists. exists (algorithm_name (ro_strategy o)), (dec_n (N.of_nat (ro_dimensions o))), (parameters_as_strings show (ro_strategy o)), (dec_n sd).
    split; [|split; [|split; [apply read_dec_n|split; [apply read_dec_n|]]]].
    - unfold restart_lines. cbn [rs_print_info]. rewrite Hp, B1. cbn [obind]. f_equal. f_equal. unfold restarter_line. cbn [rs_strategy rs_dimensions rs_lo rs_hi rs_seed].
      destruct (ro_strategy o) as [s|s|s]; cbn [algorithm_name parameters_as_strings map join app fold_right]; rewrite ?app_ass, ?app_nil;
        cbn [String.append]; rewrite ?app_ass; cbn [String.append]; reflexivity.
    - unfold opening_line. rewrite <- app_ass. rewrite pieces_app.
      2:{ destruct (ro_strategy o); reflexivity. }
      f_equal. apply named_read; [apply dec_n_without; reflexivity|].
      intros k x Hi. destruct Hi as [Hi|Hi].
      + apply pair_equal_spec in Hi. destruct Hi as [<- <-]. split; [reflexivity|]. apply without_app; [reflexivity|]. apply without_app; [apply Hw|].
        apply without_app; [reflexivity|]. apply without_app; [apply Hw|reflexivity].
      + apply in_app_or in Hi. destruct Hi as [Hi|[Hi|[]]].
        * destruct (ro_strategy o) as [s|s|s]; cbn [parameters_as_strings In] in Hi; repeat (destruct Hi as [Hi|Hi]; [injection Hi as <- <-; split; [reflexivity|]; first [apply Hw|apply dec_n_without; reflexivity]|]); destruct Hi.
        * injection Hi as <- <-. split; [reflexivity|apply dec_n_without; reflexivity].
    - destruct (ro_strategy o) as [s|s|s]; cbn [strategy_values algorithm_name parameters_as_strings]; split; try reflexivity.
      + exists (dec_n (ip_factor s)). split; [reflexivity|apply read_dec_n].
      + exists (dec_n (bi_increase s)). split; [reflexivity|apply read_dec_n].
  Qed.
End Restarts.
Print Assumptions C76_silent.
Print Assumptions C76_restart.
Print Assumptions C76_opening.

(* the hypotheses are met: three local runs with printing enabled, and what is printed *)
Definition printing_options (s : strategy f64) : restart_options f64 :=
  let o := toy_restart_options s in
  {| ro_strategy := ro_strategy o; ro_dimensions := ro_dimensions o; ro_mode := ro_mode o; ro_parallel_update := ro_parallel_update o;
     ro_default_options := ro_default_options o; ro_lo := ro_lo o; ro_hi := ro_hi o; ro_fun_target := ro_fun_target o;
     ro_max_function_evals := ro_max_function_evals o; ro_max_time := ro_max_time o;
     ro_max_function_evals_per_run := ro_max_function_evals_per_run o; ro_max_generations_per_run := ro_max_generations_per_run o;
     ro_enable_printing := true; ro_seed := ro_seed o |}.
Definition toy_show (x : f64) : string := match format_num x 12 with Ret s => trim s | _ => "" end.
Definition toy_show_point (v : vec f64) : string := join " " (map toy_show v).
Definition text_is (a b : list string) : bool := if list_eq_dec String.string_dec a b then true else false.
Lemma toy_show_plain : forall x, without "=" (toy_show x).
Proof.
  intros x. unfold toy_show. destruct (format_num x 12) as [s| |] eqn:E; [|reflexivity|reflexivity].
  apply format_num_chars in E. apply (number_without "=" s eq_refl) in E. clear x. unfold without in *. induction s as [|c s IH]; [reflexivity|].
  cbn [trim]. destruct (Ascii.eqb c " "); [|exact E]. apply IH. cbn [all_chars] in E. apply andb_true_iff in E. apply E.
Qed.
Example C76_case : (forall x, without "=" (toy_show x)) /\
  ro_enable_printing (printing_options toy_local) = true /\
  exists r res l lines, restarter_of 0 (printing_options toy_local) r /\
    restart_run_with_reuse (log_ev toy_sphere) true false 0 20 toy_renv_of (tt, []) r = Ret (res, l) /\
    restart_lines toy_show toy_show toy_show_point r (runs_of l) res = Ret lines /\
    text_is lines
      ["LR-aCMA-ES with dimension=2, search_range=[-2.00000e+00, 3.00000e+00], sigma0_factor=5.00000e-01, seed=5";
       "Run 1 parameters: lambda=4, sigma0= 2.50000e-02, seed=11";
       "Run 1 results: best f-val= 4.329926779517e+00, termination_reasons=[`MaxGenerations`], f-evals=8";
       "Run 2 parameters: lambda=4, sigma0= 2.50000e-02, seed=18";
       "Run 2 results: best f-val= 6.877512500000e+00, termination_reasons=[`MaxGenerations`], f-evals=8";
       "Run 3 parameters: lambda=4, sigma0= 2.50000e-02, seed=25";
       "Run 3 results: best f-val= 3.283107693033e+00, termination_reasons=[`MaxGenerations`], f-evals=8";
       "Terminated in 24 f-evals with reason: `MaxRuns`";
       "Best function value: 3.28311e+00";
       "Best point: 1.74162e+00 4.99874e-01"] = true.
Proof.
  split; [exact toy_show_plain|]. split; [reflexivity|].
  assert (K : forall P : list string -> bool,
    match restarter_new 0 (printing_options toy_local) with
    | inl r =>
        match restart_run_with_reuse (log_ev toy_sphere) true false 0 20 toy_renv_of (tt, []) r with
        | Ret (res, l) => match restart_lines toy_show toy_show toy_show_point r (runs_of l) res with Ret x => P x | _ => false end
        | _ => false
        end
    | _ => false
    end = true -> exists r res l lines, restarter_of 0 (printing_options toy_local) r /\
      restart_run_with_reuse (log_ev toy_sphere) true false 0 20 toy_renv_of (tt, []) r = Ret (res, l) /\
      restart_lines toy_show toy_show toy_show_point r (runs_of l) res = Ret lines /\ P lines = true).
  { intros P K. destruct (restarter_new 0 (printing_options toy_local)) as [r|] eqn:Er; [|discriminate K].
    destruct (restart_run_with_reuse _ _ _ _ _ _ _ r) as [[res l]| |] eqn:E; try discriminate K.
    destruct (restart_lines _ _ _ r (runs_of l) res) as [x| |] eqn:Ex; try discriminate K. exists r, res, l, x.
    split; [split; [apply toy_fresh|exact Er]|]. auto. }
  apply K. vm_cast_no_check (eq_refl true).
Qed.
(* the final report of an optimiser that stopped for two reasons *)
Example C76_final_case : exists c lines, reaches toy_sphere (toy_options 2) tt c /\
  final_lines toy_show toy_show_point c [TolX; MaxTime] = Ret lines /\
  text_is lines
    ["      2 |       8 |  2.549127372028e+00 | 1.0069e+00 | 4.5743e-01 | 4.3722e-01 | 4.4024e-01";
     "Terminated with reason(s): `TolX`, `MaxTime`"; "Current best function value: 2.54913e+00"; "Overall best function value: 2.54913e+00";
     "Final mean: 1.28087e+00 1.00160e+00"] = true.
Proof.
  destruct (holds_ex (after toy_sphere tt (toy_options 2) c69_ops)
    (fun c => match final_lines toy_show toy_show_point c [TolX; MaxTime] with
              | Ret r => text_is r
    ["      2 |       8 |  2.549127372028e+00 | 1.0069e+00 | 4.5743e-01 | 4.3722e-01 | 4.4024e-01";
     "Terminated with reason(s): `TolX`, `MaxTime`"; "Current best function value: 2.54913e+00"; "Overall best function value: 2.54913e+00";
     "Final mean: 1.28087e+00 1.00160e+00"]
              | _ => false end)) as [c [H1 H2]].
  { vm_compute. reflexivity. }
  apply after_reaches in H1. destruct H1 as [c0 [H0 H1]].
  destruct (final_lines toy_show toy_show_point c [TolX; MaxTime]) as [r| |] eqn:E; [|discriminate H2|discriminate H2].
  exists c, r. split; [exists c0, c69_ops; auto|]. auto.
Qed.
