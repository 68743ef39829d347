(* C94: how many evaluations a restarted optimisation uses, and how BIPOP divides them between its two kinds of runs. *)
From Coq Require Import List NArith ZArith Bool Lia Arith.
From Flocq Require Import IEEE754.BinarySingleNaN.
Require Import Verif.Base Verif.Num Verif.F64 Verif.XReal Verif.LinAlg Verif.Mode Verif.Weights Verif.Options
  Verif.Params Verif.Env Verif.State Verif.Sampling Verif.History Verif.Termination Verif.Plot Verif.Cmaes Verif.Restart
  Verif.Lib Verif.Order Verif.NextInv Verif.Spec Verif.BuildLemmas
  Verif.Toy Verif.RestartLemmas Verif.PropRun Verif.PropRestart Verif.RunLemmas Verif.PropRestartRuns Verif.PropRestartConfig.
Import ListNotations.
Open Scope nat_scope.

Section Budget.
  Context {T : Type} {NT : Num T} {LT : Libm T} {E : Env T} {RE : REnv T} {F : Type} (ev : F -> vec T -> outcome (T * F)) (checks : bool) {G : Type} (get : G -> outcome (F * G)).
  Variables (par reuse : bool) (started : N) (fuel : nat) (env : nat -> rtick) (g : G) (seed : N) (o : restart_options T) (r : restarter T).
  Hypothesis Hr : restarter_of seed o r.
  Variables (res : restart_results T) (l : loop_state T F G).
  Hypothesis H : restart_run_internal ev checks get par reuse started fuel env g r = Ret (res, l).
  Let used_by (t : run_record T F) : N := function_evals (ru_final t).

  (* one run, with a limit per run *)
  Theorem C94_run : forall p pre t post, ro_max_function_evals_per_run o = Some p -> runs_of l = pre ++ t :: post ->
    (used_by t < N.max p 1 + o_population_size (ru_options t))%N /\
    (forall s, ro_strategy o = SBipop s -> ru_local t = true ->
      (exists a u b, pre = a ++ u :: b /\ ru_local u = false /\ Forall (fun v => ru_local v = true) b /\
        (used_by t < N.max (N.min p (used_by u / 2)) 1 + o_population_size (ru_options t))%N)).
  Proof.
    intros p pre t post Hp Hs.
    destruct (rf_ran _ _ _ _ _ _ _ _ (proj1 (proj1 (St _ _ _ _ _ _ _ _ _ _ _ _ Hr _ _ H) _ _ _ Hs))) as [c0 [Hb Hrun]].
    assert (B : forall m, o_max_function_evals (ru_options t) = Some m -> (used_by t < N.max m 1 + o_population_size (ru_options t))%N).
    { intros m Hm. exact (proj2 (C20_bound ev _ _ _ _ _ _ Hb Hm) _ _ _ _ _ Hrun). }
    pose proof (C56_options _ _ _ _ _ _ _ _ _ _ _ _ Hr _ _ H _ _ _ Hs) as X. cbv zeta in X. destruct X as (_ & _ & _ & _ & _ & _ & _ & X). rewrite Hp in X.
    destruct (ro_strategy o) as [s|s|s] eqn:Es; cbn [strategy_sets] in X.
    - split; [apply B; apply X|discriminate].
    - split; [apply B; apply X|discriminate].
    - destruct (ru_local t) eqn:Hl.
      + specialize (B _ X). split; [lia|]. intros _ _ _. destruct (C55_bipop_kind _ _ _ _ _ _ _ _ _ _ _ _ Hr _ _ H _ _ _ _ Es Hs) as [_ [K _]]. destruct (K Hl) as [_ K2]. clear K.
        assert (D : forall q : list (run_record T F), increasing q <> [] -> exists a u b, q = a ++ u :: b /\ ru_local u = false /\ Forall (fun v => ru_local v = true) b /\ last_evals (increasing q) = used_by u).
        { clear. induction q as [|v q IH] using rev_ind; intros Hne; [contradiction|]. rewrite increasing_app in Hne |- *. cbn [increasing filter] in Hne |- *. destruct (ru_local v) eqn:Ev; cbn [negb] in Hne |- *.
          - rewrite app_nil_r in Hne |- *. destruct (IH Hne) as [a [u [b [A1 [A2 [A3 A4]]]]]]. exists a, u, (b ++ [v]). split; [rewrite A1, <- app_assoc; reflexivity|]. split; [exact A2|]. split; [|exact A4].
            apply Forall_app. split; [exact A3|]. constructor; [exact Ev|constructor].
          - exists q, v, []. split; [reflexivity|]. split; [exact Ev|]. split; [constructor|]. unfold last_evals. rewrite rev_unit. reflexivity. }
        destruct (D pre) as [a [u [b [A1 [A2 [A3 A4]]]]]]. { intros Z. rewrite Z in K2. cbn in K2. lia. }
        exists a, u, b. rewrite A4 in B. auto.
      + split; [apply B; apply X|discriminate].
  Qed.

  (* all runs, with a limit on all evaluations *)
  Theorem C94_total : forall m, ro_max_function_evals o = Some m ->
    (runs_of l = [] -> rr_function_evals res = 0%N) /\
    (forall pre t, runs_of l = pre ++ [t] -> (rr_function_evals res < m + used_by t)%N /\
      (forall p, ro_max_function_evals_per_run o = Some p -> (rr_function_evals res < m + N.max p 1 + o_population_size (ru_options t))%N)).
  Proof.
    intros m Hm. destruct (C52_totals _ _ _ _ _ _ _ _ _ _ _ _ Hr _ _ H) as [_ [Ht _]]. split; [intros Z; rewrite Ht, Z; reflexivity|].
    intros pre t Hs. assert (X : (rr_function_evals res < m + used_by t)%N).
    { destruct (C53_no_run_after _ _ _ _ _ _ _ _ _ _ _ _ Hr _ _ H pre t [] Hs) as [K _]. specialize (K m Hm). rewrite Ht, Hs, evals_app. cbn [evals fold_right]. unfold used_by. lia. }
    split; [exact X|]. intros p Hp. pose proof (proj1 (C94_run p pre t [] Hp Hs)). lia.
  Qed.

  (* BIPOP *)
  Theorem C94_balance : forall s pre post, ro_strategy o = SBipop s -> runs_of l = pre ++ post ->
    (forall a u, local_runs pre = a ++ [u] -> (evals (local_runs pre) < evals (increasing pre) + used_by u)%N) /\
    (forall t post', pre <> [] -> post = t :: post' -> ru_local t = false -> (evals (increasing pre) <= evals (local_runs pre))%N).
  Proof.
    intros s pre post Es. revert post. induction pre as [|v pre IH] using rev_ind; intros post Hs.
    - split; [intros a u X; destruct a; discriminate X|intros t post' X; contradiction].
    - rewrite <- app_assoc in Hs. cbn [app] in Hs. destruct (IH _ Hs) as [I1 _]. split.
      + intros a u X. rewrite local_app in X |- *. rewrite increasing_app. cbn [local_runs increasing filter] in X |- *. destruct (C55_bipop_kind _ _ _ _ _ _ _ _ _ _ _ _ Hr _ _ H _ _ _ _ Es Hs) as [_ [K _]].
        destruct (ru_local v) eqn:Ev; cbn [negb].
        * destruct (K eq_refl) as [_ K2]. apply app_inj_tail in X. destruct X as [_ ->]. rewrite app_nil_r, evals_app. cbn [evals fold_right]. unfold used_by. lia.
        * rewrite app_nil_r in X |- *. specialize (I1 a u X). rewrite evals_app. lia.
      + intros t post' _ -> Hl. assert (Hs' : runs_of l = (pre ++ [v]) ++ t :: post') by (rewrite <- app_assoc; exact Hs).
        destruct (C55_bipop_kind _ _ _ _ _ _ _ _ _ _ _ _ Hr _ _ H _ _ _ _ Es Hs') as [_ [_ K]].
        destruct (N.lt_ge_cases (evals (local_runs (pre ++ [v]))) (evals (increasing (pre ++ [v])))) as [Y|Y]; [|exact Y].
        exfalso. assert (Z : ru_local t = true). { apply K. split; [intros W; destruct pre; discriminate W|exact Y]. } congruence.
  Qed.
End Budget.
Print Assumptions C94_run.
Print Assumptions C94_total.
Print Assumptions C94_balance.

(* An execution of BIPOP with both limits: 8 + 4 + 4 + 16 + 10 evaluations; the limit on all evaluations is 33, that per run 8, and runs 2, 3 and 5 are LR runs. *)
Example C94_case : ro_max_function_evals limited_options = Some 33%N /\ ro_max_function_evals_per_run limited_options = Some 8%N /\ (exists s, ro_strategy limited_options = SBipop s) /\
  exists r res l, restarter_of 0 limited_options r /\
    restart_run_with_reuse (LT := clamped_libm) (log_ev toy_sphere) true false 0 20 toy_renv_of (tt, []) r = Ret (res, l) /\
    map limited_row (runs_of l) = [(false, 4, 8); (true, 4, 4); (true, 4, 4); (false, 16, 16); (true, 5, 10)]%N.
Proof.
  split; [reflexivity|]. split; [reflexivity|]. split; [eexists; reflexivity|]. destruct C57_case as [_ [_ [_ [r [res [l [D1 [D2 D3]]]]]]]]. exists r, res, l. split; [exact D1|]. split; [exact D2|].
  assert (R : forall x y, row_eqb x y = true -> x = y).
  { intros [[b n] k] [[b' n'] k'] X. unfold row_eqb in X. cbn [fst snd] in X. apply andb_prop in X. destruct X as [X X3]. apply andb_prop in X. destruct X as [X1 X2].
    apply eqb_prop in X1. apply N.eqb_eq in X2, X3. subst. reflexivity. }
  assert (Q : forall a b, rows_eqb a b = true -> a = b).
  { induction a as [|x a IH]; intros [|y b] X; cbn [rows_eqb] in X; try discriminate X; [reflexivity|]. apply andb_prop in X. destruct X as [X1 X2]. f_equal; [apply R; exact X1|apply IH; exact X2]. }
  exact (Q _ _ D3).
Qed.
