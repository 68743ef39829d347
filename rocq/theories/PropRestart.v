(* C52 to C55 and C58: what a restarter does, in terms of its runs. The public entry points run, run_parallel,
   run_with_reuse and run_parallel_with_reuse are restart_run_internal with reuse = false or true and par = false
   or true (Restart.v, RestartApi); the theorems hold for all of them. *)
From Coq Require Import List NArith ZArith Bool Arith Lia.
Require Import Verif.Base Verif.Num Verif.F64 Verif.LinAlg Verif.Mode Verif.Weights Verif.Options
  Verif.Params Verif.Env Verif.State Verif.Sampling Verif.History Verif.Termination Verif.Plot Verif.Cmaes Verif.Restart
  Verif.Lib Verif.Order Verif.Sort Verif.NextInv Verif.Spec Verif.LogLemmas Verif.TraceLemmas Verif.BuildLemmas
  Verif.SamplingLemmas Verif.HistoryLemmas Verif.RelLemmas Verif.TermLemmas Verif.Toy Verif.ToyLemmas Verif.PropRun Verif.RestartLemmas.
Import ListNotations.
Open Scope nat_scope.

(* a restarter as built from the options, with a strategy as returned by its constructor *)
Definition restarter_of {T} {NT : Num T} {RE : REnv T} (random_seed : N) (o : restart_options T) (r : restarter T) : Prop :=
  fresh (ro_strategy o) /\ restarter_new random_seed o = inl r.

Section Restarts.
  Context {T : Type} {NT : Num T} {LT : Libm T} {E : Env T} {RE : REnv T}.
  Context {F : Type} (ev : F -> vec T -> outcome (T * F)) (checks : bool).

  Lemma restarter_fields : forall seed o r, restarter_of seed o r ->
    rs_strategy r = ro_strategy o /\ rs_dimensions r = ro_dimensions o /\ rs_mode r = ro_mode o /\
    rs_parallel_update r = ro_parallel_update o /\ rs_default_options r = ro_default_options o /\
    rs_lo r = ro_lo o /\ rs_hi r = ro_hi o /\ rs_fun_target r = ro_fun_target o /\
    rs_max_function_evals r = ro_max_function_evals o /\ rs_max_time r = ro_max_time o /\
    rs_max_function_evals_per_run r = ro_max_function_evals_per_run o /\
    rs_max_generations_per_run r = ro_max_generations_per_run o /\
    rs_rng r = rr_seed (match ro_seed o with Some s => s | None => seed end) /\
    rs_overall_best r = None /\ fresh (rs_strategy r) /\ rs_dimensions r <> 0.
  Proof.
    intros seed o r [Hf H]. unfold restarter_new in H. destruct (Nat.eqb_spec (ro_dimensions o) 0) as [|Hd]; [discriminate|].
    destruct (neqb _ _); [discriminate|]. injection H as <-. cbn. repeat (split; [reflexivity|]). auto.
  Qed.

  Section Runs.
    Context {G : Type} (get : G -> outcome (F * G)).
    Variables (par reuse : bool) (started : N) (fuel : nat) (env : nat -> rtick) (g : G).
    Variables (seed : N) (o : restart_options T) (r : restarter T).
    Hypothesis Hr : restarter_of seed o r.
    Variables (res : restart_results T) (l : loop_state T F G).
    Hypothesis H : restart_run_internal ev checks get par reuse started fuel env g r = Ret (res, l).

    Lemma is_executed : executed ev checks get par reuse started fuel env g r res l.
    Proof. pose proof (restarter_fields _ _ _ Hr) as X. split; [apply X|]. split; [apply X|exact H]. Qed.
    Lemma St : (forall pre t post, runs_of l = pre ++ t :: post ->
        run_facts ev checks par started env r pre t /\ (post <> [] -> verdict t = None)) /\
      ending started env r (runs_of l) (rr_reason res).
    Proof. exact (story _ _ _ _ _ _ _ _ _ _ _ _ is_executed). Qed.

    (* C52: the results count the runs and sum their evaluations; each run was really performed *)
    Theorem C52_totals :
      rr_runs res = N.of_nat (length (runs_of l)) /\ rr_function_evals res = evals (runs_of l) /\
      forall pre t post, runs_of l = pre ++ t :: post -> ran ev par (env (length pre)) t.
    Proof.
      pose proof is_executed as [Hf [_ _]]. destruct (execution _ _ _ _ _ _ _ _ _ _ _ _ Hf H) as [-> [[_ _ I1 I2 _] _]].
      cbn [rr_runs rr_function_evals]. split; [exact I2|]. split; [exact I1|].
      intros pre t post Hs. apply (rf_ran _ _ _ _ _ _ _ _ (proj1 (proj1 St _ _ _ Hs))).
    Qed.

    (* C53: the reasons *)
    Lemma verdict_none : forall t : run_record T F, verdict t = None ->
      reports InvalidFunctionValue (Some (ru_data t)) = false /\ reports FunTarget (Some (ru_data t)) = false /\ ru_control t = RContinue.
    Proof.
      intros t Hv. unfold verdict in Hv. destruct (reports InvalidFunctionValue _); [discriminate|].
      destruct (reports FunTarget _); [discriminate|]. destruct (ru_control t); [auto|discriminate].
    Qed.
    Lemma last_in : forall pre (t : run_record T F), runs_of l = pre ++ [t] -> In t (runs_of l).
    Proof. intros pre t ->. apply in_or_app. right. left. reflexivity. Qed.
    Lemma control_stops : forall pre t post, runs_of l = pre ++ t :: post ->
      (ru_control t = RMaxRunsReached <-> stops (ro_strategy o) (pre ++ [t]) t = true).
    Proof.
      intros pre t post Hs. rewrite (rf_control _ _ _ _ _ _ _ _ (proj1 (proj1 St _ _ _ Hs))).
      destruct (restarter_fields _ _ _ Hr) as [-> _]. destruct (stops _ _ _); split; auto; discriminate.
    Qed.

    Theorem C53_invalid : rr_reason res = RInvalidFunctionValue <->
      exists pre t, runs_of l = pre ++ [t] /\ reports InvalidFunctionValue (Some (ru_data t)) = true.
    Proof.
      destruct (proj2 St) as [pre t x Hs Hv|Hz Hs|m Hz Hq Hm Hle|m Hz Hq Hev Hm Hle].
      - split.
        + intros ->. exists pre, t. split; [exact Hs|]. unfold verdict in Hv. destruct (reports InvalidFunctionValue _); [reflexivity|].
          destruct (reports FunTarget _); [discriminate|]. destruct (ru_control t); discriminate.
        + intros [pre' [t' [Hs' Hi]]]. rewrite Hs in Hs'. apply app_inj_tail in Hs'. destruct Hs' as [_ <-].
          unfold verdict in Hv. rewrite Hi in Hv. congruence.
      - split; [discriminate|]. intros [pre [t [Hs' _]]]. rewrite Hs in Hs'. destruct pre; discriminate.
      - split; [discriminate|]. intros [pre [t [Hs' Hi]]]. apply last_in in Hs'. apply Hq, verdict_none in Hs'. destruct Hs'. congruence.
      - split; [discriminate|]. intros [pre [t [Hs' Hi]]]. apply last_in in Hs'. apply Hq, verdict_none in Hs'. destruct Hs'. congruence.
    Qed.
    Theorem C53_target : rr_reason res = RFunTarget <->
      exists pre t, runs_of l = pre ++ [t] /\ reports InvalidFunctionValue (Some (ru_data t)) = false /\
        reports FunTarget (Some (ru_data t)) = true.
    Proof.
      destruct (proj2 St) as [pre t x Hs Hv|Hz Hs|m Hz Hq Hm Hle|m Hz Hq Hev Hm Hle].
      - split.
        + intros ->. exists pre, t. split; [exact Hs|]. unfold verdict in Hv. destruct (reports InvalidFunctionValue _); [discriminate|].
          destruct (reports FunTarget _); [auto|]. destruct (ru_control t); discriminate.
        + intros [pre' [t' [Hs' [Hi Hi2]]]]. rewrite Hs in Hs'. apply app_inj_tail in Hs'. destruct Hs' as [_ <-].
          unfold verdict in Hv. rewrite Hi, Hi2 in Hv. congruence.
      - split; [discriminate|]. intros [pre [t [Hs' _]]]. rewrite Hs in Hs'. destruct pre; discriminate.
      - split; [discriminate|]. intros [pre [t [Hs' [_ Hi]]]]. apply last_in in Hs'. apply Hq, verdict_none in Hs'. destruct Hs' as [_ [X _]]. congruence.
      - split; [discriminate|]. intros [pre [t [Hs' [_ Hi]]]]. apply last_in in Hs'. apply Hq, verdict_none in Hs'. destruct Hs' as [_ [X _]]. congruence.
    Qed.
    (* the strategy stopped: a Local strategy without runs, or it said so after the last run *)
    Theorem C53_runs : rr_reason res = RMaxRuns <->
      (exists s, ro_strategy o = SLocal s /\ lo_max_runs s = 0%N) \/
      exists pre t, runs_of l = pre ++ [t] /\ reports InvalidFunctionValue (Some (ru_data t)) = false /\
        reports FunTarget (Some (ru_data t)) = false /\ stops (ro_strategy o) (pre ++ [t]) t = true.
    Proof.
      assert (Z : has_zero_max_runs (rs_strategy r) = true <-> exists s, ro_strategy o = SLocal s /\ lo_max_runs s = 0%N).
      { destruct (restarter_fields _ _ _ Hr) as [-> _]. destruct (ro_strategy o) as [s|s|s]; cbn [has_zero_max_runs].
        - rewrite N.eqb_eq. split; [eauto|]. intros [s' [X Y]]. injection X as <-. exact Y.
        - split; [discriminate|]. intros [s' [X _]]. discriminate.
        - split; [discriminate|]. intros [s' [X _]]. discriminate. }
      assert (Q : (forall t, In t (runs_of l) -> verdict t = None) -> forall P Q', (exists pre t, runs_of l = pre ++ [t] /\ P t /\ Q' t /\ stops (ro_strategy o) (pre ++ [t]) t = true) -> False).
      { intros Hq P Q' [pre [t [Hs [_ [_ X]]]]]. pose proof (last_in _ _ Hs) as Hl. apply Hq, verdict_none in Hl. destruct Hl as [_ [_ Hl]].
        apply (control_stops _ _ _ Hs) in X. congruence. }
      destruct (proj2 St) as [pre t x Hs Hv|Hz Hs|m Hz Hq Hm Hle|m Hz Hq Hev Hm Hle].
      - split.
        + intros ->. right. exists pre, t. split; [exact Hs|]. unfold verdict in Hv. destruct (reports InvalidFunctionValue _); [discriminate|].
          destruct (reports FunTarget _); [discriminate|]. split; [reflexivity|]. split; [reflexivity|].
          apply (control_stops _ _ _ Hs). destruct (ru_control t); [discriminate|reflexivity].
        + intros [X|[pre' [t' [Hs' [Hi [Hi2 X]]]]]].
          * apply Z in X. destruct (rf_limits _ _ _ _ _ _ _ _ (proj1 (proj1 St _ _ _ Hs))) as [Y _]. congruence.
          * rewrite Hs in Hs'. apply app_inj_tail in Hs'. destruct Hs' as [<- <-].
            apply (control_stops _ _ _ Hs) in X. unfold verdict in Hv. rewrite Hi, Hi2, X in Hv. congruence.
      - split; [|reflexivity]. intros _. left. apply Z. exact Hz.
      - split; [discriminate|]. intros [X|X]; [apply Z in X; congruence|]. exfalso. apply (Q Hq (fun t => reports InvalidFunctionValue (Some (ru_data t)) = false) (fun t => reports FunTarget (Some (ru_data t)) = false)). exact X.
      - split; [discriminate|]. intros [X|X]; [apply Z in X; congruence|]. exfalso. apply (Q Hq (fun t => reports InvalidFunctionValue (Some (ru_data t)) = false) (fun t => reports FunTarget (Some (ru_data t)) = false)). exact X.
    Qed.
    (* the limits of the restarter, found before a further run *)
    Theorem C53_limits :
      (rr_reason res = RMaxFunctionEvals -> exists m, ro_max_function_evals o = Some m /\ (m <= rr_function_evals res)%N) /\
      (rr_reason res = RMaxTime -> exists m, ro_max_time o = Some m /\
        (m <= rt_check (env (length (runs_of l))) - started)%N /\
        forall k, ro_max_function_evals o = Some k -> (rr_function_evals res < k)%N) /\
      (rr_reason res = RMaxFunctionEvals \/ rr_reason res = RMaxTime ->
        (forall s, ro_strategy o = SLocal s -> lo_max_runs s <> 0%N) /\
        forall pre t, runs_of l = pre ++ [t] ->
          reports InvalidFunctionValue (Some (ru_data t)) = false /\ reports FunTarget (Some (ru_data t)) = false /\
          stops (ro_strategy o) (pre ++ [t]) t = false).
    Proof.
      destruct C52_totals as [_ [-> _]].
      destruct (restarter_fields _ _ _ Hr) as [R1 [_ [_ [_ [_ [_ [_ [_ [R2 [R3 _]]]]]]]]]].
      assert (Q : (forall t, In t (runs_of l) -> verdict t = None) -> has_zero_max_runs (rs_strategy r) = false ->
        (forall s, ro_strategy o = SLocal s -> lo_max_runs s <> 0%N) /\
        forall pre t, runs_of l = pre ++ [t] ->
          reports InvalidFunctionValue (Some (ru_data t)) = false /\ reports FunTarget (Some (ru_data t)) = false /\
          stops (ro_strategy o) (pre ++ [t]) t = false).
      { intros Hq Hz. split.
        - intros s Hs Hm. rewrite R1, Hs in Hz. cbn in Hz. rewrite Hm in Hz. discriminate.
        - intros pre t Hs. pose proof (last_in _ _ Hs) as Hl. apply Hq, verdict_none in Hl. destruct Hl as [L1 [L2 L3]].
          split; [exact L1|]. split; [exact L2|]. destruct (stops _ _ _) eqn:X; [|reflexivity].
          apply (control_stops _ _ _ Hs) in X. congruence. }
      destruct (proj2 St) as [pre t x Hs Hv|Hz Hs|m Hz Hq Hm Hle|m Hz Hq Hev Hm Hle].
      - assert (X : x <> RMaxFunctionEvals /\ x <> RMaxTime).
        { unfold verdict in Hv. destruct (reports InvalidFunctionValue _); [injection Hv as <-; split; discriminate|].
          destruct (reports FunTarget _); [injection Hv as <-; split; discriminate|].
          destruct (ru_control t); [discriminate|]. injection Hv as <-. split; discriminate. }
        destruct X as [X1 X2]. split; [contradiction|]. split; [contradiction|]. intros [X|X]; contradiction.
      - split; [discriminate|]. split; [discriminate|]. intros [X|X]; discriminate.
      - rewrite R2 in Hm. split; [eauto|]. split; [discriminate|]. intros _. auto.
      - rewrite R3 in Hm. rewrite R2 in Hev. split; [discriminate|]. split; [eauto|]. auto.
    Qed.
    (* conversely, no run is started once a limit is reached *)
    Theorem C53_no_run_after : forall pre t post, runs_of l = pre ++ t :: post ->
      (forall m, ro_max_function_evals o = Some m -> (evals pre < m)%N) /\
      (forall m, ro_max_time o = Some m -> (rt_check (env (length pre)) - started < m)%N) /\
      (post <> [] -> reports InvalidFunctionValue (Some (ru_data t)) = false /\ reports FunTarget (Some (ru_data t)) = false /\
        stops (ro_strategy o) (pre ++ [t]) t = false).
    Proof.
      intros pre t post Hs. destruct (proj1 St _ _ _ Hs) as [Hf Hv].
      destruct (restarter_fields _ _ _ Hr) as [R1 [_ [_ [_ [_ [_ [_ [_ [R2 [R3 _]]]]]]]]]].
      destruct (rf_limits _ _ _ _ _ _ _ _ Hf) as [_ [L1 L2]]. rewrite R2 in L1. rewrite R3 in L2. split; [exact L1|]. split; [exact L2|].
      intros Hp. apply Hv, verdict_none in Hp. destruct Hp as [P1 [P2 P3]]. split; [exact P1|]. split; [exact P2|].
      destruct (stops _ _ _) eqn:X; [|reflexivity]. apply (control_stops _ _ _ Hs) in X. congruence.
    Qed.
    Theorem C53_zero : ro_max_function_evals o = Some 0%N \/ ro_max_time o = Some 0%N \/
        (exists s, ro_strategy o = SLocal s /\ lo_max_runs s = 0%N) ->
      runs_of l = [] /\ rr_runs res = 0%N /\ rr_function_evals res = 0%N /\ rr_best res = None.
    Proof.
      intros Hz. assert (Hn : runs_of l = []).
      { destruct (runs_of l) as [|t ts] eqn:Er; [reflexivity|]. exfalso.
        destruct (proj1 St [] t ts Er) as [Hf _]. destruct (C53_no_run_after [] t ts Er) as [L1 [L2 _]].
        destruct (restarter_fields _ _ _ Hr) as [R1 _].
        destruct (rf_limits _ _ _ _ _ _ _ _ Hf) as [L3 _]. rewrite R1 in L3.
        destruct Hz as [Hz|[Hz|[s [Hz1 Hz2]]]].
        - specialize (L1 _ Hz). cbn in L1. lia.
        - specialize (L2 _ Hz). lia.
        - rewrite Hz1 in L3. cbn in L3. rewrite Hz2 in L3. discriminate. }
      split; [exact Hn|]. destruct C52_totals as [-> [-> _]]. rewrite Hn. split; [reflexivity|]. split; [reflexivity|].
      pose proof is_executed as [Hf [Hb _]]. destruct (execution _ _ _ _ _ _ _ _ _ _ _ _ Hf H) as [-> [[_ _ _ _ I] _]].
      cbn [rr_best]. rewrite I, Hn, Hb. reflexivity.
    Qed.

    (* C55: limits on the number of runs *)
    Lemma prefix_facts : forall p q, runs_of l = p ++ q -> q <> [] -> forall pre t, p = pre ++ [t] ->
      stops (ro_strategy o) p t = false.
    Proof.
      intros p q Hs Hq pre t ->. rewrite <- app_assoc in Hs. cbn [app] in Hs.
      destruct (C53_no_run_after _ _ _ Hs) as [_ [_ X]]. apply X. exact Hq.
    Qed.
    Lemma snoc_case : forall {A} (x : list A), x = [] \/ exists p a, x = p ++ [a].
    Proof. intros A x. destruct x as [|a x]; [left; reflexivity|]. right. destruct (exists_last (l := a :: x)) as [p [b X]]; [discriminate|]. eauto. Qed.
    Theorem C55_local : forall s, ro_strategy o = SLocal s -> (rr_runs res <= lo_max_runs s)%N.
    Proof.
      intros s Hs. destruct C52_totals as [-> _]. destruct (snoc_case (runs_of l)) as [Er|[ts [t Er]]]; [rewrite Er; cbn; lia|].
      pose proof (f_equal (@length _) Er) as El. rewrite app_length in El. cbn [length] in El.
      destruct (snoc_case ts) as [Es|[us [t' Es]]]; rewrite Es in *.
      - cbn in El. destruct (proj1 St [] t [] Er) as [Hf _]. destruct (restarter_fields _ _ _ Hr) as [R1 _].
        destruct (rf_limits _ _ _ _ _ _ _ _ Hf) as [L3 _]. rewrite R1, Hs in L3. cbn in L3. apply N.eqb_neq in L3. lia.
      - pose proof (prefix_facts _ _ Er ltac:(discriminate) us t' eq_refl) as X. rewrite Hs in X. cbn [stops] in X.
        apply N.leb_gt in X. rewrite app_length in *. cbn [length] in *. lia.
    Qed.
    Theorem C55_ipop : forall s, ro_strategy o = SIpop s -> (rr_runs res <= 10)%N.
    Proof.
      intros s Hs. destruct C52_totals as [-> _]. destruct (snoc_case (runs_of l)) as [Er|[ts [t Er]]]; [rewrite Er; cbn; lia|].
      pose proof (f_equal (@length _) Er) as El. rewrite app_length in El. cbn [length] in El.
      destruct (snoc_case ts) as [Es|[us [t' Es]]]; rewrite Es in *; [cbn in El; lia|].
      pose proof (prefix_facts _ _ Er ltac:(discriminate) us t' eq_refl) as X. rewrite Hs in X. cbn [stops] in X.
      apply N.leb_gt in X. rewrite app_length in *. cbn [length] in *. lia.
    Qed.
    Theorem C55_bipop : forall s, ro_strategy o = SBipop s -> length (increasing (runs_of l)) <= 10.
    Proof.
      intros s Hs.
      assert (P : forall p q, runs_of l = p ++ q -> q <> [] -> length (increasing p) < 10).
      { induction p as [|t p IH] using rev_ind; intros q Hq Hne; [cbn; lia|].
        pose proof (prefix_facts _ _ Hq Hne p t eq_refl) as X. rewrite Hs in X. cbn [stops] in X.
        rewrite <- app_assoc in Hq. specialize (IH ([t] ++ q) Hq ltac:(discriminate)).
        rewrite increasing_app in *. cbn [increasing filter] in *. destruct (ru_local t); cbn [negb andb] in X |- *.
        - rewrite app_nil_r. exact IH.
        - apply N.leb_gt in X. cbn [negb] in X. lia. }
      destruct (snoc_case (runs_of l)) as [Er|[ts [t Er]]]; [rewrite Er; cbn; lia|].
      specialize (P ts [t] Er ltac:(discriminate)). rewrite Er, increasing_app, app_length. cbn [increasing filter].
      destruct (negb (ru_local t)); cbn [length]; lia.
    Qed.
    (* which kind of run BIPOP performs *)
    Theorem C55_bipop_kind : forall s pre t post, ro_strategy o = SBipop s -> runs_of l = pre ++ t :: post ->
      (pre = [] -> ru_local t = false) /\
      (ru_local t = true <-> pre <> [] /\ (evals (local_runs pre) < evals (increasing pre))%N).
    Proof.
      intros s pre t post Hs Ht. pose proof (rf_kind _ _ _ _ _ _ _ _ (proj1 (proj1 St _ _ _ Ht))) as K.
      destruct (restarter_fields _ _ _ Hr) as [R1 _]. rewrite R1, Hs in K. unfold next_local in K.
      assert (Hp : pre <> [] -> length (increasing pre) <> 0).
      { intros Hne. destruct pre as [|t0 pre]; [contradiction|].
        pose proof (rf_kind _ _ _ _ _ _ _ _ (proj1 (proj1 St [] t0 (pre ++ t :: post) Ht))) as K0. rewrite R1, Hs in K0. cbn in K0.
        cbn [increasing filter]. rewrite K0. cbn. lia. }
      split.
      - intros ->. rewrite K. reflexivity.
      - rewrite K, andb_true_iff, negb_true_iff, Nat.eqb_neq, N.ltb_lt. split.
        + intros [X Y]. split; [|exact Y]. intros ->. apply X. reflexivity.
        + intros [X Y]. auto.
    Qed.
    Theorem C55_other_kinds : forall t, In t (runs_of l) ->
      (forall s, ro_strategy o = SLocal s -> ru_local t = true) /\ (forall s, ro_strategy o = SIpop s -> ru_local t = false).
    Proof.
      intros t Ht. apply in_split in Ht. destruct Ht as [pre [post Ht]].
      pose proof (rf_kind _ _ _ _ _ _ _ _ (proj1 (proj1 St _ _ _ Ht))) as K. destruct (restarter_fields _ _ _ Hr) as [R1 _].
      rewrite R1 in K. split; intros s Hs; rewrite Hs in K; exact K.
    Qed.
  End Runs.
End Restarts.
Print Assumptions C52_totals.
Print Assumptions C53_invalid.
Print Assumptions C53_target.
Print Assumptions C53_runs.
Print Assumptions C53_limits.
Print Assumptions C53_no_run_after.
Print Assumptions C53_zero.
Print Assumptions C55_local.
Print Assumptions C55_ipop.
Print Assumptions C55_bipop.
Print Assumptions C55_bipop_kind.
Print Assumptions C55_other_kinds.
