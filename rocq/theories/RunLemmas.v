(* One run of an optimiser as a history of calls, and the recorded calls of the objective. *)
From Coq Require Import List NArith ZArith Bool Arith Lia Permutation.
Require Import Verif.Base Verif.Num Verif.LinAlg Verif.Mode Verif.Weights Verif.Options Verif.Params Verif.Env
  Verif.State Verif.Sampling Verif.History Verif.Termination Verif.Plot Verif.Cmaes Verif.Restart Verif.Lib Verif.Order Verif.Sort
  Verif.NextInv Verif.Spec Verif.LogLemmas Verif.TraceLemmas Verif.BuildLemmas Verif.SamplingLemmas Verif.HistoryLemmas
  Verif.RelLemmas Verif.StateLemmas Verif.PropSampling Verif.PropRun Verif.RestartLemmas.
Import ListNotations.
Open Scope nat_scope.

Section RunHistory.
  Context {T : Type} {NT : Num T} {LT : Libm T} {E : Env T}.
  Context {F : Type} (ev : F -> vec T -> outcome (T * F)).

  (* the calls of next that run made: none of them ended it except the last, which returned d *)
  Definition run_history (o : options T) (f : F) (d : term_data T) (h : list (call T)) (k : call T)
    (c : cmaes T (F * list (entry T))) : Prop :=
    (exists seed, used ev o f seed (h ++ [k]) c) /\
    Forall (fun x => k_result x = None /\ length (k_evals x) = N.to_nat (o_population_size o)) h /\
    k_result k = Some d /\
    (reports InvalidFunctionValue (Some d) = false -> length (k_evals k) = N.to_nat (o_population_size o)).

  Lemma run_history_ex : forall rs now f o c0 par fuel env d c', cmaes_new rs now (f, []) o = Ret (inl c0) ->
    run (log_ev ev) par fuel env c0 = Ret (d, c') ->
    exists h k c1, run_history o f d h k c1 /\ calls c' = concat (map k_evals (h ++ [k])) /\
      c_history c' = c_history c1 /\ function_evals c' = function_evals c1.
  Proof.
    intros rs now f o c0 par fuel env d c' Hb Hr. apply C29_run_is_iterated_next in Hr.
    destruct Hr as [n [c1 [c2 [_ [Hi [Hn Hf]]]]]].
    set (seed := match o_seed o with Some s => s | None => rs end).
    assert (G : exists h, used ev o f seed h c1 /\
      Forall (fun x => k_result x = None /\ length (k_evals x) = N.to_nat (o_population_size o)) h).
    { clear Hn Hf. induction Hi as [|n c c1 Hi [h [Hu Hh]] Hn].
      - exists []. split; [|constructor]. exists rs, now, c0. split; [exact Hb|]. split; [reflexivity|constructor].
      - destruct (C04_count _ _ _ _ _ _ _ _ _ _ _ _ _ _ _ Hu Hn) as [new [N1 N2]]. cbn [reports] in N2.
        exists (h ++ [mkCall None new]). split; [eapply used_next; eauto|]. apply Forall_app. split; [exact Hh|].
        constructor; [cbn; auto|constructor]. }
    destruct G as [h [Hu Hh]]. destruct (C04_count _ _ _ _ _ _ _ _ _ _ _ _ _ _ _ Hu Hn) as [new [N1 N2]].
    pose proof (used_next _ _ _ _ _ _ _ _ _ _ _ Hu Hn N1) as Hu2.
    exists h, (mkCall (Some d) new), c2. split.
    - split; [eauto|]. split; [exact Hh|]. split; [reflexivity|]. cbn [k_evals]. intros R. rewrite R in N2. exact N2.
    - split; [|split].
      + rewrite <- (used_calls _ _ _ _ _ _ Hu2). unfold calls, into_objective_function. rewrite (fi_sampler _ _ _ Hf). reflexivity.
      + apply (fi_history _ _ _ Hf).
      + unfold function_evals. rewrite (fi_sampler _ _ _ Hf). reflexivity.
  Qed.

  Lemma run_calls_length : forall o f d h k c, run_history o f d h k c ->
    reports InvalidFunctionValue (Some d) = false ->
    length (concat (map k_evals (h ++ [k]))) = N.to_nat (o_population_size o) * (length h + 1) /\
    generations (h ++ [k]) = map k_evals (h ++ [k]) /\
    function_evals c = N.of_nat (length (concat (map k_evals (h ++ [k])))).
  Proof.
    intros o f d h k c [[seed Hu] [Hh [Hk Hl]]] R. specialize (Hl R).
    assert (H1 : length (concat (map k_evals (h ++ [k]))) = N.to_nat (o_population_size o) * (length h + 1)).
    { rewrite map_app, concat_app, app_length. cbn. rewrite app_nil_r, Hl.
      clear Hu Hl Hk. induction Hh as [|x h [_ X] _ IH]; cbn; [lia|]. rewrite app_length, X. lia. }
    assert (H2 : filter valid (h ++ [k]) = h ++ [k]).
    { rewrite filter_app. f_equal.
      - clear Hu H1. induction Hh as [|x h [X _] _ IH]; [reflexivity|]. cbn [filter]. unfold valid at 1. rewrite X. cbn. rewrite IH. reflexivity.
      - cbn [filter]. unfold valid. rewrite Hk, R. reflexivity. }
    split; [exact H1|]. split; [unfold generations; rewrite H2; reflexivity|].
    destruct (used_evals _ _ _ _ _ _ Hu) as [-> _]. unfold evals_of. rewrite H2, H1, app_length. cbn [length]. lia.
  Qed.
End RunHistory.

(* the record of earlier runs does not matter *)
Section Extended.
  Context {T : Type} {NT : Num T} {LT : Libm T} {E : Env T}.
  Context {F : Type} (ev : F -> vec T -> outcome (T * F)).

  Definition extends (lg : list (entry T)) (a b : F * list (entry T)) : Prop := fst a = fst b /\ snd a = lg ++ snd b.
  Lemma log_ev_extends : forall lg x f1 f2, extends lg f1 f2 ->
    out_rel (fun a b => fst a = fst b /\ extends lg (snd a) (snd b)) (log_ev ev f1 x) (log_ev ev f2 x).
  Proof.
    intros lg x [f l] [f2 l2] [H1 H2]. cbn in H1, H2. subst. unfold log_ev. cbn [fst snd]. destruct (ev f2 x) as [[v f']| |]; cbn; auto.
    split; [reflexivity|]. split; cbn; [reflexivity|]. apply app_assoc_reverse.
  Qed.

  (* a run of a restarter whose objective is recorded *)
  Lemma ran_logged : forall par rt t, ran (log_ev ev) par rt t ->
    exists h k c1, run_history ev (ru_options t) (fst (ru_objective t)) (ru_data t) h k c1 /\
      calls (ru_final t) = snd (ru_objective t) ++ concat (map k_evals (h ++ [k])) /\
      c_history (ru_final t) = c_history c1 /\ function_evals (ru_final t) = function_evals c1.
  Proof.
    intros par rt t [c0 [Hb Hr]]. destruct (ru_objective t) as [f lg] eqn:Ef. cbn [fst snd].
    assert (X : extends lg (f, lg) (f, [])) by (split; cbn; [reflexivity|rewrite app_nil_r; reflexivity]).
    destruct (out_rel_Ret _ _ _ _ (new_alike (extends lg) (rt_random rt) (rt_created rt) _ _ (ru_options t) X) Hb) as [[d0|e] [N1 N2]]; [|contradiction].
    destruct (out_rel_Ret _ _ _ _ (run_alike (log_ev ev) (log_ev ev) _ (log_ev_extends lg) par (rt_fuel rt) (rt_env rt) c0 d0 N2) Hr) as [[d c'] [M1 [M2 M3]]].
    cbn [fst snd] in M2, M3. subst d.
    destruct (run_history_ex _ _ _ _ _ _ _ _ _ _ _ N1 M1) as [h [k [c1 [H1 [H2 [H3 H4]]]]]].
    exists h, k, c1. split; [exact H1|]. split; [|split].
    - rewrite <- H2. unfold calls, into_objective_function. apply (sr_obj _ _ _ (al_sm _ _ _ M3)).
    - rewrite <- H3. apply (al_history _ _ _ M3).
    - rewrite <- H4. unfold function_evals. apply (sr_evals _ _ _ (al_sm _ _ _ M3)).
  Qed.
  (* any run *)
  Lemma ran_recorded : forall par rt t, ran ev par rt t ->
    exists h k c1, run_history ev (ru_options t) (ru_objective t) (ru_data t) h k c1 /\
      c_history (ru_final t) = c_history c1 /\ function_evals (ru_final t) = function_evals c1.
  Proof.
    intros par rt t [c0 [Hb Hr]].
    destruct (out_rel_Ret_r _ _ _ _ (new_alike (fun (a : F * list (entry T)) b => fst a = b) (rt_random rt) (rt_created rt) (ru_objective t, []) _ (ru_options t) eq_refl) Hb) as [[d0|e] [N1 N2]]; [|contradiction].
    destruct (out_rel_Ret_r _ _ _ _ (run_alike (log_ev ev) ev _ (log_ev_alike ev) par (rt_fuel rt) (rt_env rt) d0 c0 N2) Hr) as [[d c'] [M1 [M2 M3]]].
    cbn [fst snd] in M2, M3. subst d.
    destruct (run_history_ex _ _ _ _ _ _ _ _ _ _ _ N1 M1) as [h [k [c1 [H1 [H2 [H3 H4]]]]]].
    exists h, k, c1. split; [exact H1|]. split.
    - rewrite <- H3. symmetry. apply (al_history _ _ _ M3).
    - rewrite <- H4. unfold function_evals. symmetry. apply (sr_evals _ _ _ (al_sm _ _ _ M3)).
  Qed.
  Lemma ran_evals : forall par rt t, ran ev par rt t -> reports InvalidFunctionValue (Some (ru_data t)) = false ->
    (2 <= o_population_size (ru_options t) <= function_evals (ru_final t))%N.
  Proof.
    intros par rt t Hr R. pose proof Hr as [c0 [Hb _]].
    destruct (ran_recorded _ _ _ Hr) as [h [k [c1 [H1 [_ H2]]]]]. destruct (run_calls_length _ _ _ _ _ _ _ H1 R) as [L1 [_ L2]].
    rewrite H2, L2, L1. apply cmaes_new_inv in Hb. cbv zeta in Hb. destruct Hb as [Hv _]. unfold validate in Hv.
    destruct (length _ =? 0); [discriminate|]. destruct (N.ltb_spec (o_population_size (ru_options t)) 2) as [|X]; [discriminate|].
    split; [exact X|]. rewrite Nat2N.inj_mul, N2Nat.id. nia.
  Qed.
End Extended.

Section BestOfRun.
  Context {T : Type} {NT : Num T} {LT : Libm T} {E : Env T} {OL : OrdLaws T}.
  Context {F : Type} (ev : F -> vec T -> outcome (T * F)).

  (* a run without NaN has an overall best individual: the first best of its evaluations *)
  Lemma run_best : forall par rt t, ran ev par rt t -> reports InvalidFunctionValue (Some (ru_data t)) = false ->
    exists i, overall_best_individual (ru_final t) = Some i /\ nis_nan (i_value i) = false.
  Proof.
    intros par rt t Hr R. destruct (ran_recorded _ _ _ _ Hr) as [h [k [c1 [H1 [H2 _]]]]].
    destruct (run_calls_length _ _ _ _ _ _ _ H1 R) as [_ [L2 _]]. destruct H1 as [[seed Hu] _].
    destruct (used_recorded _ _ _ _ _ _ Hu) as [B [M Hc]]. pose proof (rc_overall _ _ _ _ _ Hc) as Ho.
    pose proof (rc_nan _ _ _ _ _ Hc) as Hn. unfold overall_best_individual. rewrite H2.
    destruct (generations (h ++ [k])) as [|g gs] eqn:Eg.
    - destruct h; discriminate L2.
    - destruct Ho as [i [-> [pre [g' [post [X1 [X2 _]]]]]]]. exists i. split; [reflexivity|]. rewrite Forall_forall in Hn.
      apply (Hn (i_point i, i_value i)). rewrite X1. apply in_concat. exists g'. split; [apply in_elt|exact X2].
  Qed.
  (* the same in terms of the recorded calls *)
  Lemma run_best_logged : forall par rt t, ran (log_ev ev) par rt t -> reports InvalidFunctionValue (Some (ru_data t)) = false ->
    exists i new, overall_best_individual (ru_final t) = Some i /\ calls (ru_final t) = snd (ru_objective t) ++ new /\
      N.of_nat (length new) = function_evals (ru_final t) /\ Forall (fun e => nis_nan (snd e) = false) new /\
      In (i_point i, i_value i) new /\ Forall (fun e => is_better (o_mode (ru_options t)) (snd e) (i_value i) = false) new.
  Proof.
    intros par rt t Hr R. destruct (ran_logged _ _ _ _ Hr) as [h [k [c1 [H1 [H2 [H3 H4]]]]]].
    destruct (run_calls_length _ _ _ _ _ _ _ H1 R) as [_ [L2 L3]]. destruct H1 as [[seed Hu] _].
    destruct (used_recorded _ _ _ _ _ _ Hu) as [B [M Hc]]. pose proof (rc_overall _ _ _ _ _ Hc) as Ho.
    pose proof (rc_nan _ _ _ _ _ Hc) as Hn. unfold overall_best_individual. rewrite H3, H4, L3, <- L2 in *.
    destruct (generations (h ++ [k])) as [|g gs] eqn:Eg.
    - destruct h; discriminate L2.
    - destruct Ho as [i [-> [pre [g' [post [X1 [X2 [X3 X4]]]]]]]]. exists i, (concat (g :: gs)). split; [reflexivity|].
      split; [exact H2|]. split; [reflexivity|]. split; [exact Hn|]. rewrite X1, concat_app. split.
      + apply in_or_app. right. cbn. apply in_or_app. left. exact X2.
      + apply Forall_app. split; apply Forall_concat; [|exact X4]. eapply Forall_impl; [|exact X3]. intros x Hx. eapply Forall_impl; [|exact Hx].
        intros e He. apply better_asym. exact He.
  Qed.
End BestOfRun.
