(* C71: parameters() shows the settings in use, and the seed it shows reproduces the session. *)
From Coq Require Import List NArith ZArith Bool Arith Lia.
Require Import Verif.Lib Verif.Base Verif.Num Verif.F64 Verif.LinAlg Verif.Mode Verif.Weights Verif.Options
  Verif.Params Verif.Env Verif.State Verif.Sampling Verif.History Verif.Termination Verif.Plot Verif.Cmaes
  Verif.Spec Verif.BuildLemmas Verif.TraceLemmas Verif.TermLemmas Verif.PropRun Verif.PropParallel Verif.Session Verif.Toy Verif.ToyLemmas Verif.PropPlot.
Import ListNotations.
Open Scope nat_scope.

Section Parameters.
  Context {T : Type} {NT : Num T} {LT : Libm T} {E : Env T}.
  Context {F : Type} (ev : F -> vec T -> outcome (T * F)).

  (* what the accessors of Parameters say *)
  Record shows_settings (o : options T) (p : params T) : Prop := {
    sw_mode : p_mode p = o_mode o;
    sw_dim : p_dim p = N.of_nat (length (o_initial_mean o));
    sw_lambda : p_lambda p = o_population_size o;
    sw_mu : p_mu p = (o_population_size o / 2)%N;
    sw_initial_sigma : p_initial_sigma p = o_initial_step_size o;
    sw_weights : p_weights_setting p = o_weights o;
    sw_cm : p_cm p = o_cm o;
    sw_max_function_evals : tp_max_function_evals (p_term p) = o_max_function_evals o;
    sw_max_generations : tp_max_generations (p_term p) = o_max_generations o;
    sw_max_time : tp_max_time (p_term p) = o_max_time o;
    sw_fun_target : tp_fun_target (p_term p) = o_fun_target o;
    sw_tol_fun : tp_tol_fun (p_term p) = o_tol_fun o;
    sw_tol_fun_rel : tp_tol_fun_rel (p_term p) = o_tol_fun_rel o;
    sw_tol_fun_hist : tp_tol_fun_hist (p_term p) = o_tol_fun_hist o;
    sw_tol_x : forall x, o_tol_x o = Some x -> tp_tol_x (p_term p) = x;
    sw_tol_x_default : o_tol_x o = None -> tp_tol_x (p_term p) = nmul (nlit 1 1000000000000) (o_initial_step_size o);
    sw_tol_stagnation : forall n, o_tol_stagnation o = Some n -> tp_tol_stagnation (p_term p) = n;
    (* 100 + ceil(100 dim^1.5 / lambda) *)
    sw_tol_stagnation_default : o_tol_stagnation o = None -> tp_tol_stagnation (p_term p) =
      (100 + nto_usize (nceil (ndiv (nmul (nofZ 100) (lm_powf (nofN (N.of_nat (length (o_initial_mean o)))) (nlit 3 2))) (nofN (o_population_size o)))))%N;
    sw_tol_x_up : tp_tol_x_up (p_term p) = o_tol_x_up o;
    sw_tol_condition_cov : tp_tol_condition_cov (p_term p) = o_tol_condition_cov o;
    sw_seed : forall s, o_seed o = Some s -> p_seed p = s;
    sw_parallel_update : p_parallel_update p = o_parallel_update o
  }.

  Lemma params_show : forall o s, (forall t, o_seed o = Some t -> s = t) -> shows_settings o (params_of_options o s).
  Proof.
    intros o s Hs. constructor; unfold params_of_options, term_params_of_options;
      cbn [p_mode p_dim p_lambda p_mu p_initial_sigma p_weights_setting p_cm p_term p_seed p_parallel_update tp_max_function_evals tp_max_generations
           tp_max_time tp_fun_target tp_tol_fun tp_tol_fun_rel tp_tol_fun_hist tp_tol_x tp_tol_stagnation tp_tol_x_up tp_tol_condition_cov]; auto.
    - intros x ->. reflexivity.
    - intros ->. reflexivity.
    - intros n ->. reflexivity.
    - intros ->. reflexivity.
  Qed.

  Theorem C71_settings : forall o f c, reaches ev o f c -> shows_settings o (c_params c).
  Proof.
    intros o f c H. apply reaches_setup in H. destruct H as [rs [now [c0 [H1 [-> _]]]]].
    apply cmaes_new_inv in H1. cbv zeta in H1. destruct H1 as [_ [_ [-> _]]]. apply params_show. intros t ->. reflexivity.
  Qed.

  Lemma session_reaches : forall o rs now f l rep c, session ev rs now f o l = Ret (inl (rep, c)) -> reaches ev o f c.
  Proof.
    intros o rs now f l rep c H. unfold session in H. oinv H. destruct a as [c0|e]; [|discriminate H]. oinv H.
    apply Ret_inj in H. assert (Ea : a = (rep, c)) by congruence. subst a.
    exists c0, l. split; [exists rs, now; exact Ho|]. exact (transcript_steps _ _ _ _ _ Ho0).
  Qed.

  (* Building again with the seed that was shown, at the same time, gives the same results and the same optimiser,
     whatever random seed would have been drawn. *)
  Theorem C71_seed : forall o rs rs' now f l rep c,
    session ev rs now f o l = Ret (inl (rep, c)) ->
    session ev rs' now f (apply_setter o (SSeed (p_seed (c_params c)))) l = Ret (inl (rep, c)).
  Proof.
    intros o rs rs' now f l rep c H. unfold session in *. oinv H. destruct a as [c0|e]; [|discriminate H]. oinv H.
    apply Ret_inj in H. assert (Ea : a = (rep, c)) by congruence. subst a. clear H.
    pose proof (transcript_steps ev _ _ _ _ Ho0) as Hst. pose proof (cmaes_new_inv _ _ _ _ _ Ho) as C. cbv zeta in C. destruct C as [_ [_ [C3 _]]].
    assert (Hr : reaches ev o f c) by (exists c0, l; split; [exists rs, now; exact Ho|exact Hst]).
    assert (Hp : c_params c = c_params c0).
    { apply (steps_invariant ev (fun c => same_setup c c0)) with (l := l) (c := c0) (c' := c); auto.
      - intros a op b Ha Hq Hs. eapply same_setup_trans; [|exact Ha]. apply core_setup. eapply quiet_core; eauto.
      - intros par tk a r b Ha Hn. eapply same_setup_trans; [|exact Ha]. eapply next_setup; eauto.
      - unfold same_setup. tauto. }
    assert (Hs : p_seed (c_params c) = match o_seed o with Some s => s | None => rs end) by (rewrite Hp, C3; reflexivity).
    rewrite Hs. set (s := match o_seed o with Some s => s | None => rs end) in *.
    assert (En : cmaes_new rs' now f (apply_setter o (SSeed s)) = cmaes_new rs now f o).
    { destruct o. unfold s. reflexivity. }
    rewrite En, Ho. cbn [obind]. rewrite Ho0. reflexivity.
  Qed.
End Parameters.

Print Assumptions C71_settings.
Print Assumptions C71_seed.

(* three generations without a seed of the user's: 23 is drawn, shown, and reproduces the session although 99 would be drawn *)
Definition c71_options : options f64 :=
  apply_setters (options_new (repeat (lit 3 2) 2) (lit 1 2)) [SPopulationSize 4; SMaxGenerations 3; SParallelUpdate true].
Definition c71_calls : list op := [ONext false toy_tick; OPrintInfo; ORun false 10 toy_env_of].
Example C71_case : o_seed c71_options = None /\ exists rs c,
  session toy_sphere 23 0 tt c71_options c71_calls = Ret (inl (rs, c)) /\
  generation c = 3%N /\ p_seed (c_params c) = 23%N /\
  session toy_sphere 99 0 tt (apply_setter c71_options (SSeed (p_seed (c_params c)))) c71_calls = Ret (inl (rs, c)) /\
  reaches toy_sphere c71_options tt c /\ p_parallel_update (c_params c) = true.
Proof.
  split; [reflexivity|].
  destruct (session_test_ex (session toy_sphere 23 0 tt c71_options c71_calls)
    (fun rs c => (generation c =? 3)%N && (p_seed (c_params c) =? 23)%N)) as [rs [c [H1 H2]]].
  { vm_compute. reflexivity. }
  apply andb_prop in H2. destruct H2 as [H2 H3]. apply N.eqb_eq in H2. apply N.eqb_eq in H3.
  pose proof (session_reaches _ _ _ _ _ _ _ _ H1) as Hr.
  exists rs, c. split; [exact H1|]. split; [exact H2|]. split; [exact H3|]. split; [exact (C71_seed _ _ _ 99%N _ _ _ _ _ H1)|].
  split; [exact Hr|]. exact (sw_parallel_update _ _ (C71_settings _ _ _ _ Hr)).
Qed.
