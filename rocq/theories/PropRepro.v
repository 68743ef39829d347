(* C63: results are reproducible: with a seed, nothing depends on the clock or on other randomness. *)
From Coq Require Import List NArith ZArith Bool Arith Lia Permutation.
Require Import Verif.Lib Verif.Base Verif.Num Verif.F64 Verif.LinAlg Verif.Mode Verif.Weights Verif.Options
  Verif.Params Verif.Env Verif.State Verif.Sampling Verif.History Verif.Termination Verif.Plot Verif.Cmaes Verif.Restart
  Verif.Sort Verif.Spec Verif.BuildLemmas Verif.RelLemmas Verif.Session Verif.ClockLemmas Verif.Toy Verif.ToyLemmas
  Verif.PropParallel Verif.RestartLemmas Verif.PropRestart Verif.PropRestartRuns.
Import ListNotations.
Open Scope nat_scope.

Section Repro.
  Context {T : Type} {NT : Num T} {LT : Libm T} {E : Env T}.
  Context {F : Type} (ev : F -> vec T -> outcome (T * F)).

  (* An optimiser created at now1 and one created at now2, with a seed set: the same calls give the same results
     and leave the same optimiser, whatever the entropy (rs1, rs2) and the clock readings. If max_time is set, whether it has passed must agree. If parallel_update is not set, the
     reduction trees do not matter; if a call is sequential, the schedules do not. *)
  Theorem C63_sessions : forall o rs1 rs2 now1 now2 f l1 l2,
    o_seed o <> None \/ rs1 = rs2 -> paired (other_time o now1 now2) l1 l2 ->
    out_rel (sess_rel (fun a b => fst a = fst b /\ timeless (snd a) (snd b)))
      (session ev rs1 now1 f o l1) (session ev rs2 now2 f o l2).
  Proof.
    intros o rs1 rs2 now1 now2 f l1 l2 Hs Hl. unfold session.
    eapply out_rel_bind; [apply new_time; exact Hs|].
    intros [c1|e1] [c2|e2] H; cbn [sess_rel] in H; try contradiction; [|exact H].
    eapply (out_rel_bind (fun a b => fst a = fst b /\ timed o now1 now2 (snd a) (snd b))).
    - apply (paired_transcript ev (timed o now1 now2) (other_time o now1 now2)); auto.
      + intros d1 d2 Hd. apply (tl_gap _ _ (ti_same _ _ _ _ _ Hd)).
      + apply quiet_time.
      + intros. apply next_time; auto.
    - intros a b [H1 H2]. cbn. split; auto. apply (ti_same _ _ _ _ _ H2).
  Qed.

  (* ---- restarts ---- *)
  Context {RE : REnv T} (checks : bool).

  (* One run of the restart loop made at different times. *)
  Definition other_times (r : restarter T) (started1 started2 : N) (par : bool) (rt1 rt2 : rtick) : Prop :=
    rt_fuel rt1 = rt_fuel rt2 /\
    match rs_max_time r with
    | Some m => (m <=? rt_check rt1 - started1)%N = (m <=? rt_check rt2 - started2)%N
    | None => True
    end /\
    forall k, t_fuel (rt_env rt1 k) = t_fuel (rt_env rt2 k) /\
      (par = true -> t_sched (rt_env rt1 k) = t_sched (rt_env rt2 k)) /\
      (rs_parallel_update r = true -> t_tree (rt_env rt1 k) = t_tree (rt_env rt2 k)) /\
      match o_max_time (rs_default_options r) with
      | Some m => (m <=? t_now (rt_env rt1 k) - rt_created rt1)%N = (m <=? t_now (rt_env rt2 k) - rt_created rt2)%N
      | None => True
      end.

  (* records of runs that differ only in the time of creation of the optimiser *)
  Record same_run (a b : run_record T F) : Prop := {
    sn_local : ru_local a = ru_local b;
    sn_objective : ru_objective a = ru_objective b;
    sn_options : ru_options a = ru_options b;
    sn_data : ru_data a = ru_data b;
    sn_final : timeless (ru_final a) (ru_final b);
    sn_control : ru_control a = ru_control b
  }.
  Record same_loop {G} (a b : loop_state T F G) : Prop := {
    sl_strategy : l_strategy a = l_strategy b;
    sl_rng : l_rng a = l_rng b;
    sl_best : l_best a = l_best b;
    sl_evals : l_function_evals a = l_function_evals b;
    sl_runs : l_runs a = l_runs b;
    sl_objective : l_objective a = l_objective b;
    sl_factory : l_factory a = l_factory b;
    sl_log : Forall2 same_run (l_log a) (l_log b)
  }.

  (* the options of a run that matter here *)
  Definition run_like (r : restarter T) (o : options T) : Prop :=
    o_seed o <> None /\ o_parallel_update o = rs_parallel_update r /\ o_max_time o = o_max_time (rs_default_options r).
  Lemma run_like_options : forall r m seed, run_like r (run_options r m seed).
  Proof.
    intros r m seed. unfold run_like, run_options. destruct (rs_default_options r). cbn. repeat split. discriminate.
  Qed.
  Lemma run_like_step : forall r o x, run_like r o -> run_like r (set_step_size o x).
  Proof. intros r o x H. destruct o. exact H. Qed.
  Lemma run_like_pop : forall r o x, run_like r o -> run_like r (set_population o x).
  Proof. intros r o x H. destruct o. exact H. Qed.
  Lemma run_like_evals : forall r o x, run_like r o -> run_like r (with_max_function_evals o x).
  Proof. intros r o x H. destruct o. exact H. Qed.

  Section Step.
    Context (r : restarter T) (started1 started2 : N) (par : bool) (rt1 rt2 : rtick).
    Hypothesis Hrt : other_times r started1 started2 par rt1 rt2.

    Lemma exec_time : forall f o, run_like r o ->
      out_rel (fun a b => fst a = fst b /\ timeless (snd a) (snd b)) (exec ev par rt1 f o) (exec ev par rt2 f o).
    Proof.
      intros f o [Ho1 [Ho2 Ho3]]. unfold exec, build_unwrap. destruct Hrt as [Hf [_ He]].
      eapply (out_rel_bind (timed o (rt_created rt1) (rt_created rt2))).
      - eapply out_rel_bind; [apply new_time; left; exact Ho1|].
        intros [c1|e1] [c2|e2] H; cbn in *; try contradiction; auto.
      - intros c1 c2 Hc. rewrite Hf. eapply out_rel_impl.
        + apply (paired_run ev (timed o (rt_created rt1) (rt_created rt2)) (other_time o (rt_created rt1) (rt_created rt2))); [| | | |exact Hc].
          * intros d1 d2 Hd. apply (tl_gap _ _ (ti_same _ _ _ _ _ Hd)).
          * apply quiet_time.
          * intros. apply next_time; auto.
          * intros k. destruct (He k) as [E1 [E2 [E3 E4]]]. split; [reflexivity|]. split; [exact E1|]. split; [exact E2|].
            rewrite Ho2, Ho3. split; auto.
        + intros a b [H1 H2]. split; auto. apply (ti_same _ _ _ _ _ H2).
    Qed.
    Lemma evals_time : forall c1 c2 : cmaes T F, timeless c1 c2 -> function_evals c1 = function_evals c2.
    Proof. intros c1 c2 H. unfold function_evals. rewrite (tl_sampler _ _ H). reflexivity. Qed.

    Lemma strategy_time : forall s o range f g, run_like r o ->
      out_rel (fun a b => fst (fst a) = fst (fst b) /\ same_run (snd (fst a)) (snd (fst b)) /\ snd a = snd b)
        (strategy_next_run ev checks par rt1 s o range f g) (strategy_next_run ev checks par rt2 s o range f g).
    Proof.
      intros s o range f g Ho. destruct s as [s|s|s]; cbn [strategy_next_run].
      - unfold local_next_run.
        eapply (out_rel_bind (fun a b => fst a = fst b /\ same_run (snd a) (snd b))).
        + eapply out_rel_bind; [apply exec_time, run_like_step; exact Ho|].
          intros [d1 c1] [d2 c2] [H1 H2]. cbn in *. subst. split; auto. constructor; auto.
        + intros [s1 r1] [s2 r2] [H1 H2]. cbn in *. subst. auto.
      - unfold ipop_next_run.
        eapply (out_rel_bind (fun a b => fst a = fst b /\ same_run (snd a) (snd b))).
        + destruct (usize_mul checks (o_population_size _) _) as [n| |]; cbn [obind out_rel]; auto.
          eapply out_rel_bind; [apply exec_time, run_like_pop, run_like_step; exact Ho|].
          intros [d1 c1] [d2 c2] [H1 H2]. cbn [fst snd] in *. subst.
          destruct (usize_mul checks (ip_multiplier s) _) as [k| |]; cbn; auto. split; auto. constructor; auto.
        + intros [s1 r1] [s2 r2] [H1 H2]. cbn in *. subst. auto.
      - unfold bipop_next_run.
        eapply (out_rel_bind (fun a b => fst (fst a) = fst (fst b) /\ same_run (snd (fst a)) (snd (fst b)) /\ snd a = snd b)).
        + destruct (_ && _).
          * unfold bipop_next_run_lr. destruct (lr_step_size s range g) as [step g1]. destruct (lr_population s _ g1) as [n g2].
            eapply out_rel_bind; [apply exec_time, run_like_evals, run_like_pop, run_like_step; exact Ho|].
            intros [d1 c1] [d2 c2] [H1 H2]. cbn in *. subst. rewrite (evals_time _ _ H2). split; auto. split; auto. constructor; auto.
          * unfold bipop_next_run_ipop.
            eapply (out_rel_bind (fun a b => fst a = fst b /\ same_run (snd a) (snd b))).
            -- destruct (usize_mul checks (o_population_size _) _) as [n| |]; cbn [obind out_rel]; auto.
               eapply out_rel_bind; [apply exec_time, run_like_pop, run_like_step; exact Ho|].
               intros [d1 c1] [d2 c2] [H1 H2]. cbn [fst snd] in *. subst.
               destruct (usize_mul checks (bi_multiplier s) _) as [k| |]; cbn; auto. rewrite (evals_time _ _ H2).
               split; auto. constructor; auto.
            -- intros [s1 r1] [s2 r2] [H1 H2]. cbn in *. subst. auto.
        + intros [[s1 r1] g1] [[s2 r2] g2] [H1 [H2 H3]]. cbn in *. subst. auto.
    Qed.

    Lemma restart_step_time : forall {G} (get : G -> outcome (F * G)) reuse (l1 l2 : loop_state T F G), same_loop l1 l2 ->
      out_rel (fun a b => same_loop (fst a) (fst b) /\ snd a = snd b)
        (restart_step ev checks get par reuse started1 rt1 r l1) (restart_step ev checks get par reuse started2 rt2 r l2).
    Proof.
      intros G get reuse l1 l2 Hl. unfold restart_step.
      rewrite (sl_strategy _ _ Hl), (sl_evals _ _ Hl), (sl_rng _ _ Hl), (sl_objective _ _ Hl), (sl_factory _ _ Hl), (sl_runs _ _ Hl), (sl_best _ _ Hl).
      destruct (has_zero_max_runs _); [cbn; auto|].
      destruct (match rs_max_function_evals r with Some m => _ | None => false end); [cbn; auto|].
      assert (Hm : match rs_max_time r with Some m => (m <=? rt_check rt1 - started1)%N | None => false end
        = match rs_max_time r with Some m => (m <=? rt_check rt2 - started2)%N | None => false end).
      { destruct Hrt as [_ [Hm _]]. destruct (rs_max_time r); auto. }
      rewrite Hm. clear Hm. destruct (match rs_max_time r with Some m => _ | None => false end); [cbn; auto|].
      destruct (generate_initial_mean _ _ _ _) as [[m g]| |]; cbn [obind out_rel]; auto.
      destruct (rr_u64 g) as [seed g1].
      destruct (match l_objective l2 with Some f => _ | None => _ end) as [[f fac]| |]; cbn [obind out_rel]; auto.
      eapply out_rel_bind; [apply strategy_time; apply run_like_options|].
      intros [[s1 r1] g2] [[s2 r2] g3] [H1 [H2 H3]]. cbn [fst snd] in *. subst s2 g3.
      unfold ru_reasons, overall_best_individual, into_objective_function.
      rewrite (sn_data _ _ H2), (sn_control _ _ H2), (tl_history _ _ (sn_final _ _ H2)), (tl_sampler _ _ (sn_final _ _ H2)), (evals_time _ _ (sn_final _ _ H2)).
      assert (Hlog : Forall2 same_run (r1 :: l_log l1) (r2 :: l_log l2)) by (constructor; [exact H2|exact (sl_log _ _ Hl)]).
      destruct (has_reason InvalidFunctionValue _); [cbn; split; auto; constructor; auto|].
      destruct (has_reason FunTarget _); [cbn; split; auto; constructor; auto|].
      destruct (ru_control r2); cbn; split; auto; constructor; auto.
    Qed.
  End Step.

  (* restarters built from the same options with a seed: the same results and the same runs *)
  Theorem C63_restarts : forall o rs1 rs2 {G} (get : G -> outcome (F * G)) (g : G) par reuse started1 started2 fuel env1 env2,
    ro_seed o <> None \/ rs1 = rs2 ->
    match restarter_new rs1 o, restarter_new rs2 o with
    | inl r1, inl r2 =>
        r1 = r2 /\
        ((forall k, other_times r1 started1 started2 par (env1 k) (env2 k)) ->
         out_rel (fun a b => fst a = fst b /\ same_loop (snd a) (snd b))
           (restart_run_internal ev checks get par reuse started1 fuel env1 g r1)
           (restart_run_internal ev checks get par reuse started2 fuel env2 g r2))
    | inr e1, inr e2 => e1 = e2
    | _, _ => False
    end.
  Proof.
    intros o rs1 rs2 G get g par reuse started1 started2 fuel env1 env2 Hs.
    assert (He : restarter_new rs1 o = restarter_new rs2 o).
    { unfold restarter_new. destruct (ro_seed o); [reflexivity|]. destruct Hs as [Hs|Hs]; [congruence|]. rewrite Hs. reflexivity. }
    rewrite He. destruct (restarter_new rs2 o) as [r|e]; [|reflexivity]. split; [reflexivity|]. intros Ht.
    unfold restart_run_internal.
    eapply (out_rel_bind (fun a b => same_loop (fst a) (fst b) /\ snd a = snd b)).
    - assert (Hl : same_loop (loop_init (F := F) r g) (loop_init r g)) by (constructor; auto; constructor).
      revert Hl. generalize (loop_init (F := F) r g) at 1 3 as l1. generalize (loop_init (F := F) r g) as l2.
      revert env1 env2 Ht. induction fuel as [|fuel IH]; intros env1 env2 Ht l1 l2 Hl; cbn [restart_loop]; [exact I|].
      eapply out_rel_bind; [apply (restart_step_time r started1 started2 par); [apply Ht|exact Hl]|].
      intros [k1 x1] [k2 x2] [H1 H2]. cbn [fst snd] in *. subst. destruct x2; [cbn; auto|].
      apply IH; [intros k; apply (Ht (S k))|exact H1].
    - intros [l1 x1] [l2 x2] [H1 H2]. cbn in *. subst. split; auto.
      rewrite (sl_best _ _ H1), (sl_evals _ _ H1), (sl_runs _ _ H1). reflexivity.
  Qed.
End Repro.

Print Assumptions C63_sessions.
Print Assumptions C63_restarts.

(* a seeded session of three generations and a run at other times, on another machine state *)
Definition c63_calls (t : N) : list op :=
  [ONext false (mkTick t RLeaf [] 50); OPrintInfo; ONext false (mkTick (t + 5) RLeaf [] 50); ORun false 40 (fun k => mkTick (t + 9 + N.of_nat (Nat.min k 20)) RLeaf [] 50)].
Definition c63_options : options f64 := apply_setters (toy_options 2) [SMaxGenerations 6; SMaxTime 1000].
Example C63_sessions_case : o_seed c63_options <> None /\
  paired (other_time c63_options 100 7000) (c63_calls 110) (c63_calls 7300) /\
  exists rs c, session toy_sphere 3 100 tt c63_options (c63_calls 110) = Ret (inl (rs, c)) /\ generation c = 6%N /\ length rs = 3.
Proof.
  split; [discriminate|]. split.
  - assert (H : forall p1 p2 q1 q2 : N, (p1 < 1000 -> p2 < 1000 -> q1 = 100 + p1 -> q2 = 7000 + p2 ->
      other_time c63_options 100 7000 false (mkTick q1 RLeaf [] 50) false (mkTick q2 RLeaf [] 50))%N).
    { intros p1 p2 q1 q2 H1 H2 -> ->. split; [reflexivity|]. split; [reflexivity|]. split; [reflexivity|]. split; [reflexivity|].
      cbn [o_max_time c63_options apply_setters fold_left apply_setter toy_options options_new t_now].
      rewrite (proj2 (N.leb_gt _ _)) by lia. rewrite (proj2 (N.leb_gt _ _)) by lia. reflexivity. }
    constructor; [apply (H 10 300)%N; lia|]. constructor; [exact I|]. constructor; [apply (H 15 305)%N; lia|].
    constructor; [|constructor]. intros k. pose proof (Nat.le_min_r k 20).
    apply (H (19 + N.of_nat (Nat.min k 20)) (309 + N.of_nat (Nat.min k 20)))%N; lia.
  - destruct (session_test_ex (session toy_sphere 3 100 tt c63_options (c63_calls 110))
      (fun rs c => (generation c =? 6)%N && (length rs =? 3))) as [rs [c [H1 H2]]].
    { vm_compute. reflexivity. }
    exists rs, c. split; auto. apply andb_prop in H2. destruct H2 as [H2 H3].
    split; [apply N.eqb_eq; auto|apply Nat.eqb_eq; auto].
Qed.

(* a restarter with a seed; the second execution at other times *)
Definition c63_rtick (k : nat) : rtick := mkRtick 5000 17 6000 10 (fun _ => mkTick 7000 RLeaf [] 50).
Definition c63_test (o : restart_options f64) : bool :=
  match restarter_new 1 o with
  | inl r => match restart_run_internal toy_sphere true take_once false true 0 20 toy_renv_of (Some tt) r with Ret (res, _) => (2 <=? rr_runs res)%N | _ => false end
  | inr _ => false
  end.
Lemma c63_test_ex : forall o, fresh (ro_strategy o) -> ro_max_time o = None -> o_max_time (ro_default_options o) = None -> c63_test o = true ->
  exists r, restarter_new 1 o = inl r /\
    (forall k, other_times r 0 4000 false (toy_renv_of k) (c63_rtick k)) /\
    exists res l, restart_run_internal toy_sphere true take_once false true 0 20 toy_renv_of (Some tt) r = Ret (res, l) /\
      (2 <=? rr_runs res)%N = true.
Proof.
  intros o Hf H1 H2 H. unfold c63_test in H. destruct (restarter_new 1 o) as [r|] eqn:Er; [|discriminate].
  exists r. split; [reflexivity|]. split.
  - destruct (restarter_fields 1 o r (conj Hf Er)) as [_ [_ [_ [_ [X1 [_ [_ [_ [_ [X2 _]]]]]]]]]].
    intros k. unfold other_times. rewrite X1, X2, H1, H2. split; [reflexivity|]. split; [exact I|]. intros j.
    split; [reflexivity|]. split; [reflexivity|]. split; [reflexivity|exact I].
  - destruct (restart_run_internal _ _ _ _ _ _ _ _ _ _) as [[res l]| |]; try discriminate. eauto.
Qed.
Lemma c63_test_ok : c63_test (toy_restart_options toy_bipop) = true.
Proof. vm_cast_no_check (eq_refl true). Qed.
Example C63_restarts_case : ro_seed (toy_restart_options toy_bipop) <> None /\
  exists r, restarter_new 1 (toy_restart_options toy_bipop) = inl r /\
    (forall k, other_times r 0 4000 false (toy_renv_of k) (c63_rtick k)) /\
    exists res l, restart_run_internal toy_sphere true take_once false true 0 20 toy_renv_of (Some tt) r = Ret (res, l) /\
      (2 <=? rr_runs res)%N = true.
Proof.
  split; [discriminate|]. exact (c63_test_ex (toy_restart_options toy_bipop) (proj2 (proj2 toy_fresh)) eq_refl eq_refl c63_test_ok).
Qed.
