(* C95: parallel evaluation changes nothing for restarted optimisations either. *)
From Coq Require Import List NArith ZArith Bool Arith Lia Permutation.
Require Import Verif.Lib Verif.Base Verif.Num Verif.F64 Verif.LinAlg Verif.Mode Verif.Weights Verif.Options
  Verif.Params Verif.Env Verif.State Verif.Sampling Verif.History Verif.Termination Verif.Plot Verif.Cmaes Verif.Restart
  Verif.NextInv Verif.Spec Verif.BuildLemmas Verif.CastLemmas Verif.RelLemmas Verif.PanicLemmas Verif.NextSafe Verif.ParLemmas Verif.Session Verif.Toy Verif.ToyLemmas
  Verif.PropParallel Verif.RestartLemmas Verif.PropRestart Verif.PropRestartRuns.
Import ListNotations.
Open Scope nat_scope.

(* if x returns, so does y, and the results are related *)
Definition follows {A B} (R : A -> B -> Prop) (x : outcome A) (y : outcome B) : Prop := forall a, x = Ret a -> exists b, y = Ret b /\ R a b.
Lemma follows_bind : forall {A B C D} (R : A -> B -> Prop) (S : C -> D -> Prop) x y (f : A -> outcome C) (h : B -> outcome D),
  follows R x y -> (forall a b, R a b -> follows S (f a) (h b)) -> follows S (a <- x ;; f a) (b <- y ;; h b).
Proof.
  intros A B C D R S x y f h H1 H2 c Hc. oinv Hc. destruct (H1 _ Ho) as [b [E1 E2]]. destruct (H2 _ _ E2 _ Hc) as [d [E3 E4]]. exists d. split; [rewrite E1; exact E3|exact E4].
Qed.
Lemma follows_ret : forall {A B} (R : A -> B -> Prop) a b, R a b -> follows R (Ret a) (Ret b).
Proof. intros A B R a b H x Hx. injection Hx as <-. exists b. auto. Qed.
Lemma follows_same : forall {A} (x : outcome A), follows eq x x.
Proof. intros A x a Ha. exists a. auto. Qed.
Lemma follows_rel : forall {A B} (R : A -> B -> Prop) x y, out_rel R x y -> follows R x y.
Proof. intros A B R x y H a ->. destruct y; cbn in H; try contradiction. eauto. Qed.

Section RestartParallel.
  Context {T : Type} {NT : Num T} {CL : CastLaws T} {LT : Libm T} {E : Env T} {RE : REnv T}.
  Hypothesis Heig : eigen_shape (T := T).
  Context {F : Type} (ev : F -> vec T -> outcome (T * F)) (value : vec T -> T) (checks : bool).
  Hypothesis Hv : stateless ev value.
  Notation near := (alike (any_state (F := F))).

  Lemma near_sym : forall c1 c2 : cmaes T F, near c1 c2 -> near c2 c1.
  Proof. intros c1 c2 [[] ?]. constructor; auto. constructor; auto; exact I. Qed.
  Lemma near_trans : forall c1 c2 c3 : cmaes T F, near c1 c2 -> near c2 c3 -> near c1 c3.
  Proof. intros c1 c2 c3 [[] ?] [[] ?]. constructor; try congruence. constructor; try congruence. exact I. Qed.

  Lemma next_follows : forall o tk c1 c2, wf o c1 -> near c1 c2 ->
    follows (fun a b => fst a = fst b /\ wf o (snd a) /\ near (snd a) (snd b)) (next ev true tk c1) (next ev false tk c2).
  Proof.
    intros o tk c1 c2 Hw Ha [r c'] H. destruct (next_pure_any ev value Hv o c1 tk r c' Hw H) as [c3 [H1 H2]].
    pose proof (next_pure ev value Hv o c1 false tk false tk Hw eq_refl eq_refl eq_refl ltac:(discriminate) ltac:(discriminate) c2 Ha) as X. rewrite H1 in X.
    destruct (next ev false tk c2) as [[r2 c4]| |]; cbn [out_rel fst snd] in X; try contradiction. destruct X as [<- X]. exists (r, c4). split; [reflexivity|]. cbn [fst snd]. split; [reflexivity|].
    split; [exact (next_wf Heig ev _ _ _ _ _ _ Hw H)|]. apply near_sym in H2. exact (near_trans _ _ _ H2 X).
  Qed.

  Lemma run_follows : forall o fuel env c1 c2, wf o c1 -> near c1 c2 ->
    follows (fun a b => fst a = fst b /\ near (snd a) (snd b)) (run ev true fuel env c1) (run ev false fuel env c2).
  Proof.
    intros o fuel env c1 c2 Hw Ha. unfold run. eapply (follows_bind (fun a b => fst a = fst b /\ near (snd a) (snd b))).
    - revert env c1 c2 Hw Ha. induction fuel as [|fuel IH]; intros env c1 c2 Hw Ha; cbn [run_loop]; [intros a Z; discriminate Z|].
      eapply follows_bind; [apply next_follows; eassumption|]. intros [r1 d1] [r2 d2] [X1 [X2 X3]]. cbn [fst snd] in *. subst r2. destruct r1; [apply follows_ret; auto|]. apply IH; assumption.
    - intros [d1 a] [d2 b] [X1 X3]. cbn [fst snd] in *. subst d2. apply follows_rel. unfold run_internal. eapply (out_rel_bind near).
      + eapply (out_rel_bind near); [apply add_plot_alike; exact X3|]. intros x y Y. cbn [out_rel]. rewrite (al_gap _ _ _ Y). destruct (c_print_gap y); [|exact Y]. apply print_final_alike. exact Y.
      + intros x y Y. cbn. auto.
  Qed.

  Lemma exec_follows : forall rt f1 f2 o, follows (fun a b => fst a = fst b /\ near (snd a) (snd b)) (exec ev true rt f1 o) (exec ev false rt f2 o).
  Proof.
    intros rt f1 f2 o. unfold exec, build_unwrap. eapply (follows_bind (fun a b => wf o a /\ near a b)).
    - pose proof (new_alike (any_state (F := F)) (rt_random rt) (rt_created rt) f1 f2 o I) as X. intros c Hc.
      destruct (cmaes_new (rt_random rt) (rt_created rt) f1 o) as [[c1|e1]| |] eqn:E1; cbn [obind] in Hc; try discriminate Hc.
      destruct (cmaes_new (rt_random rt) (rt_created rt) f2 o) as [[c2|e2]| |]; cbn [out_rel] in X; try contradiction. injection Hc as <-. exists c2. split; [reflexivity|]. split; [|exact X]. eapply new_wf. exact E1.
    - intros a b [X1 X2]. apply (run_follows o); assumption.
  Qed.

  (* two runs that differ at most in the state of the objective *)
  Record same_results (a b : run_record T F) : Prop := {
    sr_kind : ru_local a = ru_local b;
    sr_options : ru_options a = ru_options b;
    sr_data : ru_data a = ru_data b;
    sr_final : same_but_objective (ru_final a) (ru_final b);
    sr_control : ru_control a = ru_control b
  }.
  Lemma evals_near : forall c1 c2 : cmaes T F, near c1 c2 -> function_evals c1 = function_evals c2.
  Proof. intros c1 c2 H. unfold function_evals. apply (sr_evals _ _ _ (al_sm _ _ _ H)). Qed.

  Lemma strategy_follows : forall rt s o range f1 f2 g,
    follows (fun a b => fst (fst a) = fst (fst b) /\ same_results (snd (fst a)) (snd (fst b)) /\ snd a = snd b)
      (strategy_next_run ev checks true rt s o range f1 g) (strategy_next_run ev checks false rt s o range f2 g).
  Proof.
    intros rt s o range f1 f2 g. destruct s as [s|s|s]; cbn [strategy_next_run].
    - unfold local_next_run. eapply (follows_bind (fun a b => fst a = fst b /\ same_results (snd a) (snd b))).
      + eapply follows_bind; [apply exec_follows|]. intros [d1 c1] [d2 c2] [H1 H2]. cbn [fst snd] in *. subst. apply follows_ret. cbn [fst snd]. split; auto. constructor; auto. apply alike_objective; exact H2.
      + intros [s1 r1] [s2 r2] [H1 H2]. cbn [fst snd] in *. subst. apply follows_ret. auto.
    - unfold ipop_next_run. eapply (follows_bind (fun a b => fst a = fst b /\ same_results (snd a) (snd b))).
      + eapply follows_bind; [apply follows_same|]. intros n n' <-. eapply follows_bind; [apply exec_follows|]. intros [d1 c1] [d2 c2] [H1 H2]. cbn [fst snd] in *. subst.
        eapply follows_bind; [apply follows_same|]. intros k k' <-. apply follows_ret. cbn [fst snd]. split; auto. constructor; auto. apply alike_objective; exact H2.
      + intros [s1 r1] [s2 r2] [H1 H2]. cbn [fst snd] in *. subst. apply follows_ret. auto.
    - unfold bipop_next_run. eapply (follows_bind (fun a b => fst (fst a) = fst (fst b) /\ same_results (snd (fst a)) (snd (fst b)) /\ snd a = snd b)).
      + destruct (_ && _).
        * unfold bipop_next_run_lr. destruct (lr_step_size s range g) as [step g1]. destruct (lr_population s _ g1) as [n g2].
          eapply follows_bind; [apply exec_follows|]. intros [d1 c1] [d2 c2] [H1 H2]. cbn [fst snd] in *. subst. apply follows_ret. cbn [fst snd]. rewrite (evals_near _ _ H2). split; auto. split; auto. constructor; auto. apply alike_objective; exact H2.
        * unfold bipop_next_run_ipop. eapply (follows_bind (fun a b => fst a = fst b /\ same_results (snd a) (snd b))).
          -- eapply follows_bind; [apply follows_same|]. intros n n' <-. eapply follows_bind; [apply exec_follows|]. intros [d1 c1] [d2 c2] [H1 H2]. cbn [fst snd] in *. subst.
             eapply follows_bind; [apply follows_same|]. intros k k' <-. apply follows_ret. cbn [fst snd]. rewrite (evals_near _ _ H2). split; auto. constructor; auto. apply alike_objective; exact H2.
          -- intros [s1 r1] [s2 r2] [H1 H2]. cbn [fst snd] in *. subst. apply follows_ret. auto.
      + intros [[s1 r1] g1] [[s2 r2] g2] [H1 [H2 H3]]. cbn [fst snd] in *. subst. apply follows_ret. auto.
  Qed.

  Context {G : Type} (get : G -> outcome (F * G)).
  Record same_progress (a b : loop_state T F G) : Prop := {
    sp_strategy : l_strategy a = l_strategy b;
    sp_rng : l_rng a = l_rng b;
    sp_best : l_best a = l_best b;
    sp_evals : l_function_evals a = l_function_evals b;
    sp_runs : l_runs a = l_runs b;
    sp_objective : l_objective a = None <-> l_objective b = None;
    sp_factory : l_factory a = l_factory b;
    sp_log : Forall2 same_results (l_log a) (l_log b)
  }.

  Lemma restart_step_follows : forall reuse started rt r l1 l2, same_progress l1 l2 ->
    follows (fun a b => same_progress (fst a) (fst b) /\ snd a = snd b) (restart_step ev checks get true reuse started rt r l1) (restart_step ev checks get false reuse started rt r l2).
  Proof.
    intros reuse started rt r l1 l2 Hl. unfold restart_step.
    rewrite (sp_strategy _ _ Hl), (sp_evals _ _ Hl), (sp_rng _ _ Hl), (sp_factory _ _ Hl), (sp_runs _ _ Hl), (sp_best _ _ Hl).
    destruct (has_zero_max_runs _); [apply follows_ret; auto|].
    destruct (match rs_max_function_evals r with Some m => _ | None => false end); [apply follows_ret; auto|].
    destruct (match rs_max_time r with Some m => _ | None => false end); [apply follows_ret; auto|].
    eapply follows_bind; [apply follows_same|]. intros [m g] [m' g'] X. injection X as <- <-. destruct (rr_u64 g) as [seed g1].
    eapply (follows_bind (fun a b => snd a = snd b)).
    - destruct (l_objective l1) as [f1|] eqn:E1, (l_objective l2) as [f2|] eqn:E2.
      + apply follows_ret. reflexivity.
      + exfalso. pose proof (proj2 (sp_objective _ _ Hl) E2) as Z. rewrite E1 in Z. discriminate Z.
      + exfalso. pose proof (proj1 (sp_objective _ _ Hl) E1) as Z. rewrite E2 in Z. discriminate Z.
      + intros a Ha. exists a. auto.
    - intros [f1 fac] [f2 fac2] X. cbn [snd] in X. subst fac2. eapply follows_bind; [apply strategy_follows|].
      intros [[s1 r1] g2] [[s2 r2] g3] [H1 [H2 H3]]. cbn [fst snd] in *. subst s2 g3.
      assert (Ev : function_evals (ru_final r1) = function_evals (ru_final r2)) by (unfold function_evals; apply (so_evals _ _ (sr_final _ _ H2))).
      unfold ru_reasons, overall_best_individual. rewrite (sr_data _ _ H2), (sr_control _ _ H2), (so_history _ _ (sr_final _ _ H2)), Ev.
      assert (Hlog : Forall2 same_results (r1 :: l_log l1) (r2 :: l_log l2)) by (constructor; [exact H2|exact (sp_log _ _ Hl)]).
      destruct (has_reason InvalidFunctionValue _); [apply follows_ret; split; auto; constructor; cbn; auto; tauto|].
      destruct (has_reason FunTarget _); [apply follows_ret; split; auto; constructor; cbn; auto; tauto|].
      destruct (ru_control r2); apply follows_ret; split; auto; constructor; cbn; auto; try tauto. destruct reuse; [split; discriminate|tauto].
  Qed.

  (* Restarter::run_parallel and run_parallel_with_reuse against run and run_with_reuse, with the same clock readings *)
  Theorem C95_restarts : forall reuse started fuel env (g : G) (r : restarter T) res l,
    restart_run_internal ev checks get true reuse started fuel env g r = Ret (res, l) ->
    exists l2, restart_run_internal ev checks get false reuse started fuel env g r = Ret (res, l2) /\ Forall2 same_results (runs_of l) (runs_of l2).
  Proof.
    intros reuse started fuel env g r res l H.
    assert (X : follows (fun a b => fst a = fst b /\ same_progress (snd a) (snd b)) (restart_run_internal ev checks get true reuse started fuel env g r) (restart_run_internal ev checks get false reuse started fuel env g r)).
    { unfold restart_run_internal. eapply (follows_bind (fun a b => same_progress (fst a) (fst b) /\ snd a = snd b)).
      - assert (Hl : same_progress (loop_init (F := F) r g) (loop_init r g)) by (constructor; auto; try tauto; constructor).
        revert Hl. generalize (loop_init (F := F) r g) at 1 3 as l1. generalize (loop_init (F := F) r g) as l2. clear H.
        revert env. induction fuel as [|fuel IH]; intros env l2 l1 Hl; cbn [restart_loop]; [intros a Z; discriminate Z|].
        eapply follows_bind; [apply restart_step_follows; exact Hl|]. intros [k1 x1] [k2 x2] [H1 H2]. cbn [fst snd] in *. subst x2. destruct x1; [apply follows_ret; auto|]. apply IH. exact H1.
      - intros [l1 x1] [l2 x2] [H1 H2]. cbn [fst snd] in *. subst. apply follows_ret. split; [|exact H1]. cbn [fst]. rewrite (sp_best _ _ H1), (sp_evals _ _ H1), (sp_runs _ _ H1). reflexivity. }
    destruct (X _ H) as [[res2 l2] [E1 [E2 E3]]]. cbn [fst snd] in *. subst res2. exists l2. split; [exact E1|].
    unfold runs_of. pose proof (sp_log _ _ E3) as P. clear -P. induction P as [|a b x y H P IH]; [constructor|]. cbn [rev]. apply Forall2_app; [exact IH|]. constructor; [exact H|constructor].
  Qed.

  (* The other direction: if the sequential call returns and every generation of the parallel call evaluates each of its
     points once, in any order, the parallel call returns. *)
  Definition follows_if {A B} (P : A -> Prop) (R : A -> B -> Prop) (x : outcome A) (y : outcome B) : Prop :=
    forall a, x = Ret a -> P a -> exists b, y = Ret b /\ R a b.
  Lemma follows_if_bind : forall {A B C D} (P : A -> Prop) (R : A -> B -> Prop) (Q : C -> Prop) (S : C -> D -> Prop) x y (f : A -> outcome C) (h : B -> outcome D),
    follows_if P R x y -> (forall a c, f a = Ret c -> Q c -> P a) -> (forall a b, R a b -> follows_if Q S (f a) (h b)) -> follows_if Q S (a <- x ;; f a) (b <- y ;; h b).
  Proof.
    intros A B C D P R Q S x y f h H1 H0 H2 c Hc Hq. oinv Hc. destruct (H1 _ Ho (H0 _ _ Hc Hq)) as [b [E1 E2]]. destruct (H2 _ _ E2 _ Hc Hq) as [d [E3 E4]].
    exists d. split; [rewrite E1; exact E3|exact E4].
  Qed.
  Lemma follows_if_ret : forall {A B} (P : A -> Prop) (R : A -> B -> Prop) a b, R a b -> follows_if P R (Ret a) (Ret b).
  Proof. intros A B P R a b H x Hx _. injection Hx as <-. exists b. auto. Qed.
  Lemma follows_if_same : forall {A} (x : outcome A), follows_if (fun _ => True) eq x x.
  Proof. intros A x a Ha _. exists a. auto. Qed.

  (* rt and rt2 agree but for the order of evaluation *)
  Record same_but_order (rt rt2 : rtick) : Prop := {
    sb_check : rt_check rt = rt_check rt2;
    sb_random : rt_random rt = rt_random rt2;
    sb_created : rt_created rt = rt_created rt2;
    sb_fuel : rt_fuel rt = rt_fuel rt2;
    sb_tick : forall j, t_fuel (rt_env rt j) = t_fuel (rt_env rt2 j) /\ t_tree (rt_env rt j) = t_tree (rt_env rt2 j) /\ t_now (rt_env rt j) = t_now (rt_env rt2 j)
  }.
  (* each generation of a run with the options o evaluates every point once *)
  Definition complete (rt2 : rtick) (o : options T) : Prop := forall j, Permutation (t_sched (rt_env rt2 j)) (seq 0 (pop o)).

  Lemma exec_back : forall rt rt2 f1 f2 o, same_but_order rt rt2 -> complete rt2 o ->
    follows (fun a b => fst a = fst b /\ near (snd a) (snd b)) (exec ev false rt f1 o) (exec ev true rt2 f2 o).
  Proof.
    intros rt rt2 f1 f2 o [_ Hr Hc Hf Ht] Hp. unfold exec, build_unwrap. rewrite <- Hr, <- Hc, <- Hf. eapply (follows_bind (fun a b => wf o a /\ near a b)).
    - pose proof (new_alike (any_state (F := F)) (rt_random rt) (rt_created rt) f1 f2 o I) as X. intros c Hx.
      destruct (cmaes_new (rt_random rt) (rt_created rt) f1 o) as [[c1|e1]| |] eqn:E1; cbn [obind] in Hx; try discriminate Hx.
      destruct (cmaes_new (rt_random rt) (rt_created rt) f2 o) as [[c2|e2]| |]; cbn [out_rel] in X; try contradiction. injection Hx as <-. exists c2. split; [reflexivity|]. split; [|exact X]. eapply new_wf. exact E1.
    - intros a b [X1 X2]. unfold run. eapply (follows_bind (fun a b => fst a = fst b /\ near (snd a) (snd b))).
      + revert X1 X2. revert a b. unfold complete in Hp. revert Ht Hp. generalize (rt_env rt) (rt_env rt2). generalize (rt_fuel rt). clear - Heig Hv CL.
        induction n as [|n IH]; intros e1 e2 Ht Hp a b X1 X2; cbn [run_loop]; [intros z Z; discriminate Z|]. destruct (Ht 0) as [T1 [T2 T3]].
        eapply (follows_bind (fun a b => fst a = fst b /\ wf o (snd a) /\ near (snd a) (snd b))).
        * pose proof (next_pure ev value Hv o a false (e1 0) true (e2 0) X1 T1 T2 T3 ltac:(discriminate) ltac:(intros _; apply Hp) b X2) as Y.
          intros [r c'] H. rewrite H in Y. destruct (next ev true (e2 0) b) as [[r2 c4]| |]; cbn [out_rel fst snd] in Y; try contradiction. destruct Y as [<- Y]. exists (r, c4). cbn [fst snd].
          split; [reflexivity|]. split; [reflexivity|]. split; [exact (next_wf Heig ev _ _ _ _ _ _ X1 H)|exact Y].
        * intros [r1 d1] [r2 d2] [Y1 [Y2 Y3]]. cbn [fst snd] in *. subst r2. destruct r1; [apply follows_ret; auto|]. apply IH; auto.
      + intros [d1 x] [d2 y] [Y1 Y3]. cbn [fst snd] in *. subst d2. apply follows_rel. unfold run_internal. eapply (out_rel_bind near).
        * eapply (out_rel_bind near); [apply add_plot_alike; exact Y3|]. intros u v Y. cbn [out_rel]. rewrite (al_gap _ _ _ Y). destruct (c_print_gap v); [|exact Y]. apply print_final_alike. exact Y.
        * intros u v Y. cbn. auto.
  Qed.
  Lemma exec_back_if : forall rt rt2 f1 f2 o, same_but_order rt rt2 ->
    follows_if (fun _ => complete rt2 o) (fun a b => fst a = fst b /\ near (snd a) (snd b)) (exec ev false rt f1 o) (exec ev true rt2 f2 o).
  Proof. intros rt rt2 f1 f2 o H a Ha Hc. exact (exec_back rt rt2 f1 f2 o H Hc a Ha). Qed.

  Lemma strategy_back : forall rt rt2 s o range f1 f2 g, same_but_order rt rt2 ->
    follows_if (fun a => complete rt2 (ru_options (snd (fst a)))) (fun a b => fst (fst a) = fst (fst b) /\ same_results (snd (fst a)) (snd (fst b)) /\ snd a = snd b)
      (strategy_next_run ev checks false rt s o range f1 g) (strategy_next_run ev checks true rt2 s o range f2 g).
  Proof.
    intros rt rt2 s o range f1 f2 g Hb. destruct s as [s|s|s]; cbn [strategy_next_run].
    - unfold local_next_run. eapply (follows_if_bind (fun a => complete rt2 (ru_options (snd a))) (fun a b => fst a = fst b /\ same_results (snd a) (snd b))).
      + eapply follows_if_bind; [apply exec_back_if; exact Hb| |]; cbv beta.
        * intros [d c] x X Y. injection X as <-. exact Y.
        * intros [d1 c1] [d2 c2] [H1 H2]. cbn [fst snd] in *. subst. apply follows_if_ret. cbn [fst snd]. split; auto. constructor; auto. apply alike_objective; exact H2.
      + intros [s1 r1] x X Y. injection X as <-. exact Y.
      + intros [s1 r1] [s2 r2] [H1 H2]. cbn [fst snd] in *. subst. apply follows_if_ret. auto.
    - unfold ipop_next_run. eapply (follows_if_bind (fun a => complete rt2 (ru_options (snd a))) (fun a b => fst a = fst b /\ same_results (snd a) (snd b))).
      + eapply (follows_if_bind (fun _ => True) eq); [apply follows_if_same|auto|]. intros n n' <-. eapply follows_if_bind; [apply exec_back_if; exact Hb| |]; cbv beta.
        * intros [d c] x X Y. oinv X. injection X as <-. exact Y.
        * intros [d1 c1] [d2 c2] [H1 H2]. cbn [fst snd] in *. subst. eapply (follows_if_bind (fun _ => True) eq); [apply follows_if_same|auto|]. intros k k' <-. apply follows_if_ret. cbn [fst snd]. split; auto. constructor; auto. apply alike_objective; exact H2.
      + intros [s1 r1] x X Y. injection X as <-. exact Y.
      + intros [s1 r1] [s2 r2] [H1 H2]. cbn [fst snd] in *. subst. apply follows_if_ret. auto.
    - unfold bipop_next_run. eapply (follows_if_bind (fun a => complete rt2 (ru_options (snd (fst a)))) (fun a b => fst (fst a) = fst (fst b) /\ same_results (snd (fst a)) (snd (fst b)) /\ snd a = snd b)).
      + destruct (_ && _).
        * unfold bipop_next_run_lr. destruct (lr_step_size s range g) as [step g1]. destruct (lr_population s _ g1) as [n g2].
          eapply follows_if_bind; [apply exec_back_if; exact Hb| |]; cbv beta.
          -- intros [d c] x X Y. injection X as <-. exact Y.
          -- intros [d1 c1] [d2 c2] [H1 H2]. cbn [fst snd] in *. subst. apply follows_if_ret. cbn [fst snd]. rewrite (evals_near _ _ H2). split; auto. split; auto. constructor; auto. apply alike_objective; exact H2.
        * unfold bipop_next_run_ipop. eapply (follows_if_bind (fun a => complete rt2 (ru_options (snd a))) (fun a b => fst a = fst b /\ same_results (snd a) (snd b))).
          -- eapply (follows_if_bind (fun _ => True) eq); [apply follows_if_same|auto|]. intros n n' <-. eapply follows_if_bind; [apply exec_back_if; exact Hb| |]; cbv beta.
             ++ intros [d c] x X Y. oinv X. injection X as <-. exact Y.
             ++ intros [d1 c1] [d2 c2] [H1 H2]. cbn [fst snd] in *. subst. eapply (follows_if_bind (fun _ => True) eq); [apply follows_if_same|auto|]. intros k k' <-. apply follows_if_ret. cbn [fst snd]. rewrite (evals_near _ _ H2). split; auto. constructor; auto. apply alike_objective; exact H2.
          -- intros [s1 r1] x X Y. injection X as <-. exact Y.
          -- intros [s1 r1] [s2 r2] [H1 H2]. cbn [fst snd] in *. subst. apply follows_if_ret. auto.
      + intros [[s1 r1] g1] x X Y. injection X as <-. exact Y.
      + intros [[s1 r1] g1] [[s2 r2] g2] [H1 [H2 H3]]. cbn [fst snd] in *. subst. apply follows_if_ret. auto.
  Qed.

  Lemma restart_step_back : forall reuse started rt rt2 r l1 l2, same_but_order rt rt2 -> same_progress l1 l2 ->
    follows_if (fun a => forall t, l_log (fst a) = t :: l_log l1 -> complete rt2 (ru_options t)) (fun a b => same_progress (fst a) (fst b) /\ snd a = snd b)
      (restart_step ev checks get false reuse started rt r l1) (restart_step ev checks get true reuse started rt2 r l2).
  Proof.
    intros reuse started rt rt2 r l1 l2 Hb Hl. unfold restart_step. rewrite <- (sb_check _ _ Hb).
    rewrite (sp_strategy _ _ Hl), (sp_evals _ _ Hl), (sp_rng _ _ Hl), (sp_factory _ _ Hl), (sp_runs _ _ Hl), (sp_best _ _ Hl).
    destruct (has_zero_max_runs _); [apply follows_if_ret; auto|].
    destruct (match rs_max_function_evals r with Some m => _ | None => false end); [apply follows_if_ret; auto|].
    destruct (match rs_max_time r with Some m => _ | None => false end); [apply follows_if_ret; auto|].
    eapply (follows_if_bind (fun _ => True) eq); [apply follows_if_same|auto|]. intros [m g] [m' g'] X. injection X as <- <-. destruct (rr_u64 g) as [seed g1].
    eapply (follows_if_bind (fun _ => True) (fun a b => snd a = snd b)); [|auto|].
    - destruct (l_objective l1) as [f1|] eqn:E1, (l_objective l2) as [f2|] eqn:E2.
      + apply follows_if_ret. reflexivity.
      + exfalso. pose proof (proj2 (sp_objective _ _ Hl) E2) as Z. rewrite E1 in Z. discriminate Z.
      + exfalso. pose proof (proj1 (sp_objective _ _ Hl) E1) as Z. rewrite E2 in Z. discriminate Z.
      + intros a Ha _. exists a. auto.
    - intros [f1 fac] [f2 fac2] X. cbn [snd] in X. subst fac2. eapply follows_if_bind; [apply strategy_back; exact Hb| |].
      + intros [[s1 r1] g2] c X Y. cbn [fst snd]. apply Y.
        destruct (has_reason InvalidFunctionValue _); [injection X as <-; reflexivity|]. destruct (has_reason FunTarget _); [injection X as <-; reflexivity|]. destruct (ru_control r1); injection X as <-; reflexivity.
      + intros [[s1 r1] g2] [[s2 r2] g3] [H1 [H2 H3]]. cbn [fst snd] in *. subst s2 g3.
        assert (Ev : function_evals (ru_final r1) = function_evals (ru_final r2)) by (unfold function_evals; apply (so_evals _ _ (sr_final _ _ H2))).
        unfold ru_reasons, overall_best_individual. rewrite (sr_data _ _ H2), (sr_control _ _ H2), (so_history _ _ (sr_final _ _ H2)), Ev.
        assert (Hlog : Forall2 same_results (r1 :: l_log l1) (r2 :: l_log l2)) by (constructor; [exact H2|exact (sp_log _ _ Hl)]).
        destruct (has_reason InvalidFunctionValue _); [apply follows_if_ret; split; auto; constructor; cbn; auto; tauto|].
        destruct (has_reason FunTarget _); [apply follows_if_ret; split; auto; constructor; cbn; auto; tauto|].
        destruct (ru_control r2); apply follows_if_ret; split; auto; constructor; cbn; auto; try tauto. destruct reuse; [split; discriminate|tauto].
  Qed.

  Lemma step_log : forall par reuse started rt r l l' x, restart_step ev checks get par reuse started rt r l = Ret (l', x) ->
    (l_log l' = l_log l /\ x <> None) \/ exists t, l_log l' = t :: l_log l.
  Proof.
    intros par reuse started rt r l l' x H. unfold restart_step in H.
    destruct (has_zero_max_runs _); [injection H as <- <-; left; split; [reflexivity|discriminate]|].
    destruct (match rs_max_function_evals r with Some m => _ | None => false end); [injection H as <- <-; left; split; [reflexivity|discriminate]|].
    destruct (match rs_max_time r with Some m => _ | None => false end); [injection H as <- <-; left; split; [reflexivity|discriminate]|].
    oinv H. destruct a as [m g]. destruct (rr_u64 g) as [seed g1]. oinv H. destruct a as [f fac]. oinv H. destruct a as [[s t] g2]. right. exists t.
    destruct (has_reason InvalidFunctionValue _); [injection H as <- <-; reflexivity|]. destruct (has_reason FunTarget _); [injection H as <- <-; reflexivity|]. destruct (ru_control t); injection H as <- <-; reflexivity.
  Qed.
  Lemma loop_log : forall par reuse started r fuel env l l' x, restart_loop ev checks get par reuse started fuel env r l = Ret (l', x) -> exists p, l_log l' = p ++ l_log l.
  Proof.
    intros par reuse started r. induction fuel as [|fuel IH]; intros env l l' x H; cbn [restart_loop] in H; [discriminate H|]. oinv H. destruct a as [k y].
    assert (X : exists q, l_log k = q ++ l_log l). { destruct (step_log _ _ _ _ _ _ _ _ Ho) as [[X _]|[t X]]; [exists []|exists [t]]; exact X. }
    destruct y; [injection H as <- <-; exact X|]. destruct (IH _ _ _ _ H) as [p Hp]. destruct X as [q Hq]. exists (p ++ q). rewrite Hp, Hq, app_assoc. reflexivity.
  Qed.

  Lemma loop_back : forall reuse started r fuel env env2 l1 l2, (forall k, same_but_order (env k) (env2 k)) -> same_progress l1 l2 ->
    follows_if (fun a => forall k t, nth_error (runs_of (fst a)) (length (l_log l1) + k) = Some t -> complete (env2 k) (ru_options t)) (fun a b => same_progress (fst a) (fst b) /\ snd a = snd b)
      (restart_loop ev checks get false reuse started fuel env r l1) (restart_loop ev checks get true reuse started fuel env2 r l2).
  Proof.
    intros reuse started r. induction fuel as [|fuel IH]; intros env env2 l1 l2 Hb Hl [lf x] H Hc; cbn [restart_loop] in H |- *; [discriminate H|]. oinv H. destruct a as [k y]. cbn [fst snd] in *.
    assert (Hlog : exists p, l_log lf = p ++ l_log k). { destruct y; [injection H as <- <-; exists []; reflexivity|exact (loop_log _ _ _ _ _ _ _ _ _ H)]. }
    destruct Hlog as [p Hp].
    destruct (restart_step_back reuse started (env 0) (env2 0) r l1 l2 (Hb 0) Hl _ Ho) as [[k2 y2] [E1 [E2 E3]]].
    { cbn [fst]. intros t Ht. apply (Hc 0). unfold runs_of. rewrite Hp, Ht, rev_app_distr, nth_error_app1; cbn [rev]; rewrite ?app_length, ?rev_length; cbn [length]; [|lia].
      rewrite nth_error_app2; rewrite rev_length; [|lia]. replace (length (l_log l1) + 0 - length (l_log l1)) with 0 by lia. reflexivity. }
    cbn [fst snd] in E2, E3. subst y2. rewrite E1. cbn [obind]. destruct y as [y|].
    - injection H as <- <-. exists (k2, y). auto.
    - refine (IH (fun j => env (S j)) (fun j => env2 (S j)) k k2 (fun j => Hb (S j)) E2 _ H _). cbn [fst]. intros j t Ht. apply (Hc (S j)).
      destruct (step_log _ _ _ _ _ _ _ _ Ho) as [[_ X]|[u X]]; [contradiction|]. rewrite X in Ht. cbn [length] in Ht. rewrite <- Ht. f_equal. lia.
  Qed.

  Theorem C95_complete : forall reuse started fuel env env2 (g : G) (r : restarter T) res l,
    restart_run_internal ev checks get false reuse started fuel env g r = Ret (res, l) ->
    (forall k, same_but_order (env k) (env2 k)) ->
    (forall k t, nth_error (runs_of l) k = Some t -> complete (env2 k) (ru_options t)) ->
    exists l2, restart_run_internal ev checks get true reuse started fuel env2 g r = Ret (res, l2) /\ Forall2 same_results (runs_of l) (runs_of l2).
  Proof.
    intros reuse started fuel env env2 g r res l H Hb Hc. unfold restart_run_internal in H |- *. oinv H. destruct a as [lf x]. injection H as <- <-.
    assert (Hl : same_progress (loop_init (F := F) r g) (loop_init r g)) by (constructor; auto; try tauto; constructor).
    destruct (loop_back reuse started r fuel env env2 _ _ Hb Hl _ Ho) as [[l2 x2] [E1 [E3 E4]]].
    { cbn [fst loop_init l_log length]. intros k t Ht. exact (Hc k t Ht). }
    cbn [fst snd] in E3, E4. subst x2. exists l2. rewrite E1. cbn [obind]. rewrite (sp_best _ _ E3), (sp_evals _ _ E3), (sp_runs _ _ E3). split; [reflexivity|].
    unfold runs_of. pose proof (sp_log _ _ E3) as P. clear -P. induction P as [|a b x y H P IH]; [constructor|]. cbn [rev]. apply Forall2_app; [exact IH|]. constructor; [exact H|constructor].
  Qed.
End RestartParallel.
Print Assumptions C95_restarts.
Print Assumptions C95_complete.

(* three local runs of two generations, each generation evaluated in the order 2, 0, 3, 1 *)
Definition c95_rtick (k : nat) : rtick := mkRtick 0 0 0 10 (fun _ => c32_tick).
Definition c95_test : bool :=
  match restarter_new 0 (toy_restart_options toy_local) with
  | inl r => match restart_run_with_reuse toy_sphere true true 0 20 c95_rtick tt r with
             | Ret (res, l) => (length (runs_of l) =? 3) && (rr_function_evals res =? 24)%N && match rr_best res with Some _ => true | None => false end
             | _ => false
             end
  | inr _ => false
  end.
Lemma c95_test_ok : c95_test = true.
Proof. vm_cast_no_check (eq_refl true). Qed.
Example C95_case : eigen_shape (T := f64) /\ stateless toy_sphere (norm2 (T := f64)) /\
  exists r res l, restarter_of 0 (toy_restart_options toy_local) r /\
    restart_run_with_reuse toy_sphere true true 0 20 c95_rtick tt r = Ret (res, l) /\
    length (runs_of l) = 3 /\ rr_function_evals res = 24%N /\ rr_best res <> None.
Proof.
  split; [exact toy_eigen_shape|]. split; [intros f x; exists tt; reflexivity|]. pose proof c95_test_ok as H. unfold c95_test in H.
  destruct (restarter_new 0 (toy_restart_options toy_local)) as [r|] eqn:Er; [|discriminate].
  destruct (restart_run_with_reuse _ _ _ _ _ _ _ _) as [[res l]| |] eqn:E; try discriminate. exists r, res, l.
  split; [split; [exact (proj1 (proj2 toy_fresh))|exact Er]|]. split; [exact E|].
  apply andb_prop in H. destruct H as [H H3]. apply andb_prop in H. destruct H as [H1 H2].
  split; [apply Nat.eqb_eq; exact H1|]. split; [apply N.eqb_eq; exact H2|]. destruct (rr_best res); [discriminate|discriminate H3].
Qed.

(* the same three runs: the sequential call returns, and the order 2, 0, 3, 1 is complete for every generation *)
Definition c95_back_test : bool :=
  match restarter_new 0 (toy_restart_options toy_local) with
  | inl r => match restart_run_with_reuse toy_sphere true false 0 20 toy_renv_of tt r with
             | Ret (res, l) => (length (runs_of l) =? 3) && forallb (fun t => pop (ru_options t) =? 4) (runs_of l)
             | _ => false
             end
  | inr _ => false
  end.
Lemma c95_back_test_ok : c95_back_test = true.
Proof. vm_cast_no_check (eq_refl true). Qed.
Example C95_complete_case : exists r res l, restarter_of 0 (toy_restart_options toy_local) r /\
  restart_run_with_reuse toy_sphere true false 0 20 toy_renv_of tt r = Ret (res, l) /\ length (runs_of l) = 3 /\
  (forall k, same_but_order (toy_renv_of k) (c95_rtick k)) /\
  (forall k t, nth_error (runs_of l) k = Some t -> complete (c95_rtick k) (ru_options t)).
Proof.
  pose proof c95_back_test_ok as H. unfold c95_back_test in H.
  destruct (restarter_new 0 (toy_restart_options toy_local)) as [r|] eqn:Er; [|discriminate].
  destruct (restart_run_with_reuse _ _ _ _ _ _ _ _) as [[res l]| |] eqn:E; try discriminate. exists r, res, l.
  split; [split; [exact (proj1 (proj2 toy_fresh))|exact Er]|]. split; [exact E|].
  apply andb_prop in H. destruct H as [H1 H2]. split; [apply Nat.eqb_eq; exact H1|]. split; [intros k; constructor; try reflexivity; intros j; repeat split|].
  intros k t Ht j. apply nth_error_In in Ht. rewrite forallb_forall in H2. specialize (H2 _ Ht). apply Nat.eqb_eq in H2. rewrite H2.
  cbn. apply perm_trans with [0; 2; 3; 1]; [apply perm_swap|]. apply perm_skip. apply perm_trans with [2; 1; 3]; [apply perm_skip, perm_swap|apply perm_swap].
Qed.
