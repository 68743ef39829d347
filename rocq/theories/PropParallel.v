(* C32 and C34: parallel evaluation, printing and plotting change nothing. *)
From Coq Require Import List NArith ZArith Bool Arith Lia Permutation.
Require Import Verif.Lib Verif.Base Verif.Num Verif.F64 Verif.LinAlg Verif.Mode Verif.Weights Verif.Options
  Verif.Params Verif.Env Verif.State Verif.Sampling Verif.History Verif.Termination Verif.Plot Verif.Cmaes
  Verif.NextInv Verif.Spec Verif.LogLemmas Verif.TraceLemmas Verif.BuildLemmas Verif.SamplingLemmas
  Verif.PanicLemmas Verif.NextSafe Verif.CastLemmas Verif.RelLemmas Verif.TermLemmas Verif.Session Verif.ParLemmas
  Verif.Toy Verif.ToyLemmas.
Import ListNotations.
Open Scope nat_scope.

Section Parallel.
  Context {T : Type} {NT : Num T} {CL : CastLaws T} {LT : Libm T} {E : Env T}.

  (* ---- C34 ---- *)

  (* options that agree except for printing and plotting *)
  Record same_problem (o1 o2 : options T) : Prop := {
    sp_mode : o_mode o1 = o_mode o2;
    sp_mean : o_initial_mean o1 = o_initial_mean o2;
    sp_step : o_initial_step_size o1 = o_initial_step_size o2;
    sp_pop : o_population_size o1 = o_population_size o2;
    sp_con : o_constraints o1 = o_constraints o2;
    sp_max : o_max_resamples o1 = o_max_resamples o2;
    sp_weights : o_weights o1 = o_weights o2;
    sp_par : o_parallel_update o1 = o_parallel_update o2;
    sp_cm : o_cm o1 = o_cm o2;
    sp_evals : o_max_function_evals o1 = o_max_function_evals o2;
    sp_gens : o_max_generations o1 = o_max_generations o2;
    sp_time : o_max_time o1 = o_max_time o2;
    sp_target : o_fun_target o1 = o_fun_target o2;
    sp_tol_fun : o_tol_fun o1 = o_tol_fun o2;
    sp_tol_fun_rel : o_tol_fun_rel o1 = o_tol_fun_rel o2;
    sp_tol_fun_hist : o_tol_fun_hist o1 = o_tol_fun_hist o2;
    sp_tol_x : o_tol_x o1 = o_tol_x o2;
    sp_stag : o_tol_stagnation o1 = o_tol_stagnation o2;
    sp_tol_x_up : o_tol_x_up o1 = o_tol_x_up o2;
    sp_cond : o_tol_condition_cov o1 = o_tol_condition_cov o2;
    sp_seed : o_seed o1 = o_seed o2
  }.

  (* everything but the plot and the printing is equal: the distribution, the sampler with the objective and the
     random generator, the parameters, and the record of values *)
  Record same_search {F} (c1 c2 : cmaes T F) : Prop := {
    ss_sampler : c_sampler c1 = c_sampler c2;
    ss_params : c_params c1 = c_params c2;
    ss_state : c_state c1 = c_state c2;
    ss_history : c_history c1 = c_history c2;
    ss_created : c_created c1 = c_created c2
  }.

  Lemma same_problem_validate : forall o1 o2, same_problem o1 o2 -> validate o1 = validate o2.
  Proof. intros o1 o2 H. unfold validate. rewrite (sp_mean _ _ H), (sp_pop _ _ H), (sp_step _ _ H), (sp_cm _ _ H). reflexivity. Qed.
  Lemma same_problem_params : forall o1 o2 seed, same_problem o1 o2 -> params_of_options o1 seed = params_of_options o2 seed.
  Proof.
    intros o1 o2 seed []. unfold params_of_options, term_params_of_options.
    repeat match goal with H : _ o1 = _ o2 |- _ => rewrite H; clear H end. reflexivity.
  Qed.

  (* comparing two fresh optimisers *)
  Lemma new_sim : forall {F1 F2} (Rc : cmaes T F1 -> cmaes T F2 -> Prop) rs1 n1 f1 o1 rs2 n2 f2 o2,
    validate o1 = validate o2 ->
    (forall c1 c2, cmaes_new rs1 n1 f1 o1 = Ret (inl c1) -> cmaes_new rs2 n2 f2 o2 = Ret (inl c2) -> Rc c1 c2) ->
    out_rel (sess_rel Rc) (cmaes_new rs1 n1 f1 o1) (cmaes_new rs2 n2 f2 o2).
  Proof.
    intros F1 F2 Rc rs1 n1 f1 o1 rs2 n2 f2 o2 Hv Hc.
    pose proof (cmaes_new_outcome rs1 n1 f1 o1) as H1. pose proof (cmaes_new_outcome rs2 n2 f2 o2) as H2. rewrite <- Hv in H2.
    destruct (validate o1).
    - rewrite H1, H2. reflexivity.
    - destruct H1 as [c1 H1], H2 as [c2 H2]. rewrite H1, H2. simpl. apply Hc; auto.
  Qed.

  Lemma search_trans_l : forall {F} (a b c : cmaes T F), same_core a b -> same_search b c -> same_search a c.
  Proof. intros F a b c [A1 [A2 [A3 [A4 [A5 _]]]]] []. constructor; congruence. Qed.
  Lemma search_trans_r : forall {F} (a b c : cmaes T F), same_search a b -> same_core c b -> same_search a c.
  Proof. intros F a b c [] [A1 [A2 [A3 [A4 [A5 _]]]]]. constructor; congruence. Qed.

  Section Quiet.
    Hypothesis Heig : eigen_shape (T := T).
    Context {F : Type} (ev : F -> vec T -> outcome (T * F)).

    Lemma next_search : forall o1 o2 par tk c1 c2, same_search c1 c2 -> wf o1 c1 -> wf o2 c2 ->
      out_rel (fun a b => fst a = fst b /\ (same_search (snd a) (snd b) /\ wf o1 (snd a) /\ wf o2 (snd b)))
        (next ev par tk c1) (next ev par tk c2).
    Proof.
      intros o1 o2 par tk c1 c2 Hs Hw1 Hw2.
      assert (G : out_rel (fun a b => fst a = fst b /\ same_search (snd a) (snd b)) (cmaes_sample ev par tk c1) (cmaes_sample ev par tk c2)).
      { unfold cmaes_sample. destruct Hs. rewrite ss_sampler0, ss_params0, ss_state0, ss_history0.
        destruct (sample _ _ _ _ _ _) as [[[inds|] sm]| |]; cbn [obind out_rel]; auto.
        - destruct (history_update _ _ _) as [h| |]; cbn [obind out_rel fst snd]; auto. split; auto. constructor; auto.
        - cbn [fst snd]. split; auto. constructor; auto. }
      unfold next. destruct (cmaes_sample ev par tk c1) as [[r1 d1]| |] eqn:E1, (cmaes_sample ev par tk c2) as [[r2 d2]| |] eqn:E2;
        cbn [out_rel obind] in *; try contradiction; auto.
      destruct G as [G1 G2]. cbn [fst snd] in *. subst r2.
      destruct (sampled_wf ev o1 par tk c1 r1 d1 Hw1 E1) as [W1 I1]. destruct (sampled_wf ev o2 par tk c2 r1 d2 Hw2 E2) as [W2 I2].
      destruct r1 as [inds|].
      - destruct (next_internal_core Heig o1 d1 tk inds W1 I1) as [e1 [ok1 [N1 [V1 D1]]]].
        destruct (next_internal_core Heig o2 d2 tk inds W2 I2) as [e2 [ok2 [N2 [V2 D2]]]].
        rewrite N1, N2. clear N1 N2. destruct D1, D2, G2.
        assert (Fe : function_evals d1 = function_evals d2) by (unfold function_evals; congruence).
        rewrite Fe, ss_params0, ss_state0 in cd_state. pose proof (eq_trans (eq_sym cd_state) cd_state0) as Hst.
        apply Ret_inj in Hst. injection Hst as Hok Hst. subst ok2.
        assert (Hr : core_check tk inds d1 e1 ok1 = core_check tk inds d2 e2 ok1).
        { unfold core_check. destruct ok1; [|reflexivity]. rewrite Fe, ss_params0, ss_history0, ss_created0, Hst. reflexivity. }
        rewrite Hr. destruct (core_check tk inds d2 e2 ok1) as [rs1| |]; cbn [obind out_rel fst snd]; auto.
        split; [|split; [constructor; congruence|auto]].
        unfold reply, get_termination_data, current_best_individual, overall_best_individual, mean.
        rewrite cd_history, cd_history0, ss_history0, Hst. reflexivity.
      - cbn. split; [|auto]. unfold get_termination_data, current_best_individual, overall_best_individual, mean.
        destruct G2. rewrite ss_state0, ss_history0. reflexivity.
    Qed.

    (* C34 *)
    Theorem C34_printing_and_plotting : forall rs now f o1 o2 l1 l2,
      same_problem o1 o2 -> filter loud l1 = filter loud l2 ->
      out_rel (sess_rel (fun a b => fst a = fst b /\ same_search (snd a) (snd b)))
        (session ev rs now f o1 l1) (session ev rs now f o2 l2).
    Proof.
      intros rs now f o1 o2 l1 l2 Hp Hl. eapply out_rel_impl.
      { apply (session_sim ev ev (fun a b => same_search a b /\ wf o1 a /\ wf o2 b) eq True same_call).
        - intros c1 c2 op [H1 [H2 H3]] Hq. destruct (quiet_step ev o1 c1 op H2 Hq) as [c' [Q1 [Q2 Q3]]].
          exists c'. split; auto. split; auto. eapply search_trans_l; eauto.
        - intros c1 c2 op [H1 [H2 H3]] Hq. destruct (quiet_step ev o2 c2 op H3 Hq) as [c' [Q1 [Q2 Q3]]].
          exists c'. split; auto. split; auto. eapply search_trans_r; eauto.
        - intros p1 t1 p2 t2 c1 c2 [-> ->] [H1 [H2 H3]]. apply next_search; auto.
        - intros _ a b ->. reflexivity.
        - apply loud_matching. exact Hl.
        - apply new_sim; [apply same_problem_validate; auto|]. intros c1 c2 H1 H2.
          split; [|split; eapply new_wf; eauto]. apply cmaes_new_inv in H1. apply cmaes_new_inv in H2. cbv zeta in H1, H2.
          destruct H1 as [_ [A1 [A2 [A3 [A4 [_ [_ [A5 _]]]]]]]], H2 as [_ [B1 [B2 [B3 [B4 [_ [_ [B5 _]]]]]]]].
          constructor; rewrite ?A1, ?A2, ?A3, ?A4, ?A5, ?B1, ?B2, ?B3, ?B4, ?B5.
          + rewrite (sp_mean _ _ Hp), (sp_con _ _ Hp), (sp_max _ _ Hp), (sp_pop _ _ Hp), (sp_seed _ _ Hp). reflexivity.
          + rewrite (sp_seed _ _ Hp). apply same_problem_params. exact Hp.
          + rewrite (sp_mean _ _ Hp), (sp_step _ _ Hp). reflexivity.
          + reflexivity.
          + reflexivity. }
      intros [[r1 c1]|e1] [[r2 c2]|e2]; cbn; try tauto. intros [H1 [H2 _]]. split; auto.
      clear -H1. induction H1; congruence.
    Qed.
  End Quiet.

  (* ---- C32 ---- *)
  Section Par.
    Hypothesis Heig : eigen_shape (T := T).
    Context {F : Type} (ev : F -> vec T -> outcome (T * F)) (value : vec T -> T).

    (* the value does not depend on the state of the objective *)
    Definition stateless : Prop := forall f x, exists f', ev f x = Ret (value x, f').

    (* everything but the state of the objective is equal *)
    Record same_but_objective (c1 c2 : cmaes T F) : Prop := {
      so_dim : sm_dim (c_sampler c1) = sm_dim (c_sampler c2);
      so_con : sm_constraints (c_sampler c1) = sm_constraints (c_sampler c2);
      so_max : sm_max_resamples (c_sampler c1) = sm_max_resamples (c_sampler c2);
      so_pop : sm_population_size (c_sampler c1) = sm_population_size (c_sampler c2);
      so_rng : sm_rng (c_sampler c1) = sm_rng (c_sampler c2);
      so_evals : sm_function_evals (c_sampler c1) = sm_function_evals (c_sampler c2);
      so_params : c_params c1 = c_params c2;
      so_state : c_state c1 = c_state c2;
      so_history : c_history c1 = c_history c2;
      so_plot : c_plot c1 = c_plot c2;
      so_gap : c_print_gap c1 = c_print_gap c2;
      so_last : c_last_print c1 = c_last_print c2;
      so_created : c_created c1 = c_created c2;
      so_out : c_out c1 = c_out c2
    }.
    Lemma alike_objective : forall c1 c2, alike any_state c1 c2 -> same_but_objective c1 c2.
    Proof. intros c1 c2 [[] ?]. constructor; auto. Qed.

    (* the calls of next and run may be parallel on one side and not on the other; a parallel call evaluates the
       points in any order *)
    Definition same_up_to_order (lambda : nat) (p1 : bool) (t1 : tick) (p2 : bool) (t2 : tick) : Prop :=
      t_fuel t1 = t_fuel t2 /\ t_tree t1 = t_tree t2 /\ t_now t1 = t_now t2 /\
      (p1 = true -> Permutation (t_sched t1) (seq 0 lambda)) /\ (p2 = true -> Permutation (t_sched t2) (seq 0 lambda)).

    (* the same calls in the same order, each of next/run parallel or not *)
    Inductive parallelised (lambda : nat) : list op -> list op -> Prop :=
    | P_nil : parallelised lambda [] []
    | P_next : forall p1 t1 p2 t2 l1 l2, same_up_to_order lambda p1 t1 p2 t2 -> parallelised lambda l1 l2 ->
        parallelised lambda (ONext p1 t1 :: l1) (ONext p2 t2 :: l2)
    | P_run : forall p1 p2 fuel e1 e2 l1 l2, (forall k, same_up_to_order lambda p1 (e1 k) p2 (e2 k)) -> parallelised lambda l1 l2 ->
        parallelised lambda (ORun p1 fuel e1 :: l1) (ORun p2 fuel e2 :: l2)
    | P_quiet : forall o l1 l2, quiet o -> parallelised lambda l1 l2 -> parallelised lambda (o :: l1) (o :: l2).

    (* one call *)
    Theorem C32_next_parallel : forall o f c tk1 tk2, stateless -> reaches ev o f c ->
      Permutation (t_sched tk1) (seq 0 (pop o)) ->
      t_fuel tk1 = t_fuel tk2 -> t_tree tk1 = t_tree tk2 -> t_now tk1 = t_now tk2 ->
      out_rel (fun a b => fst a = fst b /\ same_but_objective (snd a) (snd b)) (next ev true tk1 c) (next ev false tk2 c).
    Proof.
      intros o f c tk1 tk2 Hv Hr Hp Hf Ht Hn. apply (reaches_wf Heig) in Hr. eapply out_rel_impl.
      { apply (next_pure ev value Hv o c true tk1 false tk2 Hr); auto; try discriminate.
        constructor; auto. constructor; auto. exact I. }
      intros a b [H1 H2]. split; auto. apply alike_objective. exact H2.
    Qed.

    (* any schedule under which next_parallel returns, including those that stop early after a NaN *)
    Theorem C32_any_schedule : forall o f c tk r c', stateless -> reaches ev o f c ->
      next ev true tk c = Ret (r, c') ->
      exists c2, next ev false tk c = Ret (r, c2) /\ same_but_objective c2 c'.
    Proof.
      intros o f c tk r c' Hv Hr H. apply (reaches_wf Heig) in Hr.
      destruct (next_pure_any ev value Hv o c tk r c' Hr H) as [c2 [H1 H2]]. exists c2. split; auto. apply alike_objective. exact H2.
    Qed.

    (* whole sessions *)
    Lemma parallelised_transcript : stateless -> forall o l1 l2, parallelised (pop o) l1 l2 -> forall c1 c2,
      wf o c1 -> alike any_state c1 c2 ->
      out_rel (fun a b => fst a = fst b /\ alike any_state (snd a) (snd b)) (transcript ev c1 l1) (transcript ev c2 l2).
    Proof.
      intros Hv o l1 l2 Hp.
      assert (Hnx : forall p1 t1 p2 t2 c1 c2, same_up_to_order (pop o) p1 t1 p2 t2 -> wf o c1 -> alike any_state c1 c2 ->
        out_rel (fun a b => fst a = fst b /\ (wf o (snd a) /\ alike any_state (snd a) (snd b))) (next ev p1 t1 c1) (next ev p2 t2 c2)).
      { intros p1 t1 p2 t2 c1 c2 [H1 [H2 [H3 [H4 H5]]]] Hw Ha.
        pose proof (next_pure ev value Hv o c1 p1 t1 p2 t2 Hw H1 H2 H3 H4 H5 c2 Ha) as Hx.
        destruct (next ev p1 t1 c1) as [[r1 d1]| |] eqn:E1, (next ev p2 t2 c2) as [[r2 d2]| |]; cbn [out_rel fst snd] in *; try contradiction; auto.
        destruct Hx. split; auto. split; auto. eapply (next_wf Heig); eauto. }
      induction Hp as [|p1 t1 p2 t2 l1 l2 Ht Hp IH|p1 p2 fuel e1 e2 l1 l2 Ht Hp IH|op l1 l2 Hq Hp IH]; intros c1 c2 Hw Ha.
      - cbn. auto.
      - cbn [transcript]. eapply out_rel_bind; [apply Hnx; eauto|]. intros [r1 d1] [r2 d2] [X1 [X2 X3]]. cbn [fst snd] in *. subst.
        eapply out_rel_bind; [apply IH; eauto|]. intros [s1 d3] [s2 d4] [X4 X5]. cbn in *. subst. auto.
      - cbn [transcript].
        eapply (out_rel_bind (fun a b => fst a = fst b /\ (wf o (snd a) /\ alike any_state (snd a) (snd b)))).
        + unfold run. eapply (out_rel_bind (fun a b => fst a = fst b /\ (wf o (snd a) /\ alike any_state (snd a) (snd b)))).
          * clear IH Hp. revert e1 e2 c1 c2 Ht Hw Ha. induction fuel as [|fuel IH]; intros e1 e2 c1 c2 Ht Hw Ha; cbn [run_loop]; [exact I|].
            eapply out_rel_bind; [apply Hnx; eauto|]. intros [r1 d1] [r2 d2] [X1 [X2 X3]]. cbn [fst snd] in *. subst.
            destruct r2; [cbn; auto|]. apply IH; [intros k; apply (Ht (S k))|exact X2|exact X3].
          * intros [d1 a] [d2 b] [X1 [X2 X3]]. cbn [fst snd] in *. subst.
            unfold run_internal. eapply (out_rel_bind (fun a b => wf o a /\ alike any_state a b)).
            -- eapply (out_rel_bind (fun a b => wf o a /\ alike any_state a b)).
               ++ pose proof (add_plot_alike any_state _ _ X3) as Hx. pose proof (add_plot_safe o a X2) as Hy.
                  destruct (add_plot_point a), (add_plot_point b); cbn in *; try contradiction; auto.
               ++ intros x y [Y1 Y2]. cbn [out_rel]. rewrite (al_gap _ _ _ Y2). destruct (c_print_gap y); auto. split.
                  ** unfold print_final_info. destruct (_ =? _)%N; repeat apply emit_wf; auto.
                  ** apply print_final_alike; auto.
            -- intros x y [Y1 Y2]. cbn. auto.
        + intros [r1 d1] [r2 d2] [X1 [X2 X3]]. cbn [fst snd] in *. subst.
          eapply out_rel_bind; [apply IH; eauto|]. intros [s1 d3] [s2 d4] [X4 X5]. cbn in *. subst. auto.
      - assert (Hs : out_rel (fun a b => wf o a /\ alike any_state a b) (step ev c1 op) (step ev c2 op)).
        { pose proof (quiet_safe ev o c1 op Hw Hq) as Hx.
          assert (Hy : out_rel (alike any_state) (step ev c1 op) (step ev c2 op)).
          { destruct op; try contradiction; cbn [step].
            - apply add_plot_alike; auto.
            - apply clear_alike; auto.
            - apply emit_alike; auto.
            - apply print_info_alike; auto.
            - apply print_final_alike; auto. }
          destruct (step ev c1 op), (step ev c2 op); cbn in *; try contradiction; auto. }
        destruct op; try contradiction; cbn [transcript]; (eapply out_rel_bind; [exact Hs|]); intros x y [Y1 Y2]; apply IH; auto.
    Qed.

    Theorem C32_sessions : forall rs now f o l1 l2, stateless -> parallelised (pop o) l1 l2 ->
      out_rel (sess_rel (fun a b => fst a = fst b /\ same_but_objective (snd a) (snd b)))
        (session ev rs now f o l1) (session ev rs now f o l2).
    Proof.
      intros rs now f o l1 l2 Hv Hp. unfold session. destruct (cmaes_new rs now f o) as [[c|e]| |] eqn:E0; cbn; auto.
      pose proof (parallelised_transcript Hv o l1 l2 Hp c c (new_wf rs now f o c E0)) as H.
      eapply out_rel_bind.
      - apply H. constructor; auto. constructor; auto. exact I.
      - intros a b [H1 H2]. cbn. split; auto. apply alike_objective. exact H2.
    Qed.
  End Par.
End Parallel.

Print Assumptions C34_printing_and_plotting.
Print Assumptions C32_next_parallel.
Print Assumptions C32_any_schedule.
Print Assumptions C32_sessions.

(* does the session return a built optimiser satisfying the test? *)
Definition session_test {F} (r : outcome ((list (option (term_data f64)) * cmaes f64 F) + invalid_options))
  (P : list (option (term_data f64)) -> cmaes f64 F -> bool) : bool :=
  match r with Ret (inl (rs, c)) => P rs c | _ => false end.
Lemma session_test_ex : forall {F} (r : outcome ((list (option (term_data f64)) * cmaes f64 F) + invalid_options)) P,
  session_test r P = true -> exists rs c, r = Ret (inl (rs, c)) /\ P rs c = true.
Proof. intros F [[[rs c]|e]|p|] P H; try discriminate. exists rs, c. auto. Qed.

(* one session prints and plots, the other does not; both make three generations *)
Definition c34_noisy : options f64 := apply_setters (toy_options 2) [SEnablePrinting 5; SEnablePlot (mkPlotOptions 3 true)].
Definition c34_calls1 : list op := [ONext false toy_tick; OAddPlotPoint; OPrintInfo; ONext false toy_tick; OClearPlot; ONext false toy_tick; OPrintFinal []].
Definition c34_calls2 : list op := [OPrintInitial; ONext false toy_tick; ONext false toy_tick; ONext false toy_tick].
Example C34_case : eigen_shape (T := f64) /\ same_problem c34_noisy (toy_options 2) /\
  filter loud c34_calls1 = filter loud c34_calls2 /\
  (exists rs c, session toy_sphere 0 0 tt c34_noisy c34_calls1 = Ret (inl (rs, c)) /\
     generation c = 3%N /\ length (c_out c) = 7 /\ c_plot c <> None) /\
  (exists rs c, session toy_sphere 0 0 tt (toy_options 2) c34_calls2 = Ret (inl (rs, c)) /\
     generation c = 3%N /\ length (c_out c) = 1 /\ c_plot c = None).
Proof.
  split; [exact toy_eigen_shape|]. split; [constructor; reflexivity|]. split; [reflexivity|]. split.
  - destruct (session_test_ex (session toy_sphere 0 0 tt c34_noisy c34_calls1)
      (fun _ c => (generation c =? 3)%N && (length (c_out c) =? 7) && match c_plot c with Some _ => true | None => false end)) as [rs [c [H1 H2]]].
    { vm_compute. reflexivity. }
    exists rs, c. split; auto. apply andb_prop in H2. destruct H2 as [H2 H3]. apply andb_prop in H2. destruct H2 as [H2 H4].
    split; [apply N.eqb_eq; auto|]. split; [apply Nat.eqb_eq; auto|]. destruct (c_plot c); [discriminate|discriminate H3].
  - destruct (session_test_ex (session toy_sphere 0 0 tt (toy_options 2) c34_calls2)
      (fun _ c => (generation c =? 3)%N && (length (c_out c) =? 1) && match c_plot c with Some _ => false | None => true end)) as [rs [c [H1 H2]]].
    { vm_compute. reflexivity. }
    exists rs, c. split; auto. apply andb_prop in H2. destruct H2 as [H2 H3]. apply andb_prop in H2. destruct H2 as [H2 H4].
    split; [apply N.eqb_eq; auto|]. split; [apply Nat.eqb_eq; auto|]. destruct (c_plot c); [discriminate|reflexivity].
Qed.

(* four points evaluated in the order 2, 0, 3, 1 *)
Definition c32_tick : tick := mkTick 0 RLeaf [2; 0; 3; 1] 50.
Example C32_case : eigen_shape (T := f64) /\ stateless toy_sphere (norm2 (T := f64)) /\
  parallelised (pop (toy_options 2)) [ONext true c32_tick; ORun true 2 (fun _ => c32_tick)] [ONext false toy_tick; ORun false 2 toy_env_of] /\
  Permutation (t_sched c32_tick) (seq 0 (pop (toy_options 2))) /\
  exists c, reaches toy_sphere (toy_options 2) tt c /\ generation c = 2%N /\ exists r c', next toy_sphere true c32_tick c = Ret (r, c').
Proof.
  assert (Hp : Permutation (t_sched c32_tick) (seq 0 (pop (toy_options 2)))).
  { cbn. apply perm_trans with [0; 2; 3; 1]; [apply perm_swap|]. apply perm_skip.
    apply perm_trans with [2; 1; 3]; [apply perm_skip, perm_swap|apply perm_swap]. }
  split; [exact toy_eigen_shape|]. split; [intros f x; exists tt; reflexivity|]. split; [|split; [exact Hp|]].
  { constructor; [|constructor; [|constructor]].
    - repeat split; auto; discriminate.
    - intros k. repeat split; auto; discriminate. }
  destruct (toy_reaches toy_sphere (toy_options 2) 2 (fun _ c => (generation c =? 2)%N && is_ret (next toy_sphere true c32_tick c))) as [rs [c [H1 [_ H2]]]].
  { vm_compute. reflexivity. }
  exists c. split; auto. apply andb_prop in H2. destruct H2 as [H2 H3]. split; [apply N.eqb_eq; auto|].
  apply is_ret_ex in H3. destruct H3 as [[r c'] H3]. eauto.
Qed.

(* a schedule that stops after the first NaN: only point 3 was evaluated *)
Definition c32_nan : unit -> vec f64 -> outcome (f64 * unit) := pure_ev (fun _ => f64_nan).
Example C32_any_schedule_case : stateless c32_nan (fun _ => f64_nan) /\
  exists c, reaches c32_nan (toy_options 2) tt c /\ exists r c', next c32_nan true (mkTick 0 RLeaf [3] 50) c = Ret (r, c').
Proof.
  split; [intros f x; exists tt; reflexivity|].
  destruct (toy_reaches c32_nan (toy_options 2) 0 (fun _ c => is_ret (next c32_nan true (mkTick 0 RLeaf [3] 50) c))) as [rs [c [H1 [_ H2]]]].
  { vm_compute. reflexivity. }
  exists c. split; auto. apply is_ret_ex in H2. destruct H2 as [[r c'] H3]. eauto.
Qed.
