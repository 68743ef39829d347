(* C64: exact arithmetic, the search commutes with scaling the space. *)
From Coq Require Import List NArith ZArith Bool Arith Lia Reals Lra.
Require Import Verif.Base Verif.Num Verif.F64 Verif.XReal Verif.LinAlg Verif.Mode Verif.Weights Verif.Options Verif.Params Verif.Env
  Verif.State Verif.Sampling Verif.History Verif.Termination Verif.Plot Verif.Cmaes Verif.Lib Verif.Order
  Verif.NextInv Verif.Spec Verif.LogLemmas Verif.TraceLemmas Verif.BuildLemmas Verif.Sort Verif.PanicLemmas Verif.NextSafe Verif.CastLemmas
  Verif.RelLemmas Verif.TermLemmas Verif.Session Verif.PropParallel Verif.TransLemmas Verif.XToy Verif.ScaleLemmas Verif.PropInvariance.
Import ListNotations.
Open Scope nat_scope.

(* the same problem scaled by alpha and then moved by t; a tolerance on x that was set is scaled too *)
Record scaled_problem (alpha : R) (t : list R) (o1 o2 : options xreal) : Prop := {
  sp_dim : length (o_initial_mean o1) = length t;
  sp_mean : o_initial_mean o2 = resize alpha t (o_initial_mean o1);
  sp_step : o_initial_step_size o2 = grow alpha (o_initial_step_size o1);
  sp_tol_x : o_tol_x o2 = option_map (grow alpha) (o_tol_x o1);
  sp_con : o_constraints o2 = option_map (fun meets x => meets (unsize alpha t x)) (o_constraints o1);
  sp_mode : o_mode o1 = o_mode o2;
  sp_pop : o_population_size o1 = o_population_size o2;
  sp_max : o_max_resamples o1 = o_max_resamples o2;
  sp_weights : o_weights o1 = o_weights o2;
  sp_par : o_parallel_update o1 = o_parallel_update o2;
  sp_cm : o_cm o1 = o_cm o2;
  sp_evals : o_max_function_evals o1 = o_max_function_evals o2;
  sp_gens : o_max_generations o1 = o_max_generations o2;
  sp_time : o_max_time o1 = o_max_time o2;
  sp_target : o_fun_target o1 = o_fun_target o2;
  sp_tol_fun : o_tol_fun o1 = o_tol_fun o2;
  sp_tol_fun_rel : o_tol_fun_rel o1 = o_tol_fun_rel o2;
  sp_tol_fun_hist : o_tol_fun_hist o1 = o_tol_fun_hist o2;
  sp_stag : o_tol_stagnation o1 = o_tol_stagnation o2;
  sp_tol_x_up : o_tol_x_up o1 = o_tol_x_up o2;
  sp_cond : o_tol_condition_cov o1 = o_tol_condition_cov o2;
  sp_seed : o_seed o1 = o_seed o2
}.

Section Scaled.
  Context {E : Env xreal}.
  Hypothesis Heig : eigen_shape (T := xreal).
  Context {F : Type} (ev : F -> vec xreal -> outcome (xreal * F)) (alpha : R) (t : list R).
  Hypothesis Hpos : (0 < alpha)%R.

  (* f((x - t) / alpha) *)
  Definition scaled_ev (f : F) (x : vec xreal) : outcome (xreal * F) := ev f (unsize alpha t x).
  Definition scale_entry (e : entry xreal) : entry xreal := (resize alpha t (fst e), snd e).

  Record scaled_path (c1 c2 : cmaes xreal (F * list (entry xreal))) : Prop := {
    scp_calls : calls c2 = map scale_entry (calls c1);
    scp_mean : mean c2 = resize alpha t (mean c1);
    scp_sigma : sigma c2 = grow alpha (sigma c1);
    scp_cov : covariance_matrix c2 = covariance_matrix c1;
    scp_generation : generation c2 = generation c1;
    scp_evals : function_evals c2 = function_evals c1;
    scp_cur : current_best_individual c2 = option_map (scale_ind alpha t) (current_best_individual c1);
    scp_all : overall_best_individual c2 = option_map (scale_ind alpha t) (overall_best_individual c1);
    scp_rng : sm_rng (c_sampler c2) = sm_rng (c_sampler c1)
  }.

  Definition scaled_log (s1 s2 : F * list (entry xreal)) : Prop := fst s1 = fst s2 /\ snd s2 = map scale_entry (snd s1).
  Lemma log_scaled : forall x s1 s2, length x = length t -> scaled_log s1 s2 ->
    out_rel (fun a b => fst a = fst b /\ scaled_log (snd a) (snd b)) (log_ev ev s1 x) (log_ev scaled_ev s2 (resize alpha t x)).
  Proof.
    intros x [f1 l1] [f2 l2] Hx [H1 H2]. cbn in H1, H2. subst. unfold log_ev, scaled_ev. cbn [fst snd]. rewrite unsize_resize by auto.
    destruct (ev f2 x) as [[v f']| |]; cbn; auto. split; auto. split; cbn; auto. rewrite map_app. reflexivity.
  Qed.

  Lemma scaled_params : forall o1 o2 seed, scaled_problem alpha t o1 o2 ->
    params_of_options o2 seed = scale_params alpha (params_of_options o1 seed).
  Proof.
    intros o1 o2 seed Hp.
    assert (Hl : length (o_initial_mean o2) = length (o_initial_mean o1)) by (rewrite (sp_mean _ _ _ _ Hp); apply resize_length; apply (sp_dim _ _ _ _ Hp)).
    destruct Hp as [Hd Hm Hs Ht Hc]. unfold params_of_options, scale_params, scale_term, term_params_of_options.
    cbn [p_mode p_dim p_lambda p_mu p_initial_sigma p_mu_eff p_weights p_weights_setting p_cc p_c1 p_cs p_cmu p_cm p_damp_s p_term p_seed p_parallel_update
         tp_max_function_evals tp_max_generations tp_max_time tp_fun_target tp_tol_fun tp_tol_fun_rel tp_tol_fun_hist tp_tol_x tp_tol_stagnation tp_tol_x_up tp_tol_condition_cov].
    rewrite !Hl, Hs, Ht. clear Hm Hc Hd Hl Hs Ht.
    repeat match goal with H : _ o1 = _ o2 |- _ => rewrite H; clear H end.
    assert (Hx : match option_map (grow alpha) (o_tol_x o1) with Some x => x | None => nmul (nlit 1 1000000000000) (grow alpha (o_initial_step_size o1)) end
                 = grow alpha match o_tol_x o1 with Some x => x | None => nmul (nlit 1 1000000000000) (o_initial_step_size o1) end).
    { destruct (o_tol_x o1); cbn [option_map]; auto. apply (grow_mul_r alpha Hpos). }
    rewrite Hx. reflexivity.
  Qed.

  Theorem C64_scaling : forall rs now f o1 o2 l1 l2, scaled_problem alpha t o1 o2 -> filter loud l1 = filter loud l2 ->
    out_rel (sess_rel (fun a b => fst b = map (option_map (scale_data alpha t)) (fst a) /\ scaled_path (snd a) (snd b)))
      (session (log_ev ev) rs now (f, []) o1 l1) (session (log_ev scaled_ev) rs now (f, []) o2 l2).
  Proof.
    intros rs now f o1 o2 l1 l2 Hp Hl.
    assert (Hlen : length (o_initial_mean o2) = length (o_initial_mean o1)).
    { rewrite (sp_mean _ _ _ _ Hp). apply resize_length. apply (sp_dim _ _ _ _ Hp). }
    eapply out_rel_impl.
    { apply (session_sim (log_ev ev) (log_ev scaled_ev) (fun a b => scaled scaled_log alpha t a b /\ wf o1 a /\ wf o2 b)
               (fun a b => b = option_map (scale_data alpha t) a) True same_call).
      - intros c1 c2 op [H1 [H2 H3]] Hq. destruct (quiet_step (log_ev ev) o1 c1 op H2 Hq) as [c' [Q1 [Q2 Q3]]].
        exists c'. split; auto. split; auto. eapply scaled_trans_l; eauto.
      - intros c1 c2 op [H1 [H2 H3]] Hq. destruct (quiet_step (log_ev scaled_ev) o2 c2 op H3 Hq) as [c' [Q1 [Q2 Q3]]].
        exists c'. split; auto. split; auto. eapply scaled_trans_r; eauto.
      - intros p1 t1 p2 t2 c1 c2 [-> ->] [H1 [H2 H3]]. eapply next_scale; eauto; [apply log_scaled|apply (sp_dim _ _ _ _ Hp)].
      - intros _ a b ->. destruct a; cbn; split; congruence.
      - apply loud_matching. exact Hl.
      - apply new_sim.
        + unfold validate. rewrite Hlen, (sp_pop _ _ _ _ Hp), (sp_step _ _ _ _ Hp), (sp_cm _ _ _ _ Hp), (grow_valid alpha Hpos). reflexivity.
        + intros c1 c2 H1 H2. split; [|split; eapply new_wf; eauto].
          apply cmaes_new_inv in H1. apply cmaes_new_inv in H2. cbv zeta in H1, H2.
          destruct H1 as [_ [A1 [A2 [A3 [A4 [_ [_ [A5 _]]]]]]]], H2 as [_ [B1 [B2 [B3 [B4 [_ [_ [B5 _]]]]]]]].
          rewrite <- (sp_seed _ _ _ _ Hp) in B1, B2.
          constructor; rewrite ?A1, ?A2, ?A3, ?A4, ?A5, ?B1, ?B2, ?B3, ?B4, ?B5.
          * constructor; cbn; rewrite ?Hlen, ?(sp_max _ _ _ _ Hp), ?(sp_pop _ _ _ _ Hp); auto. split; reflexivity.
          * cbn. apply (sp_con _ _ _ _ Hp).
          * apply scaled_params. exact Hp.
          * unfold state_new. rewrite Hlen, (sp_mean _ _ _ _ Hp), (sp_step _ _ _ _ Hp). reflexivity.
          * reflexivity.
          * reflexivity. }
    intros [[r1 c1]|e1] [[r2 c2]|e2]; cbn; try tauto. intros [H1 [[A1 A2 A3 A4 A5 A6] _]]. split.
    - clear -H1. induction H1 as [|a b r1 r2 Hab H IH]; cbn; auto. rewrite IH, Hab. reflexivity.
    - constructor; unfold mean, sigma, covariance_matrix, generation, current_best_individual, overall_best_individual; try (rewrite A4; reflexivity);
        try (rewrite A5; reflexivity).
      + apply (sr_obj _ _ _ A1).
      + symmetry. apply (sr_evals _ _ _ A1).
      + symmetry. apply (sr_rng _ _ _ A1).
  Qed.
End Scaled.
Print Assumptions C64_scaling.

(* the problem scaled by 3 and moved by (5, -7), with the constraint x_0 <= 3 and a tolerance on x *)
Definition c64_t : list R := [5%R; (-7)%R].
Definition c64_options : options xreal := apply_setters (xtoy_options [XFin 3; XFin 4]) [SConstraints c43_meets; STolX (XFin (1/100))].
Definition c64_scaled : options xreal :=
  apply_setters (xtoy_options (resize 3 c64_t [XFin 3; XFin 4]))
    [SInitialStepSize (XFin (3 * (1/2))); STolX (XFin (3 * (1/100))); SConstraints (fun x => c43_meets (unsize 3 c64_t x)); SEnablePrinting 3].
Example C64_case : eigen_shape (T := xreal) /\ (0 < 3)%R /\ scaled_problem 3 c64_t c64_options c64_scaled /\
  o_initial_mean c64_scaled <> o_initial_mean c64_options /\ o_initial_step_size c64_scaled <> o_initial_step_size c64_options /\
  exists l c, session (log_ev xtoy_sphere) 0 0 (tt, []) c64_options c33_calls1 = Ret (inl (l, c)) /\ length l = 2.
Proof.
  split; [exact xtoy_eigen_shape|]. split; [lra|]. split; [constructor; reflexivity|]. split; [|split].
  - cbn. intros H. injection H as H _. lra.
  - cbn. intros H. injection H as H. lra.
  - apply calls_return; [exact xtoy_eigen_shape|intros l; discriminate|apply (xtoy_valid [XFin 3; XFin 4]); discriminate|intros g x; eexists; reflexivity| |].
    + intros meets x H _. cbn in H. injection H as <-. eexists. reflexivity.
    + repeat constructor; cbn; lia.
Qed.
