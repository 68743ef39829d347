(* C33 and C43, in exact arithmetic: the threaded update computes the same search, and shifting the problem shifts the search. *)
From Coq Require Import List NArith ZArith Bool Arith Lia Reals Lra.
Require Import Verif.Base Verif.Num Verif.F64 Verif.XReal Verif.LinAlg Verif.Mode Verif.Weights Verif.Options Verif.Params Verif.Env
  Verif.State Verif.Sampling Verif.History Verif.Termination Verif.Plot Verif.Cmaes Verif.Lib Verif.Order
  Verif.NextInv Verif.Spec Verif.LogLemmas Verif.TraceLemmas Verif.BuildLemmas Verif.Sort Verif.PanicLemmas Verif.NextSafe Verif.CastLemmas
  Verif.RelLemmas Verif.TermLemmas Verif.Session Verif.PropParallel Verif.TransLemmas Verif.XToy.
Import ListNotations.
Open Scope nat_scope.

(* ---- C33 ---- *)

(* whatever way the terms are grouped, with any number of zero matrices inserted, the sum is the sequential one *)
Theorem C33_reduction : forall n tree (l : list (mat xreal)), 1 <= n -> l <> [] -> Forall (shape n n) l ->
  rank_mu_update_parallel n tree l = rank_mu_update l.
Proof. intros n tree l Hn Hl H. rewrite (reduce_total n Hn tree l H), (sum_total n Hn l H Hl). reflexivity. Qed.
Print Assumptions C33_reduction.

Example C33_reduction_case : exists (tree : rtree) (l : list (mat xreal)), tree <> RLeaf /\ length l = 3 /\ Forall (shape 2 2) l /\
  rank_mu_update l = Ret [[XFin 6; XFin 0]; [XFin 3; XFin 3]].
Proof.
  exists (RNode 1 RLeaf (RNode 0 RLeaf RLeaf)),
    [[[XFin 1; XFin 0]; [XFin 1; XFin 1]]; [[XFin 2; XFin 0]; [XFin 1; XFin 1]]; [[XFin 3; XFin 0]; [XFin 1; XFin 1]]].
  split; [discriminate|]. split; [reflexivity|]. split; [repeat constructor|].
  unfold rank_mu_update, msum_c. cbn. repeat f_equal; lra.
Qed.

(* in binary64 the grouping matters: 2^53 + 1 + 1 *)
Definition c33_terms : list (mat f64) := [[[nofZ 9007199254740992]]; [[nofZ 1]]; [[nofZ 1]]].
Definition c33_entry (r : outcome (mat f64)) : f64 := match r with Ret [[x]] => x | _ => nnan end.
Theorem C33_rounding : exists tree, Forall (shape 1 1) c33_terms /\
  neqb (c33_entry (rank_mu_update c33_terms)) (nofZ 9007199254740992) = true /\
  nltb (c33_entry (rank_mu_update c33_terms)) (c33_entry (rank_mu_update_parallel 1 tree c33_terms)) = true.
Proof.
  exists (RNode 1 RLeaf RLeaf). split; [repeat constructor|]. split; vm_compute; reflexivity.
Qed.
Print Assumptions C33_rounding.

(* options that agree except for parallel_update, printing and plotting *)
Definition without_threads (o : options xreal) : options xreal :=
  mkOptions (o_mode o) (o_initial_mean o) (o_initial_step_size o) (o_population_size o) (o_constraints o) (o_max_resamples o)
    (o_weights o) false (o_cm o) (o_max_function_evals o) (o_max_generations o) (o_max_time o) (o_fun_target o) (o_tol_fun o)
    (o_tol_fun_rel o) (o_tol_fun_hist o) (o_tol_x o) (o_tol_stagnation o) (o_tol_x_up o) (o_tol_condition_cov o) (o_seed o)
    (o_plot_options o) (o_print_gap_evals o).

(* everything a user can see of the search is equal *)
Record same_outcome {F} {E : Env xreal} (c1 c2 : cmaes xreal F) : Prop := {
  sc_sampler : c_sampler c1 = c_sampler c2;
  sc_state : c_state c1 = c_state c2;
  sc_history : c_history c1 = c_history c2
}.
(* the same call; only the reduction tree may differ *)
Definition same_but_tree (p1 : bool) (t1 : tick) (p2 : bool) (t2 : tick) : Prop :=
  p1 = p2 /\ t_now t1 = t_now t2 /\ t_sched t1 = t_sched t2 /\ t_fuel t1 = t_fuel t2.

Section Threads.
  Context {E : Env xreal}.
  Hypothesis Heig : eigen_shape (T := xreal).
  Context {F : Type} (ev : F -> vec xreal -> outcome (xreal * F)).

  Definition with_threads (b : bool) (p : params xreal) : params xreal :=
    mkParams (p_mode p) (p_dim p) (p_lambda p) (p_mu p) (p_initial_sigma p) (p_mu_eff p) (p_weights p) (p_weights_setting p)
      (p_cc p) (p_c1 p) (p_cs p) (p_cmu p) (p_cm p) (p_damp_s p) (p_term p) (p_seed p) b.

  Lemma rank_mu_threads : forall n lambda p inds s tree, 1 <= n -> 2 <= lambda -> wf_params n lambda p -> wf_state n s -> wf_inds n lambda inds ->
    N.to_nat (p_dim p) = n ->
    calc_rank_mu p tree s inds = (l <- contributions p (cm_sqrt_inv (st_cov s)) inds ;; Ret (total n l)).
  Proof.
    intros n lambda p inds s tree Hn Hlam Hp Hs Hi Hd. unfold calc_rank_mu. pose proof (contributions_safe n Hn lambda Hlam p s inds Hp Hs Hi) as Hc.
    destruct (contributions p _ inds) as [l| |]; cbn [safe obind] in *; auto. destruct Hc as [H1 H2]. rewrite Hd.
    destruct (p_parallel_update p); [apply reduce_total; auto|apply sum_total; auto].
  Qed.

  Lemma update_threads : forall n lambda b p inds s t1 t2 evals, 1 <= n -> 2 <= lambda -> wf_params n lambda p -> wf_state n s -> wf_inds n lambda inds ->
    N.to_nat (p_dim p) = n ->
    state_update t2 evals (with_threads b p) inds s = state_update t1 evals p inds s.
  Proof.
    intros n lambda b p inds s t1 t2 evals Hn Hlam Hp Hs Hi Hd.
    assert (H : calc_rank_mu (with_threads b p) t2 s inds = calc_rank_mu p t1 s inds).
    { rewrite (rank_mu_threads n lambda p inds s t1), (rank_mu_threads n lambda (with_threads b p) inds s t2); auto.
      destruct Hp. constructor; auto. }
    unfold state_update. rewrite H. reflexivity.
  Qed.

  Record threaded (c1 c2 : cmaes xreal F) : Prop := {
    th_same : same_outcome c1 c2;
    th_params : exists b, c_params c2 = with_threads b (c_params c1);
    th_created : c_created c1 = c_created c2
  }.

  Lemma next_threads : forall o1 o2 par t1 t2 c1 c2, threaded c1 c2 -> wf o1 c1 -> wf o2 c2 -> dims o1 = dims o2 -> pop o1 = pop o2 ->
    same_but_tree par t1 par t2 ->
    out_rel (fun a b => fst a = fst b /\ (threaded (snd a) (snd b) /\ wf o1 (snd a) /\ wf o2 (snd b)))
      (next ev par t1 c1) (next ev par t2 c2).
  Proof.
    intros o1 o2 par t1 t2 c1 c2 Hs Hw1 Hw2 Hd Hpo [_ [Tn [Ts Tf]]].
    assert (G : out_rel (fun a b => fst a = fst b /\ threaded (snd a) (snd b)) (cmaes_sample ev par t1 c1) (cmaes_sample ev par t2 c2)).
    { unfold cmaes_sample, sample. destruct Hs as [[A1 A2 A3] [b A4] A5]. rewrite A4, <- A1, <- A2, <- A3, Ts, Tf. cbn [with_threads p_mode].
      destruct (resample _ _ _ _ _ _ _ _ _) as [[ys g]| |]; cbn [obind out_rel]; auto.
      destruct (if par then _ else _) as [[[pts|] f]| |]; cbn [obind out_rel]; auto.
      - destruct (history_update _ _ _) as [h| |]; cbn [obind out_rel fst snd]; auto. split; auto.
        constructor; cbn; [constructor; cbn; auto| |auto]. exists b; first [exact A4|reflexivity].
      - cbn [fst snd]. split; auto. constructor; cbn; [constructor; cbn; auto| |auto]. exists b; first [exact A4|reflexivity]. }
    unfold next. destruct (cmaes_sample ev par t1 c1) as [[r1 d1]| |] eqn:E1, (cmaes_sample ev par t2 c2) as [[r2 d2]| |] eqn:E2;
      cbn [out_rel obind] in *; try contradiction; auto.
    destruct G as [G1 G2]. cbn [fst snd] in *. subst r2.
    destruct (sampled_wf ev o1 par t1 c1 r1 d1 Hw1 E1) as [W1 I1]. destruct (sampled_wf ev o2 par t2 c2 r1 d2 Hw2 E2) as [W2 I2].
    destruct r1 as [inds|].
    - destruct (next_internal_core Heig o1 d1 t1 inds W1 I1) as [e1 [ok1 [N1 [V1 D1]]]].
      destruct (next_internal_core Heig o2 d2 t2 inds W2 I2) as [e2 [ok2 [N2 [V2 D2]]]].
      rewrite N1, N2. clear N1 N2. destruct D1, D2. destruct G2 as [[A1 A2 A3] [b A4] A5].
      assert (Fe : function_evals d1 = function_evals d2) by (unfold function_evals; congruence).
      destruct (wf_par _ _ W1) as [seed Hp]. pose proof (params_wf o1 seed (wf_pop _ _ W1)) as Hpw. rewrite <- Hp in Hpw.
      rewrite A4, <- A2, <- Fe in cd_state0.
      rewrite (update_threads (dims o1) (pop o1) b (c_params d1) inds (c_state d1) (t_tree t1) (t_tree t2)) in cd_state0;
        [|apply (wf_dim _ _ W1)|apply (wf_pop _ _ W1)|exact Hpw|apply (wf_st _ _ W1)|exact I1|rewrite Hp; cbn; apply Nat2N.id].
      pose proof (eq_trans (eq_sym cd_state) cd_state0) as Hst. apply Ret_inj in Hst. injection Hst as Hok Hst. subst ok2.
      assert (Hr : core_check t1 inds d1 e1 ok1 = core_check t2 inds d2 e2 ok1).
      { unfold core_check. destruct ok1; [|reflexivity]. rewrite A4, <- Fe, <- A3, <- A5, <- Hst, <- Tn. reflexivity. }
      rewrite Hr. destruct (core_check t2 inds d2 e2 ok1) as [rs1| |]; cbn [obind out_rel fst snd]; auto.
      assert (Hh : c_history e1 = c_history e2) by congruence.
      split; [|split; [constructor; [constructor; congruence| |congruence]|auto]].
      + unfold reply, get_termination_data, current_best_individual, overall_best_individual, mean.
        rewrite Hh, Hst. reflexivity.
      + exists b. congruence.
    - cbn. split; [|auto]. unfold get_termination_data, current_best_individual, overall_best_individual, mean.
      destruct G2 as [[A1 A2 A3] _ _]. rewrite A2, A3. reflexivity.
  Qed.

  Theorem C33_sessions : forall rs now f o1 o2 l1 l2, same_problem (without_threads o1) (without_threads o2) ->
    matching True same_but_tree l1 l2 ->
    out_rel (sess_rel (fun a b => fst a = fst b /\ same_outcome (snd a) (snd b)))
      (session ev rs now f o1 l1) (session ev rs now f o2 l2).
  Proof.
    intros rs now f o1 o2 l1 l2 Hp Hl.
    assert (Hdm : dims o1 = dims o2) by (unfold dims; pose proof (sp_mean _ _ Hp) as H; cbn in H; rewrite H; reflexivity).
    assert (Hpo : pop o1 = pop o2) by (unfold pop; pose proof (sp_pop _ _ Hp) as H; cbn in H; rewrite H; reflexivity).
    eapply out_rel_impl.
    { apply (session_sim ev ev (fun a b => threaded a b /\ wf o1 a /\ wf o2 b) eq True same_but_tree).
      - intros c1 c2 op [H1 [H2 H3]] Hq. destruct (quiet_step ev o1 c1 op H2 Hq) as [c' [Q1 [Q2 Q3]]].
        exists c'. split; auto. split; auto. destruct Q3 as [B1 [B2 [B3 [B4 [B5 _]]]]], H1 as [[A1 A2 A3] [b A4] A5].
        constructor; [constructor; congruence|exists b; congruence|congruence].
      - intros c1 c2 op [H1 [H2 H3]] Hq. destruct (quiet_step ev o2 c2 op H3 Hq) as [c' [Q1 [Q2 Q3]]].
        exists c'. split; auto. split; auto. destruct Q3 as [B1 [B2 [B3 [B4 [B5 _]]]]], H1 as [[A1 A2 A3] [b A4] A5].
        constructor; [constructor; congruence|exists b; congruence|congruence].
      - intros p1 t1 p2 t2 c1 c2 Ht [H1 [H2 H3]]. pose proof (proj1 Ht). subst p2. apply next_threads; auto.
      - intros _ a b ->. reflexivity.
      - exact Hl.
      - apply new_sim.
        + pose proof (same_problem_validate _ _ Hp) as H. exact H.
        + intros c1 c2 H1 H2. split; [|split; eapply new_wf; eauto].
          apply cmaes_new_inv in H1. apply cmaes_new_inv in H2. cbv zeta in H1, H2.
          destruct H1 as [_ [A1 [A2 [A3 [A4 [_ [_ [A5 _]]]]]]]], H2 as [_ [B1 [B2 [B3 [B4 [_ [_ [B5 _]]]]]]]].
          pose proof (same_problem_params _ _ (match o_seed o1 with Some s => s | None => rs end) Hp) as Hpp.
          pose proof (sp_seed _ _ Hp) as Q1. pose proof (sp_mean _ _ Hp) as Q2. pose proof (sp_con _ _ Hp) as Q3.
          pose proof (sp_max _ _ Hp) as Q4. pose proof (sp_pop _ _ Hp) as Q5. pose proof (sp_step _ _ Hp) as Q6. cbn in Q1, Q2, Q3, Q4, Q5, Q6.
          constructor; [constructor|exists (o_parallel_update o2)|]; rewrite ?A1, ?A2, ?A3, ?A4, ?A5, ?B1, ?B2, ?B3, ?B4, ?B5.
          * rewrite Q1, Q2, Q3, Q4, Q5. reflexivity.
          * rewrite Q2, Q6. reflexivity.
          * reflexivity.
          * rewrite <- Q1. apply (f_equal (with_threads (o_parallel_update o2))) in Hpp. symmetry. exact Hpp.
          * reflexivity. }
    intros [[r1 c1]|e1] [[r2 c2]|e2]; cbn; try tauto. intros [H1 [H2 _]]. split; [|apply H2].
    clear -H1. induction H1; congruence.
  Qed.
End Threads.
Print Assumptions C33_sessions.

(* ---- C43 ---- *)

(* the same problem moved by t *)
Record moved_problem (t : list R) (o1 o2 : options xreal) : Prop := {
  mv_dim : length (o_initial_mean o1) = length t;
  mv_mean : o_initial_mean o2 = shift t (o_initial_mean o1);
  mv_con : o_constraints o2 = option_map (fun meets x => meets (unshift t x)) (o_constraints o1);
  mv_mode : o_mode o1 = o_mode o2;
  mv_step : o_initial_step_size o1 = o_initial_step_size o2;
  mv_pop : o_population_size o1 = o_population_size o2;
  mv_max : o_max_resamples o1 = o_max_resamples o2;
  mv_weights : o_weights o1 = o_weights o2;
  mv_par : o_parallel_update o1 = o_parallel_update o2;
  mv_cm : o_cm o1 = o_cm o2;
  mv_evals : o_max_function_evals o1 = o_max_function_evals o2;
  mv_gens : o_max_generations o1 = o_max_generations o2;
  mv_time : o_max_time o1 = o_max_time o2;
  mv_target : o_fun_target o1 = o_fun_target o2;
  mv_tol_fun : o_tol_fun o1 = o_tol_fun o2;
  mv_tol_fun_rel : o_tol_fun_rel o1 = o_tol_fun_rel o2;
  mv_tol_fun_hist : o_tol_fun_hist o1 = o_tol_fun_hist o2;
  mv_tol_x : o_tol_x o1 = o_tol_x o2;
  mv_stag : o_tol_stagnation o1 = o_tol_stagnation o2;
  mv_tol_x_up : o_tol_x_up o1 = o_tol_x_up o2;
  mv_cond : o_tol_condition_cov o1 = o_tol_condition_cov o2;
  mv_seed : o_seed o1 = o_seed o2
}.

Section Moved.
  Context {E : Env xreal}.
  Hypothesis Heig : eigen_shape (T := xreal).
  Context {F : Type} (ev : F -> vec xreal -> outcome (xreal * F)) (t : list R).

  (* f(x - t) *)
  Definition moved (f : F) (x : vec xreal) : outcome (xreal * F) := ev f (unshift t x).
  Definition move_entry (e : entry xreal) : entry xreal := (shift t (fst e), snd e).

  Record moved_path (c1 c2 : cmaes xreal (F * list (entry xreal))) : Prop := {
    mp_calls : calls c2 = map move_entry (calls c1);
    mp_mean : mean c2 = shift t (mean c1);
    mp_sigma : sigma c2 = sigma c1;
    mp_cov : covariance_matrix c2 = covariance_matrix c1;
    mp_generation : generation c2 = generation c1;
    mp_evals : function_evals c2 = function_evals c1;
    mp_cur : current_best_individual c2 = option_map (shift_ind t) (current_best_individual c1);
    mp_all : overall_best_individual c2 = option_map (shift_ind t) (overall_best_individual c1);
    mp_rng : sm_rng (c_sampler c2) = sm_rng (c_sampler c1)
  }.

  Definition moved_log (s1 s2 : F * list (entry xreal)) : Prop := fst s1 = fst s2 /\ snd s2 = map move_entry (snd s1).
  Lemma log_moved : forall x s1 s2, length x = length t -> moved_log s1 s2 ->
    out_rel (fun a b => fst a = fst b /\ moved_log (snd a) (snd b)) (log_ev ev s1 x) (log_ev moved s2 (shift t x)).
  Proof.
    intros x [f1 l1] [f2 l2] Hx [H1 H2]. cbn in H1, H2. subst. unfold log_ev, moved. cbn [fst snd]. rewrite unshift_shift by exact Hx.
    destruct (ev f2 x) as [[v f']| |]; cbn; auto. split; auto. split; cbn; auto. rewrite map_app. reflexivity.
  Qed.

  Lemma moved_params : forall o1 o2 seed, moved_problem t o1 o2 -> params_of_options o2 seed = params_of_options o1 seed.
  Proof.
    intros o1 o2 seed [Hd Hm Hc]. unfold params_of_options, term_params_of_options.
    assert (Hl : length (o_initial_mean o2) = length (o_initial_mean o1)) by (rewrite Hm; apply shift_length; exact Hd).
    rewrite !Hl. clear Hm Hc Hd Hl.
    repeat match goal with H : _ o1 = _ o2 |- _ => rewrite H; clear H end. reflexivity.
  Qed.

  Theorem C43_translation : forall rs now f o1 o2 l1 l2, moved_problem t o1 o2 -> filter loud l1 = filter loud l2 ->
    out_rel (sess_rel (fun a b => fst b = map (option_map (shift_data t)) (fst a) /\ moved_path (snd a) (snd b)))
      (session (log_ev ev) rs now (f, []) o1 l1) (session (log_ev moved) rs now (f, []) o2 l2).
  Proof.
    intros rs now f o1 o2 l1 l2 Hp Hl.
    assert (Hlen : length (o_initial_mean o2) = length (o_initial_mean o1)).
    { rewrite (mv_mean _ _ _ Hp). apply shift_length. apply (mv_dim _ _ _ Hp). }
    eapply out_rel_impl.
    { apply (session_sim (log_ev ev) (log_ev moved) (fun a b => shifted moved_log t a b /\ wf o1 a /\ wf o2 b)
               (fun a b => b = option_map (shift_data t) a) True same_call).
      - intros c1 c2 op [H1 [H2 H3]] Hq. destruct (quiet_step (log_ev ev) o1 c1 op H2 Hq) as [c' [Q1 [Q2 Q3]]].
        exists c'. split; auto. split; auto. eapply shifted_trans_l; eauto.
      - intros c1 c2 op [H1 [H2 H3]] Hq. destruct (quiet_step (log_ev moved) o2 c2 op H3 Hq) as [c' [Q1 [Q2 Q3]]].
        exists c'. split; auto. split; auto. eapply shifted_trans_r; eauto.
      - intros p1 t1 p2 t2 c1 c2 [-> ->] [H1 [H2 H3]]. eapply next_shift; eauto; [apply log_moved|apply (mv_dim _ _ _ Hp)].
      - intros _ a b ->. destruct a; cbn; split; congruence.
      - apply loud_matching. exact Hl.
      - apply new_sim.
        + unfold validate. rewrite Hlen, (mv_pop _ _ _ Hp), (mv_step _ _ _ Hp), (mv_cm _ _ _ Hp). reflexivity.
        + intros c1 c2 H1 H2. split; [|split; eapply new_wf; eauto].
          apply cmaes_new_inv in H1. apply cmaes_new_inv in H2. cbv zeta in H1, H2.
          destruct H1 as [_ [A1 [A2 [A3 [A4 [_ [_ [A5 _]]]]]]]], H2 as [_ [B1 [B2 [B3 [B4 [_ [_ [B5 _]]]]]]]].
          rewrite <- (mv_seed _ _ _ Hp) in B1, B2.
          constructor; rewrite ?A1, ?A2, ?A3, ?A4, ?A5, ?B1, ?B2, ?B3, ?B4, ?B5.
          * constructor; cbn; rewrite ?Hlen, ?(mv_max _ _ _ Hp), ?(mv_pop _ _ _ Hp); auto. split; reflexivity.
          * cbn. apply (mv_con _ _ _ Hp).
          * apply moved_params. exact Hp.
          * unfold state_new. rewrite Hlen, (mv_mean _ _ _ Hp), (mv_step _ _ _ Hp). reflexivity.
          * reflexivity.
          * reflexivity. }
    intros [[r1 c1]|e1] [[r2 c2]|e2]; cbn; try tauto. intros [H1 [[A1 A2 A3 A4 A5 A6] _]]. split.
    - clear -H1. induction H1 as [|a b r1 r2 Hab H IH]; cbn; auto. rewrite IH, Hab. reflexivity.
    - constructor; unfold mean, sigma, covariance_matrix, generation, current_best_individual, overall_best_individual; try (rewrite A4; reflexivity);
        try (rewrite A5; reflexivity).
      + apply (sr_obj _ _ _ A1).
      + symmetry. apply (sr_evals _ _ _ A1).
      + symmetry. apply (sr_rng _ _ _ A1).
  Qed.
End Moved.
Print Assumptions C43_translation.

(* examples: two generations; the second session uses threads, and two different reduction trees *)
Definition c33_plain : options xreal := xtoy_options [XFin 3; XFin 4].
Definition c33_threads : options xreal := apply_setters c33_plain [SParallelUpdate true; SEnablePrinting 3].
Definition c33_calls1 : list op := map (ONext false) [xtoy_tick RLeaf; xtoy_tick RLeaf].
Definition c33_calls2 : list op := map (ONext false) [xtoy_tick (RNode 0 RLeaf RLeaf); xtoy_tick (RNode 2 (RNode 1 RLeaf RLeaf) RLeaf)].
Example C33_sessions_case : eigen_shape (T := xreal) /\ same_problem (without_threads c33_plain) (without_threads c33_threads) /\
  matching True same_but_tree c33_calls1 c33_calls2 /\ o_parallel_update c33_threads <> o_parallel_update c33_plain /\
  exists l c, session xtoy_sphere 0 0 tt c33_plain c33_calls1 = Ret (inl (l, c)) /\ length l = 2.
Proof.
  split; [exact xtoy_eigen_shape|]. split; [constructor; reflexivity|]. split; [|split; [discriminate|]].
  - repeat (apply M_next; [repeat split|]). apply M_nil.
  - apply calls_return; [exact xtoy_eigen_shape|intros l; discriminate|apply xtoy_valid; discriminate|intros g x; eexists; reflexivity|discriminate|].
    repeat constructor; cbn; lia.
Qed.

(* the problem moved by (5, -7), with the constraint x_0 <= 3 moved along *)
Definition c43_meets : constraints xreal := fun x => Ret (x_leb (nth 0 x XNaN) (XFin 3)).
Definition c43_t : list R := [5%R; (-7)%R].
Definition c43_options : options xreal := apply_setters (xtoy_options [XFin 3; XFin 4]) [SConstraints c43_meets].
Definition c43_moved : options xreal :=
  apply_setters (xtoy_options (shift c43_t [XFin 3; XFin 4])) [SConstraints (fun x => c43_meets (unshift c43_t x)); SEnablePrinting 3].
Example C43_case : eigen_shape (T := xreal) /\ moved_problem c43_t c43_options c43_moved /\
  o_initial_mean c43_moved <> o_initial_mean c43_options /\
  exists l c, session (log_ev xtoy_sphere) 0 0 (tt, []) c43_options c33_calls1 = Ret (inl (l, c)) /\ length l = 2.
Proof.
  split; [exact xtoy_eigen_shape|]. split; [constructor; reflexivity|]. split.
  - cbn. intros H. injection H as H _. lra.
  - apply calls_return; [exact xtoy_eigen_shape|intros l; discriminate|apply (xtoy_valid [XFin 3; XFin 4]); discriminate|intros g x; eexists; reflexivity| |].
    + intros meets x H _. cbn in H. injection H as <-. eexists. reflexivity.
    + repeat constructor; cbn; lia.
Qed.
