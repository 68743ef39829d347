(* Two executions that differ in the clock (and in whatever is not used): generic comparison call by call. *)
From Coq Require Import List NArith ZArith Bool Arith Lia.
Require Import Verif.Base Verif.Num Verif.LinAlg Verif.Mode Verif.Weights Verif.Options Verif.Params Verif.Env
  Verif.State Verif.Sampling Verif.History Verif.Termination Verif.Plot Verif.Cmaes Verif.Lib Verif.Sort Verif.Spec
  Verif.BuildLemmas Verif.RelLemmas Verif.Session.
Import ListNotations.

(* the same calls in the same order; what the environment does during next and run is related by Rt *)
Inductive paired (Rt : bool -> tick -> bool -> tick -> Prop) : list op -> list op -> Prop :=
| Pa_nil : paired Rt [] []
| Pa_next : forall p1 t1 p2 t2 l1 l2, Rt p1 t1 p2 t2 -> paired Rt l1 l2 -> paired Rt (ONext p1 t1 :: l1) (ONext p2 t2 :: l2)
| Pa_run : forall p1 p2 fuel e1 e2 l1 l2, (forall k, Rt p1 (e1 k) p2 (e2 k)) -> paired Rt l1 l2 ->
    paired Rt (ORun p1 fuel e1 :: l1) (ORun p2 fuel e2 :: l2)
| Pa_quiet : forall o l1 l2, quiet o -> paired Rt l1 l2 -> paired Rt (o :: l1) (o :: l2).

Section Pair.
  Context {T : Type} {NT : Num T} {LT : Libm T} {E : Env T}.
  Context {F : Type} (ev : F -> vec T -> outcome (T * F)).
  Context (R : cmaes T F -> cmaes T F -> Prop) (Rt : bool -> tick -> bool -> tick -> Prop).
  Hypothesis Hgap : forall c1 c2, R c1 c2 -> c_print_gap c1 = c_print_gap c2.
  Hypothesis Hquiet : forall c1 c2 o, R c1 c2 -> quiet o -> out_rel R (step ev c1 o) (step ev c2 o).
  Hypothesis Hnext : forall p1 t1 p2 t2 c1 c2, Rt p1 t1 p2 t2 -> R c1 c2 ->
    out_rel (fun a b => fst a = fst b /\ R (snd a) (snd b)) (next ev p1 t1 c1) (next ev p2 t2 c2).

  Lemma paired_run : forall p1 p2 fuel e1 e2 c1 c2, (forall k, Rt p1 (e1 k) p2 (e2 k)) -> R c1 c2 ->
    out_rel (fun a b => fst a = fst b /\ R (snd a) (snd b)) (run ev p1 fuel e1 c1) (run ev p2 fuel e2 c2).
  Proof.
    intros p1 p2 fuel e1 e2 c1 c2 Ht Hc. unfold run.
    eapply (out_rel_bind (fun a b => fst a = fst b /\ R (snd a) (snd b))).
    - revert e1 e2 c1 c2 Ht Hc. induction fuel as [|fuel IH]; intros e1 e2 c1 c2 Ht Hc; cbn [run_loop]; [exact I|].
      eapply out_rel_bind; [apply Hnext; eauto|]. intros [r1 d1] [r2 d2] [X1 X2]. cbn [fst snd] in *. subst.
      destruct r2; [cbn; auto|]. apply IH; [intros k; apply (Ht (S k))|exact X2].
    - intros [d1 a] [d2 b] [X1 X2]. cbn [fst snd] in *. subst. unfold run_internal.
      eapply (out_rel_bind R).
      + eapply (out_rel_bind R); [apply (Hquiet a b OAddPlotPoint X2 I)|].
        intros x y Hxy. cbn [out_rel]. rewrite (Hgap _ _ Hxy). destruct (c_print_gap y); auto.
        apply (Hquiet x y (OPrintFinal (td_reasons d2)) Hxy I).
      + intros x y Hxy. cbn. auto.
  Qed.

  Lemma paired_transcript : forall l1 l2, paired Rt l1 l2 -> forall c1 c2, R c1 c2 ->
    out_rel (fun a b => fst a = fst b /\ R (snd a) (snd b)) (transcript ev c1 l1) (transcript ev c2 l2).
  Proof.
    intros l1 l2 Hp.
    induction Hp as [|p1 t1 p2 t2 l1 l2 Ht Hp IH|p1 p2 fuel e1 e2 l1 l2 Ht Hp IH|op l1 l2 Hq Hp IH]; intros c1 c2 Hc.
    - cbn. auto.
    - cbn [transcript]. eapply out_rel_bind; [apply Hnext; eauto|]. intros [r1 d1] [r2 d2] [X1 X2]. cbn [fst snd] in *. subst.
      eapply out_rel_bind; [apply IH; eauto|]. intros [s1 d3] [s2 d4] [X4 X5]. cbn in *. subst. auto.
    - cbn [transcript]. eapply out_rel_bind; [apply paired_run; eauto|]. intros [r1 d1] [r2 d2] [X1 X2]. cbn [fst snd] in *. subst.
      eapply out_rel_bind; [apply IH; eauto|]. intros [s1 d3] [s2 d4] [X4 X5]. cbn in *. subst. auto.
    - pose proof (Hquiet c1 c2 op Hc Hq) as Hs.
      destruct op; try contradiction; cbn [transcript]; (eapply out_rel_bind; [exact Hs|]); intros x y Hxy; apply IH; auto.
  Qed.
End Pair.

Section Clock.
  Context {T : Type} {NT : Num T} {LT : Libm T} {E : Env T}.
  Context {F : Type} (ev : F -> vec T -> outcome (T * F)).
  Context (o : options T) (now1 now2 : N).

  (* everything but the time of creation is equal *)
  Record timeless (c1 c2 : cmaes T F) : Prop := {
    tl_sampler : c_sampler c1 = c_sampler c2;
    tl_params : c_params c1 = c_params c2;
    tl_state : c_state c1 = c_state c2;
    tl_history : c_history c1 = c_history c2;
    tl_plot : c_plot c1 = c_plot c2;
    tl_gap : c_print_gap c1 = c_print_gap c2;
    tl_last : c_last_print c1 = c_last_print c2;
    tl_out : c_out c1 = c_out c2
  }.
  (* with what is known of the two optimisers *)
  Record timed (c1 c2 : cmaes T F) : Prop := {
    ti_same : timeless c1 c2;
    ti_1 : c_created c1 = now1;
    ti_2 : c_created c2 = now2;
    ti_time : tp_max_time (p_term (c_params c2)) = o_max_time o;
    ti_par : p_parallel_update (c_params c2) = o_parallel_update o
  }.

  (* one call of next made at different times: whether the time limit has passed must agree *)
  Definition other_time (p1 : bool) (t1 : tick) (p2 : bool) (t2 : tick) : Prop :=
    p1 = p2 /\ t_fuel t1 = t_fuel t2 /\ (p1 = true -> t_sched t1 = t_sched t2) /\
    (o_parallel_update o = true -> t_tree t1 = t_tree t2) /\
    match o_max_time o with
    | Some m => (m <=? t_now t1 - now1)%N = (m <=? t_now t2 - now2)%N
    | None => True
    end.

  Ltac tl H := destruct H as [[? ? ? ? ? ? ? ?] ? ? ? ?].
  Ltac done_tl := constructor; [constructor| | | |]; cbn; auto; congruence.

  Lemma sample_time : forall p1 t1 p2 t2 s m (sm : sampler T F), other_time p1 t1 p2 t2 ->
    sample ev p1 t1 s m sm = sample ev p2 t2 s m sm.
  Proof.
    intros p1 t1 p2 t2 s m sm [<- [H1 [H2 _]]]. unfold sample. rewrite H1.
    destruct p1; [rewrite H2; auto|reflexivity].
  Qed.
  Lemma update_time : forall p1 t1 p2 t2 evals p inds (s : state T), other_time p1 t1 p2 t2 ->
    p_parallel_update p = o_parallel_update o ->
    state_update (t_tree t1) evals p inds s = state_update (t_tree t2) evals p inds s.
  Proof.
    intros p1 t1 p2 t2 evals p inds s [_ [_ [_ [H _]]]] Hp. unfold state_update, calc_rank_mu. rewrite Hp.
    destruct (o_parallel_update o); [rewrite H; auto|reflexivity].
  Qed.
  Lemma check_time : forall p1 t1 p2 t2 evals (p : params T) s h inds, other_time p1 t1 p2 t2 ->
    tp_max_time (p_term p) = o_max_time o ->
    check_termination p evals now1 (t_now t1) s h inds = check_termination p evals now2 (t_now t2) s h inds.
  Proof.
    intros p1 t1 p2 t2 evals p s h inds [_ [_ [_ [_ H]]]] Hp.
    assert (Hm : check_max_time p now1 (t_now t1) = check_max_time p now2 (t_now t2)).
    { unfold check_max_time. rewrite Hp. destruct (o_max_time o); auto. }
    unfold check_termination. rewrite Hm. reflexivity.
  Qed.

  Lemma add_plot_time : forall c1 c2, timed c1 c2 -> out_rel timed (add_plot_point c1) (add_plot_point c2).
  Proof.
    intros c1 c2 H. unfold add_plot_point, function_evals. rewrite (tl_plot _ _ (ti_same _ _ H)), (tl_sampler _ _ (ti_same _ _ H)),
      (tl_state _ _ (ti_same _ _ H)), (tl_history _ _ (ti_same _ _ H)).
    destruct (c_plot c2); [|exact H]. destruct (plot_add_point _ _ _ _); cbn; auto. tl H. done_tl.
  Qed.
  Lemma clear_time : forall c1 c2, timed c1 c2 -> out_rel timed (clear_plot c1) (clear_plot c2).
  Proof.
    intros c1 c2 H. unfold clear_plot. rewrite (tl_plot _ _ (ti_same _ _ H)).
    destruct (c_plot c2); [|exact H]. destruct (plot_clear _); cbn; auto. tl H. done_tl.
  Qed.
  Lemma emit_time : forall c1 c2 l, timed c1 c2 -> timed (emit l c1) (emit l c2).
  Proof. intros c1 c2 l H. tl H. done_tl. Qed.
  Lemma last_time : forall c1 c2 n, timed c1 c2 -> timed (set_last_print n c1) (set_last_print n c2).
  Proof. intros c1 c2 l H. tl H. done_tl. Qed.
  Lemma print_info_time : forall c1 c2, timed c1 c2 -> timed (print_info c1) (print_info c2).
  Proof.
    intros c1 c2 H. unfold print_info, generation, function_evals.
    rewrite (tl_sampler _ _ (ti_same _ _ H)), (tl_state _ _ (ti_same _ _ H)). apply emit_time. auto.
  Qed.
  Lemma print_final_time : forall l c1 c2, timed c1 c2 -> timed (print_final_info l c1) (print_final_info l c2).
  Proof.
    intros l c1 c2 H. unfold print_final_info, function_evals. rewrite (tl_sampler _ _ (ti_same _ _ H)), (tl_last _ _ (ti_same _ _ H)).
    apply emit_time. destruct (_ =? _)%N; auto. apply print_info_time; auto.
  Qed.
  Lemma quiet_time : forall c1 c2 op, timed c1 c2 -> quiet op -> out_rel timed (step ev c1 op) (step ev c2 op).
  Proof.
    intros c1 c2 op H Hq. destruct op; try contradiction; cbn [step].
    - apply add_plot_time; auto.
    - apply clear_time; auto.
    - apply emit_time; auto.
    - apply print_info_time; auto.
    - apply print_final_time; auto.
  Qed.
  Lemma data_time : forall c1 c2 l, timed c1 c2 -> get_termination_data c1 l = get_termination_data c2 l.
  Proof.
    intros c1 c2 l H. unfold get_termination_data, current_best_individual, overall_best_individual, mean.
    rewrite (tl_history _ _ (ti_same _ _ H)), (tl_state _ _ (ti_same _ _ H)). reflexivity.
  Qed.

  Lemma next_time : forall p1 t1 p2 t2 c1 c2, other_time p1 t1 p2 t2 -> timed c1 c2 ->
    out_rel (fun a b => fst a = fst b /\ timed (snd a) (snd b)) (next ev p1 t1 c1) (next ev p2 t2 c2).
  Proof.
    intros p1 t1 p2 t2 c1 c2 Ht H. unfold next, cmaes_sample.
    rewrite (tl_sampler _ _ (ti_same _ _ H)), (tl_params _ _ (ti_same _ _ H)), (tl_state _ _ (ti_same _ _ H)), (tl_history _ _ (ti_same _ _ H)).
    rewrite (sample_time _ _ _ _ _ _ _ Ht).
    destruct (sample _ _ _ _ _ _) as [[[inds|] sm]| |]; cbn [obind out_rel]; auto.
    2: { split; cbn [fst snd]; [|tl H; done_tl]. apply f_equal. apply data_time. tl H. done_tl. }
    destruct (history_update _ _ _) as [h| |]; cbn [obind out_rel]; auto.
    match goal with |- out_rel _ (next_internal _ _ ?x) (next_internal _ _ ?y) => set (d1 := x); set (d2 := y) end.
    assert (Hd : timed d1 d2) by (tl H; done_tl). clearbody d1 d2. clear H c1 c2. rename Hd into H. unfold next_internal.
    assert (Hfe : function_evals d1 = function_evals d2) by (unfold function_evals; rewrite (tl_sampler _ _ (ti_same _ _ H)); reflexivity).
    rewrite Hfe, (tl_params _ _ (ti_same _ _ H)), (tl_state _ _ (ti_same _ _ H)).
    rewrite (update_time _ _ _ _ _ _ _ _ Ht (ti_par _ _ H)).
    destruct (state_update _ _ _ _ _) as [[ok st]| |]; cbn [obind out_rel]; auto.
    match goal with |- out_rel _ (if negb ok then Ret (_, ?d1) else _) (if negb ok then Ret (_, ?d2) else _) =>
      set (e1 := d1); set (e2 := d2) end.
    assert (He : timed e1 e2) by (tl H; done_tl).
    destruct ok; cbn [negb].
    2: { cbn [out_rel]. split; auto. cbn [fst]. f_equal. apply data_time. auto. }
    eapply (out_rel_bind timed).
    { rewrite (tl_plot _ _ (ti_same _ _ He)). destruct (c_plot e2) as [p|]; [|exact He].
      unfold generation, function_evals. rewrite (tl_state _ _ (ti_same _ _ He)), (tl_sampler _ _ (ti_same _ _ He)).
      destruct (_ || _); [apply add_plot_time; auto|exact He]. }
    clearbody e1 e2. clear H He. intros k1 k2 Hd.
    match goal with |- out_rel _ (obind (check_termination (c_params ?k1) _ _ _ _ _ _) _) (obind (check_termination (c_params ?k2) _ _ _ _ _ _) _) =>
      set (g1 := k1); set (g2 := k2) end.
    assert (Hg : timed g1 g2).
    { subst g1 g2. rewrite (tl_gap _ _ (ti_same _ _ Hd)). destruct (c_print_gap k2) as [gap|]; auto.
      unfold generation, function_evals. rewrite (tl_last _ _ (ti_same _ _ Hd)), (tl_sampler _ _ (ti_same _ _ Hd)), (tl_state _ _ (ti_same _ _ Hd)).
      destruct (wrapping_add (c_last_print k2) gap <=? _)%N; [apply last_time, print_info_time; auto|].
      destruct (_ <? _)%N; auto. apply print_info_time; auto. }
    clearbody g1 g2. unfold function_evals.
    rewrite (tl_sampler _ _ (ti_same _ _ Hg)), (tl_params _ _ (ti_same _ _ Hg)), (tl_state _ _ (ti_same _ _ Hg)), (tl_history _ _ (ti_same _ _ Hg)), (ti_1 _ _ Hg), (ti_2 _ _ Hg).
    rewrite (check_time _ _ _ _ _ _ _ _ _ Ht (ti_time _ _ Hg)).
    destruct (check_termination _ _ _ _ _ _ _) as [[|r rs]| |]; cbn; auto.
    split; auto. f_equal. apply (data_time _ _ (r :: rs)). auto.
  Qed.

  Lemma new_time : forall rs1 rs2 f, o_seed o <> None \/ rs1 = rs2 ->
    out_rel (sess_rel timed) (cmaes_new rs1 now1 f o) (cmaes_new rs2 now2 f o).
  Proof.
    intros rs1 rs2 f Hs. unfold cmaes_new. destruct (validate o); [reflexivity|].
    assert (He : match o_seed o with Some s => s | None => rs1 end = match o_seed o with Some s => s | None => rs2 end).
    { destruct (o_seed o); auto. destruct Hs; congruence. }
    rewrite He. eapply (out_rel_bind timed).
    - apply add_plot_time. constructor; [constructor| | | |]; reflexivity.
    - intros c1 c2 H. cbn. rewrite (tl_gap _ _ (ti_same _ _ H)). destruct (c_print_gap c2); auto. apply emit_time. auto.
  Qed.
End Clock.
