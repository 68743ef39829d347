(* Two optimisers whose objectives rank the points in the same way. *)
From Coq Require Import List NArith ZArith Bool Arith Lia Permutation.
Require Import Verif.Base Verif.Num Verif.LinAlg Verif.Mode Verif.Weights Verif.Options Verif.Params Verif.Env
  Verif.State Verif.Sampling Verif.History Verif.Termination Verif.Plot Verif.Cmaes Verif.Lib
  Verif.NextInv Verif.Spec Verif.LogLemmas Verif.TraceLemmas Verif.BuildLemmas Verif.Sort Verif.PanicLemmas Verif.NextSafe
  Verif.RelLemmas Verif.TermLemmas Verif.Session.
Import ListNotations.

Section Sim.
  Context {T : Type} {NT : Num T} {CL : CastLaws T} {LT : Libm T} {E : Env T}.
  Hypothesis Heig : eigen_shape (T := T).
  Context {F1 F2 : Type} (ev1 : F1 -> vec T -> outcome (T * F1)) (ev2 : F2 -> vec T -> outcome (T * F2)).
  Context (Rf : F1 -> F2 -> Prop) (Rv Rm : T -> T -> Prop) (m1 m2 : mode).
  Context (Rterm : term_params T -> term_params T -> Prop) (Rs : list reason -> list reason -> Prop).

  Definition number (x : T) : Prop := nis_nan x = false.

  Hypothesis Hev : forall x f1 f2, Rf f1 f2 -> out_rel (fun a b => Rv (fst a) (fst b) /\ Rf (snd a) (snd b)) (ev1 f1 x) (ev2 f2 x).
  Hypothesis Hnan : forall a b, Rv a b -> nis_nan a = nis_nan b.
  Hypothesis Hcmp : forall a1 a2 b1 b2, Rv a1 a2 -> Rv b1 b2 -> number a1 -> number b1 -> sort_cmp m1 a1 b1 = sort_cmp m2 a2 b2.
  Hypothesis Hbet : forall a1 a2 b1 b2, Rv a1 a2 -> Rv b1 b2 -> number a1 -> number b1 -> is_better m1 a1 b1 = is_better m2 a2 b2.
  Hypothesis Hmed1 : forall a1 a2, Rv a1 a2 -> number a1 -> Rm a1 a2.
  Context (lambda : nat) (free : Prop).
  Hypothesis Hmed2 : Nat.even lambda = true -> forall a1 a2 b1 b2, Rv a1 a2 -> Rv b1 b2 -> number a1 -> number b1 ->
    Rm (ndiv (nadd a1 b1) n2) (ndiv (nadd a2 b2) n2).
  Hypothesis Hchoose : forall a1 a2 b1 b2, Rm a1 a2 -> Rm b1 b2 -> Rm (choose_best m1 a1 b1) (choose_best m2 a2 b2).

  Definition pt_rel (a b : point T) : Prop :=
    pt_point a = pt_point b /\ pt_step a = pt_step b /\ Rv (pt_value a) (pt_value b) /\ number (pt_value a).
  Definition ind_rel (a b : individual T) : Prop :=
    i_point a = i_point b /\ Rv (i_value a) (i_value b) /\ number (i_value a).

  Record hist_rel (h1 h2 : history T) : Prop := {
    hr_best : Forall2 (fun a b => Rv a b /\ number a) (h_best_values h1) (h_best_values h2);
    hr_median : Forall2 Rm (h_median_values h1) (h_median_values h2);
    hr_cur : opt_rel ind_rel (h_current_best h1) (h_current_best h2);
    hr_all : opt_rel ind_rel (h_overall_best h1) (h_overall_best h2);
    hr_first : opt_rel Rm (h_first_median h1) (h_first_median h2);
    hr_bestmed : opt_rel Rm (h_best_median h1) (h_best_median h2)
  }.

  (* parameters that differ only in the mode and the termination parameters *)
  Definition with_goal (m : mode) (t : term_params T) (p : params T) : params T :=
    mkParams m (p_dim p) (p_lambda p) (p_mu p) (p_initial_sigma p) (p_mu_eff p) (p_weights p) (p_weights_setting p)
      (p_cc p) (p_c1 p) (p_cs p) (p_cmu p) (p_cm p) (p_damp_s p) t (p_seed p) (p_parallel_update p).
  Record params_rel (p1 p2 : params T) : Prop := {
    pr_mode1 : p_mode p1 = m1;
    pr_mode2 : p_mode p2 = m2;
    pr_same : p2 = with_goal m2 (p_term p2) p1;
    pr_term : Rterm (p_term p1) (p_term p2)
  }.
  Lemma update_goal : forall tree evals m t p inds s,
    state_update tree evals (with_goal m t p) inds s = state_update tree evals p inds s.
  Proof. reflexivity. Qed.

  Hypothesis Hcheck : forall p1 p2 evals created now s h1 h2 i1 i2 r1 r2,
    params_rel p1 p2 -> hist_rel h1 h2 -> Forall2 pt_rel i1 i2 ->
    check_termination p1 evals created now s h1 i1 = Ret r1 -> check_termination p2 evals created now s h2 i2 = Ret r2 -> Rs r1 r2.
  (* the medians of the two histories can be computed *)
  Hypothesis Hmedians : free \/ medians_return (T := T) \/ forall a b, Rm a b -> number a /\ number b.
  Hypothesis Hnanr : Rs [InvalidFunctionValue] [InvalidFunctionValue].
  Hypothesis Hposdef : Rs [PosDefCov] [PosDefCov].

  Record similar (c1 : cmaes T F1) (c2 : cmaes T F2) : Prop := {
    si_sm : sampler_rel Rf (c_sampler c1) (c_sampler c2);
    si_con : sm_constraints (c_sampler c1) = sm_constraints (c_sampler c2);
    si_params : params_rel (c_params c1) (c_params c2);
    si_state : c_state c1 = c_state c2;
    si_hist : hist_rel (c_history c1) (c_history c2);
    si_created : c_created c1 = c_created c2
  }.

  Definition reply_rel (r1 r2 : option (term_data T)) : Prop :=
    match r1, r2 with
    | Some d1, Some d2 =>
        opt_rel ind_rel (td_current_best d1) (td_current_best d2) /\ opt_rel ind_rel (td_overall_best d1) (td_overall_best d2) /\
        td_final_mean d1 = td_final_mean d2 /\ Rs (td_reasons d1) (td_reasons d2)
    | None, None => True
    | Some d1, None => td_reasons d1 <> [] /\ Rs (td_reasons d1) []
    | None, Some d2 => td_reasons d2 <> [] /\ Rs [] (td_reasons d2)
    end.

  Lemma evaluate_point_sim : forall s y f1 f2, Rf f1 f2 ->
    out_rel (pair_rel Rf (opt_rel pt_rel)) (evaluate_point ev1 s y f1) (evaluate_point ev2 s y f2).
  Proof.
    intros s y f1 f2 Hf. unfold evaluate_point. destruct (to_point _ _ _) as [x| |]; simpl; auto.
    eapply out_rel_bind; [apply Hev; exact Hf|]. intros [v1 g1] [v2 g2] [Hv Hg]. simpl in *.
    split; simpl; auto. rewrite <- (Hnan _ _ Hv). destruct (nis_nan v1) eqn:En; simpl; auto.
    repeat split; auto.
  Qed.

  Lemma push_rel : forall {R : T -> T -> Prop} a b l1 l2, R a b -> Forall2 R l1 l2 -> Forall2 R (push_bounded a l1) (push_bounded b l2).
  Proof.
    intros R a b l1 l2 Hab Hl. unfold push_bounded. rewrite <- (Forall2_length' _ _ _ (Forall2_cons _ _ Hab Hl)).
    assert (G : forall l1 l2, Forall2 R l1 l2 -> Forall2 R (removelast l1) (removelast l2)).
    { clear. induction 1 as [|x y l1 l2 Hxy H IH]; simpl; auto. destruct H; auto. }
    destruct (_ <? _)%N; [apply G|]; constructor; auto.
  Qed.

  Lemma median_rel : forall l1 l2, length l1 = lambda -> Forall2 pt_rel l1 l2 -> out_rel Rm (get_median_value l1) (get_median_value l2).
  Proof.
    intros l1 l2 Hlen H. unfold get_median_value. rewrite <- (Forall2_length' _ _ _ H).
    pose proof (fun i => index_rel _ _ _ i H) as Hi. destruct (Nat.even (length l1)) eqn:Hpar.
    - destruct (length l1 / 2) as [|k] eqn:Ek; [reflexivity|].
      eapply out_rel_bind; [apply Hi|]. intros a1 a2 [_ [_ [A1 A2]]]. eapply out_rel_bind; [apply Hi|].
      intros b1 b2 [_ [_ [B1 B2]]]. simpl. apply Hmed2; auto. rewrite <- Hlen. exact Hpar.
    - eapply out_rel_bind; [apply Hi|]. intros a1 a2 [_ [_ [A1 A2]]]. simpl. auto.
  Qed.
  Lemma history_rel : forall l1 l2 h1 h2, length l1 = lambda -> Forall2 pt_rel l1 l2 -> hist_rel h1 h2 ->
    out_rel hist_rel (history_update m1 l1 h1) (history_update m2 l2 h2).
  Proof.
    intros l1 l2 h1 h2 Hlen H [H1 H2 H3 H4 H5 H6]. unfold history_update.
    eapply out_rel_bind; [apply (index_rel _ _ _ 0 H)|]. intros a1 a2 [A1 [_ [A3 A4]]].
    eapply out_rel_bind; [apply median_rel; [exact Hlen|exact H]|]. intros b1 b2 B. simpl.
    assert (Hi : ind_rel (mkIndividual (pt_point a1) (pt_value a1)) (mkIndividual (pt_point a2) (pt_value a2))) by (split; auto).
    constructor; simpl; auto.
    - apply push_rel; auto.
    - apply push_rel; auto.
    - destruct (h_overall_best h1) as [o1|], (h_overall_best h2) as [o2|]; simpl in *; try contradiction; auto.
      destruct H4 as [O1 [O2 O3]]. rewrite (Hbet _ _ _ _ A3 O2 A4 O3). destruct (is_better m2 _ _); simpl; auto. repeat split; auto.
    - destruct (h_first_median h1), (h_first_median h2); simpl in *; try contradiction; auto.
    - destruct (h_best_median h1), (h_best_median h2); simpl in *; try contradiction; auto.
  Qed.

  Lemma cmaes_sample_sim : forall par tk c1 c2, similar c1 c2 -> N.to_nat (sm_population_size (c_sampler c1)) = lambda ->
    out_rel (fun r1 r2 => opt_rel (Forall2 pt_rel) (fst r1) (fst r2) /\ similar (snd r1) (snd r2))
      (cmaes_sample ev1 par tk c1) (cmaes_sample ev2 par tk c2).
  Proof.
    intros par tk c1 c2 [A1 A2 A3 A4 A5 A6] Hlam. unfold cmaes_sample. rewrite (pr_mode1 _ _ A3), (pr_mode2 _ _ A3), A4.
    assert (G' : out_rel (fun r1 r2 => opt_rel (Forall2 pt_rel) (fst r1) (fst r2) /\ sampler_rel Rf (snd r1) (snd r2) /\
        sm_constraints (snd r1) = sm_constraints (c_sampler c1) /\ sm_constraints (snd r2) = sm_constraints (c_sampler c2))
      (sample ev1 par tk (c_state c2) m1 (c_sampler c1)) (sample ev2 par tk (c_state c2) m2 (c_sampler c2))).
    { apply (sample_rel ev1 ev2 Rf pt_rel (c_state c2) (c_state c2) (evaluate_point_sim _) par tk m1 m2); auto.
      - intros y. rewrite A2. reflexivity.
      - intros a1 a2 b1 b2 [_ [_ [P1 P2]]] [_ [_ [Q1 Q2]]]. apply Hcmp; auto. }
 destruct (sample ev1 par tk (c_state c2) m1 (c_sampler c1)) as [[[l1|] sm1]| |] eqn:E1,
      (sample ev2 par tk (c_state c2) m2 (c_sampler c2)) as [[[l2|] sm2]| |]; cbn [out_rel obind] in *; try contradiction; auto;
      destruct G' as [Hl [Hs [Hc1 Hc2]]]; simpl in Hl, Hs, Hc1, Hc2; try contradiction.
    - assert (Hlen : length l1 = lambda).
      { apply sample_Some in E1. destruct E1 as [ys [g [f [pts [_ [Hy [_ [Hf [-> _]]]]]]]]]. rewrite sort_by_length.
        apply Forall2_len in Hf. rewrite <- Hf, Hy. exact Hlam. }
      eapply out_rel_bind; [apply history_rel; eauto|]. intros h1 h2 Hh. simpl. split; auto. constructor; simpl; auto. congruence.
    - split; auto. constructor; simpl; auto. congruence.
  Qed.

  Lemma next_sim : forall o1 o2 par tk c1 c2, similar c1 c2 -> wf o1 c1 -> wf o2 c2 -> pop o1 = lambda ->
    out_relp free (fun a b => reply_rel (fst a) (fst b) /\ (similar (snd a) (snd b) /\ wf o1 (snd a) /\ wf o2 (snd b)))
      (next ev1 par tk c1) (next ev2 par tk c2).
  Proof.
    intros o1 o2 par tk c1 c2 Hs Hw1 Hw2 Hlam.
    assert (G := cmaes_sample_sim par tk c1 c2 Hs). rewrite (wf_sm_pop _ _ Hw1) in G. specialize (G Hlam).
    unfold next. destruct (cmaes_sample ev1 par tk c1) as [[r1 d1]| |] eqn:E1, (cmaes_sample ev2 par tk c2) as [[r2 d2]| |] eqn:E2;
      cbn [out_rel out_relp obind] in *; try contradiction; auto.
    destruct G as [G1 G2]. cbn [fst snd] in *.
    destruct (sampled_wf ev1 o1 par tk c1 r1 d1 Hw1 E1) as [W1 I1]. destruct (sampled_wf ev2 o2 par tk c2 r2 d2 Hw2 E2) as [W2 I2].
    destruct r1 as [i1|], r2 as [i2|]; cbn [opt_rel] in G1; try contradiction.
    - destruct (next_internal_core Heig o1 d1 tk i1 W1 I1) as [e1 [ok1 [N1 [V1 D1]]]].
      destruct (next_internal_core Heig o2 d2 tk i2 W2 I2) as [e2 [ok2 [N2 [V2 D2]]]].
      rewrite N1, N2. clear N1 N2. destruct D1, D2. destruct G2 as [B1 B2 B3 B4 B5 B6].
      assert (Fe : function_evals d1 = function_evals d2) by apply B1.
      rewrite (pr_same _ _ B3) in cd_state0. rewrite update_goal in cd_state0.
      rewrite <- Fe, <- B4 in cd_state0.
      rewrite <- (state_update_rel (t_tree tk) (function_evals d1) (c_params d1) i1 i2 (c_state d1)) in cd_state0.
      2: { clear -G1. induction G1 as [|a b l1 l2 H G1 IH]; constructor; auto. apply H. }
      pose proof (eq_trans (eq_sym cd_state) cd_state0) as Hst.
      apply Ret_inj in Hst. injection Hst as Hok Hst. subst ok2.
      assert (Hsim : similar e1 e2) by (constructor; congruence).
      assert (Hr : forall rs1 rs2, core_check tk i1 d1 e1 ok1 = Ret rs1 -> core_check tk i2 d2 e2 ok1 = Ret rs2 -> Rs rs1 rs2).
      { intros rs1 rs2 R1 R2. unfold core_check in R1, R2. destruct ok1; [|congruence]. rewrite <- Fe, <- B6, <- Hst in R2. eapply Hcheck; eauto. }
      eapply (out_relp_bind free Rs).
      { destruct Hmedians as [Hf|Hm].
        - destruct (core_check tk i1 d1 e1 ok1) eqn:R1, (core_check tk i2 d2 e2 ok1) eqn:R2; cbn; auto.
        - assert (Hcalm : (medians_return (T := T) \/ calm (c_history d1)) /\ (medians_return (T := T) \/ calm (c_history d2))).
          { destruct Hm as [Hm|Hm]; [auto|]. pose proof (hr_median _ _ B5) as Hf. unfold calm. split; right.
            - induction Hf as [|a b la lb Hab Hf IH]; constructor; auto. apply (Hm _ _ Hab).
            - induction Hf as [|a b la lb Hab Hf IH]; constructor; auto. apply (Hm _ _ Hab). }
          destruct (core_check_returns o1 d1 tk i1 e1 ok1 W1 I1 V1 (proj1 Hcalm)) as [rs1 R1].
          destruct (core_check_returns o2 d2 tk i2 e2 ok1 W2 I2 V2 (proj2 Hcalm)) as [rs2 R2].
          rewrite R1, R2. cbn [out_relp]. auto. }
      clear Hr. intros rs1 rs2 Hr. cbn [out_relp fst snd].
      split; [|auto].
      unfold reply. destruct rs1 as [|x1 l1], rs2 as [|x2 l2]; cbn [reply_rel]; auto.
      + split; [discriminate|exact Hr].
      + split; [discriminate|exact Hr].
      + unfold get_termination_data, current_best_individual, overall_best_individual, mean. cbn.
        destruct Hsim as [_ _ _ S4 S5 _]. rewrite S4. repeat split; auto; apply S5.
    - cbn. split; [|auto]. destruct G2 as [_ _ _ S4 S5 _]. unfold current_best_individual, overall_best_individual, mean.
      rewrite S4. repeat split; auto; apply S5.
  Qed.

  Lemma similar_trans_l : forall a b c, same_core a b -> similar b c -> similar a c.
  Proof. intros a b c [A1 [A2 [A3 [A4 [A5 _]]]]] []. constructor; congruence. Qed.
  Lemma similar_trans_r : forall a b c, similar a b -> same_core c b -> similar a c.
  Proof. intros a b c [] [A1 [A2 [A3 [A4 [A5 _]]]]]. constructor; congruence. Qed.

  (* whole sessions *)
  Lemma session_similar : forall (runs : Prop) rs now f1 f2 o1 o2 l1 l2,
    (runs -> forall a b, reply_rel a b -> (a = None <-> b = None)) -> matching runs same_call l1 l2 ->
    validate o1 = validate o2 -> pop o1 = lambda ->
    (forall c1 c2, cmaes_new rs now f1 o1 = Ret (inl c1) -> cmaes_new rs now f2 o2 = Ret (inl c2) -> similar c1 c2) ->
    out_relp free (sess_rel (fun a b => Forall2 reply_rel (fst a) (fst b) /\ similar (snd a) (snd b)))
      (session ev1 rs now f1 o1 l1) (session ev2 rs now f2 o2 l2).
  Proof.
    intros runs rs now f1 f2 o1 o2 l1 l2 Hr Hm Hv Hlam Hc. eapply out_relp_impl.
    { apply (session_simp ev1 ev2 (fun a b => similar a b /\ wf o1 a /\ wf o2 b) reply_rel free runs same_call).
      - intros c1 c2 op [H1 [H2 H3]] Hq. destruct (quiet_step ev1 o1 c1 op H2 Hq) as [c' [Q1 [Q2 Q3]]].
        exists c'. split; auto. split; auto. eapply similar_trans_l; eauto.
      - intros c1 c2 op [H1 [H2 H3]] Hq. destruct (quiet_step ev2 o2 c2 op H3 Hq) as [c' [Q1 [Q2 Q3]]].
        exists c'. split; auto. split; auto. eapply similar_trans_r; eauto.
      - intros p1 t1 p2 t2 c1 c2 [-> ->] [H1 [H2 H3]]. apply next_sim; auto.
      - exact Hr.
      - exact Hm.
      - pose proof (cmaes_new_outcome rs now f1 o1) as H1. pose proof (cmaes_new_outcome rs now f2 o2) as H2. rewrite <- Hv in H2.
        destruct (validate o1).
        + rewrite H1, H2. reflexivity.
        + destruct H1 as [c1 H1], H2 as [c2 H2]. rewrite H1, H2. simpl. split; auto. split; eapply new_wf; eauto. }
    intros [[r1 c1]|e1] [[r2 c2]|e2]; cbn; tauto.
  Qed.
End Sim.
