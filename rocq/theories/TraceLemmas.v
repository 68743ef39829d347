(* Lemmas about calls of next seen through the record of objective calls, and about traces. *)
From Coq Require Import List NArith ZArith Bool Arith Lia Permutation.
Require Import Verif.Base Verif.Num Verif.LinAlg Verif.Mode Verif.Weights Verif.Options Verif.Params Verif.Env
  Verif.State Verif.Sampling Verif.History Verif.Termination Verif.Plot Verif.Cmaes Verif.Lib Verif.NextInv
  Verif.Spec Verif.LogLemmas.
Import ListNotations.

Section Reasons.
  Context {T : Type} {NT : Num T} {E : Env T}.

  Lemma push_if_In : forall b r x, In x (push_if b r) <-> b = true /\ x = r.
  Proof. intros [] r x; simpl; intuition congruence. Qed.

  (* The possible reasons of check_termination, in the order in which they are pushed. *)
  Lemma check_termination_inv : forall p evals created now (s : state T) h inds l,
    check_termination p evals created now s h inds = Ret l ->
    exists l5 tx nea nec ts txu,
      check_tol_fun p h inds = Ret l5 /\ check_tol_x p s = Ret tx /\ check_no_effect_axis p s = Ret nea /\
      check_no_effect_coord p s = Ret nec /\ check_tol_stagnation p s h = Ret ts /\
      check_tol_x_up p s = Ret txu /\
      l = push_if (check_max_evals p evals) MaxFunctionEvals
          ++ push_if (check_max_generations p s) MaxGenerations
          ++ push_if (check_max_time p created now) MaxTime
          ++ push_if (check_fun_target p inds) FunTarget
          ++ l5 ++ push_if tx TolX ++ push_if (check_condition_cov p s) TolConditionCov
          ++ push_if nea NoEffectAxis ++ push_if nec NoEffectCoord ++ push_if ts TolStagnation
          ++ push_if txu TolXUp.
  Proof.
    intros p evals created now s h inds l H. unfold check_termination in H.
    oinv H. oinv H. oinv H. oinv H. oinv H. oinv H. inversion H; subst.
    exists a, a0, a1, a2, a3, a4. repeat (split; auto).
  Qed.

  Lemma check_tol_fun_inv : forall p (h : history T) inds l,
    check_tol_fun p h inds = Ret l ->
    exists b1 b2 b3, l = push_if b1 TolFunHist ++ push_if b2 TolFun ++ push_if b3 TolFunRel.
  Proof.
    intros p h inds l H. unfold check_tol_fun in H.
    destruct (past_generations p <=? _)%N.
    - oinv H. oinv H. inversion H; subst. clear H.
      destruct (h_first_median h), (h_best_median h).
      + eexists _, _, _. reflexivity.
      + eexists _, _, false. simpl. reflexivity.
      + eexists _, _, false. simpl. reflexivity.
      + eexists _, _, false. simpl. reflexivity.
    - inversion H. exists false, false, false. reflexivity.
  Qed.

  Lemma push_all_NoDup : forall l : list (bool * reason),
    NoDup (map snd l) -> NoDup (flat_map (fun br => push_if (fst br) (snd br)) l).
  Proof.
    induction l as [|[b r] l IH]; simpl; intros H; [constructor|]. inversion H; subst.
    destruct b; simpl; auto. constructor; auto.
    rewrite in_flat_map. intros [[b' r'] [H1 H4]]. apply push_if_In in H4. simpl in H4. destruct H4 as [_ ->].
    apply H2. apply in_map_iff. exists (b', r'). auto.
  Qed.

  Lemma check_termination_NoDup : forall p evals created now (s : state T) h inds l,
    check_termination p evals created now s h inds = Ret l ->
    NoDup l /\ ~ In InvalidFunctionValue l /\ ~ In PosDefCov l.
  Proof.
    intros p evals created now s h inds l H. apply check_termination_inv in H.
    destruct H as [l5 [tx [nea [nec [ts [txu [H5 [_ [_ [_ [_ [_ ->]]]]]]]]]]]].
    apply check_tol_fun_inv in H5. destruct H5 as [b1 [b2 [b3 ->]]].
    generalize (check_max_evals p evals), (check_max_generations p s), (check_max_time p created now),
      (check_fun_target p inds), (check_condition_cov p s).
    intros c1 c2 c3 c4 c5.
    split.
    - match goal with |- NoDup ?l =>
        replace l with (flat_map (fun br => push_if (fst br) (snd br))
          [(c1, MaxFunctionEvals); (c2, MaxGenerations); (c3, MaxTime); (c4, FunTarget); (b1, TolFunHist);
           (b2, TolFun); (b3, TolFunRel); (tx, TolX); (c5, TolConditionCov); (nea, NoEffectAxis);
           (nec, NoEffectCoord); (ts, TolStagnation); (txu, TolXUp)])
          by (cbn [flat_map fst snd]; rewrite app_nil_r, <- !app_assoc; reflexivity)
      end.
      apply push_all_NoDup. cbn [map snd].
      repeat (constructor; [simpl; intuition discriminate|]). constructor.
    - repeat rewrite in_app_iff. repeat rewrite push_if_In. intuition discriminate.
  Qed.
End Reasons.

Section Trace.
  Context {T : Type} {NT : Num T} {LT : Libm T} {E : Env T}.
  Context {F : Type} (ev : F -> vec T -> outcome (T * F)).

  Lemma reports_true : forall x (r : option (term_data T)),
    reports x r = true <-> exists d, r = Some d /\ In x (td_reasons d).
  Proof.
    intros x [d|]; simpl; split; intros H.
    - destruct (in_dec reason_eq_dec x (td_reasons d)); [eauto|discriminate].
    - destruct H as [d' [H1 H2]]. inversion H1; subst. destruct (in_dec reason_eq_dec x (td_reasons d')); auto.
    - discriminate.
    - destruct H as [d' [H1 H2]]. discriminate.
  Qed.

  (* the reasons of a call that completed normally *)
  Lemma reports_done : forall {F'} x (c' : cmaes T F') reasons,
    reports x (match reasons with [] => None | _ => Some (get_termination_data c' reasons) end) = true
    <-> In x reasons.
  Proof.
    intros F' x c' reasons. rewrite reports_true. destruct reasons as [|a l].
    - split; [intros [d [H _]]; discriminate | intros []].
    - split.
      + intros [d [H1 H2]]. inversion H1; subst. exact H2.
      + intros H. eexists. split; [reflexivity|]. exact H.
  Qed.

  Lemma reports_done_false : forall {F'} x (c' : cmaes T F') reasons,
    ~ In x reasons ->
    reports x (match reasons with [] => None | _ => Some (get_termination_data c' reasons) end) = false.
  Proof.
    intros F' x c' reasons H. destruct (reports x _) eqn:R; auto. apply (proj1 (reports_done x c' reasons)) in R. contradiction.
  Qed.

  (* ---- one call of next, seen through the log ---- *)

  (* how the new entries relate to the points of the generation in the order of their indices *)
  Definition in_order (par : bool) (pts new : list (entry T)) : Prop :=
    Permutation pts new /\ (par = false -> pts = new).

  Lemma sample_log : forall par tk s m (sm : sampler T (F * list (entry T))) r sm',
    sample (log_ev ev) par tk s m sm = Ret (r, sm') ->
    exists cands out new,
      let g := sm_rng sm in let dim := sm_dim sm in
      rounds (acceptance (sm_constraints sm) (sm_max_resamples sm)) (N.to_nat (sm_population_size sm)) 0 0 cands out /\
      concat cands = map (fun k => transformed s (normals dim g k)) (seq 0 (length (concat cands))) /\
      sm_rng sm' = rng_after (length (concat cands) * dim) g /\
      snd (sm_objective sm') = snd (sm_objective sm) ++ new /\
      match r with
      | Some inds =>
          exists pts, map fst (map pt_entry pts) = out /\ in_order par (map pt_entry pts) new /\
            Forall (fun p => nis_nan (pt_value p) = false) pts /\
            inds = sort_by (fun a b => sort_cmp m (pt_value a) (pt_value b)) pts
      | None =>
          Exists (fun e => nis_nan (snd e) = true) new /\
          exists rest, exists all, Permutation all out /\ (par = false -> all = out) /\ all = map fst new ++ rest /\
          (par = false -> exists pre x v, new = pre ++ [(x, v)] /\ Forall (fun e => nis_nan (snd e) = false) pre)
      end.
  Proof.
    intros par tk s m sm r sm' H. apply sample_inv in H. destruct H as [ys [g [f [Hr Hc]]]].
    apply resample_spec in Hr. destruct Hr as [cands [out [H1 [H2 [H3 H4]]]]]. simpl in H2. subst ys.
    assert (Hrounds : rounds (acceptance (sm_constraints sm) (sm_max_resamples sm))
              (N.to_nat (sm_population_size sm)) 0 0 (map (map (pt_of s)) cands) (map (pt_of s) out)).
    { eapply rounds_map; [|exact H1]. reflexivity. }
    assert (Hcc : concat (map (map (pt_of s)) cands) = map (pt_of s) (concat cands)) by (symmetry; apply concat_map).
    assert (Hstream : concat (map (map (pt_of s)) cands)
              = map (fun k => transformed s (normals (sm_dim sm) (sm_rng sm) k))
                    (seq 0 (length (concat (map (map (pt_of s)) cands))))).
    { rewrite Hcc, map_length. rewrite H3 at 1. rewrite map_map. reflexivity. }
    exists (map (map (pt_of s)) cands), (map (pt_of s) out).
    assert (Hg : g = rng_after (length (concat (map (map (pt_of s)) cands)) * sm_dim sm) (sm_rng sm))
      by (rewrite Hcc, map_length; exact H4).
    clear H4.
    destruct Hc as [[Hn [He Hs]]|[pts [He [Hn Hs]]]]; subst r sm'; simpl sm_rng; simpl sm_objective.
    - destruct par; simpl in He.
      + apply evaluate_par_log in He. destruct He as [new [Hl [Hf [Hd Hx]]]].
        exists new. repeat (split; auto).
        (* the evaluated indices, then the others *)
        set (idx := t_sched tk) in *.
        set (others := filter (fun i => negb (existsb (Nat.eqb i) idx)) (seq 0 (length out))).
        exists (map (pt_of s) (flat_map (fun i => match nth_error out i with Some y => [y] | None => [] end) others)).
        exists (map fst new ++ map (pt_of s) (flat_map (fun i => match nth_error out i with Some y => [y] | None => [] end) others)).
        split; [|split; [discriminate|split; [reflexivity|discriminate]]].
        assert (Hin : forall i, In i idx -> i < length out).
        { clear -Hf. induction Hf as [|i e l l' Hie _ IH]; intros j Hj; [destruct Hj|].
          destruct Hj as [->|Hj]; auto. destruct Hie as [y [Hy _]].
          apply nth_error_Some. congruence. }
        assert (Hnew : map fst new = map (pt_of s) (flat_map (fun i => match nth_error out i with Some y => [y] | None => [] end) idx)).
        { clear -Hf. induction Hf as [|i e l l' Hie _ IH]; simpl; auto.
          destruct Hie as [y [Hy Hfe]]. rewrite Hy. simpl. rewrite Hfe, IH. reflexivity. }
        rewrite Hnew, <- map_app, <- flat_map_app. apply Permutation_map.
        assert (Hperm : Permutation (idx ++ others) (seq 0 (length out))).
        { apply NoDup_Permutation.
          - apply NoDup_app_intro; auto.
            + apply NoDup_filter, seq_NoDup.
            + intros i Hi Ho. apply filter_In in Ho. destruct Ho as [_ Ho].
              apply negb_true_iff in Ho. assert (existsb (Nat.eqb i) idx = true); [|congruence].
              apply existsb_exists. exists i. rewrite Nat.eqb_refl. auto.
          - apply seq_NoDup.
          - intros i. rewrite in_app_iff, in_seq. split.
            + intros [Hi|Hi]; [apply Hin in Hi; lia|]. apply filter_In in Hi. destruct Hi as [Hi _].
              apply in_seq in Hi. lia.
            + intros Hi. destruct (existsb (Nat.eqb i) idx) eqn:Ex.
              * left. apply existsb_exists in Ex. destruct Ex as [j [Hj Hij]]. apply Nat.eqb_eq in Hij. congruence.
              * right. apply filter_In. rewrite Ex. split; auto. apply in_seq. lia. }
        apply Permutation_flat_map with (g := fun i => match nth_error out i with Some y => [y] | None => [] end) in Hperm.
        etransitivity; [exact Hperm|].
        assert (Hid : flat_map (fun i => match nth_error out i with Some y => [y] | None => [] end) (seq 0 (length out)) = out).
        { clear. rewrite flat_map_nth. reflexivity. }
        rewrite Hid. reflexivity.
      + apply evaluate_seq_log in He. destruct He as [new [Hl [pre [x [v [Hn [Nv [Hp [ys1 [y [ys2 [Hy [Hm Hx]]]]]]]]]]]]].
        exists new. repeat (split; auto).
        * apply Exists_exists. exists (x, v). subst new. split; auto. apply in_or_app. right. left. reflexivity.
        * exists (map (pt_of s) ys2), (map (pt_of s) out). repeat (split; auto).
          -- subst new out x. rewrite !map_app, Hm. simpl. rewrite <- app_assoc. reflexivity.
          -- intros _. exists pre, x, v. auto.
    - destruct par; simpl in He.
      + apply evaluate_par_log in He. destruct He as [new [Hl [Hf [Hd [Hp [Hnn Hm]]]]]].
        exists new. repeat (split; auto). exists pts. repeat split; auto; try discriminate.
        * rewrite map_map. simpl. exact Hm.
        * eapply Permutation_Forall in Hnn; [|symmetry; exact Hp].
          rewrite Forall_map in Hnn. exact Hnn.
      + apply evaluate_seq_log in He. destruct He as [new [Hl [Hn [Hm Hnn]]]].
        exists new. repeat (split; auto). exists pts. subst new. repeat split; auto.
        rewrite Forall_map in Hnn. exact Hnn.
  Qed.

  (* what never changes *)
  Definition same_setup {F'} (a b : cmaes T F') : Prop :=
    c_params a = c_params b /\ c_created a = c_created b /\ c_print_gap a = c_print_gap b /\
    sm_dim (c_sampler a) = sm_dim (c_sampler b) /\
    sm_constraints (c_sampler a) = sm_constraints (c_sampler b) /\
    sm_max_resamples (c_sampler a) = sm_max_resamples (c_sampler b) /\
    sm_population_size (c_sampler a) = sm_population_size (c_sampler b).

  Lemma same_setup_refl : forall {F'} (a : cmaes T F'), same_setup a a.
  Proof. unfold same_setup; tauto. Qed.
  Lemma same_setup_trans : forall {F'} (a b c : cmaes T F'), same_setup a b -> same_setup b c -> same_setup a c.
  Proof. unfold same_setup; intuition congruence. Qed.

  Section AnyObjective.
    Context {F' : Type} (ev' : F' -> vec T -> outcome (T * F')).

    Lemma sample_setup : forall par tk s m (sm sm' : sampler T F') r,
      sample ev' par tk s m sm = Ret (r, sm') ->
      sm_dim sm' = sm_dim sm /\ sm_constraints sm' = sm_constraints sm /\
      sm_max_resamples sm' = sm_max_resamples sm /\ sm_population_size sm' = sm_population_size sm.
    Proof.
      intros par tk s m sm sm' r H. apply sample_inv in H.
      destruct H as [ys [g [f [_ [[_ [_ ->]]|[pts [_ [_ ->]]]]]]]]; simpl; auto.
    Qed.

    Lemma next_setup : forall par tk c r c', next ev' par tk c = Ret (r, c') -> same_setup c' c.
    Proof.
      intros par tk c r c' H. apply next_inv in H. destruct H as [sm H|inds sm h st c' H1 H2 H3 ->|inds c' reasons H1 H2].
      - apply sample_setup in H. unfold same_setup; simpl; tauto.
      - apply sample_setup in H1. unfold same_setup; simpl; tauto.
      - apply sample_setup in H1. destruct H2. unfold same_setup. tauto.
    Qed.

    (* Every call of next is one of: NaN; a completed generation (with or without PosDefCov). *)
    Lemma next_outcome : forall par tk c r c', next ev' par tk c = Ret (r, c') ->
      (sample ev' par tk (c_state c) (p_mode (c_params c)) (c_sampler c) = Ret (None, c_sampler c') /\
       reports InvalidFunctionValue r = true /\
       r = Some (get_termination_data c' [InvalidFunctionValue]) /\ c' = set_sampler (c_sampler c') c)
      \/
      (exists inds ok,
        sample ev' par tk (c_state c) (p_mode (c_params c)) (c_sampler c) = Ret (Some inds, c_sampler c') /\
        reports InvalidFunctionValue r = false /\
        history_update (p_mode (c_params c)) inds (c_history c) = Ret (c_history c') /\
        state_update (t_tree tk) (function_evals c') (c_params c) inds (c_state c) = Ret (ok, c_state c') /\
        ((ok = false /\ reports PosDefCov r = true /\ r = Some (get_termination_data c' [PosDefCov]) /\
          c_plot c' = c_plot c /\ c_last_print c' = c_last_print c /\ c_out c' = c_out c)
         \/ (ok = true /\ reports PosDefCov r = false /\
             exists reasons, next_done tk c c' inds reasons /\
               r = match reasons with [] => None | _ => Some (get_termination_data c' reasons) end))).
    Proof.
      intros par tk c r c' H. apply next_inv in H. destruct H as [sm H|inds sm h st c' H1 H2 H3 ->|inds c' reasons H1 H2].
      - left. repeat split; auto.
      - right. exists inds, false. repeat split; auto. left. repeat split; auto.
      - right. exists inds, true.
        pose proof (check_termination_NoDup _ _ _ _ _ _ _ _ (nd_check _ _ _ _ _ H2)) as [_ [N1 N2]].
        split; [assumption|]. split; [apply reports_done_false; assumption|].
        split; [apply (nd_history _ _ _ _ _ H2)|]. split; [apply (nd_state _ _ _ _ _ H2)|].
        right. split; auto. split; [apply reports_done_false; assumption|].
        exists reasons. auto.
    Qed.

    Lemma sample_evals : forall par tk s m (sm sm' : sampler T F') r,
      sample ev' par tk s m sm = Ret (r, sm') ->
      sm_function_evals sm' = (sm_function_evals sm + match r with Some _ => sm_population_size sm | None => 0 end)%N.
    Proof.
      intros par tk s m sm sm' [inds|] H.
      - apply sample_Some in H. destruct H as [ys [g [f [pts [_ [_ [_ [_ [_ ->]]]]]]]]]. reflexivity.
      - apply sample_None in H. destruct H as [ys [g [f [_ [_ ->]]]]]. simpl. lia.
    Qed.

    Lemma state_update_generation : forall tree evals p inds s ok s',
      state_update tree evals p inds s = Ret (ok, s') ->
      st_generation s' = (if ok then st_generation s + 1 else st_generation s)%N.
    Proof.
      intros tree evals p inds s ok s' H. unfold state_update in H.
      oinv H. oinv H. oinv H. oinv H. oinv H. oinv H. oinv H. destruct a5 as [ok' cm].
      destruct ok'; inversion H; reflexivity.
    Qed.

    Lemma next_counters : forall par tk c r c', next ev' par tk c = Ret (r, c') ->
      function_evals c' = (function_evals c
        + (if reports InvalidFunctionValue r then 0 else sm_population_size (c_sampler c)))%N /\
      generation c' = (generation c
        + (if reports InvalidFunctionValue r || reports PosDefCov r then 0 else 1))%N.
    Proof.
      intros par tk c r c' H. apply next_outcome in H.
      destruct H as [[H1 [H2 [H3 H4]]]|[inds [ok [H1 [H2 [H3 [H4 H5]]]]]]]; rewrite H2.
      - apply sample_evals in H1. rewrite H4. unfold function_evals, generation. simpl. split; [exact H1|lia].
      - apply sample_evals in H1. apply state_update_generation in H4. unfold function_evals, generation.
        split; [exact H1|]. rewrite H4.
        destruct H5 as [[-> [-> _]]|[-> [-> _]]]; simpl; lia.
    Qed.

    (* cosmetic operations *)
    Definition same_core (a b : cmaes T F') : Prop :=
      c_sampler a = c_sampler b /\ c_params a = c_params b /\ c_state a = c_state b /\
      c_history a = c_history b /\ c_created a = c_created b /\ c_print_gap a = c_print_gap b.

    Lemma add_plot_point_core : forall c c', add_plot_point c = Ret c' ->
      same_core c' c /\ c_last_print c' = c_last_print c /\ c_out c' = c_out c.
    Proof.
      intros c c' H. unfold add_plot_point in H. destruct (c_plot c).
      - oinv H. inversion H; subst. unfold same_core; simpl; tauto.
      - inversion H; subst. unfold same_core; tauto.
    Qed.

    Lemma quiet_core : forall c o c', quiet o -> step ev' c o = Ret c' -> same_core c' c.
    Proof.
      intros c o c' Hq H. destruct o; simpl in *; try contradiction.
      - apply add_plot_point_core in H. tauto.
      - unfold clear_plot in H. destruct (c_plot c).
        + oinv H. inversion H; subst. unfold same_core; simpl; tauto.
        + inversion H; subst. unfold same_core; tauto.
      - inversion H; subst. unfold same_core; simpl; tauto.
      - inversion H; subst. unfold same_core; simpl; tauto.
      - inversion H; subst. unfold same_core, print_final_info.
        destruct (function_evals c =? c_last_print c)%N; simpl; tauto.
    Qed.

    Lemma core_setup : forall a b : cmaes T F', same_core a b -> same_setup a b.
    Proof. unfold same_core, same_setup. intros a b [-> [-> [_ [_ [-> ->]]]]]. tauto. Qed.

    (* run_internal is cosmetic: add_plot_point, then print_final_info when printing is enabled *)
    Lemma run_internal_steps : forall d c c', run_internal d c = Ret c' ->
      exists l, (forall o, In o l -> quiet o) /\ steps ev' c l = Ret c'.
    Proof.
      intros d c c' H. unfold run_internal in H. oinv H. inversion H; subst; clear H.
      destruct (c_print_gap a).
      - exists [OAddPlotPoint; OPrintFinal (td_reasons d)]. split.
        + intros o [<-|[<-|[]]]; simpl; auto.
        + simpl. rewrite Ho. reflexivity.
      - exists [OAddPlotPoint]. split.
        + intros o [<-|[]]; simpl; auto.
        + simpl. rewrite Ho. reflexivity.
    Qed.

    (* an operation list without run *)
    Lemma steps_app : forall l1 l2 c, steps ev' c (l1 ++ l2) = (c' <- steps ev' c l1 ;; steps ev' c' l2).
    Proof.
      induction l1 as [|o l1 IH]; intros l2 c; simpl; auto.
      destruct (step ev' c o); simpl; auto.
    Qed.

    Definition no_run (o : op) : Prop := match o with ORun _ _ _ => False | _ => True end.

    Lemma run_loop_steps : forall par fuel env c d c',
      run_loop ev' par fuel env c = Ret (d, c') ->
      exists l, Forall no_run l /\ steps ev' c l = Ret c'.
    Proof.
      induction fuel as [|fuel IH]; intros env c d c' H; simpl in H; [discriminate|].
      oinv H. destruct a as [r c1]. destruct r as [d1|].
      - inversion H; subst. exists [ONext par (env O)]. split; [repeat constructor|].
        simpl. rewrite Ho. reflexivity.
      - apply IH in H. destruct H as [l [H1 H2]]. exists (ONext par (env O) :: l).
        split; [constructor; simpl; auto|]. simpl. rewrite Ho. exact H2.
    Qed.

    Lemma steps_no_run : forall l c c', steps ev' c l = Ret c' ->
      exists l', Forall no_run l' /\ steps ev' c l' = Ret c'.
    Proof.
      induction l as [|o l IH]; intros c c' H; simpl in H.
      - exists []. auto.
      - oinv H. apply IH in H. destruct H as [l' [H1 H2]].
        assert (Hd : no_run o \/ exists par fuel env, o = ORun par fuel env)
          by (destruct o; simpl; eauto).
        destruct Hd as [Hd|[par [fuel [env ->]]]].
        { exists (o :: l'). split; [constructor; auto|]. cbn [steps]. rewrite Ho. exact H2. }
        simpl in Ho. oinv Ho. destruct a0 as [d c1]. inversion Ho; subst. clear Ho.
        unfold run in Ho0. oinv Ho0. destruct a0 as [d0 c0]. oinv Ho0. inversion Ho0; subst; clear Ho0.
        apply run_loop_steps in Ho. destruct Ho as [l1 [H3 H4]].
        apply run_internal_steps in Ho1. destruct Ho1 as [l2 [H5 H6]].
        exists (l1 ++ l2 ++ l'). split.
        + apply Forall_app. split; auto. apply Forall_app. split; auto.
          apply Forall_forall. intros o Ho. apply H5 in Ho. destruct o; simpl in *; auto.
        + rewrite steps_app, H4. simpl. rewrite steps_app, H6. exact H2.
    Qed.

    (* An invariant of next and of the cosmetic operations holds of every reachable optimiser. *)
    Lemma steps_invariant : forall (P : cmaes T F' -> Prop),
      (forall c o c', P c -> quiet o -> step ev' c o = Ret c' -> P c') ->
      (forall par tk c r c', P c -> next ev' par tk c = Ret (r, c') -> P c') ->
      forall l c c', P c -> steps ev' c l = Ret c' -> P c'.
    Proof.
      intros P Hq Hn l c c' Hc H. apply steps_no_run in H. destruct H as [l' [H1 H2]]. clear l.
      revert c Hc H2. induction H1 as [|o l' Ho _ IH]; intros c Hc H2; simpl in H2.
      - inversion H2; subst; auto.
      - oinv H2. apply (IH a); auto.
        destruct o; try contradiction; try (eapply Hq; [exact Hc| |exact Ho0]; simpl; auto; fail).
        simpl in Ho0. oinv Ho0. destruct a0 as [r c1]. inversion Ho0; subst. eapply Hn; eauto.
    Qed.

    Lemma run_invariant : forall (P : cmaes T F' -> Prop),
      (forall c o c', P c -> quiet o -> step ev' c o = Ret c' -> P c') ->
      (forall par tk c r c', P c -> next ev' par tk c = Ret (r, c') -> P c') ->
      forall par fuel env c d c', P c -> run ev' par fuel env c = Ret (d, c') -> P c'.
    Proof.
      intros P Hq Hn par fuel env c d c' Hc H.
      apply (steps_invariant P Hq Hn [ORun par fuel env] c); auto.
      simpl. rewrite H. reflexivity.
    Qed.
  End AnyObjective.

  (* ---- logged objectives ---- *)
  Lemma next_log : forall par tk (c c' : cmaes T (F * list (entry T))) r,
    next (log_ev ev) par tk c = Ret (r, c') ->
    exists cands out new,
      let sm := c_sampler c in
      rounds (acceptance (sm_constraints sm) (sm_max_resamples sm)) (N.to_nat (sm_population_size sm)) 0 0 cands out /\
      concat cands = map (fun k => transformed (c_state c) (normals (sm_dim sm) (sm_rng sm) k))
                         (seq 0 (length (concat cands))) /\
      sm_rng (c_sampler c') = rng_after (length (concat cands) * sm_dim sm) (sm_rng sm) /\
      calls c' = calls c ++ new /\
      if reports InvalidFunctionValue r then
          Exists (fun e => nis_nan (snd e) = true) new /\
          (exists rest all, Permutation all out /\ (par = false -> all = out) /\ all = map fst new ++ rest) /\
          (par = false -> exists pre x v, new = pre ++ [(x, v)] /\ nis_nan v = true /\ Forall (fun e => nis_nan (snd e) = false) pre) /\
          r = Some (get_termination_data c' [InvalidFunctionValue]) /\ c' = set_sampler (c_sampler c') c
      else
          Forall (fun e => nis_nan (snd e) = false) new /\
          exists pts, map fst (map pt_entry pts) = out /\ in_order par (map pt_entry pts) new /\
            let inds := sort_by (fun a b => sort_cmp (p_mode (c_params c)) (pt_value a) (pt_value b)) pts in
            history_update (p_mode (c_params c)) inds (c_history c) = Ret (c_history c') /\
            exists ok, state_update (t_tree tk) (function_evals c') (c_params c) inds (c_state c) = Ret (ok, c_state c') /\
            ((ok = false /\ reports PosDefCov r = true /\ r = Some (get_termination_data c' [PosDefCov]) /\
              c_plot c' = c_plot c /\ c_last_print c' = c_last_print c /\ c_out c' = c_out c)
             \/ (ok = true /\ reports PosDefCov r = false /\
                 exists reasons, next_done tk c c' inds reasons /\
                   r = match reasons with [] => None | _ => Some (get_termination_data c' reasons) end)).
  Proof.
    intros par tk c c' r H. apply next_outcome in H.
    destruct H as [[H1 [H2 [H3 H4]]]|[inds [ok [H1 [H2 [H3 [H4 H5]]]]]]]; rewrite H2;
      apply sample_log in H1; destruct H1 as [cands [out [new [R1 [R2 [R3 [R4 R5]]]]]]];
      exists cands, out, new; repeat (split; [assumption|]).
    - destruct R5 as [R5 [rest [all [A1 [A2 [A3 A4]]]]]]. split; [assumption|].
      split; [exists rest, all; auto|]. split; [|auto].
      intros Hp. destruct (A4 Hp) as [pre [x [v [B1 B2]]]]. exists pre, x, v. repeat split; auto.
      subst new. apply Exists_app in R5. destruct R5 as [R5|R5].
      + exfalso. rewrite Forall_forall in B2. apply Exists_exists in R5. destruct R5 as [e [I1 I2]].
        apply B2 in I1. congruence.
      + inversion R5 as [? ? N|? ? N]; subst; [exact N|inversion N].
    - destruct R5 as [pts [P1 [P2 [P3 P4]]]]. split.
      + destruct P2 as [P2 _]. eapply Permutation_Forall; [exact P2|]. rewrite Forall_map. exact P3.
      + exists pts. repeat (split; [assumption|]). subst inds. cbv zeta. split; [assumption|]. exists ok. auto.
  Qed.

  (* every use of an optimiser is a trace *)
  Lemma traced_app_quiet : forall c0 h c l c',
    traced ev c0 h c -> (forall o, In o l -> quiet o) -> steps (log_ev ev) c l = Ret c' -> traced ev c0 h c'.
  Proof.
    intros c0 h c l. revert c. induction l as [|o l IH]; intros c c' Ht Hq H; simpl in H.
    - inversion H; subst; auto.
    - oinv H. apply (IH a); auto with datatypes. eapply Tr_quiet; eauto with datatypes.
  Qed.

  Lemma steps_traced : forall l c0 h c c',
    traced ev c0 h c -> steps (log_ev ev) c l = Ret c' -> exists h', traced ev c0 (h ++ h') c'.
  Proof.
    intros l c0 h c c' Ht H. apply steps_no_run in H. destruct H as [l' [H1 H2]]. clear l.
    revert h c Ht H2. induction H1 as [|o l' Ho _ IH]; intros h c Ht H2; simpl in H2.
    - inversion H2; subst. exists []. rewrite app_nil_r. auto.
    - oinv H2.
      destruct o; try contradiction;
        try (apply (IH h a); auto; eapply Tr_quiet; [exact Ht| |exact Ho0]; simpl; auto; fail).
      simpl in Ho0. oinv Ho0. destruct a0 as [r c1]. inversion Ho0; subst.
      pose proof (next_log _ _ _ _ _ Ho1) as [_ [_ [new [_ [_ [_ [Hl _]]]]]]].
      destruct (IH (h ++ [mkCall r new]) a) as [h' Hh']; auto.
      + eapply Tr_next; eauto.
      + exists ([mkCall r new] ++ h'). rewrite app_assoc. exact Hh'.
  Qed.

  Lemma traced_setup : forall c0 h c, traced ev c0 h c -> same_setup c c0.
  Proof.
    induction 1.
    - apply same_setup_refl.
    - eapply same_setup_trans; [|eassumption]. apply core_setup. eapply quiet_core; eauto.
    - eapply same_setup_trans; [|eassumption]. eapply next_setup; eauto.
  Qed.
End Trace.
