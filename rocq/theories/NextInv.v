(* Case analysis of next: what a call that returns has done. *)
From Coq Require Import List NArith ZArith Bool Arith Lia.
Require Import Verif.Base Verif.Num Verif.LinAlg Verif.Mode Verif.Weights Verif.Options Verif.Params Verif.Env
  Verif.State Verif.Sampling Verif.History Verif.Termination Verif.Plot Verif.Cmaes Verif.Lib.
Import ListNotations.

Section NextInv.
  Context {T : Type} {NT : Num T} {LT : Libm T} {E : Env T}.
  Context {F : Type} (ev : F -> vec T -> outcome (T * F)).

  (* what the optimiser looks like after sampling changed the sampler *)
  Definition set_sampler (sm : sampler T F) (c : cmaes T F) : cmaes T F :=
    mkCmaes sm (c_params c) (c_state c) (c_history c) (c_plot c) (c_print_gap c)
            (c_last_print c) (c_created c) (c_out c).

  (* the printing done by next: last_print and output *)
  Definition printed (gap : option N) (gen evals last : N) (out : list line) : N * list line :=
    match gap with
    | None => (last, out)
    | Some g => if (wrapping_add last g <=? evals)%N then (evals, LInfo gen evals :: out)
                else if (gen <? 4)%N then (last, LInfo gen evals :: out) else (last, out)
    end.

  Record next_done (tk : tick) (c c' : cmaes T F) (inds : list (point T)) (reasons : list reason) : Prop := {
    nd_history : history_update (p_mode (c_params c)) inds (c_history c) = Ret (c_history c');
    nd_state : state_update (t_tree tk) (function_evals c') (c_params c) inds (c_state c) = Ret (true, c_state c');
    nd_params : c_params c' = c_params c;
    nd_plot : match c_plot c with
              | None => c_plot c' = None
              | Some p =>
                  if (generation c' <=? 1)%N || (next_data_point_evals p <=? function_evals c')%N
                  then exists p', plot_add_point (function_evals c') (c_state c') (c_history c') p = Ret p' /\
                                  c_plot c' = Some p'
                  else c_plot c' = Some p
              end;
    nd_gap : c_print_gap c' = c_print_gap c;
    nd_print : (c_last_print c', c_out c')
               = printed (c_print_gap c) (generation c') (function_evals c') (c_last_print c) (c_out c);
    nd_created : c_created c' = c_created c;
    nd_check : check_termination (c_params c) (function_evals c') (c_created c) (t_now tk) (c_state c')
                                 (c_history c') inds = Ret reasons
  }.

  Inductive next_case (par : bool) (tk : tick) (c : cmaes T F) : option (term_data T) -> cmaes T F -> Prop :=
  | NC_nan : forall sm,
      sample ev par tk (c_state c) (p_mode (c_params c)) (c_sampler c) = Ret (None, sm) ->
      next_case par tk c (Some (get_termination_data (set_sampler sm c) [InvalidFunctionValue]))
                (set_sampler sm c)
  | NC_posdef : forall inds sm h st c',
      sample ev par tk (c_state c) (p_mode (c_params c)) (c_sampler c) = Ret (Some inds, sm) ->
      history_update (p_mode (c_params c)) inds (c_history c) = Ret h ->
      state_update (t_tree tk) (sm_function_evals sm) (c_params c) inds (c_state c) = Ret (false, st) ->
      c' = mkCmaes sm (c_params c) st h (c_plot c) (c_print_gap c) (c_last_print c) (c_created c) (c_out c) ->
      next_case par tk c (Some (get_termination_data c' [PosDefCov])) c'
  | NC_done : forall inds c' reasons,
      sample ev par tk (c_state c) (p_mode (c_params c)) (c_sampler c) = Ret (Some inds, c_sampler c') ->
      next_done tk c c' inds reasons ->
      next_case par tk c (match reasons with [] => None | _ => Some (get_termination_data c' reasons) end) c'.

  Lemma next_inv : forall par tk c r c', next ev par tk c = Ret (r, c') -> next_case par tk c r c'.
  Proof.
    intros par tk c r c' H. unfold next in H. oinv H. destruct a as [ri c1].
    unfold cmaes_sample in Ho. oinv Ho. destruct a as [rs sm]. destruct rs as [inds|].
    - oinv Ho. inversion Ho; subst; clear Ho. rename a into h.
      unfold next_internal in H. oinv H. destruct a as [ok st]. cbn in Ho.
      destruct ok; simpl negb in H; cbv iota in H.
      + oinv H. rename a into c2. oinv H. rename a into reasons.
        assert (Hp : c_sampler c2 = sm /\ c_params c2 = c_params c /\ c_state c2 = st /\ c_history c2 = h
                     /\ c_print_gap c2 = c_print_gap c /\ c_last_print c2 = c_last_print c
                     /\ c_created c2 = c_created c /\ c_out c2 = c_out c).
        { cbn in Ho2. destruct (c_plot c); [|inversion Ho2; subst; cbn; tauto].
          match type of Ho2 with context [if ?b then _ else _] => destruct b end.
          - unfold add_plot_point in Ho2. cbn in Ho2. oinv Ho2. inversion Ho2; subst; cbn; tauto.
          - inversion Ho2; subst; cbn; tauto. }
        destruct Hp as [P1 [P2 [P3 [P4 [P5 [P6 [P7 P8]]]]]]].
        match type of Ho3 with check_termination (c_params ?x) _ _ _ _ _ _ = _ => set (c3 := x) in * end.
        assert (Q : c_sampler c3 = c_sampler c2 /\ c_params c3 = c_params c2 /\ c_state c3 = c_state c2
                     /\ c_history c3 = c_history c2 /\ c_plot c3 = c_plot c2
                     /\ c_print_gap c3 = c_print_gap c2 /\ c_created c3 = c_created c2
                     /\ (c_last_print c3, c_out c3)
               = printed (c_print_gap c2) (generation c2) (function_evals c2) (c_last_print c2) (c_out c2)).
        { unfold c3, printed. destruct (c_print_gap c2) eqn:Eg; [|tauto].
          destruct (wrapping_add (c_last_print c2) n <=? function_evals c2)%N; [cbn; tauto|].
          destruct (generation c2 <? 4)%N; cbn; tauto. }
        clearbody c3. destruct Q as [Q1 [Q2 [Q3 [Q4 [Q5 [Q6 [Q7 Q8]]]]]]].
        assert (Hc : c' = c3 /\ r = match reasons with [] => None | _ => Some (get_termination_data c3 reasons) end).
        { destruct reasons; inversion H; subst; auto. }
        destruct Hc as [-> ->].
        assert (Fe : function_evals c3 = sm_function_evals sm) by (unfold function_evals; congruence).
        assert (Ge : generation c3 = generation c2) by (unfold generation; congruence).
        apply NC_done with (inds := inds).
        { rewrite Q1, P1. assumption. }
        constructor.
        * rewrite Q4, P4. assumption.
        * rewrite Fe, Q3, P3. assumption.
        * congruence.
        * cbn in Ho2. destruct (c_plot c) as [pl|] eqn:Ep.
          -- unfold generation at 1 in Ho2. cbn in Ho2. unfold generation. rewrite Q3, P3, Fe.
             unfold function_evals at 1 in Ho2. cbn in Ho2.
             destruct ((st_generation st <=? 1)%N || (next_data_point_evals pl <=? sm_function_evals sm)%N).
             ++ unfold add_plot_point in Ho2. cbn in Ho2. oinv Ho2. exists a.
                apply (f_equal (fun o => match o with Ret x => c_plot x | _ => None end)) in Ho2. cbn in Ho2.
                rewrite Q4, P4. split; [exact Ho4|]. congruence.
             ++ apply (f_equal (fun o => match o with Ret x => c_plot x | _ => None end)) in Ho2. cbn in Ho2. congruence.
          -- apply (f_equal (fun o => match o with Ret x => c_plot x | _ => None end)) in Ho2. cbn in Ho2. congruence.
        * congruence.
        * rewrite Q8, P5, P6, P8. rewrite Ge. f_equal. unfold function_evals; congruence.
        * congruence.
        * rewrite <- P2, <- Q2, <- P7, <- Q7. exact Ho3.
      + inversion H; subst. eapply NC_posdef; eauto.
    - inversion Ho; subst. inversion H; subst.
      change (mkCmaes sm (c_params c) (c_state c) (c_history c) (c_plot c) (c_print_gap c)
            (c_last_print c) (c_created c) (c_out c)) with (set_sampler sm c).
      apply NC_nan. assumption.
  Qed.

  (* what one call of the sampler has done *)
  Definition upd_sampler (sm : sampler T F) (g : rng_t) (f : F) (n : N) : sampler T F :=
    mkSampler (sm_dim sm) (sm_constraints sm) (sm_max_resamples sm) (sm_population_size sm) g f n.

  Definition eval_points (par : bool) (tk : tick) (s : state T) (ys : list (vec T)) (f : F) :=
    if par then evaluate_par ev (t_sched tk) s ys f else evaluate_seq ev s ys f.

  Lemma sample_inv : forall par tk s m sm r sm',
    sample ev par tk s m sm = Ret (r, sm') ->
    exists ys g f,
      resample (t_fuel tk) (sm_dim sm) (N.to_nat (sm_population_size sm)) (sm_constraints sm)
               (sm_max_resamples sm) s 0 [] (sm_rng sm) = Ret (ys, g) /\
      ((r = None /\ eval_points par tk s ys (sm_objective sm) = Ret (None, f)
        /\ sm' = upd_sampler sm g f (sm_function_evals sm))
       \/ exists pts,
            eval_points par tk s ys (sm_objective sm) = Ret (Some pts, f)
            /\ r = Some (sort_by (fun a b => sort_cmp m (pt_value a) (pt_value b)) pts)
            /\ sm' = upd_sampler sm g f (sm_function_evals sm + N.of_nat (length pts))).
  Proof.
    intros par tk s m sm r sm' H. unfold sample in H. oinv H. destruct a as [ys g].
    oinv H. destruct a as [r0 f]. exists ys, g, f. split; auto.
    destruct r0 as [pts|]; inversion H; subst; [right|left]; unfold upd_sampler, eval_points; eauto.
  Qed.

  Lemma resample_length : forall fuel dim lambda c mx s i y g ys g',
    resample fuel dim lambda c mx s i y g = Ret (ys, g') -> length ys = lambda.
  Proof.
    induction fuel as [|fuel IH]; intros dim lambda c mx s i y g ys g' H; simpl in H;
      destruct (lambda <? length y) eqn:E1; try discriminate;
      destruct (lambda - length y =? 0) eqn:E2; try discriminate.
    - inversion H; subst. apply Nat.ltb_ge in E1. apply Nat.eqb_eq in E2. lia.
    - inversion H; subst. apply Nat.ltb_ge in E1. apply Nat.eqb_eq in E2. lia.
    - oinv H. destruct a as [new g1]. eapply IH; eauto.
  Qed.

  (* p is an evaluation of the step y *)
  Definition evaluated (s : state T) (y : vec T) (p : point T) : Prop :=
    pt_step p = y /\ to_point y (st_mean s) (st_sigma s) = Ret (pt_point p) /\ nis_nan (pt_value p) = false.

  Lemma evaluate_point_Some : forall s y f p f',
    evaluate_point ev s y f = Ret (Some p, f') -> evaluated s y p.
  Proof.
    intros s y f p f' H. unfold evaluate_point in H. oinv H. oinv H. destruct a0 as [v f1].
    destruct (nis_nan v) eqn:N; inversion H; subst. unfold evaluated; simpl; auto.
  Qed.

  Lemma evaluate_seq_Some : forall s ys f pts f',
    evaluate_seq ev s ys f = Ret (Some pts, f') -> Forall2 (evaluated s) ys pts.
  Proof.
    induction ys as [|y ys IH]; intros f pts f' H; simpl in H.
    - inversion H; constructor.
    - oinv H. destruct a as [r f1]. destruct r as [p|]; [|discriminate].
      oinv H. destruct a as [r' f2]. destruct r' as [l|]; inversion H; subst.
      constructor; eauto using evaluate_point_Some.
  Qed.

  Lemma collect_slots_Ret : forall (slots : list (option (option (point T)))) pts,
    collect_slots slots = Ret pts -> slots = map (fun p => Some (Some p)) pts.
  Proof.
    induction slots as [|[[p|]|] slots IH]; intros pts H; simpl in H; try discriminate.
    - inversion H; reflexivity.
    - oinv H. inversion H; subst. simpl. f_equal. auto.
  Qed.

  (* filled slots hold evaluations of the corresponding steps *)
  Definition slots_ok (s : state T) (ys : list (vec T)) (slots : list (option (option (point T)))) : Prop :=
    Forall2 (fun y o => match o with Some (Some p) => evaluated s y p | _ => True end) ys slots.

  Lemma slots_ok_set : forall s ys slots i y r,
    slots_ok s ys slots -> nth_error ys i = Some y ->
    match r with Some p => evaluated s y p | None => True end ->
    slots_ok s ys (firstn i slots ++ [Some r] ++ skipn (S i) slots).
  Proof.
    intros s ys slots i y r H. revert i. induction H as [|y0 o ys slots H0 H IH]; intros i Hi Hr.
    - destruct i; discriminate.
    - destruct i as [|i]; simpl in *.
      + inversion Hi; subst. constructor; auto.
      + constructor; auto. apply IH; auto.
  Qed.

  Lemma evaluate_sched_ok : forall s ys sched slots f slots' f',
    evaluate_sched ev s ys sched slots f = Ret (slots', f') -> slots_ok s ys slots -> slots_ok s ys slots'.
  Proof.
    induction sched as [|i sched IH]; intros slots f slots' f' H Hs; simpl in H.
    - inversion H; subst; auto.
    - destruct (nth_error ys i) as [y|] eqn:Ey; [|discriminate].
      destruct (nth_error slots i) as [[|]|]; try discriminate.
      oinv H. destruct a as [r f1]. eapply IH; [exact H|].
      change (Some r :: match slots with [] => [] | _ :: l => skipn i l end)
        with ([Some r] ++ skipn (S i) slots).
      eapply slots_ok_set; eauto.
      destruct r; auto. eapply evaluate_point_Some; eauto.
  Qed.

  Lemma evaluate_par_Some : forall s sched ys f pts f',
    evaluate_par ev sched s ys f = Ret (Some pts, f') -> Forall2 (evaluated s) ys pts.
  Proof.
    intros s sched ys f pts f' H. unfold evaluate_par in H. oinv H. destruct a as [slots f1].
    destruct (existsb _ slots); [discriminate|].
    oinv H. inversion H; subst. apply collect_slots_Ret in Ho0. subst.
    apply evaluate_sched_ok in Ho.
    - unfold slots_ok in Ho. clear H. revert Ho. generalize ys. induction pts as [|p pts IH]; intros l Ho;
        inversion Ho; subst; constructor; auto.
    - unfold slots_ok. clear. induction ys; simpl; constructor; auto.
  Qed.

  Lemma eval_points_Some : forall par tk s ys f pts f',
    eval_points par tk s ys f = Ret (Some pts, f') -> Forall2 (evaluated s) ys pts.
  Proof. intros [] *; unfold eval_points; eauto using evaluate_seq_Some, evaluate_par_Some. Qed.

  (* A successful sample: lambda evaluated points, sorted; only rng, objective and the counter change. *)
  Lemma sample_Some : forall par tk s m sm inds sm',
    sample ev par tk s m sm = Ret (Some inds, sm') ->
    exists ys g f pts,
      resample (t_fuel tk) (sm_dim sm) (N.to_nat (sm_population_size sm)) (sm_constraints sm)
               (sm_max_resamples sm) s 0 [] (sm_rng sm) = Ret (ys, g) /\
      length ys = N.to_nat (sm_population_size sm) /\
      eval_points par tk s ys (sm_objective sm) = Ret (Some pts, f) /\
      Forall2 (evaluated s) ys pts /\
      inds = sort_by (fun a b => sort_cmp m (pt_value a) (pt_value b)) pts /\
      sm' = upd_sampler sm g f (sm_function_evals sm + sm_population_size sm).
  Proof.
    intros par tk s m sm inds sm' H. apply sample_inv in H.
    destruct H as [ys [g [f [Hr [[H _]|[pts [He [Hi Hs]]]]]]]]; [discriminate|].
    exists ys, g, f, pts. pose proof (resample_length _ _ _ _ _ _ _ _ _ _ _ Hr) as Hl.
    pose proof (eval_points_Some _ _ _ _ _ _ _ He) as Hf.
    repeat split; auto; try congruence.
    rewrite Hs. f_equal. apply Forall2_len in Hf. rewrite <- Hf, Hl. lia.
  Qed.

  Lemma sample_None : forall par tk s m sm sm',
    sample ev par tk s m sm = Ret (None, sm') ->
    exists ys g f,
      resample (t_fuel tk) (sm_dim sm) (N.to_nat (sm_population_size sm)) (sm_constraints sm)
               (sm_max_resamples sm) s 0 [] (sm_rng sm) = Ret (ys, g) /\
      eval_points par tk s ys (sm_objective sm) = Ret (None, f) /\
      sm' = upd_sampler sm g f (sm_function_evals sm).
  Proof.
    intros par tk s m sm sm' H. apply sample_inv in H.
    destruct H as [ys [g [f [Hr [[_ [H1 H2]]|[pts [_ [H _]]]]]]]]; [|discriminate]. eauto 6.
  Qed.
End NextInv.
