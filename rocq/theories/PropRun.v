(* C19 to C21 and C29: run, and the limits that end it. *)
From Coq Require Import List NArith ZArith Bool Arith Lia Permutation Reals.
Require Import Verif.Lib Verif.Base Verif.Num Verif.F64 Verif.XReal Verif.LinAlg Verif.Mode Verif.Weights Verif.Options
  Verif.Params Verif.Env Verif.State Verif.Sampling Verif.History Verif.Termination Verif.Plot Verif.Cmaes
  Verif.NextInv Verif.Spec Verif.LogLemmas Verif.TraceLemmas Verif.BuildLemmas Verif.SamplingLemmas
  Verif.PanicLemmas Verif.NextSafe Verif.CastLemmas Verif.TermLemmas Verif.Toy Verif.ToyLemmas.
Import ListNotations.
Open Scope nat_scope.

Section Run.
  Context {T : Type} {NT : Num T} {LT : Libm T} {E : Env T} {F : Type} (ev : F -> vec T -> outcome (T * F)).

  (* n calls of next (or next_parallel), all of which returned None; the environment behaves like env k during
     the k-th of them *)
  Inductive iterates (par : bool) (env : nat -> tick) (c0 : cmaes T F) : nat -> cmaes T F -> Prop :=
  | It_0 : iterates par env c0 0 c0
  | It_S : forall n c c', iterates par env c0 n c -> next ev par (env n) c = Ret (None, c') ->
           iterates par env c0 (S n) c'.

  (* what run does after the last call: a plot point, and the closing lines when printing is enabled; nothing
     else changes *)
  Record finished (d : term_data T) (c c' : cmaes T F) : Prop := {
    fi_sampler : c_sampler c' = c_sampler c;
    fi_params : c_params c' = c_params c;
    fi_state : c_state c' = c_state c;
    fi_history : c_history c' = c_history c;
    fi_created : c_created c' = c_created c;
    fi_gap : c_print_gap c' = c_print_gap c;
    fi_last : c_last_print c' = c_last_print c;
    fi_plot : match c_plot c with
              | None => c_plot c' = None
              | Some p => exists p', plot_add_point (function_evals c) (c_state c) (c_history c) p = Ret p' /\ c_plot c' = Some p'
              end;
    fi_out : c_out c' = match c_print_gap c with
                        | None => c_out c
                        | Some _ => LFinal (td_reasons d) ::
                            (if (function_evals c =? c_last_print c)%N then [] else [LInfo (generation c) (function_evals c)])
                            ++ c_out c
                        end
  }.

  Lemma iterates_cons : forall par env c0 c1 n c, next ev par (env 0) c0 = Ret (None, c1) ->
    iterates par (fun k => env (S k)) c1 n c -> iterates par env c0 (S n) c.
  Proof.
    intros par env c0 c1 n c H Hi. induction Hi as [|n c c' Hi IH Hn].
    - eapply It_S; [constructor|exact H].
    - eapply It_S; [exact IH|exact Hn].
  Qed.
  Lemma iterates_uncons : forall par env c0 n c, iterates par env c0 (S n) c ->
    exists c1, next ev par (env 0) c0 = Ret (None, c1) /\ iterates par (fun k => env (S k)) c1 n c.
  Proof.
    intros par env c0 n. induction n as [|n IH]; intros c H; inversion H as [|n' c1 c2 H1 H2]; subst.
    - inversion H1; subst. exists c. split; [exact H2|constructor].
    - destruct (IH _ H1) as [c2 [X1 X2]]. exists c2. split; [exact X1|]. eapply It_S; eauto.
  Qed.
  Lemma loop_spec : forall par fuel env c d c', run_loop ev par fuel env c = Ret (d, c') <->
    exists n c1, n < fuel /\ iterates par env c n c1 /\ next ev par (env n) c1 = Ret (Some d, c').
  Proof.
    intros par fuel. induction fuel as [|fuel IH]; intros env c d c'; cbn [run_loop].
    - split; [discriminate|]. intros [n [c1 [X _]]]. lia.
    - split.
      + intros H. oinv H. destruct a as [[d1|] c1].
        * inversion H; subst. exists 0, c. split; [lia|]. split; [constructor|exact Ho].
        * apply IH in H. destruct H as [n [c2 [H1 [H2 H3]]]]. exists (S n), c2. split; [lia|].
          split; [eapply iterates_cons; eauto|exact H3].
      + intros [[|n] [c1 [H1 [H2 H3]]]].
        * inversion H2; subst. rewrite H3. reflexivity.
        * apply iterates_uncons in H2. destruct H2 as [c2 [H2 H4]]. rewrite H2. cbn [obind].
          apply IH. exists n, c1. split; [lia|]. auto.
  Qed.
  Lemma finished_spec : forall d c c', run_internal d c = Ret c' -> finished d c c'.
  Proof.
    intros d c c' H. unfold run_internal, add_plot_point in H. destruct (c_plot c) as [p|] eqn:Ep.
    - oinv H. apply Ret_inj in H. oinv Ho. apply Ret_inj in Ho. subst a c'. cbn [c_print_gap].
      destruct (c_print_gap c) as [g|] eqn:Eg.
      + unfold print_final_info. cbn [function_evals c_sampler c_last_print]. unfold function_evals. cbn [c_sampler].
        destruct (sm_function_evals (c_sampler c) =? c_last_print c)%N eqn:El;
          constructor; cbn; rewrite ?Ep, ?Eg; auto; try (exists a0; auto); unfold function_evals; rewrite El; reflexivity.
      + constructor; cbn; rewrite ?Ep, ?Eg; auto. exists a0. auto.
    - cbn [obind] in H. apply Ret_inj in H. subst c'. destruct (c_print_gap c) as [g|] eqn:Eg.
      + unfold print_final_info. destruct (function_evals c =? c_last_print c)%N eqn:El;
          constructor; cbn; rewrite ?Ep, ?Eg; auto; rewrite El; reflexivity.
      + constructor; cbn; rewrite ?Ep, ?Eg; auto.
  Qed.

  (* ---- C29 ---- *)
  (* whenever run returns (within the calls granted by fuel): the result is that of the first call that returned
     something, and the optimiser is the one after this call, up to the plot and the output *)
  Theorem C29_run_is_iterated_next : forall par fuel env c d c', run ev par fuel env c = Ret (d, c') ->
    exists n c1 c2, n < fuel /\ iterates par env c n c1 /\ next ev par (env n) c1 = Ret (Some d, c2) /\ finished d c2 c'.
  Proof.
    intros par fuel env c d c' H. unfold run in H. oinv H. destruct a as [d1 c2]. oinv H. inversion H; subst.
    apply loop_spec in Ho. destruct Ho as [n [c1 [H1 [H2 H3]]]]. exists n, c1, c2. repeat split; auto;
    apply finished_spec in Ho0; destruct Ho0; auto.
  Qed.

  (* the iterates are determined: there is only one first call that returns something *)
  Lemma iterates_fun : forall par env c n c1 c2, iterates par env c n c1 -> iterates par env c n c2 -> c1 = c2.
  Proof.
    intros par env c n c1 c2 H. revert c2. induction H as [|n c1 c1' H IH Hn]; intros c2 H2; inversion H2; subst; auto.
    assert (c1 = c0) by (apply IH; auto). subst. congruence.
  Qed.
  Theorem C29_first : forall par env c n n' c1 c1' d d' c2 c2',
    iterates par env c n c1 -> next ev par (env n) c1 = Ret (Some d, c2) ->
    iterates par env c n' c1' -> next ev par (env n') c1' = Ret (Some d', c2') -> n = n' /\ d = d' /\ c2 = c2'.
  Proof.
    assert (P : forall par env c n c1, iterates par env c n c1 -> forall m, m < n ->
      exists c2 c3, iterates par env c m c2 /\ next ev par (env m) c2 = Ret (None, c3)).
    { intros par env c n c1 H. induction H as [|n c1 c1' H IH Hn]; intros m Hm; [lia|].
      destruct (Nat.eq_dec m n) as [-> |]; [eauto|]. apply IH. lia. }
    intros par env c n n' c1 c1' d d' c2 c2' H1 H2 H3 H4.
    destruct (Nat.lt_trichotomy n n') as [Hl|[Hl|Hl]].
    - exfalso. destruct (P _ _ _ _ _ H3 n Hl) as [a [b [A1 A2]]]. rewrite (iterates_fun _ _ _ _ _ _ A1 H1) in A2. congruence.
    - subst n'. rewrite (iterates_fun _ _ _ _ _ _ H3 H1) in H4. rewrite H4 in H2. inversion H2. auto.
    - exfalso. destruct (P _ _ _ _ _ H1 n' Hl) as [a [b [A1 A2]]]. rewrite (iterates_fun _ _ _ _ _ _ A1 H3) in A2. congruence.
  Qed.

  (* ---- the limits ---- *)
  Lemma limits_reported : forall par tk c r c', next ev par tk c = Ret (r, c') ->
    reports InvalidFunctionValue r = false -> reports PosDefCov r = false ->
    (reports MaxGenerations r = check_max_generations (c_params c) (c_state c')) /\
    (reports MaxFunctionEvals r = check_max_evals (c_params c) (function_evals c')) /\
    (reports MaxTime r = check_max_time (c_params c) (c_created c) (t_now tk)).
  Proof.
    intros par tk c r c' H R1 R2. apply next_outcome in H.
    destruct H as [[_ [X _]]|[inds [ok [_ [_ [_ [_ [[_ [X _]]|[_ [_ [reasons [Hd ->]]]]]]]]]]]]; [congruence|congruence|].
    pose proof (nd_check _ _ _ _ _ Hd) as Hc. apply check_termination_inv in Hc.
    destruct Hc as [l5 [tx [nea [nec [ts [txu [H5 [_ [_ [_ [_ [_ ->]]]]]]]]]]]].
    apply check_tol_fun_inv in H5. destruct H5 as [b1 [b2 [b3 ->]]].
    assert (G : forall a b : bool, (a = true <-> b = true) -> a = b) by (intros [] [] [X Y]; auto; symmetry; auto).
    split; [|split]; apply G; rewrite reports_done, !in_app_iff, !push_if_In; intuition discriminate.
  Qed.

  Lemma none_limits : forall par tk c c', next ev par tk c = Ret (None, c') ->
    generation c' = (generation c + 1)%N /\
    function_evals c' = (function_evals c + sm_population_size (c_sampler c))%N /\
    (forall m, tp_max_generations (p_term (c_params c)) = Some m -> (generation c' < m)%N) /\
    (forall m, tp_max_function_evals (p_term (c_params c)) = Some m -> (function_evals c' < m)%N) /\
    (forall m, tp_max_time (p_term (c_params c)) = Some m -> (t_now tk - c_created c < m)%N).
  Proof.
    intros par tk c c' H. destruct (limits_reported _ _ _ _ _ H eq_refl eq_refl) as [L1 [L2 L3]].
    apply next_counters in H. destruct H as [H1 H2]. cbn [reports orb] in *. split; [exact H2|]. split; [exact H1|].
    unfold check_max_generations, check_max_evals, check_max_time in *. change (st_generation (c_state c')) with (generation c') in L1.
    repeat split; intros m Hm; rewrite Hm in *; apply N.leb_gt; symmetry; assumption.
  Qed.

  Lemma iterates_fresh : forall rs now f o par env c0 n c, cmaes_new rs now f o = Ret (inl c0) -> iterates par env c0 n c ->
    same_setup c c0 /\ generation c = N.of_nat n /\ function_evals c = (o_population_size o * N.of_nat n)%N /\
    (forall k, n = S k ->
      (forall m, o_max_generations o = Some m -> (generation c < m)%N) /\
      (forall m, o_max_function_evals o = Some m -> (function_evals c < m)%N) /\
      (forall m, o_max_time o = Some m -> (t_now (env k) - now < m)%N)).
  Proof.
    intros rs now f o par env c0 n c Hb Hi. pose proof (cmaes_new_inv _ _ _ _ _ Hb) as Hnew. cbv zeta in Hnew.
    destruct Hnew as [_ [Hsm [Hp [Hst [_ [_ [_ [Hcr _]]]]]]]].
    induction Hi as [|n c c' Hi [S0 [I1 [I2 I3]]] Hn].
    - split; [apply same_setup_refl|]. unfold generation, function_evals. rewrite Hst, Hsm. cbn. rewrite N.mul_0_r.
      repeat split; auto; discriminate.
    - pose proof (next_setup _ _ _ _ _ _ Hn) as S1. pose proof (none_limits _ _ _ _ Hn) as [L1 [L2 [L3 [L4 L5]]]].
      split; [eapply same_setup_trans; eauto|]. pose proof S0 as [P1 [P2 [_ [_ [_ [_ P3]]]]]].
      rewrite P1 in *. rewrite P2 in *. rewrite P3 in *. rewrite Hp, Hcr, Hsm in *. cbn [sm_population_size sampler_new] in *.
      split; [rewrite L1, I1; lia|]. split; [rewrite L2, I2; nia|].
      intros k Hk. injection Hk as <-. auto.
  Qed.

  Lemma reaches_setup : forall o f c, reaches ev o f c -> exists rs now c0, cmaes_new rs now f o = Ret (inl c0) /\ same_setup c c0.
  Proof.
    intros o f c [c0 [l [[rs [now H1]] H2]]]. exists rs, now, c0. split; [exact H1|].
    apply (steps_invariant ev (fun c => same_setup c c0)) with (l := l) (c := c0); auto.
    - intros a op b Ha Hq Hs. eapply same_setup_trans; [|exact Ha]. apply core_setup. eapply quiet_core; eauto.
    - intros par tk a r b Ha Hn. eapply same_setup_trans; [|exact Ha]. eapply next_setup; eauto.
    - apply same_setup_refl.
  Qed.

  (* ---- C19, C20, C21: when the limits are reported ---- *)
  Theorem C19_exact : forall o f c par tk r c', reaches ev o f c -> next ev par tk c = Ret (r, c') ->
    reports InvalidFunctionValue r = false -> reports PosDefCov r = false ->
    (reports MaxGenerations r = true <-> exists m, o_max_generations o = Some m /\ (m <= generation c')%N).
  Proof.
    intros o f c par tk r c' Hr Hn R1 R2. destruct (limits_reported _ _ _ _ _ Hn R1 R2) as [L _]. rewrite L. clear L.
    apply reaches_setup in Hr. destruct Hr as [rs [now [c0 [Hb [Hp _]]]]]. apply cmaes_new_inv in Hb. cbv zeta in Hb.
    destruct Hb as [_ [_ [Hp0 _]]]. unfold check_max_generations. rewrite Hp, Hp0. cbn [p_term params_of_options term_params_of_options tp_max_generations].
    destruct (o_max_generations o) as [m|].
    - rewrite N.leb_le. split; [eauto|]. intros [m' [X1 X2]]. injection X1 as <-. exact X2.
    - split; [discriminate|]. intros [m' [X _]]. discriminate.
  Qed.
  Theorem C20_exact : forall o f c par tk r c', reaches ev o f c -> next ev par tk c = Ret (r, c') ->
    reports InvalidFunctionValue r = false -> reports PosDefCov r = false ->
    (reports MaxFunctionEvals r = true <-> exists m, o_max_function_evals o = Some m /\ (m <= function_evals c')%N).
  Proof.
    intros o f c par tk r c' Hr Hn R1 R2. destruct (limits_reported _ _ _ _ _ Hn R1 R2) as [_ [L _]]. rewrite L. clear L.
    apply reaches_setup in Hr. destruct Hr as [rs [now [c0 [Hb [Hp _]]]]]. apply cmaes_new_inv in Hb. cbv zeta in Hb.
    destruct Hb as [_ [_ [Hp0 _]]]. unfold check_max_evals. rewrite Hp, Hp0. cbn [p_term params_of_options term_params_of_options tp_max_function_evals].
    destruct (o_max_function_evals o) as [m|].
    - rewrite N.leb_le. split; [eauto|]. intros [m' [X1 X2]]. injection X1 as <-. exact X2.
    - split; [discriminate|]. intros [m' [X _]]. discriminate.
  Qed.
  (* elapsed time: the clock read after the generation minus the clock at creation (zero if it went backwards) *)
  Theorem C21_exact : forall rs now f o c0 l c par tk r c',
    cmaes_new rs now f o = Ret (inl c0) -> steps ev c0 l = Ret c -> next ev par tk c = Ret (r, c') ->
    reports InvalidFunctionValue r = false -> reports PosDefCov r = false ->
    (reports MaxTime r = true <-> exists m, o_max_time o = Some m /\ (m <= t_now tk - now)%N).
  Proof.
    intros rs now f o c0 l c par tk r c' Hb Hs Hn R1 R2. destruct (limits_reported _ _ _ _ _ Hn R1 R2) as [_ [_ L]]. rewrite L. clear L.
    assert (Hst : same_setup c c0).
    { apply (steps_invariant ev (fun c => same_setup c c0)) with (l := l) (c := c0); auto.
      - intros a op b Ha Hq Hst. eapply same_setup_trans; [|exact Ha]. apply core_setup. eapply quiet_core; eauto.
      - intros par' tk' a r' b Ha Hn'. eapply same_setup_trans; [|exact Ha]. eapply next_setup; eauto.
      - apply same_setup_refl. }
    destruct Hst as [Hp [Hc _]]. apply cmaes_new_inv in Hb. cbv zeta in Hb.
    destruct Hb as [_ [_ [Hp0 [_ [_ [_ [_ [Hc0 _]]]]]]]]. unfold check_max_time. rewrite Hp, Hp0, Hc, Hc0.
    cbn [p_term params_of_options term_params_of_options tp_max_time]. destruct (o_max_time o) as [m|].
    - rewrite N.leb_le. split; [eauto|]. intros [m' [X1 X2]]. injection X1 as <-. exact X2.
    - split; [discriminate|]. intros [m' [X _]]. discriminate.
  Qed.

  (* ---- a fresh optimiser: how far run goes ---- *)
  Theorem C19_bound : forall rs now f o c0 m, cmaes_new rs now f o = Ret (inl c0) -> o_max_generations o = Some m ->
    (* before the call that ends the run there are fewer than max(m, 1) calls *)
    (forall par env n c, iterates par env c0 n c -> (N.of_nat n < N.max m 1)%N) /\
    (forall par fuel env d c', run ev par fuel env c0 = Ret (d, c') -> (generation c' <= N.max m 1)%N).
  Proof.
    intros rs now f o c0 m Hb Hm.
    assert (G : forall par env n c, iterates par env c0 n c -> generation c = N.of_nat n /\ (N.of_nat n < N.max m 1)%N).
    { intros par env n c Hi. destruct (iterates_fresh _ _ _ _ _ _ _ _ _ Hb Hi) as [_ [I1 [_ I2]]].
      split; [exact I1|]. destruct n as [|n]; [lia|]. destruct (I2 n eq_refl) as [I3 _]. specialize (I3 m Hm). lia. }
    split; [intros par env n c Hi; apply (G _ _ _ _ Hi)|].
    intros par fuel env d c' H. apply C29_run_is_iterated_next in H.
    destruct H as [n [c1 [c2 [_ [Hi [Hn Hf]]]]]]. destruct (G _ _ _ _ Hi) as [G1 G2].
    unfold generation in *. rewrite (fi_state _ _ _ Hf). apply next_counters in Hn. destruct Hn as [_ Hg]. unfold generation in Hg.
    rewrite Hg, G1. destruct (_ || _)%bool; lia.
  Qed.
  Theorem C20_bound : forall rs now f o c0 m, cmaes_new rs now f o = Ret (inl c0) -> o_max_function_evals o = Some m ->
    (* as long as the run goes on the limit is not reached *)
    (forall par env n c, iterates par env c0 n c -> n <> 0 -> (function_evals c < m)%N) /\
    (forall par fuel env d c', run ev par fuel env c0 = Ret (d, c') ->
       (function_evals c' < N.max m 1 + o_population_size o)%N).
  Proof.
    intros rs now f o c0 m Hb Hm.
    assert (G : forall par env n c, iterates par env c0 n c -> (n <> 0 -> (function_evals c < m)%N) /\ (function_evals c < N.max m 1)%N /\ same_setup c c0).
    { intros par env n c Hi. destruct (iterates_fresh _ _ _ _ _ _ _ _ _ Hb Hi) as [I0 [_ [I1 I2]]].
      destruct n as [|n].
      - rewrite I1. split; [intros X; contradiction|]. split; [lia|exact I0].
      - destruct (I2 n eq_refl) as [_ [I3 _]]. specialize (I3 m Hm). split; [auto|]. split; [lia|exact I0]. }
    split; [intros par env n c Hi; apply (G _ _ _ _ Hi)|].
    intros par fuel env d c' H. apply C29_run_is_iterated_next in H.
    destruct H as [n [c1 [c2 [_ [Hi [Hn Hf]]]]]]. destruct (G _ _ _ _ Hi) as [_ [G1 [_ [_ [_ [_ [_ [_ G2]]]]]]]].
    unfold function_evals in *. rewrite (fi_sampler _ _ _ Hf). apply next_counters in Hn. destruct Hn as [Hg _]. unfold function_evals in Hg.
    rewrite Hg, G2. apply cmaes_new_inv in Hb. cbv zeta in Hb. destruct Hb as [_ [Hsm _]]. rewrite Hsm. cbn [sm_population_size sampler_new].
    destruct (reports _ _); lia.
  Qed.
  (* the run goes on only while the limit is not reached *)
  Theorem C21_bound : forall rs now f o c0 m, cmaes_new rs now f o = Ret (inl c0) -> o_max_time o = Some m ->
    forall par env n c, iterates par env c0 n c -> forall k, k < n -> (t_now (env k) - now < m)%N.
  Proof.
    intros rs now f o c0 m Hb Hm par env n c Hi. induction Hi as [|n c c' Hi IH Hn]; intros k Hk; [lia|].
    destruct (Nat.eq_dec k n) as [-> |]; [|apply IH; lia].
    destruct (iterates_fresh _ _ _ _ _ _ _ _ _ Hb (It_S _ _ _ _ _ _ Hi Hn)) as [_ [_ [_ I2]]].
    destruct (I2 n eq_refl) as [_ [_ I3]]. apply I3. exact Hm.
  Qed.
End Run.
Print Assumptions C29_run_is_iterated_next.
Print Assumptions C29_first.
Print Assumptions C19_exact.
Print Assumptions C20_exact.
Print Assumptions C21_exact.
Print Assumptions C19_bound.
Print Assumptions C20_bound.
Print Assumptions C21_bound.

(* ---- run returns ---- *)
Section Returns.
  Context {LT : Libm f64} {E : Env f64} {F : Type} (ev : F -> vec f64 -> outcome (f64 * F)).
  Hypothesis Heig : eigen_shape (T := f64).

  Lemma iterates_reaches : forall o f par env c0 n c, reaches ev o f c0 -> iterates ev par env c0 n c -> reaches ev o f c.
  Proof.
    intros o f par env c0 n c Hr Hi. induction Hi as [|n c c' Hi IH Hn]; [exact Hr|].
    destruct IH as [c1 [l [H1 H2]]]. exists c1, (l ++ [ONext par (env n)]). split; [exact H1|].
    rewrite steps_app, H2. cbn [obind steps step]. rewrite Hn. reflexivity.
  Qed.
  Lemma run_internal_returns : forall o d (c : cmaes f64 F), wf o c -> exists c', run_internal d c = Ret c'.
  Proof.
    intros o d c Hw. unfold run_internal. pose proof (add_plot_safe o c Hw) as Hs.
    destruct (add_plot_point c) as [c1| |]; try contradiction. eexists. reflexivity.
  Qed.

  (* run returns exactly when some iterate does *)
  Theorem C29_returns : forall o f c par env, reaches ev o f c ->
    ((exists fuel d c', run ev par fuel env c = Ret (d, c')) <->
     (exists n c1 d c2, iterates ev par env c n c1 /\ next ev par (env n) c1 = Ret (Some d, c2))).
  Proof.
    intros o f c par env Hr. split.
    - intros [fuel [d [c' H]]]. apply C29_run_is_iterated_next in H. destruct H as [n [c1 [c2 [_ [H1 [H2 _]]]]]]. eauto 8.
    - intros [n [c1 [d [c2 [H1 H2]]]]].
      assert (Hw : wf o c2).
      { eapply (next_wf Heig ev); [|exact H2]. eapply (reaches_wf Heig ev). eapply iterates_reaches; eauto. }
      destruct (run_internal_returns o d c2 Hw) as [c' Hc]. exists (S n), d, c'. unfold run.
      assert (Hl : run_loop ev par (S n) env c = Ret (d, c2)) by (apply loop_spec; exists n, c1; auto).
      rewrite Hl. cbn [obind]. rewrite Hc. reflexivity.
  Qed.

  (* every call of next made by the run returns (no endless resampling, no panic in the objective) *)
  Definition calls_return par env (c0 : cmaes f64 F) : Prop :=
    forall n c, iterates ev par env c0 n c -> exists r c', next ev par (env n) c = Ret (r, c').

  Lemma bounded_returns : forall o f c par env N0, reaches ev o f c -> calls_return par env c ->
    (forall n c1, iterates ev par env c n c1 -> n < N0) -> exists d c', run ev par N0 env c = Ret (d, c').
  Proof.
    intros o f c par env N0 Hr Hc Hb.
    assert (G : forall k, (exists n c1 d c2, n < k /\ iterates ev par env c n c1 /\ next ev par (env n) c1 = Ret (Some d, c2)) \/
                          (exists c1, iterates ev par env c k c1)).
    { induction k as [|k [IH|[c1 IH]]].
      - right. exists c. constructor.
      - left. destruct IH as [n [c1 [d [c2 [H1 H2]]]]]. exists n, c1, d, c2. split; [lia|exact H2].
      - destruct (Hc _ _ IH) as [[d|] [c2 H]].
        + left. exists k, c1, d, c2. auto.
        + right. exists c2. econstructor; eauto. }
    destruct (G N0) as [[n [c1 [d [c2 [H1 [H2 H3]]]]]]|[c1 Hi]].
    - assert (Hw : wf o c2).
      { eapply (next_wf Heig ev); [|exact H3]. eapply (reaches_wf Heig ev). eapply iterates_reaches; eauto. }
      destruct (run_internal_returns o d c2 Hw) as [c' Hc']. exists d, c'. unfold run.
      assert (Hl : run_loop ev par N0 env c = Ret (d, c2)) by (apply loop_spec; exists n, c1; auto).
      rewrite Hl. cbn [obind]. rewrite Hc'. reflexivity.
    - exfalso. apply Hb in Hi. lia.
  Qed.

  Theorem C19_returns : forall rs now f o c0 m par env, cmaes_new rs now f o = Ret (inl c0) -> o_max_generations o = Some m ->
    calls_return par env c0 -> exists d c', run ev par (N.to_nat (N.max m 1)) env c0 = Ret (d, c').
  Proof.
    intros rs now f o c0 m par env Hb Hm Hc. apply (bounded_returns o f).
    - exists c0, []. split; [exists rs, now; exact Hb|reflexivity].
    - exact Hc.
    - intros n c1 Hi. pose proof (proj1 (C19_bound ev _ _ _ _ _ _ Hb Hm) _ _ _ _ Hi). lia.
  Qed.
  Theorem C20_returns : forall rs now f o c0 m par env, cmaes_new rs now f o = Ret (inl c0) -> o_max_function_evals o = Some m ->
    calls_return par env c0 -> exists d c', run ev par (N.to_nat (N.max m 1)) env c0 = Ret (d, c').
  Proof.
    intros rs now f o c0 m par env Hb Hm Hc. apply (bounded_returns o f).
    - exists c0, []. split; [exists rs, now; exact Hb|reflexivity].
    - exact Hc.
    - intros n c1 Hi. destruct n as [|n]; [lia|]. pose proof (proj1 (C20_bound ev _ _ _ _ _ _ Hb Hm) _ _ _ _ Hi) as H.
      destruct (iterates_fresh _ _ _ _ _ _ _ _ _ _ Hb Hi) as [_ [_ [H2 _]]].
      assert (Hp : (2 <= o_population_size o)%N).
      { apply cmaes_new_inv in Hb. cbv zeta in Hb. destruct Hb as [Hv _]. unfold validate in Hv.
        destruct (_ =? 0); [discriminate|]. destruct (N.ltb_spec (o_population_size o) 2); [discriminate|assumption]. }
      assert (H3 : S n <> 0) by lia. specialize (H H3). nia.
  Qed.
  (* a clock that passes the limit ends the run *)
  Theorem C21_returns : forall rs now f o c0 m par env k, cmaes_new rs now f o = Ret (inl c0) -> o_max_time o = Some m ->
    calls_return par env c0 -> (m <= t_now (env k) - now)%N -> exists d c', run ev par (S k) env c0 = Ret (d, c').
  Proof.
    intros rs now f o c0 m par env k Hb Hm Hc Ht. apply (bounded_returns o f).
    - exists c0, []. split; [exists rs, now; exact Hb|reflexivity].
    - exact Hc.
    - intros n c1 Hi. destruct (le_lt_dec (S k) n) as [Hl|Hl]; [|exact Hl]. exfalso.
      pose proof (C21_bound ev _ _ _ _ _ _ Hb Hm _ _ _ _ Hi k Hl). lia.
  Qed.
End Returns.
Print Assumptions C29_returns.
Print Assumptions C19_returns.
Print Assumptions C20_returns.
Print Assumptions C21_returns.

(* ---- cases ---- *)
Lemma toy_calls_return : forall (ev : unit -> vec f64 -> outcome (f64 * unit)) o c0, o_constraints o = None ->
  (forall g x, exists r, ev g x = Ret r) -> cmaes_new 0 0 tt o = Ret (inl c0) -> calls_return ev false toy_env_of c0.
Proof.
  intros ev o c0 Hc He Hb n c Hi.
  apply (next_returns toy_eigen_shape ev o tt c false (toy_env_of n)).
  - left. intros l. discriminate.
  - eapply iterates_reaches; [|exact Hi]. exists c0, []. split; [exists 0%N, 0%N; exact Hb|reflexivity].
  - auto.
  - intros meets x H. rewrite Hc in H. discriminate.
  - split; [|discriminate]. unfold fuel_ok. rewrite Hc. cbn. lia.
Qed.
Example C19_case : let o := apply_setters (toy_options 2) [SMaxGenerations 3] in
  exists c0, cmaes_new 0 0 tt o = Ret (inl c0) /\ o_max_generations o = Some 3%N /\ eigen_shape (T := f64) /\
    calls_return toy_sphere false toy_env_of c0 /\
    match run toy_sphere false 5 toy_env_of c0 with
    | Ret (d, c') => (generation c' =? 3)%N && reports MaxGenerations (Some d) | _ => false end = true.
Proof.
  cbv zeta. set (o := apply_setters (toy_options 2) [SMaxGenerations 3]).
  destruct (is_built_ex (cmaes_new 0 0 tt o)) as [c0 Hb]; [vm_compute; reflexivity|].
  exists c0. split; [exact Hb|]. split; [reflexivity|]. split; [exact toy_eigen_shape|].
  split; [eapply toy_calls_return; eauto; intros; eexists; reflexivity|].
  assert (G : match cmaes_new 0 0 tt o with Ret (inl c0) => match run toy_sphere false 5 toy_env_of c0 with
    | Ret (d, c') => (generation c' =? 3)%N && reports MaxGenerations (Some d) | _ => false end | _ => false end = true)
    by (vm_compute; reflexivity).
  rewrite Hb in G. exact G.
Qed.
Example C20_case : let o := apply_setters (toy_options 2) [SMaxFunctionEvals 9] in
  exists c0, cmaes_new 0 0 tt o = Ret (inl c0) /\ o_max_function_evals o = Some 9%N /\
    calls_return toy_sphere false toy_env_of c0 /\
    match run toy_sphere false 9 toy_env_of c0 with
    | Ret (d, c') => (function_evals c' =? 12)%N && reports MaxFunctionEvals (Some d) | _ => false end = true.
Proof.
  cbv zeta. set (o := apply_setters (toy_options 2) [SMaxFunctionEvals 9]).
  destruct (is_built_ex (cmaes_new 0 0 tt o)) as [c0 Hb]; [vm_compute; reflexivity|].
  exists c0. split; [exact Hb|]. split; [reflexivity|].
  split; [eapply toy_calls_return; eauto; intros; eexists; reflexivity|].
  assert (G : match cmaes_new 0 0 tt o with Ret (inl c0) => match run toy_sphere false 9 toy_env_of c0 with
    | Ret (d, c') => (function_evals c' =? 12)%N && reports MaxFunctionEvals (Some d) | _ => false end | _ => false end = true)
    by (vm_compute; reflexivity).
  rewrite Hb in G. exact G.
Qed.
(* a clock that advances by 10 with every call *)
Example C21_case : let o := apply_setters (toy_options 2) [SMaxTime 25] in
  let env := fun k => mkTick (10 * N.of_nat k) RLeaf [] 50 in
  exists c0, cmaes_new 0 0 tt o = Ret (inl c0) /\ o_max_time o = Some 25%N /\ (25 <= t_now (env 3%nat) - 0)%N /\
    match run toy_sphere false 9 env c0 with
    | Ret (d, c') => (generation c' =? 4)%N && reports MaxTime (Some d) | _ => false end = true.
Proof.
  cbv zeta. set (o := apply_setters (toy_options 2) [SMaxTime 25]).
  destruct (is_built_ex (cmaes_new 0 0 tt o)) as [c0 Hb]; [vm_compute; reflexivity|].
  exists c0. split; [exact Hb|]. split; [reflexivity|]. split; [vm_compute; discriminate|].
  assert (G : match cmaes_new 0 0 tt o with Ret (inl c0) =>
    match run toy_sphere false 9 (fun k => mkTick (10 * N.of_nat k) RLeaf [] 50) c0 with
    | Ret (d, c') => (generation c' =? 4)%N && reports MaxTime (Some d) | _ => false end | _ => false end = true)
    by (vm_compute; reflexivity).
  rewrite Hb in G. exact G.
Qed.
