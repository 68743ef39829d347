(* The runs of a restarter: what each iteration of the restart loop does, in terms of the runs so far. *)
From Coq Require Import List NArith ZArith Bool Arith Lia.
Require Import Verif.Base Verif.Num Verif.LinAlg Verif.Mode Verif.Weights Verif.Options Verif.Params Verif.Env
  Verif.State Verif.Sampling Verif.History Verif.Termination Verif.Plot Verif.Cmaes Verif.Restart Verif.Lib
  Verif.NextInv Verif.Spec.
Import ListNotations.

Lemma usize_mul_Ret : forall checks a b n, usize_mul checks a b = Ret n ->
  n = ((a * b) mod 18446744073709551616)%N /\ (checks = true -> (a * b < 18446744073709551616)%N).
Proof.
  intros checks a b n H. unfold usize_mul in H. destruct (N.ltb_spec (a * b) 18446744073709551616) as [L|L].
  - injection H as <-. split; [|auto]. symmetry. apply N.mod_small. exact L.
  - destruct checks; [discriminate|]. injection H as <-. split; [reflexivity|discriminate].
Qed.

Section Vocabulary.
  Context {T : Type} {NT : Num T} {LT : Libm T} {E : Env T} {RE : REnv T}.
  Context {F : Type} (ev : F -> vec T -> outcome (T * F)) (checks : bool).

  (* a run: an optimiser was built from these options and this objective, and run (or run_parallel) returned *)
  Definition ran (par : bool) (rt : rtick) (t : run_record T F) : Prop :=
    exists c0, cmaes_new (rt_random rt) (rt_created rt) (ru_objective t) (ru_options t) = Ret (inl c0) /\
      run ev par (rt_fuel rt) (rt_env rt) c0 = Ret (ru_data t, ru_final t).

  (* all evaluations of a list of runs *)
  Definition evals (ts : list (run_record T F)) : N :=
    fold_right (fun t n => (function_evals (ru_final t) + n)%N) 0%N ts.
  Definition increasing (ts : list (run_record T F)) := filter (fun t => negb (ru_local t)) ts.
  Definition local_runs (ts : list (run_record T F)) := filter ru_local ts.
  Definition last_evals (ts : list (run_record T F)) : N :=
    match rev ts with t :: _ => function_evals (ru_final t) | [] => 0%N end.

  (* a strategy as returned by its constructor (the only way to obtain one) *)
  Inductive fresh : strategy T -> Prop :=
  | Fr_local : forall m f l, local_new m f = inl l -> fresh (SLocal l)
  | Fr_ipop : forall f i, ipop_new f = inl i -> fresh (SIpop i)
  | Fr_bipop : forall f n b, bipop_new f n = inl b -> fresh (SBipop b).

  (* m is f^k in usize arithmetic *)
  Definition power (f : N) (k : nat) (m : N) : Prop :=
    m = (f ^ N.of_nat k mod 18446744073709551616)%N /\ (checks = true -> (f ^ N.of_nat k < 18446744073709551616)%N).

  (* the kind of the run after the runs ts *)
  Definition next_local (s0 : strategy T) (ts : list (run_record T F)) : bool :=
    match s0 with
    | SLocal _ => true
    | SIpop _ => false
    | SBipop _ => negb (Nat.eqb (length (increasing ts)) 0) && (evals (local_runs ts) <? evals (increasing ts))%N
    end.

  (* the options of the run after the runs ts, made from o; g is the state of the generator *)
  Definition configured (s0 : strategy T) (ts : list (run_record T F)) (g : rr_t) (range : T) (o o' : options T) : Prop :=
    match s0 with
    | SLocal l => o' = apply_setters o [SInitialStepSize (nmul (nmul range (lo_factor l)) (nlit 1 100))]
    | SIpop i => exists n, o' = apply_setters o [SInitialStepSize (ndiv range n2); SPopulationSize n] /\
        n = (o_population_size o * ip_factor i ^ N.of_nat (length ts) mod 18446744073709551616)%N /\
        (checks = true -> (o_population_size o * ip_factor i ^ N.of_nat (length ts) < 18446744073709551616)%N)
    | SBipop b =>
        let k := length (increasing ts) in
        if next_local s0 ts then
          exists m, power (bi_increase b) (pred k) m /\
            o' = with_max_function_evals
                   (apply_setters o [SInitialStepSize (nmul (nmul range (bi_lr_factor b))
                                                            (lm_powf (nofZ 10) (nmul (nofZ (-2)) (fst (rr_f64 g)))));
                                     SPopulationSize (nto_usize (nfloor (nmul (nofN (o_population_size o))
                                       (nmax (lm_powf (ndiv (nofN m) n2) (powi (fst (rr_f64 (snd (rr_f64 g)))) 2)) n1))))])
                   (match o_max_function_evals o with
                    | Some l => Some (N.min l (last_evals (increasing ts) / 2))
                    | None => None
                    end)
        else exists n, o' = apply_setters o [SInitialStepSize (ndiv range (nofZ 5)); SPopulationSize n] /\
          n = (o_population_size o * bi_increase b ^ N.of_nat k mod 18446744073709551616)%N /\
          (checks = true -> (o_population_size o * bi_increase b ^ N.of_nat k < 18446744073709551616)%N)
    end.

  (* the generator after a run: an LR run of BIPOP draws two numbers *)
  Definition after_run (s0 : strategy T) (local : bool) (g : rr_t) : rr_t :=
    match s0 with SBipop _ => if local then snd (rr_f64 (snd (rr_f64 g))) else g | _ => g end.

  (* whether the strategy stops after the runs ts, the last of which is t *)
  Definition stops (s0 : strategy T) (ts : list (run_record T F)) (t : run_record T F) : bool :=
    match s0 with
    | SLocal l => (lo_max_runs l <=? N.of_nat (length ts))%N
    | SIpop _ => (10 <=? N.of_nat (length ts))%N
    | SBipop _ => negb (ru_local t) && (10 <=? N.of_nat (length (increasing ts)))%N
    end.

  Definition no_limit_reached (started : N) (rt : rtick) (r : restarter T) (ts : list (run_record T F)) : Prop :=
    has_zero_max_runs (rs_strategy r) = false /\
    (forall m, rs_max_function_evals r = Some m -> (evals ts < m)%N) /\
    (forall m, rs_max_time r = Some m -> (rt_check rt - started < m)%N).

  (* the strategy after the runs ts *)
  Definition strat_at (s0 : strategy T) (ts : list (run_record T F)) (s : strategy T) : Prop :=
    match s0 with
    | SLocal l => s = SLocal (mkLocal (N.of_nat (length ts)) (lo_factor l) (lo_max_runs l))
    | SIpop i => exists m, power (ip_factor i) (length ts) m /\ s = SIpop (mkIpop (N.of_nat (length ts)) m (ip_factor i))
    | SBipop b =>
        let k := length (increasing ts) in
        exists m ml, power (bi_increase b) k m /\ power (bi_increase b) (pred k) ml /\
          s = SBipop (mkBipop (N.of_nat k) (evals (increasing ts)) m (bi_increase b) (last_evals (increasing ts)) ml
                              (bi_lr_factor b) (evals (local_runs ts)))
    end.

  Lemma power_0 : forall f, power f 0 1%N.
  Proof. intros f. split; [reflexivity|]. intros _. reflexivity. Qed.
  Lemma power_S : forall f k m n, power f k m -> usize_mul checks m f = Ret n -> power f (S k) n.
  Proof.
    intros f k m n [H1 H2] H. apply usize_mul_Ret in H. destruct H as [-> H3]. subst m.
    split.
    - rewrite Nat2N.inj_succ, N.pow_succ_r'. rewrite N.mul_mod_idemp_l by discriminate. f_equal. apply N.mul_comm.
    - intros Hc. specialize (H2 Hc). specialize (H3 Hc). rewrite (N.mod_small _ _ H2) in H3.
      rewrite Nat2N.inj_succ, N.pow_succ_r', N.mul_comm. exact H3.
  Qed.
  Lemma fresh_start : forall s, fresh s -> strat_at s [] s.
  Proof.
    intros s [m f l H|f i H|f n b H]; cbn.
    - unfold local_new in H. destruct f as [f|].
      + destruct (negb _); [discriminate|]. injection H as <-. reflexivity.
      + injection H as <-. reflexivity.
    - unfold ipop_new in H. destruct (f =? 0)%N; [discriminate|]. injection H as <-. exists 1%N. split; [apply power_0|reflexivity].
    - unfold bipop_new in H. destruct (match f with Some _ => _ | None => _ end); [discriminate|].
      destruct (match n with Some _ => _ | None => _ end); [discriminate|]. injection H as <-.
      exists 1%N, 1%N. split; [apply power_0|]. split; [apply power_0|reflexivity].
  Qed.

  Lemma evals_cons : forall t ts, evals (t :: ts) = (function_evals (ru_final t) + evals ts)%N.
  Proof. reflexivity. Qed.
  Lemma evals_app : forall ts us, evals (ts ++ us) = (evals ts + evals us)%N.
  Proof. induction ts as [|t ts IH]; intros us; [reflexivity|]. cbn [app]. rewrite !evals_cons, IH. lia. Qed.
  Lemma evals_split : forall ts, evals ts = (evals (increasing ts) + evals (local_runs ts))%N.
  Proof.
    induction ts as [|t ts IH]; [reflexivity|]. unfold increasing, local_runs in *. cbn [filter].
    destruct (ru_local t); cbn [negb]; rewrite !evals_cons; lia.
  Qed.
  Lemma increasing_app : forall ts us, increasing (ts ++ us) = increasing ts ++ increasing us.
  Proof. intros. apply filter_app. Qed.
  Lemma local_app : forall ts us, local_runs (ts ++ us) = local_runs ts ++ local_runs us.
  Proof. intros. apply filter_app. Qed.
  Lemma last_evals_snoc : forall ts t, last_evals (ts ++ [t]) = function_evals (ru_final t).
  Proof. intros. unfold last_evals. rewrite rev_unit. reflexivity. Qed.

  Lemma exec_ran : forall par rt f o d c, exec ev par rt f o = Ret (d, c) ->
    forall lo ctl, ran par rt (mkRun lo f o d c ctl).
  Proof.
    intros par rt f o d c H lo ctl. unfold exec, build_unwrap in H. oinv H. oinv Ho. destruct a0 as [c0|]; [|discriminate].
    injection Ho as ->. exists a. auto.
  Qed.

  (* one run of a strategy *)
  Lemma strategy_run : forall par rt s0 ts s o range f g s' t g',
    strat_at s0 ts s -> strategy_next_run ev checks par rt s o range f g = Ret (s', t, g') ->
    ran par rt t /\ ru_objective t = f /\ ru_local t = next_local s0 ts /\ configured s0 ts g range o (ru_options t) /\
    strat_at s0 (ts ++ [t]) s' /\ g' = after_run s0 (ru_local t) g /\
    ru_control t = (if stops s0 (ts ++ [t]) t then RMaxRunsReached else RContinue).
  Proof.
    intros par rt s0 ts s o range f g s' t g' Hs H.
    assert (L : forall t0 : run_record T F, length (ts ++ [t0]) = S (length ts)) by (intros; rewrite app_length; simpl; lia).
    destruct s0 as [l|i|b]; cbn [strat_at] in Hs.
    - subst s. cbn [strategy_next_run] in H. oinv H. destruct a as [l' r']. injection H as <- <- <-.
      unfold local_next_run in Ho. cbn [lo_factor lo_runs lo_max_runs] in Ho. oinv Ho. destruct a as [d c]. injection Ho as <- <-.
      split; [eapply exec_ran; eauto|]. cbn. rewrite L. split; [reflexivity|]. split; [reflexivity|]. split; [reflexivity|].
      replace (N.of_nat (length ts) + 1)%N with (N.of_nat (S (length ts))) by lia. split; [|split]; reflexivity.
    - destruct Hs as [m [Hm ->]]. cbn [strategy_next_run] in H. oinv H. destruct a as [l' r']. injection H as <- <- <-.
      unfold ipop_next_run in Ho. cbn [ip_multiplier ip_factor ip_runs] in Ho. oinv Ho. oinv Ho. destruct a0 as [d c]. oinv Ho.
      injection Ho as <- <-. split; [eapply exec_ran; eauto|]. cbn [ru_objective ru_local ru_options ru_control configured strat_at stops].
      rewrite L. split; [reflexivity|]. split; [reflexivity|]. split.
      + exists a. split; [reflexivity|]. apply usize_mul_Ret in Ho0. destruct Ho0 as [-> Hc]. destruct Hm as [-> Hm].
        assert (Hp : o_population_size (set_step_size o (ndiv range n2)) = o_population_size o) by (destruct o; reflexivity).
        rewrite Hp in *. rewrite N.mul_mod_idemp_r by discriminate. split; [reflexivity|].
        intros C. specialize (Hc C). rewrite (N.mod_small _ _ (Hm C)) in Hc. exact Hc.
      + replace (N.of_nat (length ts) + 1)%N with (N.of_nat (S (length ts))) by lia. split; [|split; reflexivity].
        eexists. split; [eapply power_S; eauto|reflexivity].
    - destruct Hs as [m [ml [Hm [Hml ->]]]]. cbn [strategy_next_run] in H. oinv H. destruct a as [[b' r'] g1]. injection H as <- <- <-.
      unfold bipop_next_run in Ho. cbn [bi_ipop_runs bi_lr_evals bi_ipop_evals] in Ho.
      assert (Hk : (N.of_nat (length (increasing ts)) =? 0)%N = Nat.eqb (length (increasing ts)) 0).
      { destruct (length (increasing ts)); reflexivity. }
      rewrite Hk in Ho. cbn [configured]. change (negb _ && _) with (next_local (SBipop b) ts) in Ho.
      destruct (next_local (SBipop b) ts) eqn:Hn.
      + unfold bipop_next_run_lr, lr_step_size, lr_population in Ho. destruct (rr_f64 g) as [u1 g2] eqn:E1.
        destruct (rr_f64 g2) as [u2 g3] eqn:E2. cbn [bi_lr_factor bi_last_multiplier bi_last_ipop_evals bi_lr_evals bi_ipop_runs bi_ipop_evals bi_multiplier bi_increase] in Ho.
        oinv Ho. destruct a as [d c]. injection Ho as <- <- <-. split; [eapply exec_ran; eauto|].
        cbn [ru_objective ru_local ru_options ru_control strat_at stops]. split; [reflexivity|]. split; [reflexivity|].
        rewrite increasing_app, local_app. cbn [increasing local_runs filter negb ru_local andb]. rewrite app_nil_r.
        split; [|split; [|split; [|reflexivity]]]; cycle 2.
        { unfold after_run. rewrite E1. cbn [snd]. rewrite E2. reflexivity. }
        * exists ml. split; [exact Hml|]. cbn [snd]. rewrite E2. cbn [fst].
          destruct o; reflexivity.
        * exists m, ml. split; [exact Hm|]. split; [exact Hml|]. rewrite evals_app. cbn [evals fold_right ru_final]. rewrite N.add_0_r. reflexivity.
      + oinv Ho. destruct a as [b1 r1]. injection Ho as <- <- <-.
        unfold bipop_next_run_ipop in Ho0. cbn [bi_lr_factor bi_last_multiplier bi_last_ipop_evals bi_lr_evals bi_ipop_runs bi_ipop_evals bi_multiplier bi_increase] in Ho0.
        oinv Ho0. oinv Ho0. destruct a0 as [d c]. oinv Ho0. injection Ho0 as <- <-. split; [eapply exec_ran; eauto|].
        cbn [ru_objective ru_local ru_options ru_control strat_at stops]. split; [reflexivity|]. split; [reflexivity|].
        rewrite increasing_app, local_app. cbn [increasing local_runs filter negb ru_local andb]. rewrite app_nil_r.
        rewrite app_length. cbn [length].
        replace (N.of_nat (length (increasing ts)) + 1)%N with (N.of_nat (length (increasing ts) + 1)) by lia.
        split; [|split; [|split; reflexivity]].
        * exists a. split; [reflexivity|]. apply usize_mul_Ret in Ho. destruct Ho as [-> Hc]. destruct Hm as [-> Hm].
          assert (Hp : o_population_size (set_step_size o (ndiv range (nofZ 5))) = o_population_size o) by (destruct o; reflexivity).
          rewrite Hp in *. rewrite N.mul_mod_idemp_r by discriminate. split; [reflexivity|].
          intros C. specialize (Hc C). rewrite (N.mod_small _ _ (Hm C)) in Hc. exact Hc.
        * exists a0, m. replace (length (increasing ts) + 1) with (S (length (increasing ts))) by lia.
          split; [eapply power_S; eauto|]. split; [exact Hm|].
          rewrite last_evals_snoc, evals_app. cbn [evals fold_right ru_final]. rewrite N.add_0_r. reflexivity.
  Qed.

  Lemma zero_max_runs_at : forall s0 ts s, strat_at s0 ts s -> has_zero_max_runs s = has_zero_max_runs s0.
  Proof.
    intros [l|i|b] ts s H; cbn in H.
    - subst. reflexivity.
    - destruct H as [m [_ ->]]. reflexivity.
    - destruct H as [m [ml [_ [_ ->]]]]. reflexivity.
  Qed.
End Vocabulary.

Section Loop.
  Context {T : Type} {NT : Num T} {LT : Libm T} {E : Env T} {RE : REnv T}.
  Context {F : Type} (ev : F -> vec T -> outcome (T * F)) (checks : bool).
  Context {G : Type} (get : G -> outcome (F * G)).

  (* the reason for which the loop ends after the run t (None: it goes on), checked in this order *)
  Definition verdict (t : run_record T F) : option restart_reason :=
    if reports InvalidFunctionValue (Some (ru_data t)) then Some RInvalidFunctionValue
    else if reports FunTarget (Some (ru_data t)) then Some RFunTarget
    else match ru_control t with RMaxRunsReached => Some RMaxRuns | RContinue => None end.

  (* the best individual after one more run *)
  Definition best_after (m : mode) (best : option (individual T)) (t : run_record T F) : option (individual T) :=
    if reports InvalidFunctionValue (Some (ru_data t)) then best
    else match overall_best_individual (ru_final t) with
         | Some i => match best with
                     | Some b => if is_better m (i_value i) (i_value b) then Some i else Some b
                     | None => Some i
                     end
         | None => best
         end.

  Lemma has_reason_reports : forall x (d : term_data T), x = InvalidFunctionValue \/ x = FunTarget ->
    has_reason x (td_reasons d) = reports x (Some d).
  Proof.
    intros x d Hx. unfold reports, has_reason. destruct (in_dec reason_eq_dec x (td_reasons d)) as [H|H].
    - apply existsb_exists. exists x. split; [exact H|]. destruct Hx as [-> | ->]; reflexivity.
    - apply not_true_iff_false. intros Hb. apply H. apply existsb_exists in Hb. destruct Hb as [y [H1 H2]].
      destruct Hx as [-> | ->]; destruct y; try discriminate H2; exact H1.
  Qed.

  (* the runs of the loop so far, oldest first *)
  Definition runs_of (l : loop_state T F G) : list (run_record T F) := rev (l_log l).

  (* where the objective of a run comes from *)
  Definition objective_for (l : loop_state T F G) (f : F) (fac : G) : Prop :=
    match l_objective l with Some f0 => f = f0 /\ fac = l_factory l | None => get (l_factory l) = Ret (f, fac) end.

  (* the generator after an iteration that performs a run: the initial mean, the seed, what the strategy draws *)
  Definition stream_next (r : restarter T) (g : rr_t) (t : run_record T F) : rr_t :=
    match generate_initial_mean (rs_dimensions r) (rs_lo r) (rs_hi r) g with
    | Ret (_, g1) => after_run (rs_strategy r) (ru_local t) (snd (rr_u64 g1))
    | _ => g
    end.

  (* one iteration that performs the run t *)
  Record performs (par reuse : bool) (rt : rtick) (r : restarter T) (l l' : loop_state T F G) (t : run_record T F)
    (res : option restart_reason) : Prop := {
    pf_ran : ran ev par rt t;
    pf_kind : ru_local t = next_local (rs_strategy r) (runs_of l);
    pf_options : exists x g1, generate_initial_mean (rs_dimensions r) (rs_lo r) (rs_hi r) (l_rng l) = Ret (x, g1) /\
      configured checks (rs_strategy r) (runs_of l) (snd (rr_u64 g1)) (nabs (nsub (rs_hi r) (rs_lo r)))
                 (run_options r x (fst (rr_u64 g1))) (ru_options t);
    pf_control : ru_control t = if stops (rs_strategy r) (runs_of l ++ [t]) t then RMaxRunsReached else RContinue;
    pf_strategy : strat_at checks (rs_strategy r) (runs_of l ++ [t]) (l_strategy l');
    pf_rng : l_rng l' = stream_next r (l_rng l) t;
    pf_log : l_log l' = t :: l_log l;
    pf_evals : l_function_evals l' = (l_function_evals l + function_evals (ru_final t))%N;
    pf_runs : l_runs l' = (l_runs l + 1)%N;
    pf_best : l_best l' = best_after (rs_mode r) (l_best l) t;
    pf_get : objective_for l (ru_objective t) (l_factory l');
    pf_res : res = verdict t;
    pf_objective : l_objective l' = if match res with None => reuse | Some _ => false end
                                    then Some (into_objective_function (ru_final t)) else None
  }.

  Record loop_inv (r : restarter T) (l : loop_state T F G) : Prop := {
    li_strategy : strat_at checks (rs_strategy r) (runs_of l) (l_strategy l);
    li_rng : l_rng l = fold_left (stream_next r) (runs_of l) (rs_rng r);
    li_evals : l_function_evals l = evals (runs_of l);
    li_runs : l_runs l = N.of_nat (length (runs_of l));
    li_best : l_best l = fold_left (best_after (rs_mode r)) (runs_of l) (rs_overall_best r)
  }.

  Lemma start_inv : forall r g, fresh (rs_strategy r) -> loop_inv r (loop_init r g).
  Proof. intros r g H. constructor; try reflexivity. apply fresh_start. exact H. Qed.

  (* what one iteration does *)
  Lemma step_cases : forall par reuse started rt r l l' res, loop_inv r l ->
    restart_step ev checks get par reuse started rt r l = Ret (l', res) ->
    (l' = l /\ has_zero_max_runs (rs_strategy r) = true /\ res = Some RMaxRuns) \/
    (l' = l /\ has_zero_max_runs (rs_strategy r) = false /\
      (exists m, rs_max_function_evals r = Some m /\ (m <= evals (runs_of l))%N) /\ res = Some RMaxFunctionEvals) \/
    (l' = l /\ has_zero_max_runs (rs_strategy r) = false /\
      (forall m, rs_max_function_evals r = Some m -> (evals (runs_of l) < m)%N) /\
      (exists m, rs_max_time r = Some m /\ (m <= rt_check rt - started)%N) /\ res = Some RMaxTime) \/
    (no_limit_reached started rt r (runs_of l) /\ exists t, performs par reuse rt r l l' t res).
  Proof.
    intros par reuse started rt r l l' res [Hs _ He _ _] H. unfold restart_step in H.
    rewrite (zero_max_runs_at _ _ _ _ Hs) in H. rewrite He in H.
    destruct (has_zero_max_runs (rs_strategy r)) eqn:Hz; [left; injection H as <- <-; auto|right].
    destruct (match rs_max_function_evals r with Some m => (m <=? evals (runs_of l))%N | None => false end) eqn:Hm.
    { left. injection H as <- <-. split; [reflexivity|]. split; [reflexivity|].
      destruct (rs_max_function_evals r) as [m|]; [|discriminate]. apply N.leb_le in Hm. eauto. }
    right.
    assert (Hm' : forall m, rs_max_function_evals r = Some m -> (evals (runs_of l) < m)%N).
    { intros m X. rewrite X in Hm. apply N.leb_gt in Hm. exact Hm. }
    destruct (match rs_max_time r with Some m => (m <=? rt_check rt - started)%N | None => false end) eqn:Ht.
    { left. injection H as <- <-. split; [reflexivity|]. split; [reflexivity|]. split; [exact Hm'|].
      destruct (rs_max_time r) as [m|]; [|discriminate]. apply N.leb_le in Ht. eauto. }
    right. split.
    { split; [exact Hz|]. split; [exact Hm'|]. intros m X. rewrite X in Ht. apply N.leb_gt in Ht. exact Ht. }
    oinv H. destruct a as [x g1]. destruct (rr_u64 g1) as [seed g2] eqn:Eu. oinv H. destruct a as [f fac]. oinv H.
    destruct a as [[s' t] g3]. exists t.
    destruct (strategy_run ev checks par rt _ _ _ _ _ _ _ _ _ _ Hs Ho1) as [R1 [R2 [R3 [R4 [R5 [R7 R6]]]]]].
    assert (Hrng : g3 = stream_next r (l_rng l) t) by (unfold stream_next; rewrite Ho, Eu; exact R7).
    assert (Hget : objective_for l (ru_objective t) fac).
    { unfold objective_for. rewrite R2. destruct (l_objective l) as [f0|]; [|exact Ho0]. injection Ho0 as <- <-. auto. }
    assert (Hopt : exists x0 g4, generate_initial_mean (rs_dimensions r) (rs_lo r) (rs_hi r) (l_rng l) = Ret (x0, g4) /\
      configured checks (rs_strategy r) (runs_of l) (snd (rr_u64 g4)) (nabs (nsub (rs_hi r) (rs_lo r)))
                 (run_options r x0 (fst (rr_u64 g4))) (ru_options t)).
    { exists x, g1. split; [exact Ho|]. rewrite Eu. exact R4. }
    unfold ru_reasons in H. rewrite !has_reason_reports in H by auto.
    assert (B : best_after (rs_mode r) (l_best l) t =
                if reports InvalidFunctionValue (Some (ru_data t)) then l_best l
                else match overall_best_individual (ru_final t) with
                     | Some b => update_best_individual (rs_mode r) (l_best l) b | None => l_best l end).
    { unfold best_after, update_best_individual. destruct (reports _ _); reflexivity. }
    symmetry in B. destruct (reports InvalidFunctionValue (Some (ru_data t))) eqn:RI.
    { injection H as <- <-. constructor; auto; cbn [l_strategy l_rng l_log l_function_evals l_runs l_best l_factory l_objective]; try congruence.
      unfold verdict. rewrite RI. reflexivity. }
    destruct (reports FunTarget (Some (ru_data t))) eqn:RF.
    { injection H as <- <-. constructor; auto; cbn [l_strategy l_rng l_log l_function_evals l_runs l_best l_factory l_objective]; try congruence.
      unfold verdict. rewrite RI, RF. reflexivity. }
    destruct (ru_control t) eqn:Ec; injection H as <- <-;
      (constructor; auto; cbn [l_strategy l_rng l_log l_function_evals l_runs l_best l_factory l_objective]; try congruence;
       unfold verdict; rewrite RI, RF, Ec; reflexivity).
  Qed.

  Lemma runs_snoc : forall l l' t, l_log l' = t :: l_log l -> runs_of l' = runs_of l ++ [t].
  Proof. intros l l' t H. unfold runs_of. rewrite H. reflexivity. Qed.

  Lemma performs_inv : forall par reuse rt r l l' t res, loop_inv r l -> performs par reuse rt r l l' t res -> loop_inv r l'.
  Proof.
    intros par reuse rt r l l' t res [I1 I0 I2 I3 I4] P. pose proof (runs_snoc _ _ _ (pf_log _ _ _ _ _ _ _ _ P)) as Hr.
    constructor; rewrite Hr.
    - apply (pf_strategy _ _ _ _ _ _ _ _ P).
    - rewrite (pf_rng _ _ _ _ _ _ _ _ P), I0, fold_left_app. reflexivity.
    - rewrite (pf_evals _ _ _ _ _ _ _ _ P), I2, evals_app. cbn. lia.
    - rewrite (pf_runs _ _ _ _ _ _ _ _ P), I3, app_length. cbn. lia.
    - rewrite (pf_best _ _ _ _ _ _ _ _ P), I4, fold_left_app. reflexivity.
  Qed.

  (* `journey n l`: after n iterations, each of which performed a run, the loop is in state l *)
  Inductive journey (par reuse : bool) (started : N) (env : nat -> rtick) (r : restarter T) (g : G) : nat -> loop_state T F G -> Prop :=
  | Jo_start : journey par reuse started env r g 0 (loop_init r g)
  | Jo_run : forall n l l' t, journey par reuse started env r g n l -> no_limit_reached started (env n) r (runs_of l) ->
      performs par reuse (env n) r l l' t None ->
      restart_step ev checks get par reuse started (env n) r l = Ret (l', None) ->
      journey par reuse started env r g (S n) l'.

  Lemma journey_inv : forall par reuse started env r g n l, fresh (rs_strategy r) ->
    journey par reuse started env r g n l -> loop_inv r l /\ length (runs_of l) = n.
  Proof.
    intros par reuse started env r g n l Hf H. induction H as [|n l l' t H [IH1 IH2] _ P _].
    - split; [apply start_inv; exact Hf|reflexivity].
    - split; [eapply performs_inv; eauto|]. rewrite (runs_snoc _ _ _ (pf_log _ _ _ _ _ _ _ _ P)), app_length, IH2. cbn. lia.
  Qed.

  (* the loop: runs that do not end it, then the iteration that does *)
  Lemma loop_journey : forall par reuse started fuel env r g l' reason k l, fresh (rs_strategy r) ->
    journey par reuse started env r g k l ->
    restart_loop ev checks get par reuse started fuel (fun i => env (k + i)) r l = Ret (l', reason) ->
    exists n l1, n < k + fuel /\ k <= n /\ journey par reuse started env r g n l1 /\
      restart_step ev checks get par reuse started (env n) r l1 = Ret (l', Some reason).
  Proof.
    intros par reuse started fuel. induction fuel as [|fuel IH]; intros env r g l' reason k l Hf Hj H; cbn [restart_loop] in H; [discriminate|].
    oinv H. destruct a as [l1 [x|]].
    - injection H as <- <-. exists k, l. rewrite Nat.add_0_r in Ho. split; [lia|]. auto.
    - destruct (journey_inv _ _ _ _ _ _ _ _ Hf Hj) as [Hi _]. rewrite Nat.add_0_r in Ho.
      destruct (step_cases _ _ _ _ _ _ _ _ Hi Ho) as [[_ [_ X]]|[[_ [_ [_ X]]]|[[_ [_ [_ [_ X]]]]|[Hn [t Hp]]]]]; try discriminate X.
      assert (Hj' : journey par reuse started env r g (S k) l1) by (eapply Jo_run; eauto).
      destruct (IH env r g l' reason (S k) l1 Hf Hj') as [n [l2 [H1 [H2 [H3 H4]]]]].
      { rewrite <- H. clear. assert (X : forall fu e1 e2 l0, (forall i, e1 i = e2 i) ->
          restart_loop ev checks get par reuse started fu e1 r l0 = restart_loop ev checks get par reuse started fu e2 r l0).
        { induction fu as [|fu IHf]; intros e1 e2 l0 He; cbn [restart_loop]; [reflexivity|]. rewrite He.
          destruct (restart_step _ _ _ _ _ _ _ _ _) as [[l3 [y|]]| |]; cbn [obind]; auto. }
        apply X. intros i. f_equal. lia. }
      exists n, l2. split; [lia|]. split; [lia|]. auto.
  Qed.

  (* The whole execution: after n runs that did not end it the loop is in state l1; then either a limit was found
     before the next run, or one more run ended it. *)
  Theorem execution : forall par reuse started fuel env g r res l, fresh (rs_strategy r) ->
    restart_run_internal ev checks get par reuse started fuel env g r = Ret (res, l) ->
    res = mkResults (l_best l) (rr_reason res) (l_function_evals l) (l_runs l) /\ loop_inv r l /\
    exists n l1, n < fuel /\ journey par reuse started env r g n l1 /\
      ((l = l1 /\ has_zero_max_runs (rs_strategy r) = true /\ rr_reason res = RMaxRuns) \/
       (l = l1 /\ has_zero_max_runs (rs_strategy r) = false /\
         (exists m, rs_max_function_evals r = Some m /\ (m <= evals (runs_of l1))%N) /\ rr_reason res = RMaxFunctionEvals) \/
       (l = l1 /\ has_zero_max_runs (rs_strategy r) = false /\
         (forall m, rs_max_function_evals r = Some m -> (evals (runs_of l1) < m)%N) /\
         (exists m, rs_max_time r = Some m /\ (m <= rt_check (env n) - started)%N) /\ rr_reason res = RMaxTime) \/
       (no_limit_reached started (env n) r (runs_of l1) /\ exists t, performs par reuse (env n) r l1 l t (Some (rr_reason res)))).
  Proof.
    intros par reuse started fuel env g r res l Hf H. unfold restart_run_internal in H. oinv H. destruct a as [l' reason].
    injection H as <- <-. cbn [rr_reason]. split; [reflexivity|].
    destruct (loop_journey par reuse started fuel env r g l' reason 0 (loop_init r g) Hf (Jo_start _ _ _ _ _ _)) as [n [l1 [H1 [_ [H3 H4]]]]].
    { exact Ho. }
    destruct (journey_inv _ _ _ _ _ _ _ _ Hf H3) as [Hi _].
    pose proof (step_cases _ _ _ _ _ _ _ _ Hi H4) as Hc. split.
    - destruct Hc as [[-> _]|[[-> _]|[[-> _]|[_ [t Hp]]]]]; auto. eapply performs_inv; eauto.
    - exists n, l1. split; [lia|]. split; [exact H3|].
      destruct Hc as [[-> [C1 C2]]|[[-> [C1 [C2 C3]]]|[[-> [C1 [C2 [C3 C4]]]]|[C1 [t C2]]]]].
      + left. split; [reflexivity|]. split; [exact C1|]. injection C2 as ->. reflexivity.
      + right; left. split; [reflexivity|]. split; [exact C1|]. split; [exact C2|]. injection C3 as ->. reflexivity.
      + right; right; left. split; [reflexivity|]. split; [exact C1|]. split; [exact C2|]. split; [exact C3|]. injection C4 as ->. reflexivity.
      + right; right; right. split; [exact C1|]. exists t. exact C2.
  Qed.

  (* what is known about the run t that follows the runs pre *)
  Record run_facts (par : bool) (started : N) (env : nat -> rtick) (r : restarter T) (pre : list (run_record T F))
    (t : run_record T F) : Prop := {
    rf_ran : ran ev par (env (length pre)) t;
    rf_kind : ru_local t = next_local (rs_strategy r) pre;
    rf_options : exists x g1,
      generate_initial_mean (rs_dimensions r) (rs_lo r) (rs_hi r) (fold_left (stream_next r) pre (rs_rng r)) = Ret (x, g1) /\
      configured checks (rs_strategy r) pre (snd (rr_u64 g1)) (nabs (nsub (rs_hi r) (rs_lo r)))
                 (run_options r x (fst (rr_u64 g1))) (ru_options t);
    rf_control : ru_control t = if stops (rs_strategy r) (pre ++ [t]) t then RMaxRunsReached else RContinue;
    rf_limits : no_limit_reached started (env (length pre)) r pre
  }.

  Lemma performs_facts : forall par reuse started env r l l' t res n, loop_inv r l -> length (runs_of l) = n ->
    no_limit_reached started (env n) r (runs_of l) -> performs par reuse (env n) r l l' t res ->
    run_facts par started env r (runs_of l) t.
  Proof.
    intros par reuse started env r l l' t res n Hi <- Hn P. constructor.
    - apply (pf_ran _ _ _ _ _ _ _ _ P).
    - apply (pf_kind _ _ _ _ _ _ _ _ P).
    - rewrite <- (li_rng _ _ Hi). apply (pf_options _ _ _ _ _ _ _ _ P).
    - apply (pf_control _ _ _ _ _ _ _ _ P).
    - exact Hn.
  Qed.

  Lemma snoc_split : forall {A} (a : list A) x pre t post, a ++ [x] = pre ++ t :: post ->
    (post = [] /\ pre = a /\ t = x) \/ exists post', post = post' ++ [x] /\ a = pre ++ t :: post'.
  Proof.
    intros A a x pre t post H. destruct post as [|y post] using rev_ind.
    - left. apply app_inj_tail in H. destruct H as [-> ->]. auto.
    - right. exists post. change (pre ++ t :: post ++ [y]) with (pre ++ (t :: post) ++ [y]) in H. rewrite app_assoc in H.
      apply app_inj_tail in H. destruct H as [-> ->]. auto.
  Qed.

  Lemma journey_facts : forall par reuse started env r g n l, fresh (rs_strategy r) -> journey par reuse started env r g n l ->
    forall pre t post, runs_of l = pre ++ t :: post -> run_facts par started env r pre t /\ verdict t = None.
  Proof.
    intros par reuse started env r g n l Hf H. induction H as [|n l l' t0 H IH Hn P _]; intros pre t post Hr.
    - unfold runs_of, loop_init in Hr. cbn in Hr. destruct pre; discriminate.
    - rewrite (runs_snoc _ _ _ (pf_log _ _ _ _ _ _ _ _ P)) in Hr. destruct (journey_inv _ _ _ _ _ _ _ _ Hf H) as [Hi Hl].
      apply snoc_split in Hr. destruct Hr as [[-> [-> ->]]|[post' [-> Hr]]].
      + split; [eapply performs_facts; eauto|]. symmetry. apply (pf_res _ _ _ _ _ _ _ _ P).
      + eapply IH. exact Hr.
  Qed.

  Definition executed (par reuse : bool) (started : N) (fuel : nat) (env : nat -> rtick) (g : G) (r : restarter T)
    (res : restart_results T) (l : loop_state T F G) : Prop :=
    fresh (rs_strategy r) /\ rs_overall_best r = None /\
    restart_run_internal ev checks get par reuse started fuel env g r = Ret (res, l).

  (* how the loop ended *)
  Inductive ending (started : N) (env : nat -> rtick) (r : restarter T) (ts : list (run_record T F)) : restart_reason -> Prop :=
  | En_run : forall pre t x, ts = pre ++ [t] -> verdict t = Some x -> ending started env r ts x
  | En_zero : has_zero_max_runs (rs_strategy r) = true -> ts = [] -> ending started env r ts RMaxRuns
  | En_evals : forall m, has_zero_max_runs (rs_strategy r) = false -> (forall t, In t ts -> verdict t = None) ->
      rs_max_function_evals r = Some m -> (m <= evals ts)%N -> ending started env r ts RMaxFunctionEvals
  | En_time : forall m, has_zero_max_runs (rs_strategy r) = false -> (forall t, In t ts -> verdict t = None) ->
      (forall k, rs_max_function_evals r = Some k -> (evals ts < k)%N) ->
      rs_max_time r = Some m -> (m <= rt_check (env (length ts)) - started)%N -> ending started env r ts RMaxTime.

  Theorem story : forall par reuse started fuel env g r res l, executed par reuse started fuel env g r res l ->
    (forall pre t post, runs_of l = pre ++ t :: post -> run_facts par started env r pre t /\ (post <> [] -> verdict t = None)) /\
    ending started env r (runs_of l) (rr_reason res).
  Proof.
    intros par reuse started fuel env g r res l [Hf [_ H]]. destruct (execution _ _ _ _ _ _ _ _ _ Hf H) as [_ [_ [n [l1 [_ [Hj Hc]]]]]].
    pose proof (journey_facts _ _ _ _ _ _ _ _ Hf Hj) as Hfacts. destruct (journey_inv _ _ _ _ _ _ _ _ Hf Hj) as [Hi Hl].
    assert (Hq : forall t, In t (runs_of l1) -> verdict t = None).
    { intros t Ht. apply in_split in Ht. destruct Ht as [pre [post Ht]]. apply (Hfacts _ _ _ Ht). }
    destruct Hc as [[-> [C1 C2]]|[[-> [C1 [[m [C2 C3]] C4]]]|[[-> [C1 [C2 [[m [C3 C5]] C4]]]]|[C1 [t P]]]]].
    - split; [intros; split; [eapply Hfacts; eauto|intros; eapply Hfacts; eauto]|]. rewrite C2. apply En_zero; [exact C1|].
      destruct (runs_of l1) as [|t ts] eqn:Er; [reflexivity|]. destruct (Hfacts [] t ts eq_refl) as [[_ _ _ _ [X _]] _]. congruence.
    - split; [intros; split; [eapply Hfacts; eauto|intros; eapply Hfacts; eauto]|]. rewrite C4. eapply En_evals; eauto.
    - split; [intros; split; [eapply Hfacts; eauto|intros; eapply Hfacts; eauto]|]. rewrite C4. eapply En_time; eauto. rewrite Hl. exact C5.
    - pose proof (runs_snoc _ _ _ (pf_log _ _ _ _ _ _ _ _ P)) as Hr. rewrite Hr. split.
      + intros pre t' post Hs. apply snoc_split in Hs. destruct Hs as [[-> [-> ->]]|[post' [-> Hs]]].
        * split; [eapply performs_facts; eauto|congruence].
        * destruct (Hfacts _ _ _ Hs). auto.
      + eapply En_run; [reflexivity|]. symmetry. apply (pf_res _ _ _ _ _ _ _ _ P).
  Qed.
End Loop.
