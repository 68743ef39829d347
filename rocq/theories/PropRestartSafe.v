(* C59: when a Restarter runs without panicking. *)
From Coq Require Import List NArith ZArith Bool Reals Lra Lia Arith.
From Flocq Require Import Core.
From Flocq Require Import IEEE754.BinarySingleNaN.
Require Import Verif.Base Verif.Num Verif.F64 Verif.XReal Verif.LinAlg Verif.Mode Verif.Weights Verif.Options
  Verif.Params Verif.Env Verif.State Verif.Sampling Verif.History Verif.Termination Verif.Plot Verif.Cmaes Verif.Restart
  Verif.Lib Verif.Order Verif.NextInv Verif.Spec Verif.F64Lemmas Verif.CastLemmas Verif.CeilLemmas Verif.MedianLemmas Verif.XRound Verif.XLe
  Verif.BuildLemmas Verif.PanicLemmas Verif.NextSafe
  Verif.Toy Verif.ToyLemmas Verif.RestartLemmas Verif.PropRun Verif.PropRestart Verif.RunLemmas Verif.PropRestartRuns Verif.PropRestartConfig Verif.CalmLemmas.
Import ListNotations.
Open Scope nat_scope.

Definition no_panic {A} (x : outcome A) : Prop := forall p, x <> Panic p.
Lemma no_panic_ret : forall A (a : A), no_panic (Ret a).
Proof. intros A a p. discriminate. Qed.
Lemma no_panic_bind : forall A B (x : outcome A) (f : A -> outcome B),
  no_panic x -> (forall a, x = Ret a -> no_panic (f a)) -> no_panic (obind x f).
Proof.
  intros A B x f Hx Hf p. destruct x as [a|q|]; cbn [obind].
  - apply Hf. reflexivity.
  - intros _. apply (Hx q). reflexivity.
  - discriminate.
Qed.
Lemma usize_mul_exact : forall checks a b, (a * b < 18446744073709551616)%N -> usize_mul checks a b = Ret (a * b)%N.
Proof. intros checks a b H. unfold usize_mul. apply N.ltb_lt in H. rewrite H. reflexivity. Qed.
Lemma usize_mul_ok : forall checks a b, (checks = true -> (a * b < 18446744073709551616)%N) -> no_panic (usize_mul checks a b).
Proof.
  intros checks a b H p. unfold usize_mul. destruct (_ <? _)%N eqn:Hl; [discriminate|]. destruct checks; [|discriminate].
  specialize (H eq_refl). apply N.ltb_lt in H. congruence.
Qed.

Section Safe.
  Context {LT : Libm f64} {E : Env f64} {RE : REnv f64}.
  Context {F : Type} (ev : F -> vec f64 -> outcome (f64 * F)) (checks : bool).
  Context {G : Type} (get : G -> outcome (F * G)).
  Hypothesis Heig : eigen_shape (T := f64).

  (* the step sizes the strategy will use, for a range of size w *)
  Definition steps_valid (s : strategy f64) (w : f64) : Prop :=
    match s with
    | SLocal l => positive_normal (nmul (nmul w (lo_factor l)) (nlit 1 100))
    | SIpop _ => positive_normal (ndiv w n2)
    | SBipop b => positive_normal (ndiv w (nofZ 5)) /\
        forall g : rr_t, positive_normal (nmul (nmul w (bi_lr_factor b)) (lm_powf (nofZ 10) (nmul (nofZ (-2)) (fst (rr_f64 g)))))
    end.
  (* no overflow of population sizes, and of multipliers in builds that check for it, within ten runs *)
  Definition populations_fit (s : strategy f64) (d : N) : Prop :=
    let fit f := (d * f ^ 9 < 18446744073709551616)%N /\ (checks = true -> (f ^ 10 < 18446744073709551616)%N) in
    match s with
    | SLocal _ => True
    | SIpop i => fit (ip_factor i)
    | SBipop b => fit (bi_increase b) /\ (d <= 9007199254740992)%N
    end.

  Record acceptable (o : restart_options f64) : Prop := {
    ac_population : (2 <= o_population_size (ro_default_options o))%N;
    ac_cm : cm_valid (o_cm (ro_default_options o));
    ac_range : forall g : rr_t, no_panic (gen_range (ro_lo o) (ro_hi o) g);
    ac_steps : steps_valid (ro_strategy o) (nabs (nsub (ro_hi o) (ro_lo o)));
    ac_fit : populations_fit (ro_strategy o) (o_population_size (ro_default_options o));
    (* every median the termination check takes is known not to panic *)
    ac_medians : (forall l : list f64, nan_median l <> None) \/ one_sided ev;
    ac_objective : forall f x, length x = ro_dimensions o -> no_panic (ev f x);
    ac_constraints : forall meets x, o_constraints (ro_default_options o) = Some meets -> length x = ro_dimensions o -> no_panic (meets x)
  }.

  Definition medians_safe : Prop := (forall l : list f64, nan_median l <> None) \/ one_sided ev.
  Lemma exec_safe : forall par rt f (o : options f64), medians_safe -> options_valid o ->
    (forall h x, length x = length (o_initial_mean o) -> no_panic (ev h x)) ->
    (forall meets x, o_constraints o = Some meets -> length x = length (o_initial_mean o) -> no_panic (meets x)) ->
    no_panic (exec ev par rt f o).
  Proof.
    intros par rt f o Hk Hv H1 H2. unfold exec. apply no_panic_bind.
    - unfold build_unwrap. destruct (proj2 (build_valid_iff (rt_random rt) (rt_created rt) f o) Hv) as [c Hc]. rewrite Hc. apply no_panic_ret.
    - intros c Hc. assert (Hb : built o f c).
      { unfold build_unwrap in Hc. oinv Hc. destruct a as [c0|]; [|discriminate]. injection Hc as ->. exists (rt_random rt), (rt_created rt). exact Ho. }
      assert (Hr : reaches ev o f c) by (exists c, []; split; [exact Hb|reflexivity]).
      assert (Hm : medians_ok ev o) by (destruct Hk as [Hk|Hk]; [left; exact Hk|right; right; apply one_sided_mild; exact Hk]).
      pose proof (reaches_settled Heig ev o f c Hm Hr) as Hset. intros p Hp. apply (reaches_wf Heig) in Hr.
      pose proof (run_safe Heig ev False True o par (rt_fuel rt) (rt_env rt) c Hr Hset) as S. rewrite Hp in S. apply S; auto. split.
      + intros g x Hx. specialize (H1 g x Hx). destruct (ev g x) as [y|q|]; cbn; auto. eapply H1. reflexivity.
      + unfold wf_meets. destruct (o_constraints o) as [meets|]; auto. intros x Hx. specialize (H2 meets x eq_refl Hx). destruct (meets x) as [y|q|]; cbn; auto.
        eapply H2. reflexivity.
  Qed.

  Lemma pow_ge_1 : forall f k, (1 <= f)%N -> (1 <= f ^ k)%N.
  Proof. intros f k H. pose proof (N.pow_nonzero f k). lia. Qed.
  Lemma pow_mono : forall f a b, (1 <= f)%N -> (a <= b)%N -> (f ^ a <= f ^ b)%N.
  Proof. intros f a b H Hab. apply N.pow_le_mono_r; lia. Qed.

  (* runs of increasing population so far: at most nine when another run is due *)
  Definition few (s0 : strategy f64) (ts : list (run_record f64 F)) : Prop :=
    match s0 with SLocal _ => True | SIpop _ => length ts <= 9 | SBipop _ => length (increasing ts) <= 9 end.

  Lemma power_value : forall f k m, power checks f k m -> (f ^ N.of_nat k < 18446744073709551616)%N -> m = (f ^ N.of_nat k)%N.
  Proof. intros f k m [-> _] H. apply N.mod_small. exact H. Qed.

  Lemma fresh_increase : forall s : strategy f64, fresh s -> match s with SLocal _ => True | SIpop i => (1 <= ip_factor i)%N | SBipop b => (1 <= bi_increase b)%N end.
  Proof.
    intros s [m f l H|f i H|f n b H]; [exact I| |].
    - unfold ipop_new in H. destruct (N.eqb_spec f 0); [discriminate|]. injection H as <-. cbn. lia.
    - revert H. unfold bipop_new. destruct (match f with Some _ => _ | None => _ end); [discriminate|]. destruct n as [n|].
      + destruct (N.eqb_spec n 0); [discriminate|]. intros H. apply (f_equal (fun x => match x with inl y => bi_increase y | inr _ => 1%N end)) in H. cbn in H. lia.
      + intros H. apply (f_equal (fun x => match x with inl y => bi_increase y | inr _ => 1%N end)) in H. cbn in H. lia.
  Qed.

  (* one run of a strategy *)
  Lemma strategy_safe : forall par rt s0 ts s (p : options f64) w f g, medians_safe -> fresh s0 -> strat_at checks s0 ts s -> few s0 ts ->
    o_initial_mean p <> [] -> (2 <= o_population_size p)%N -> cm_valid (o_cm p) -> steps_valid s0 w ->
    populations_fit s0 (o_population_size p) ->
    (forall h x, length x = length (o_initial_mean p) -> no_panic (ev h x)) ->
    (forall meets x, o_constraints p = Some meets -> length x = length (o_initial_mean p) -> no_panic (meets x)) ->
    no_panic (strategy_next_run ev checks par rt s p w f g).
  Proof.
    intros par rt s0 ts s p w f g Hk0 Hf Hs Hfew H1 H2 H3 H4 H5 H6 H7. apply fresh_increase in Hf.
    assert (X : forall x n q, o_initial_mean q = o_initial_mean p -> o_constraints q = o_constraints p -> o_cm q = o_cm p ->
      o_initial_step_size q = x -> o_population_size q = n -> positive_normal x -> (2 <= n)%N -> no_panic (exec ev par rt f q)).
    { intros x n q Q1 Q2 Q3 Q4 Q5 Hx Hn. apply exec_safe; [exact Hk0| | |].
      - unfold options_valid. rewrite Q1, Q3, Q4, Q5. auto.
      - rewrite Q1. exact H6.
      - rewrite Q1, Q2. exact H7. }
    destruct s0 as [l|i|b]; cbn [strat_at few steps_valid populations_fit] in *.
    - subst s. cbn [strategy_next_run]. apply no_panic_bind; [|intros [? ?] _; apply no_panic_ret].
      unfold local_next_run. cbn [lo_factor]. apply no_panic_bind; [|intros [? ?] _; apply no_panic_ret].
      apply (X (nmul (nmul w (lo_factor l)) (nlit 1 100)) (o_population_size p)); try (destruct p; reflexivity); [exact H4|exact H2].
    - destruct Hs as [m [Hm ->]]. destruct H5 as [F1 F2].
      assert (Hk : (N.of_nat (length ts) <= 9)%N) by lia.
      pose proof (pow_mono _ _ _ Hf Hk) as Hp. pose proof (pow_ge_1 _ (N.of_nat (length ts)) Hf) as Hp1.
      assert (Hm' : m = (ip_factor i ^ N.of_nat (length ts))%N).
      { apply power_value; [exact Hm|]. generalize dependent (ip_factor i ^ N.of_nat (length ts))%N. generalize dependent (ip_factor i ^ 9)%N. intros. nia. }
      cbn [strategy_next_run]. apply no_panic_bind; [|intros [? ?] _; apply no_panic_ret].
      unfold ipop_next_run. cbn [ip_multiplier ip_factor ip_runs].
      assert (Ep : o_population_size (set_step_size p (ndiv w n2)) = o_population_size p) by (destruct p; reflexivity). rewrite Ep, Hm'.
      rewrite usize_mul_exact by (generalize dependent (ip_factor i ^ N.of_nat (length ts))%N; generalize dependent (ip_factor i ^ 9)%N; intros; nia).
      cbn [obind]. apply no_panic_bind.
      + apply (X (ndiv w n2) (o_population_size p * ip_factor i ^ N.of_nat (length ts))%N); try (destruct p; reflexivity); [exact H4|].
        generalize dependent (ip_factor i ^ N.of_nat (length ts))%N. intros. nia.
      + intros [d c] _. apply no_panic_bind; [|intros ? _; apply no_panic_ret]. apply usize_mul_ok. intros C. specialize (F2 C).
        rewrite N.mul_comm, <- N.pow_succ_r'. eapply N.le_lt_trans; [|exact F2]. apply pow_mono; [exact Hf|lia].
    - destruct Hs as [m [ml [Hm [Hml ->]]]]. destruct H5 as [[F1 F2] F3]. destruct H4 as [S1 S2].
      cbn [strategy_next_run]. apply no_panic_bind; [|intros [[? ?] ?] _; apply no_panic_ret].
      unfold bipop_next_run. destruct (_ && _).
      + unfold bipop_next_run_lr, lr_step_size, lr_population. cbn [bi_lr_factor bi_last_multiplier bi_last_ipop_evals].
        specialize (S2 g). destruct (rr_f64 g) as [u g1]. cbn [fst] in S2. destruct (rr_f64 g1) as [v g2].
        apply no_panic_bind; [|intros [? ?] _; apply no_panic_ret].
        match goal with |- no_panic (exec _ _ _ _ (with_max_function_evals (set_population (set_step_size _ ?x) ?n) _)) => apply (X x n) end;
          try (destruct p; reflexivity); [exact S2|]. eapply N.le_trans; [exact H2|].
        assert (Ep : forall y, o_population_size (set_step_size p y) = o_population_size p) by (intros; destruct p; reflexivity). rewrite Ep.
        apply lr_pop_lower. exact F3.
      + apply no_panic_bind; [|intros [? ?] _; apply no_panic_ret].
        set (k := length (increasing ts)) in *.
        assert (Hk : (N.of_nat k <= 9)%N) by lia.
        pose proof (pow_mono _ _ _ Hf Hk) as Hp. pose proof (pow_ge_1 _ (N.of_nat k) Hf) as Hp1.
        assert (Hm' : m = (bi_increase b ^ N.of_nat k)%N).
        { apply power_value; [exact Hm|]. generalize dependent (bi_increase b ^ N.of_nat k)%N. generalize dependent (bi_increase b ^ 9)%N. intros. nia. }
        unfold bipop_next_run_ipop. cbn [bi_multiplier bi_increase bi_ipop_runs].
        assert (Ep : o_population_size (set_step_size p (ndiv w (nofZ 5))) = o_population_size p) by (destruct p; reflexivity). rewrite Ep, Hm'.
        rewrite usize_mul_exact by (generalize dependent (bi_increase b ^ N.of_nat k)%N; generalize dependent (bi_increase b ^ 9)%N; intros; nia).
        cbn [obind]. apply no_panic_bind.
        * apply (X (ndiv w (nofZ 5)) (o_population_size p * bi_increase b ^ N.of_nat k)%N); try (destruct p; reflexivity); [exact S1|].
          generalize dependent (bi_increase b ^ N.of_nat k)%N. intros. nia.
        * intros [d c] _. apply no_panic_bind; [|intros ? _; apply no_panic_ret]. apply usize_mul_ok. intros C. specialize (F2 C).
          rewrite N.mul_comm, <- N.pow_succ_r'. eapply N.le_lt_trans; [|exact F2]. apply pow_mono; [exact Hf|lia].
  Qed.

  Lemma mean_safe : forall lo hi, (forall g : rr_t, no_panic (gen_range lo hi g)) ->
    forall d g, no_panic (generate_initial_mean d lo hi g).
  Proof.
    intros lo hi H. induction d as [|d IH]; intros g; cbn [generate_initial_mean]; [apply no_panic_ret|].
    apply no_panic_bind; [apply H|]. intros [x g1] _. apply no_panic_bind; [apply IH|]. intros [v g2] _. apply no_panic_ret.
  Qed.

  (* the factory must not panic: always, or only in its first call when the objective is reused *)
  Definition factory_safe (reuse : bool) (g : G) : Prop :=
    if reuse then no_panic (get g) else forall h, no_panic (get h).

  Theorem C59_no_panic_partial : forall par reuse started fuel env g seed o r,
    restarter_of seed o r -> acceptable o -> factory_safe reuse g ->
    no_panic (restart_run_internal ev checks get par reuse started fuel env g r).
  Proof.
    intros par reuse started fuel env g seed o r Hr A Hg.
    destruct (restarter_fields _ _ _ Hr) as (R1 & R2 & R3 & R4 & R5 & R6 & R7 & R8 & R9 & R10 & R11 & R12 & R13 & R14 & R15 & R16).
    destruct A as [A1 A2 A3 A4 A5 A6 A7].
    assert (Hfresh : fresh (rs_strategy r)) by exact R15.
    unfold restart_run_internal. apply no_panic_bind; [|intros [? ?] _; apply no_panic_ret].
    assert (L : forall fu e l, loop_inv checks r l -> few (rs_strategy r) (runs_of l) -> (l_objective l = None -> no_panic (get (l_factory l))) ->
      no_panic (restart_loop ev checks get par reuse started fu e r l)).
    { induction fu as [|fu IH]; intros e l Hi Hfew Hob; cbn [restart_loop]; [intros p; discriminate|].
      apply no_panic_bind.
      - unfold restart_step. destruct (has_zero_max_runs _); [apply no_panic_ret|].
        destruct (match rs_max_function_evals r with Some m => _ | None => _ end); [apply no_panic_ret|].
        destruct (match rs_max_time r with Some m => _ | None => _ end); [apply no_panic_ret|].
        apply no_panic_bind; [apply mean_safe; rewrite R6, R7; exact A3|]. intros [x g1] Hx. apply mean_length in Hx. rewrite R2 in Hx.
        destruct (rr_u64 g1) as [sd g2]. apply no_panic_bind.
        + destruct (l_objective l); [apply no_panic_ret|]. apply Hob. reflexivity.
        + intros [f fac] _.
          assert (Q : o_initial_mean (run_options r x sd) = x /\ o_population_size (run_options r x sd) = o_population_size (ro_default_options o) /\
            o_cm (run_options r x sd) = o_cm (ro_default_options o) /\ o_constraints (run_options r x sd) = o_constraints (ro_default_options o)).
          { unfold run_options. rewrite R5. destruct (ro_default_options o). cbn. auto. }
          destruct Q as [Q1 [Q2 [Q3 Q4]]].
          apply no_panic_bind.
          * apply (strategy_safe par (e 0) (rs_strategy r) (runs_of l)); rewrite ?Q1, ?Q2, ?Q3, ?Q4, ?R1, ?R6, ?R7, ?Hx; auto.
            -- rewrite <- R1. exact Hfresh.
            -- rewrite <- R1. exact (li_strategy _ _ _ Hi).
            -- rewrite <- R1. exact Hfew.
            -- intros ->. apply R16. rewrite R2, <- Hx. reflexivity.
          * intros [[s t] g3] _. destruct (has_reason _ _); [apply no_panic_ret|]. destruct (has_reason _ _); [apply no_panic_ret|].
            destruct (ru_control t); apply no_panic_ret.
      - intros [l1 [x|]] Hst; [apply no_panic_ret|].
        destruct (step_cases _ _ _ _ _ _ _ _ _ _ _ Hi Hst) as [[_ [_ X]]|[[_ [_ [_ X]]]|[[_ [_ [_ [_ X]]]]|[Hn [t Hp]]]]]; try discriminate X.
        apply IH.
        + eapply performs_inv; eauto.
        + rewrite (runs_snoc _ _ _ (pf_log _ _ _ _ _ _ _ _ _ _ _ Hp)).
          pose proof (pf_res _ _ _ _ _ _ _ _ _ _ _ Hp) as V. symmetry in V. unfold verdict in V.
          destruct (reports InvalidFunctionValue _); [discriminate V|]. destruct (reports FunTarget _); [discriminate V|].
          rewrite (pf_control _ _ _ _ _ _ _ _ _ _ _ Hp) in V. destruct (stops _ _ _) eqn:Es; [discriminate V|].
          destruct (rs_strategy r) as [s|s|s]; cbn [few stops] in *; [exact I| |].
          * apply N.leb_gt in Es. lia.
          * rewrite increasing_app in *. rewrite app_length in *. unfold increasing at 2. cbn [filter]. unfold increasing at 2 in Es. cbn [filter] in Es.
            destruct (ru_local t); cbn [negb andb length] in *; [lia|]. apply N.leb_gt in Es. lia.
        + rewrite (pf_objective _ _ _ _ _ _ _ _ _ _ _ Hp). unfold factory_safe in Hg. destruct reuse; [discriminate|]. intros _. apply Hg. }
    apply L.
    - apply start_inv. exact Hfresh.
    - destruct (rs_strategy r); cbn; lia || exact I.
    - intros _. cbn. unfold factory_safe in Hg. destruct reuse; [exact Hg|apply Hg].
  Qed.
End Safe.
Print Assumptions C59_no_panic_partial.

(* ---- conditions in terms of the numbers given ---- *)
(* the value of x lies between 2^a and 2^b *)
Definition magnitude (a b : Z) (x : f64) : Prop := exists r, f2x x = XFin r /\ (bpow radix2 a <= r <= bpow radix2 b)%R.

Lemma magnitude_normal : forall a b x, (-1022 <= a)%Z -> magnitude a b x -> positive_normal x.
Proof.
  intros a b x Ha [r [Hr [H1 H2]]]. assert (Fx : BinarySingleNaN.is_finite x = true) by (destruct x; try discriminate; reflexivity).
  split; [exact Fx|]. rewrite (f2x_finite _ Fx) in Hr. injection Hr as ->. eapply Rle_trans; [|exact H1].
  rewrite min_normal_eq. replace (IZR 4503599627370496) with (bpow radix2 52) by reflexivity. rewrite <- bpow_plus. apply bpow_le. exact Ha.
Qed.
Lemma magnitude_mul : forall a b c d x y, (-1074 <= a + c)%Z -> (b + d < 1024)%Z -> magnitude a b x -> magnitude c d y ->
  magnitude (a + c) (b + d) (nmul x y).
Proof.
  intros a b c d x y H1 H2 [r [Hr R]] [q [Hq Q]]. unfold magnitude. rewrite f2x_mul, Hr, Hq. cbn [x_mul]. apply xround_between; auto.
  rewrite !bpow_plus. pose proof (bpow_gt_0 radix2 a). pose proof (bpow_gt_0 radix2 c).
  split; apply Rmult_le_compat; lra.
Qed.
Lemma magnitude_div : forall a b x y q, (-1074 <= a - 3)%Z -> (b < 1024)%Z -> magnitude a b x -> f2x y = XFin q -> (1 <= q <= 8)%R ->
  magnitude (a - 3) b (ndiv x y).
Proof.
  intros a b x y q H1 H2 [r [Hr R]] Hq Q. unfold magnitude. rewrite (f2x_div_pos x y q Hq) by lra. rewrite Hr. cbn [x_div].
  unfold Reqb. destruct (Req_EM_T q 0); [lra|]. apply xround_between; auto.
  pose proof (bpow_gt_0 radix2 a). replace (bpow radix2 (a - 3)) with (bpow radix2 a / 8)%R.
  2: { unfold Zminus. rewrite bpow_plus. change (bpow radix2 (- (3))) with (/ 8)%R. reflexivity. }
  assert (I : (/ 8 <= / q <= 1)%R).
  { split; [apply Rinv_le; lra|]. rewrite <- Rinv_1. apply Rinv_le; lra. }
  unfold Rdiv. split; [apply Rmult_le_compat; lra|].
  replace (bpow radix2 b) with (bpow radix2 b * 1)%R by ring. apply Rmult_le_compat; try lra. 
Qed.
Lemma hundredth : magnitude (-7) 0 (nlit 1 100).
Proof.
  unfold magnitude, nlit. rewrite (f2x_div_pos _ _ 100) by (try (apply (f2x_ofZ 100); lia); lra). rewrite (f2x_ofZ 1) by lia. cbn [x_div].
  unfold Reqb. destruct (Req_EM_T 100 0); [lra|]. apply xround_between; try lia. simpl. lra.
Qed.

(* ends that are finite, in order and not too close or too far apart *)
Definition sane_range (lo hi : f64) : Prop :=
  exists a b, f2x lo = XFin a /\ f2x hi = XFin b /\ (bpow radix2 (-500) <= b - a <= bpow radix2 500)%R.

Lemma sane_size : forall lo hi, sane_range lo hi -> magnitude (-500) 500 (nsub hi lo) /\ magnitude (-500) 500 (nabs (nsub hi lo)).
Proof.
  intros lo hi [a [b [Ha [Hb Hd]]]].
  assert (X : magnitude (-500) 500 (nsub hi lo)).
  { unfold magnitude. rewrite f2x_sub, Ha, Hb. cbn [x_sub x_add x_neg]. apply xround_between; try lia. exact Hd. }
  split; [exact X|]. destruct X as [r [Hr R]]. exists r. rewrite f2x_abs, Hr. cbn. pose proof (bpow_gt_0 radix2 (-500)).
  split; [f_equal; apply Rabs_pos_eq; lra|exact R].
Qed.
Lemma finite_check : forall x : f64, (exists r, f2x x = XFin r) -> is_finite x = true.
Proof.
  intros x [r Hr]. unfold is_finite. rewrite f2x_eqb, f2x_sub, Hr. cbn [x_sub x_add x_neg]. replace (r + - r)%R with 0%R by ring.
  rewrite (xround_Z 0) by lia. rewrite f2x_0. cbn. unfold Reqb. destruct (Req_EM_T 0 0); [reflexivity|contradiction].
Qed.
Lemma sane_gen_range : forall (RE : REnv f64) lo hi (g : rr_t), sane_range lo hi -> no_panic (gen_range lo hi g).
Proof.
  intros RE lo hi g H. unfold gen_range. destruct (sane_size _ _ H) as [S _].
  assert (L : nleb lo hi = true).
  { destruct H as [a [b [Ha [Hb Hd]]]]. apply f64_xle. rewrite Ha, Hb. cbn. pose proof (bpow_gt_0 radix2 (-500)). lra. }
  rewrite L. cbn [negb].
  assert (Q : exists q, f2x (nlit 4503599627370495 4503599627370496 : f64) = XFin q /\ (1 / 2 <= q <= 1)%R).
  { unfold nlit. rewrite (f2x_div_pos _ _ 4503599627370496) by (try (apply (f2x_ofZ 4503599627370496); lia); lra).
    rewrite (f2x_ofZ 4503599627370495) by lia. cbn [x_div]. unfold Reqb. destruct (Req_EM_T _ _); [lra|].
    destruct (xround_between (-1) 0 (4503599627370495 / 4503599627370496)) as [y [Y1 Y2]]; try lia; [simpl; lra|].
    exists y. split; [exact Y1|]. simpl in Y2. lra. }
  destruct Q as [q [Q1 Q2]]. rewrite finite_check; [apply no_panic_ret|]. rewrite (f2x_div_pos _ _ q Q1) by lra.
  destruct S as [r [Hr R]]. rewrite Hr. cbn [x_div]. unfold Reqb. destruct (Req_EM_T q 0); [lra|].
  destruct (xround_between (-500) 501 (r / q)) as [y [Y1 _]]; try lia; [|eauto].
  pose proof (bpow_gt_0 radix2 (-500)). assert (I : (1 <= / q <= 2)%R).
  { split; [rewrite <- Rinv_1; apply Rinv_le; lra|]. replace 2%R with (/ (1 / 2))%R by lra. apply Rinv_le; lra. }
  change 501%Z with (500 + 1)%Z. rewrite bpow_plus. change (bpow radix2 1) with 2%R. unfold Rdiv. split; [|apply Rmult_le_compat; lra].
  replace (bpow radix2 (-500)) with (bpow radix2 (-500) * 1)%R by ring. apply Rmult_le_compat; lra.
Qed.

Lemma two_hundredths : forall u : f64, nleb n0 u = true -> nltb u n1 = true ->
  nleb (nofZ (-2)) (nmul (nofZ (-2)) u) = true /\ nleb (nmul (nofZ (-2)) u) n0 = true.
Proof.
  intros u U0 U1. rewrite !f64_xle, f2x_mul, f2x_0, (f2x_ofZ (-2)) by lia. rewrite f64_xle, f2x_0 in U0. rewrite f2x_ltb, f2x_1 in U1.
  destruct (f2x u) as [|[]|q]; try contradiction; try discriminate. cbn in U0, U1. unfold Rltb in U1. destruct (Rlt_dec q 1) as [H2|]; [|discriminate].
  cbn [x_mul].
  pose proof (xround_le (XFin (-2)) (XFin (-2 * q)) ltac:(cbn; lra)) as X. pose proof (xround_le (XFin (-2 * q)) (XFin 0) ltac:(cbn; lra)) as Y.
  rewrite (xround_Z (-2)) in X by lia. rewrite (xround_Z 0) in Y by lia. auto.
Qed.
(* factors between 2^-500 and 2^500, and a range that is sane, give valid step sizes; for BIPOP under the laws of powf and
   of the generator *)
Definition sane_factor (s : strategy f64) : Prop :=
  match s with SLocal l => magnitude (-500) 500 (lo_factor l) | SIpop _ => True | SBipop b => magnitude (-500) 500 (bi_lr_factor b) end.
Lemma sane_steps : forall (LT : Libm f64) (RE : REnv f64) s lo hi, sane_range lo hi -> sane_factor s ->
  match s with SBipop _ => powf_ten LT /\ unit_draws RE | _ => True end -> steps_valid s (nabs (nsub hi lo)).
Proof.
  intros LT RE s lo hi Hr Hf Hl. destruct (sane_size _ _ Hr) as [_ W]. set (w := nabs (nsub hi lo)) in *. clearbody w.
  destruct s as [l|i|b]; cbn [steps_valid sane_factor] in *.
  - apply (magnitude_normal (-500 + -500 + -7) (500 + 500 + 0)); [lia|]. apply magnitude_mul; try lia; [|exact hundredth]. apply magnitude_mul; auto; lia.
  - apply (magnitude_normal (-500 - 3) 500); [lia|]. apply (magnitude_div (-500) 500 w n2 2); auto; try lia; [apply (f2x_ofZ 2); lia|lra].
  - destruct Hl as [L U]. split.
    + apply (magnitude_normal (-500 - 3) 500); [lia|]. apply (magnitude_div (-500) 500 w (nofZ 5) 5); auto; try lia; [apply (f2x_ofZ 5); lia|lra].
    + intros g. destruct (U g) as [U0 U1]. set (u := fst (rr_f64 g)) in *. clearbody u. destruct (two_hundredths u U0 U1) as [Y0 Y1].
      destruct (L _ Y0 Y1) as [L1 L2]. set (q := lm_powf _ _) in *. clearbody q.
      apply (magnitude_normal (-500 + -500 + -7) (500 + 500 + 0)); [lia|]. apply magnitude_mul; try lia; [apply magnitude_mul; auto; lia|].
      destruct hundredth as [c [C1 [C2 C3]]]. rewrite f64_xle in L1, L2. rewrite C1 in L1. rewrite f2x_1 in L2.
      destruct (f2x q) as [|[]|z] eqn:Ez; try contradiction. cbn in L1, L2. exists z. split; [exact Ez|].
      change (bpow radix2 0) with 1%R. lra.
Qed.

(* An ordinary configuration does not panic. *)
Theorem C59_ordinary_partial : forall (LT : Libm f64) (E : Env f64) (RE : REnv f64) {F} (ev : F -> vec f64 -> outcome (f64 * F)) checks
  {G} (get : G -> outcome (F * G)) par reuse started fuel env (g : G) seed (o : restart_options f64) r,
  eigen_shape (T := f64) -> restarter_of seed o r ->
  (2 <= o_population_size (ro_default_options o))%N -> cm_valid (o_cm (ro_default_options o)) ->
  sane_range (ro_lo o) (ro_hi o) -> sane_factor (ro_strategy o) ->
  match ro_strategy o with SBipop _ => powf_ten LT /\ unit_draws RE | _ => True end ->
  populations_fit checks (ro_strategy o) (o_population_size (ro_default_options o)) -> medians_safe ev ->
  (forall f x, length x = ro_dimensions o -> no_panic (ev f x)) ->
  (forall meets x, o_constraints (ro_default_options o) = Some meets -> length x = ro_dimensions o -> no_panic (meets x)) ->
  factory_safe get reuse g ->
  no_panic (restart_run_internal ev checks get par reuse started fuel env g r).
Proof.
  intros LT E RE F ev checks G get par reuse started fuel env g seed o r He Hr H1 H2 H3 H4 H5 H6 Hmed H7 H8 H9.
  eapply C59_no_panic_partial; eauto. constructor; auto.
  - intros g1. apply sane_gen_range. exact H3.
  - apply sane_steps; auto.
Qed.
Print Assumptions C59_ordinary_partial.

(* the factory of run_with_reuse hands out the function it was given once, and that suffices *)
Lemma reuse_factory : forall {F} (f : F), factory_safe take_once true (Some f).
Proof. intros F f. unfold factory_safe. apply no_panic_ret. Qed.

Lemma f2x_lit : forall z, (Z.abs z <= 9007199254740992)%Z -> f2x (lit z 1) = XFin (IZR z).
Proof.
  intros z Hz. unfold lit, nlit. rewrite (f2x_div_pos _ _ 1) by (try (apply (f2x_ofZ 1); lia); lra). rewrite (f2x_ofZ z) by lia. cbn [x_div].
  unfold Reqb. destruct (Req_EM_T 1 0); [lra|]. replace (IZR z / 1)%R with (IZR z) by field. apply xround_Z. lia.
Qed.
(* the hypotheses of C59_ordinary_partial are met by the executions of PropRestartRuns and PropRestartConfig *)
Example C59_case : eigen_shape (T := f64) /\ (exists r, restarter_of 0 limited_options r) /\
  (2 <= o_population_size (ro_default_options limited_options))%N /\ cm_valid (o_cm (ro_default_options limited_options)) /\
  sane_range (ro_lo limited_options) (ro_hi limited_options) /\ sane_factor (ro_strategy limited_options) /\
  powf_ten clamped_libm /\ unit_draws toy_renv /\
  populations_fit true (ro_strategy limited_options) (o_population_size (ro_default_options limited_options)) /\
  medians_safe toy_sphere /\
  (forall f x, length x = ro_dimensions limited_options -> no_panic (toy_sphere f x)) /\
  o_constraints (ro_default_options limited_options) = None.
Proof.
  split; [exact toy_eigen_shape|]. split.
  { destruct C57_case as [_ [_ [_ [r [_ [_ [H _]]]]]]]. exists r. exact H. }
  split; [vm_compute; discriminate|]. split.
  { apply cm_check. vm_compute. reflexivity. }
  split.
  { exists (-2)%R, 3%R. split; [apply (f2x_lit (-2)); lia|]. split; [apply (f2x_lit 3); lia|].
    change (bpow radix2 (-500)) with (/ IZR (Z.pow_pos 2 500))%R.
    assert (A : (0 < / IZR (Z.pow_pos 2 500) <= 1)%R).
    { split; [apply Rinv_0_lt_compat, IZR_lt; reflexivity|]. rewrite <- Rinv_1. apply Rinv_le; [lra|]. apply IZR_le. vm_compute. discriminate. }
    assert (B : (8 <= bpow radix2 500)%R) by (change 8%R with (bpow radix2 3); apply bpow_le; lia). lra. }
  split.
  { cbn [sane_factor ro_strategy limited_options toy_restart_options bi_lr_factor]. unfold magnitude, lit, nlit.
    rewrite (f2x_div_pos _ _ 10) by (try (apply (f2x_ofZ 10); lia); lra). rewrite (f2x_ofZ 2) by lia. cbn [x_div].
    unfold Reqb. destruct (Req_EM_T 10 0); [lra|]. apply xround_between; try lia. 
    assert (A : (bpow radix2 (-500) <= bpow radix2 (-3))%R) by (apply bpow_le; lia).
    assert (B : (bpow radix2 0 <= bpow radix2 500)%R) by (apply bpow_le; lia).
    change (bpow radix2 (-3)) with (/ 8)%R in A. change (bpow radix2 0) with 1%R in B. lra. }
  split; [exact clamped_ten|]. split; [exact toy_draws|]. split.
  { split; [split|]; vm_compute; try reflexivity; discriminate. }
  split; [left; intros l; discriminate|]. split; [|reflexivity]. intros f x _. apply no_panic_ret.
Qed.

(* Configurations that are accepted and then panic. *)
Definition edge_options (s : strategy f64) (pop : N) (lo hi : f64) : restart_options f64 :=
  let o := toy_restart_options s in
  {| ro_strategy := s; ro_dimensions := 2; ro_mode := ro_mode o; ro_parallel_update := ro_parallel_update o;
     ro_default_options := apply_setters (ro_default_options o) [SPopulationSize pop]; ro_lo := lo; ro_hi := hi; ro_fun_target := None;
     ro_max_function_evals := None; ro_max_time := None;
     ro_max_function_evals_per_run := None; ro_max_generations_per_run := Some 1%N; ro_enable_printing := false;
     ro_seed := Some 5%N |}.
Definition is_panic {A} (x : outcome A) : bool := match x with Panic _ => true | _ => false end.
Definition edge_run (checks : bool) (o : restart_options f64) : bool :=
  match restarter_new 0 o with
  | inl r => is_panic (restart_run_with_reuse toy_sphere checks false 0 20 toy_renv_of tt r)
  | inr _ => false
  end.
(* accepted, and the execution on a total objective panics *)
Definition accepted_but_panics (checks : bool) (o : restart_options f64) : Prop :=
  exists r p, restarter_of 0 o r /\ restart_run_with_reuse toy_sphere checks false 0 20 toy_renv_of tt r = Panic p.
Lemma edge_run_panics : forall checks o, fresh (ro_strategy o) -> edge_run checks o = true -> accepted_but_panics checks o.
Proof.
  intros checks o Hf H. unfold edge_run in H. destruct (restarter_new 0 o) as [r|] eqn:Er; [|discriminate].
  destruct (restart_run_with_reuse _ _ _ _ _ _ _ _) as [y|p|] eqn:Ex; try discriminate. exists r, p. split; [split; assumption|exact Ex].
Qed.
(* 2^-1022 and f64::MAX *)
Definition tiny : f64 := binary_normalize 53 1024 eq_refl eq_refl mode_NE 1 (-1022) false.
Definition huge : f64 := binary_normalize 53 1024 eq_refl eq_refl mode_NE 9007199254740991 971 false.
Definition tiny_local : strategy f64 := SLocal (mkLocal 0 tiny 3).
Definition wide_ipop : strategy f64 := SIpop (mkIpop 0 1 4611686018427387904).
Lemma edge_fresh : fresh tiny_local /\ fresh wide_ipop.
Proof.
  split.
  - apply (Fr_local 3%N (Some tiny)). unfold local_new. assert (X : is_initial_step_size_valid tiny = true) by (vm_compute; reflexivity).
    rewrite X. reflexivity.
  - apply (Fr_ipop 4611686018427387904%N). reflexivity.
Qed.
Theorem C59_refuted :
  (* a population of one, a population multiplier that overflows with and without overflow checks *)
  accepted_but_panics true (edge_options toy_local 1 (lit (-2) 1) (lit 3 1)) /\
  accepted_but_panics true (edge_options wide_ipop 4 (lit (-2) 1) (lit 3 1)) /\
  accepted_but_panics false (edge_options wide_ipop 4 (lit (-2) 1) (lit 3 1)) /\
  (* ranges: reversed, NaN, too wide, too narrow *)
  accepted_but_panics true (edge_options toy_local 4 (lit 3 1) (lit (-2) 1)) /\
  accepted_but_panics true (edge_options toy_local 4 nnan (lit 3 1)) /\
  accepted_but_panics true (edge_options toy_local 4 (nneg huge) huge) /\
  accepted_but_panics true (edge_options toy_local 4 n0 tiny) /\
  (* a factor that its constructor accepts *)
  accepted_but_panics true (edge_options tiny_local 4 (lit (-2) 1) (lit 3 1)).
Proof.
  destruct toy_fresh as [_ [F2 _]]. destruct edge_fresh as [F4 F5].
  split; [apply edge_run_panics; [exact F2|vm_cast_no_check (eq_refl true)]|].
  split; [apply edge_run_panics; [exact F5|vm_cast_no_check (eq_refl true)]|].
  split; [apply edge_run_panics; [exact F5|vm_cast_no_check (eq_refl true)]|].
  split; [apply edge_run_panics; [exact F2|vm_cast_no_check (eq_refl true)]|].
  split; [apply edge_run_panics; [exact F2|vm_cast_no_check (eq_refl true)]|].
  split; [apply edge_run_panics; [exact F2|vm_cast_no_check (eq_refl true)]|].
  split; [apply edge_run_panics; [exact F2|vm_cast_no_check (eq_refl true)]|].
  apply edge_run_panics; [exact F4|vm_cast_no_check (eq_refl true)].
Qed.
Print Assumptions C59_refuted.
