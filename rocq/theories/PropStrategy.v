(* C93: the constructors of the restart strategies, and the runs that their arguments lead to. *)
From Coq Require Import List NArith ZArith Bool Reals Lra Lia Arith.
From Flocq Require Import Core.
From Flocq Require Import IEEE754.BinarySingleNaN.
Require Import Verif.Base Verif.Num Verif.F64 Verif.XReal Verif.LinAlg Verif.Mode Verif.Weights Verif.Options
  Verif.Params Verif.Env Verif.State Verif.Sampling Verif.History Verif.Termination Verif.Plot Verif.Cmaes Verif.Restart
  Verif.Lib Verif.Order Verif.NextInv Verif.Spec Verif.F64Lemmas Verif.CastLemmas Verif.CeilLemmas Verif.XRound Verif.XLe Verif.BuildLemmas
  Verif.Toy Verif.RestartLemmas Verif.PropRun Verif.PropRestart Verif.RunLemmas Verif.PropRestartRuns Verif.PropRestartConfig.
Import ListNotations.
Open Scope nat_scope.

(* IPOP::default: ipop.rs lines 10 and 55-59 *)
Definition ipop_default : outcome ipop := match ipop_new 2 with inl i => Ret i | inr _ => Panic PUnwrap end.
(* BIPOP::default: bipop.rs lines 167-171 *)
Definition bipop_default {T} {NT : Num T} : outcome (bipop T) := match bipop_new None None with inl b => Ret b | inr _ => Panic PUnwrap end.

(* a factor for the step size that the constructors document as valid: a finite number of at least 2^-1022, the smallest normal number *)
Definition usable (x : f64) : Prop := BinarySingleNaN.is_finite x = true /\ (bpow radix2 (-1022) <= B2R x)%R.
Definition all_usable (f : option f64) : Prop := forall x, f = Some x -> usable x.

Lemma usable_valid : forall x : f64, is_initial_step_size_valid x = true <-> usable x.
Proof. intros x. rewrite step_size_valid. reflexivity. Qed.

Theorem C93_accepts :
  (forall m (f : option f64), match local_new m f with inr e => e = SEInitialStepSize /\ ~ all_usable f | inl _ => all_usable f end) /\
  (forall k, match ipop_new k with inr e => e = SEPopulationSize /\ k = 0%N | inl _ => k <> 0%N end) /\
  (forall (f : option f64) k, match bipop_new f k with
     | inr SEInitialStepSize => ~ all_usable f
     | inr SEPopulationSize => all_usable f /\ k = Some 0%N
     | inl _ => all_usable f /\ k <> Some 0%N
     end) /\
  (exists i, ipop_default = Ret i /\ ipop_new 2 = inl i) /\ (exists b, bipop_default (T := f64) = Ret b /\ bipop_new None (Some 2%N) = inl b).
Proof.
  assert (N : all_usable None) by (intros x Hx; discriminate Hx).
  assert (S : forall x, is_initial_step_size_valid x = true -> all_usable (Some x)). { intros x Hx y Hy. injection Hy as <-. apply usable_valid. exact Hx. }
  assert (U : forall x, is_initial_step_size_valid x = false -> ~ all_usable (Some x)). { intros x Hx H. specialize (H x eq_refl). apply usable_valid in H. congruence. }
  split; [|split; [|split; [|split]]].
  - intros m [x|]; unfold local_new; [|exact N]. destruct (is_initial_step_size_valid x) eqn:Hx; cbn [negb]; [exact (S x Hx)|]. split; [reflexivity|exact (U x Hx)].
  - intros k. unfold ipop_new. destruct (N.eqb_spec k 0) as [H|H]; [split; [reflexivity|exact H]|exact H].
  - intros f k. unfold bipop_new. destruct f as [x|].
    + destruct (is_initial_step_size_valid x) eqn:Hx; cbn [negb]; [|exact (U x Hx)]. destruct k as [k|]; [destruct (N.eqb_spec k 0) as [->|Hk]|]; split; try exact (S x Hx); try reflexivity; try discriminate. congruence.
    + destruct k as [k|]; [destruct (N.eqb_spec k 0) as [->|Hk]|]; split; try exact N; try reflexivity; try discriminate. congruence.
  - eexists. split; reflexivity.
  - eexists. split; reflexivity.
Qed.
Print Assumptions C93_accepts.

Lemma lit_value : forall p q, (0 <= p <= q)%Z -> (0 < q <= 9007199254740992)%Z -> f2x (nlit p q : f64) = XFin (rnd64 (IZR p / IZR q)).
Proof.
  intros p q Hp Hq. assert (Hq0 : (0 < IZR q)%R) by (apply IZR_lt; lia). assert (Hp0 : (0 <= IZR p <= IZR q)%R) by (split; apply IZR_le; lia).
  assert (B : (0 <= IZR p / IZR q <= 1)%R). { split; [apply Rmult_le_pos; [lra|left; apply Rinv_0_lt_compat; exact Hq0]|]. apply (Rmult_le_reg_r (IZR q)); [exact Hq0|]. unfold Rdiv. rewrite Rmult_assoc, Rinv_l by lra. lra. }
  unfold nlit. rewrite (f2x_div_pos _ _ (IZR q)); [|apply f2x_ofZ; lia|exact Hq0]. rewrite f2x_ofZ by lia. cbn [x_div].
  unfold Reqb, Rltb. destruct (Req_EM_T _ _); [lra|]. cbn [xround]. rewrite Rlt_bool_true; [reflexivity|].
  assert (X : (0 <= rnd64 (IZR p / IZR q) <= 1)%R). { split; [rewrite <- rnd64_0; apply rnd64_le; apply B|]. rewrite <- (rnd64_id 1); [apply rnd64_le; apply B|]. apply (format_IZR 1). lia. }
  rewrite Rabs_pos_eq by apply X. apply (Rle_lt_trans _ 1); [apply X|]. apply (bpow_lt radix2 0 1024). lia.
Qed.

Lemma fifth : f2x (nlit 2 10 : f64) = XFin (rnd64 (1 / 5)).
Proof. rewrite (lit_value 2 10) by lia. do 2 f_equal. lra. Qed.

(* the size of the search range, and the factors: the given one, or the documented default rounded to binary64 *)
Definition extent (o : restart_options f64) : xreal := x_abs (xround (x_sub (f2x (ro_hi o)) (f2x (ro_lo o)))).
Definition given (f : option f64) (default : R) : xreal := match f with Some x => f2x x | None => XFin (rnd64 default) end.
Definition times (a b : xreal) : xreal := xround (x_mul a b).

Section Strategies.
  Context {LT : Libm f64} {E : Env f64} {RE : REnv f64} {F : Type} (ev : F -> vec f64 -> outcome (f64 * F)) (checks : bool) {G : Type} (get : G -> outcome (F * G)).
  Variables (par reuse : bool) (started : N) (fuel : nat) (env : nat -> rtick) (g : G) (seed : N) (o : restart_options f64) (r : restarter f64).
  Hypothesis Hr : restarter_of seed o r.
  Variables (res : restart_results f64) (l : loop_state f64 F G).
  Hypothesis H : restart_run_internal ev checks get par reuse started fuel env g r = Ret (res, l).
  Let default : N := o_population_size (ro_default_options o).
  Let fits (n : N) : Prop := checks = true -> (n < 18446744073709551616)%N.

  Lemma extent_value : f2x (nabs (nsub (ro_hi o) (ro_lo o))) = extent o.
  Proof. unfold extent. rewrite f2x_abs, f2x_sub. reflexivity. Qed.

  (* Local::new(m, f) *)
  Theorem C93_local : forall m f s, local_new m f = inl s -> ro_strategy o = SLocal s ->
    (rr_runs res <= m)%N /\
    Forall (fun t => o_population_size (ru_options t) = default /\
      f2x (o_initial_step_size (ru_options t)) = times (times (extent o) (given f (1 / 2))) (XFin (rnd64 (1 / 100)))) (runs_of l).
  Proof.
    intros m f s Hn Es.
    assert (Q : lo_max_runs s = m /\ f2x (lo_factor s) = given f (1 / 2)).
    { unfold local_new in Hn. destruct f as [x|]; [destruct (negb _); [discriminate Hn|]|]; injection Hn as <-; cbn [lo_max_runs lo_factor given]; (split; [reflexivity|]); [reflexivity|].
      apply (lit_value 1 2); lia. }
    destruct Q as [Q1 Q2]. split; [rewrite <- Q1; exact (C55_local _ _ _ _ _ _ _ _ _ _ _ _ Hr _ _ H s Es)|].
    apply Forall_forall. intros t Ht. apply in_split in Ht. destruct Ht as [pre [post Ht]].
    pose proof (C56_options _ _ _ _ _ _ _ _ _ _ _ _ Hr _ _ H _ _ _ Ht) as X. cbv zeta in X. destruct X as (_ & _ & _ & _ & _ & _ & _ & X). rewrite Es in X. cbn [strategy_sets] in X. destruct X as [X1 [_ X2]].
    split; [exact X1|]. rewrite X2, !f2x_mul, extent_value, Q2. rewrite (lit_value 1 100) by lia. reflexivity.
  Qed.

  (* IPOP::new(k) *)
  Theorem C93_ipop : forall k s, ipop_new k = inl s -> ro_strategy o = SIpop s ->
    (rr_runs res <= 10)%N /\
    forall pre t post, runs_of l = pre ++ t :: post -> let n := (default * k ^ N.of_nat (length pre))%N in
      fits n /\ o_population_size (ru_options t) = (n mod 18446744073709551616)%N /\ f2x (o_initial_step_size (ru_options t)) = xround (x_div (extent o) (XFin 2)).
  Proof.
    intros k s Hn Es. assert (Q : ip_factor s = k). { unfold ipop_new in Hn. destruct (_ =? _)%N; [discriminate Hn|]. injection Hn as <-. reflexivity. }
    split; [exact (C55_ipop _ _ _ _ _ _ _ _ _ _ _ _ Hr _ _ H s Es)|]. intros pre t post Ht n.
    pose proof (C56_options _ _ _ _ _ _ _ _ _ _ _ _ Hr _ _ H _ _ _ Ht) as X. cbv zeta in X. destruct X as (_ & _ & _ & _ & _ & _ & _ & X). rewrite Es in X. cbn [strategy_sets] in X. rewrite Q in X. destruct X as [X1 [X2 [_ X3]]].
    split; [exact X2|]. split; [exact X1|]. rewrite X3. rewrite (f2x_div_pos _ _ 2); [rewrite extent_value; reflexivity|apply (f2x_ofZ 2); lia|lra].
  Qed.

  (* BIPOP::new(f, k) *)
  Theorem C93_bipop : forall f k s, bipop_new f k = inl s -> ro_strategy o = SBipop s ->
    let increase := match k with Some k => k | None => 2%N end in
    length (increasing (runs_of l)) <= 10 /\
    forall pre t post, runs_of l = pre ++ t :: post ->
      (ru_local t = false -> let n := (default * increase ^ N.of_nat (length (increasing pre)))%N in
        fits n /\ o_population_size (ru_options t) = (n mod 18446744073709551616)%N /\ f2x (o_initial_step_size (ru_options t)) = xround (x_div (extent o) (XFin 5))) /\
      (ru_local t = true ->
        (exists u, f2x (o_initial_step_size (ru_options t)) = times (times (extent o) (given f (1 / 5))) (f2x (lm_powf (nofZ 10) (nmul (nofZ (-2)) (fst (rr_f64 u)))))) /\
        ((default <= 9007199254740992)%N -> (default <= o_population_size (ru_options t))%N /\
          let m := (default * increase ^ N.of_nat (Nat.pred (length (increasing pre))))%N in
          (powf_root LT -> unit_draws RE -> (m <= 9007199254740992)%N -> (o_population_size (ru_options t) <= N.max default (m / 2))%N))).
  Proof.
    intros f k s Hn Es increase.
    assert (Q : bi_increase s = increase /\ f2x (bi_lr_factor s) = given f (1 / 5)).
    { unfold bipop_new in Hn. destruct (match f with Some _ => _ | None => _ end); [discriminate Hn|]. destruct (match k with Some _ => _ | None => _ end); [discriminate Hn|].
      injection Hn as <-. cbn [bi_increase bi_lr_factor]. split; [reflexivity|]. destruct f as [x|]; [reflexivity|]. cbn [given]. exact fifth. }
    destruct Q as [Q1 Q2]. split; [exact (C55_bipop _ _ _ _ _ _ _ _ _ _ _ _ Hr _ _ H s Es)|]. intros pre t post Ht. split.
    - intros Hl n. pose proof (C56_options _ _ _ _ _ _ _ _ _ _ _ _ Hr _ _ H _ _ _ Ht) as X. cbv zeta in X. destruct X as (_ & _ & _ & _ & _ & _ & _ & X). rewrite Es, Hl in X. cbn [strategy_sets] in X. rewrite Q1 in X. destruct X as [X1 [X2 [_ X3]]].
      split; [exact X2|]. split; [exact X1|]. rewrite X3. rewrite (f2x_div_pos _ _ 5); [rewrite extent_value; reflexivity|apply (f2x_ofZ 5); lia|lra].
    - intros Hl. split.
      + destruct (lr_drawn _ _ _ _ _ _ _ _ _ _ _ _ Hr _ _ H _ _ _ _ Es Ht Hl) as [gu [gv [m [_ [Hp _]]]]]. exists gu. rewrite Hp, !f2x_mul, extent_value, Q2. reflexivity.
      + intros Hd. destruct (C57_population _ _ _ _ _ _ _ _ _ _ _ _ Hr _ _ H _ _ _ _ Es Ht Hl Hd) as [X1 X2]. split; [exact X1|]. intros m. rewrite Q1 in X2. exact X2.
  Qed.
End Strategies.
Print Assumptions C93_local.
Print Assumptions C93_ipop.
Print Assumptions C93_bipop.

(* Executions of each strategy with constructor arguments (three local runs with the default factor; four IPOP runs; BIPOP with an increase factor of 4 and LR runs), and rejected arguments. *)
Example C93_case :
  (exists s r res l, local_new 3 None = inl s /\ restarter_of 0 (toy_restart_options (SLocal s)) r /\
    restart_run_with_reuse (log_ev toy_sphere) true false 0 20 toy_renv_of (tt, []) r = Ret (res, l) /\ length (runs_of l) = 3) /\
  (exists s r res l, ipop_new 2 = inl s /\ restarter_of 0 (toy_restart_options (SIpop s)) r /\
    restart_run_with_reuse (log_ev toy_sphere) true false 0 20 toy_renv_of (tt, []) r = Ret (res, l) /\ length (runs_of l) = 4) /\
  (exists s r res l, bipop_new None (Some 4%N) = inl s /\ ro_strategy limited_options = SBipop s /\ restarter_of 0 limited_options r /\
    restart_run_with_reuse (LT := clamped_libm) (log_ev toy_sphere) true false 0 20 toy_renv_of (tt, []) r = Ret (res, l) /\ rows_eqb (map limited_row (runs_of l)) limited_rows = true) /\
  ~ all_usable (Some (nofZ 0)) /\ all_usable (Some (nlit 1 4)).
Proof.
  destruct C53_cases as [[r1 [res1 [l1 [A1 [A2 A3]]]]] [[r2 [res2 [l2 [B1 [B2 B3]]]]] _]]. destruct C57_case as [_ [_ [_ [r3 [res3 [l3 [D1 [D2 D3]]]]]]]].
  split; [|split; [|split; [|split]]].
  - eexists. exists r1, res1, l1. split; [reflexivity|]. split; [exact A1|]. split; [exact A2|].
    apply andb_prop in A3. destruct A3 as [A3 _]. apply andb_prop in A3. destruct A3 as [A3 _]. apply andb_prop in A3. destruct A3 as [A3 _]. apply andb_prop in A3. destruct A3 as [_ A3]. apply Nat.eqb_eq. exact A3.
  - eexists. exists r2, res2, l2. split; [reflexivity|]. split; [exact B1|]. split; [exact B2|].
    apply andb_prop in B3. destruct B3 as [B3 _]. apply andb_prop in B3. destruct B3 as [B3 _]. apply andb_prop in B3. destruct B3 as [_ B3]. apply Nat.eqb_eq. exact B3.
  - eexists. exists r3, res3, l3. split; [reflexivity|]. split; [reflexivity|]. split; [exact D1|]. split; [exact D2|exact D3].
  - intros X. specialize (X _ eq_refl). apply usable_valid in X. vm_compute in X. discriminate X.
  - intros x Hx. assert (Y : x = nlit 1 4) by congruence. rewrite Y. apply usable_valid. vm_compute. reflexivity.
Qed.
