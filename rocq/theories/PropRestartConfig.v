(* C51, C56 and C57: validation of RestartOptions and the configuration of the runs. *)
From Coq Require Import List NArith ZArith Bool Reals Lra Lia Arith.
From Flocq Require Import Core Plus_error.
From Flocq Require Import IEEE754.BinarySingleNaN.
Require Import Verif.Base Verif.Num Verif.F64 Verif.XReal Verif.LinAlg Verif.Mode Verif.Weights Verif.Options
  Verif.Params Verif.Env Verif.State Verif.Sampling Verif.History Verif.Termination Verif.Plot Verif.Cmaes Verif.Restart
  Verif.Lib Verif.Order Verif.NextInv Verif.Spec Verif.F64Lemmas Verif.CastLemmas Verif.CeilLemmas Verif.MedianLemmas Verif.XRound Verif.XLe Verif.BuildLemmas
  Verif.Toy Verif.RestartLemmas Verif.PropRun Verif.PropRestart Verif.RunLemmas Verif.PropRestartRuns.
Import ListNotations.
Open Scope nat_scope.

(* ---- C51 ---- *)
(* both ends are finite and have the same value (zeros of either sign are the same) *)
Definition zero_size (lo hi : f64) : Prop := exists a : R, f2x lo = XFin a /\ f2x hi = XFin a.

Lemma f2x_format : forall (x : f64) a, f2x x = XFin a -> generic_format radix2 (SpecFloat.fexp 53 1024) a.
Proof.
  intros x a H. assert (X : a = B2R x) by (destruct x as [s|s| |s m e B]; cbn [f2x] in H; try discriminate H; congruence).
  rewrite X. apply format_B2R.
Qed.
Lemma size_zero : forall lo hi : f64, neqb (nsub hi lo) n0 = true <-> zero_size lo hi.
Proof.
  intros lo hi. rewrite f2x_eqb, f2x_sub. change (f2x n0) with (XFin (B2R (B754_zero false : f64))). cbn [B2R]. unfold zero_size.
  destruct (f2x hi) as [|s|b] eqn:Eh; destruct (f2x lo) as [|t|a] eqn:El; cbn [x_sub x_add x_neg].
  all: try (split; [intros H; cbn in H; try discriminate H; destruct (Bool.eqb _ _); discriminate H|intros [c [H1 H2]]; discriminate]).
  split.
  - intros H. exists a. split; [reflexivity|]. f_equal. unfold xround in H. destruct (Rlt_bool _ _); [|discriminate H].
    cbn [x_eqb] in H. unfold Reqb in H. destruct (Req_EM_T _ _) as [H0|]; [|discriminate H].
    destruct (Req_dec (b + - a) 0) as [X|X]; [lra|]. exfalso.
    apply f2x_format in Eh, El. apply generic_format_opp in El.
    assert (V : Valid_exp (SpecFloat.fexp 53 1024)) by (apply (fexp_correct 53 1024); reflexivity).
    exact (@round_plus_neq_0 radix2 (SpecFloat.fexp 53 1024) V (@monotone_exp_not_FTZ _ V (fexp_monotone 53 1024)) (round_mode mode_NE) _ b (- a) Eh El X H0).
  - intros [c [H1 H2]]. injection H1 as ->. injection H2 as ->. replace (c + - c)%R with 0%R by ring.
    unfold xround. rewrite rnd64_0, Rabs_R0, Rlt_bool_true by (apply bpow_gt_0). cbn. unfold Reqb. destruct (Req_EM_T 0 0); [reflexivity|contradiction].
Qed.

Theorem C51_build : forall (RE : REnv f64) (seed : N) (o : restart_options f64),
  match restarter_new seed o with
  | inr REDimensions => ro_dimensions o = 0
  | inr RESearchRange => ro_dimensions o <> 0 /\ zero_size (ro_lo o) (ro_hi o)
  | inl _ => ro_dimensions o <> 0 /\ ~ zero_size (ro_lo o) (ro_hi o)
  end.
Proof.
  intros RE seed o. unfold restarter_new. destruct (Nat.eqb_spec (ro_dimensions o) 0) as [H|H]; [exact H|].
  destruct (neqb _ _) eqn:E.
  - split; [exact H|]. apply size_zero. exact E.
  - split; [exact H|]. intros X. apply size_zero in X. congruence.
Qed.
Print Assumptions C51_build.
(* the range given to RestartOptions::new is kept or reversed, and is in order afterwards *)
Theorem C51_flip : forall (LT : Libm f64) d (lo hi : f64) s,
  let o := restart_options_new d lo hi s in
  ((ro_lo o = lo /\ ro_hi o = hi) \/ (ro_lo o = hi /\ ro_hi o = lo)) /\
  (nis_nan lo = false -> nis_nan hi = false -> nleb (ro_lo o) (ro_hi o) = true) /\
  (nleb lo hi = true -> ro_lo o = lo /\ ro_hi o = hi).
Proof.
  intros LT d lo hi s o. unfold o, restart_options_new. destruct (nleb lo hi) eqn:E; cbn [ro_lo ro_hi].
  - split; [auto|]. split; [intros _ _; exact E|auto].
  - split; [auto|]. split; [|discriminate]. intros H1 H2. rewrite f2x_nan in H1, H2. rewrite f2x_leb in *.
    destruct (f2x lo) as [|a|a]; destruct (f2x hi) as [|b|b]; try discriminate H1; try discriminate H2;
      cbn in *; unfold x_leb in *; cbn in *; try (destruct a; destruct b; reflexivity || discriminate); try (destruct a; reflexivity || discriminate); try (destruct b; reflexivity || discriminate).
    unfold Rltb, Reqb in *. destruct (Rlt_dec a b); [discriminate|]. destruct (Req_EM_T a b); [discriminate|].
    destruct (Rlt_dec b a); [reflexivity|]. lra.
Qed.
Print Assumptions C51_flip.
Example C51_cases :
  zero_size (lit 0 1) (nneg (lit 0 1)) /\ ~ zero_size (lit 1 1) (lit 2 1) /\
  match restarter_new 0 (restart_options_new 0 (lit 1 1) (lit 2 1) toy_ipop) with inr REDimensions => True | _ => False end /\
  match restarter_new 0 (restart_options_new 2 (lit 1 1) (lit 1 1) toy_ipop) with inr RESearchRange => True | _ => False end /\
  match restarter_new 0 (restart_options_new 2 (lit 2 1) (lit 1 1) toy_ipop) with inl _ => True | _ => False end.
Proof.
  split; [|split; [|split; [|split]]].
  - apply size_zero. vm_compute. reflexivity.
  - intros H. apply size_zero in H. revert H. vm_compute. discriminate.
  - vm_compute. exact I.
  - vm_compute. exact I.
  - vm_compute. exact I.
Qed.

(* ---- C56 ---- *)
Section Config.
  Context {T : Type} {NT : Num T} {LT : Libm T} {E : Env T} {RE : REnv T}.
  Context {F : Type} (ev : F -> vec T -> outcome (T * F)) (checks : bool).
  Context {G : Type} (get : G -> outcome (F * G)).

  (* the fields no strategy touches *)
  Definition untouched (d p : options T) : Prop :=
    o_constraints p = o_constraints d /\ o_max_resamples p = o_max_resamples d /\ o_weights p = o_weights d /\ o_cm p = o_cm d /\
    o_max_time p = o_max_time d /\ o_tol_fun p = o_tol_fun d /\ o_tol_fun_rel p = o_tol_fun_rel d /\
    o_tol_fun_hist p = o_tol_fun_hist d /\ o_tol_x p = o_tol_x d /\ o_tol_stagnation p = o_tol_stagnation d /\
    o_tol_x_up p = o_tol_x_up d /\ o_tol_condition_cov p = o_tol_condition_cov d /\
    o_plot_options p = o_plot_options d /\ o_print_gap_evals p = o_print_gap_evals d.

  Definition wrap (n : N) : N := (n mod 18446744073709551616)%N.

  (* population size, step size and limit of evaluations of the run p after the runs pre, as the strategies document them;
     range is the size of the search range *)
  Definition strategy_sets (s0 : strategy T) (pre : list (run_record T F)) (local : bool) (range : T) (default : N)
      (limit : option N) (p : options T) : Prop :=
    match s0 with
    | SLocal s => o_population_size p = default /\ o_max_function_evals p = limit /\
        o_initial_step_size p = nmul (nmul range (lo_factor s)) (nlit 1 100)
    | SIpop s => o_population_size p = wrap (default * ip_factor s ^ N.of_nat (length pre)) /\
        (checks = true -> default * ip_factor s ^ N.of_nat (length pre) < 18446744073709551616)%N /\
        o_max_function_evals p = limit /\ o_initial_step_size p = ndiv range n2
    | SBipop s =>
        if local then
          o_max_function_evals p = match limit with Some m => Some (N.min m (last_evals (increasing pre) / 2)) | None => None end
        else o_population_size p = wrap (default * bi_increase s ^ N.of_nat (length (increasing pre))) /\
          (checks = true -> default * bi_increase s ^ N.of_nat (length (increasing pre)) < 18446744073709551616)%N /\
          o_max_function_evals p = limit /\ o_initial_step_size p = ndiv range (nofZ 5)
    end.

  Lemma mean_length : forall d lo hi (g : rr_t) x g', generate_initial_mean d lo hi g = Ret (x, g') -> length x = d.
  Proof.
    induction d as [|d IH]; intros lo hi g x g' H; cbn [generate_initial_mean] in H; [injection H as <- <-; reflexivity|].
    oinv H. destruct a as [y g1]. oinv H. destruct a as [v g2]. injection H as <- <-. cbn. f_equal. eapply IH; eauto.
  Qed.
  Lemma mean_from : forall d lo hi (g : rr_t) x g', generate_initial_mean d lo hi g = Ret (x, g') ->
    Forall (fun v => nleb lo hi = true /\ exists g1, v = fst (rr_range lo hi g1)) x.
  Proof.
    induction d as [|d IH]; intros lo hi g x g' H; cbn [generate_initial_mean] in H; [injection H as <- <-; constructor|].
    oinv H. destruct a as [y g1]. oinv H. destruct a as [v g2]. injection H as <- <-. constructor; [|eapply IH; eauto].
    unfold gen_range in Ho. destruct (nleb lo hi); cbn [negb] in Ho; [|discriminate]. destruct (is_finite _); cbn [negb] in Ho; [|discriminate].
    split; [reflexivity|]. exists g. apply (f_equal (fun r => match r with Ret (a, _) => a | _ => y end)) in Ho. rewrite <- Ho.
    destruct (rr_range lo hi g); reflexivity.
  Qed.

  Section Run.
    Variables (par reuse : bool) (started : N) (fuel : nat) (env : nat -> rtick) (g : G).
    Variables (seed : N) (o : restart_options T) (r : restarter T).
    Hypothesis Hr : restarter_of seed o r.
    Variables (res : restart_results T) (l : loop_state T F G).
    Hypothesis H : restart_run_internal ev checks get par reuse started fuel env g r = Ret (res, l).

    Theorem C56_options : forall pre t post, runs_of l = pre ++ t :: post ->
      let p := ru_options t in let d := ro_default_options o in
      o_mode p = ro_mode o /\ o_parallel_update p = ro_parallel_update o /\ o_fun_target p = ro_fun_target o /\
      o_max_generations p = ro_max_generations_per_run o /\
      (exists s, o_seed p = Some s) /\ length (o_initial_mean p) = ro_dimensions o /\
      untouched d p /\
      strategy_sets (ro_strategy o) pre (ru_local t) (nabs (nsub (ro_hi o) (ro_lo o))) (o_population_size d)
        (ro_max_function_evals_per_run o) p.
    Proof.
      intros pre t post Hs p d. destruct (proj1 (St _ _ _ _ _ _ _ _ _ _ _ _ Hr _ _ H) _ _ _ Hs) as [[_ Hk [x [g1 [Hx Hc]]] _ _] _].
      destruct (restarter_fields _ _ _ Hr) as (R1 & R2 & R3 & R4 & R5 & R6 & R7 & R8 & R9 & R10 & R11 & R12 & _).
      apply mean_length in Hx. rewrite R2 in Hx. unfold run_options in Hc. rewrite R1, R3, R4, R5, R6, R7, R8, R11, R12 in Hc. fold d in Hc. fold p in Hc.
      rewrite R1 in Hk. destruct (ro_strategy o) as [s|s|s] eqn:Es; cbn [configured strategy_sets] in *.
      - rewrite Hc. clear Hc. destruct d. cbn in *. unfold untouched. cbn. split; [reflexivity|]. split; [reflexivity|]. split; [reflexivity|].
        split; [reflexivity|]. split; [eauto|]. split; [exact Hx|]. split; [repeat split|]. auto.
      - destruct Hc as [n [Hc [Hn1 Hn2]]]. rewrite Hc. clear Hc. destruct d. cbn in *. unfold untouched. cbn. split; [reflexivity|]. split; [reflexivity|]. split; [reflexivity|].
        split; [reflexivity|]. split; [eauto|]. split; [exact Hx|]. split; [repeat split|]. auto.
      - rewrite <- Hk in Hc. destruct (ru_local t).
        + destruct Hc as [m [_ Hc]]. rewrite Hc. clear Hc. destruct d. cbn in *. unfold untouched. cbn. split; [reflexivity|]. split; [reflexivity|]. split; [reflexivity|].
          split; [reflexivity|]. split; [eauto|]. split; [exact Hx|]. split; [repeat split|]. auto.
        + destruct Hc as [n [Hc [Hn1 Hn2]]]. rewrite Hc. clear Hc. destruct d. cbn in *. unfold untouched. cbn. split; [reflexivity|]. split; [reflexivity|]. split; [reflexivity|].
          split; [reflexivity|]. split; [eauto|]. split; [exact Hx|]. split; [repeat split|]. auto.
    Qed.

    (* the initial mean lies in the search range, if the generator keeps to its contract for ranges *)
    Theorem C56_mean : (nleb (ro_lo o) (ro_hi o) = true -> forall g1 : rr_t,
        nleb (ro_lo o) (fst (rr_range (ro_lo o) (ro_hi o) g1)) = true /\ nleb (fst (rr_range (ro_lo o) (ro_hi o) g1)) (ro_hi o) = true) ->
      forall t, In t (runs_of l) ->
      Forall (fun v => nleb (ro_lo o) v = true /\ nleb v (ro_hi o) = true) (o_initial_mean (ru_options t)).
    Proof.
      intros Hl t Ht. apply in_split in Ht. destruct Ht as [pre [post Hs]].
      destruct (proj1 (St _ _ _ _ _ _ _ _ _ _ _ _ Hr _ _ H) _ _ _ Hs) as [[_ Hk [x [g1 [Hx Hc]]] _ _] _].
      destruct (restarter_fields _ _ _ Hr) as (R1 & R2 & R3 & R4 & R5 & R6 & R7 & _).
      assert (Hp : o_initial_mean (ru_options t) = x).
      { unfold run_options in Hc. destruct (rs_strategy r) as [s|s|s]; cbn [configured] in Hc.
        - rewrite Hc. destruct (rs_default_options r). reflexivity.
        - destruct Hc as [n [Hc _]]. rewrite Hc. destruct (rs_default_options r). reflexivity.
        - destruct (next_local _ _).
          + destruct Hc as [m [_ Hc]]. rewrite Hc. destruct (rs_default_options r). reflexivity.
          + destruct Hc as [n [Hc _]]. rewrite Hc. destruct (rs_default_options r). reflexivity. }
      rewrite Hp. apply mean_from in Hx. rewrite R6, R7 in Hx. eapply Forall_impl; [|exact Hx]. cbv beta.
      intros v [Hle [g2 ->]]. apply Hl. exact Hle.
    Qed.

    (* mean and seed of each run are drawn from the one generator of the restarter, seeded once; no state of it is used
       for two runs *)
    Inductive draws (r0 : restart_options T) : rr_t -> list (run_record T F) -> Prop :=
    | Dr_nil : forall g0, draws r0 g0 []
    | Dr_run : forall g0 x g1 t ts,
        generate_initial_mean (ro_dimensions r0) (ro_lo r0) (ro_hi r0) g0 = Ret (x, g1) ->
        o_initial_mean (ru_options t) = x -> o_seed (ru_options t) = Some (fst (rr_u64 g1)) ->
        draws r0 (match ro_strategy r0 with
                  | SBipop _ => if ru_local t then snd (rr_f64 (snd (rr_f64 (snd (rr_u64 g1))))) else snd (rr_u64 g1)
                  | _ => snd (rr_u64 g1)
                  end) ts ->
        draws r0 g0 (t :: ts).
    Theorem C56_draws : draws o (rr_seed (match ro_seed o with Some s => s | None => seed end)) (runs_of l).
    Proof.
      destruct (restarter_fields _ _ _ Hr) as (R1 & R2 & R3 & R4 & R5 & R6 & R7 & R8 & R9 & R10 & R11 & R12 & R13 & _).
      rewrite <- R13. pose proof (proj1 (St _ _ _ _ _ _ _ _ _ _ _ _ Hr _ _ H)) as X.
      assert (Y : forall ts pre, runs_of l = pre ++ ts -> draws o (fold_left (stream_next r) pre (rs_rng r)) ts).
      { induction ts as [|t ts IH]; intros pre Hs; [constructor|].
        destruct (X _ _ _ Hs) as [[_ Hk [x [g1 [Hx Hc]]] _ _] _].
        assert (Hp : o_initial_mean (ru_options t) = x /\ o_seed (ru_options t) = Some (fst (rr_u64 g1))).
        { unfold run_options in Hc. destruct (rs_strategy r) as [s|s|s]; cbn [configured] in Hc.
          - rewrite Hc. destruct (rs_default_options r). split; reflexivity.
          - destruct Hc as [n [Hc _]]. rewrite Hc. destruct (rs_default_options r). split; reflexivity.
          - destruct (next_local _ _).
            + destruct Hc as [m [_ Hc]]. rewrite Hc. destruct (rs_default_options r). split; reflexivity.
            + destruct Hc as [n [Hc _]]. rewrite Hc. destruct (rs_default_options r). split; reflexivity. }
        specialize (IH (pre ++ [t])). rewrite <- app_assoc in IH. specialize (IH Hs). rewrite fold_left_app in IH. cbn [fold_left] in IH.
        unfold stream_next at 1 in IH. rewrite Hx in IH. rewrite R2, R6, R7 in Hx. eapply Dr_run; [exact Hx|apply Hp|apply Hp|].
        rewrite <- R1. exact IH. }
      apply (Y (runs_of l) []). reflexivity.
    Qed.

    (* C57: the limit of an LR run of BIPOP *)
    Theorem C57_limit : forall s pre t post m, ro_strategy o = SBipop s -> runs_of l = pre ++ t :: post -> ru_local t = true ->
      ro_max_function_evals_per_run o = Some m ->
      o_max_function_evals (ru_options t) = Some (N.min m (last_evals (increasing pre) / 2)) /\
      (function_evals (ru_final t) < N.max (last_evals (increasing pre) / 2) 1 + o_population_size (ru_options t))%N.
    Proof.
      intros s pre t post m Es Hs Hl Hm. destruct (C56_options _ _ _ Hs) as (_ & _ & _ & _ & _ & _ & _ & X).
      rewrite Es in X. cbn [strategy_sets] in X. rewrite Hl, Hm in X. split; [exact X|].
      destruct (C52_totals _ _ _ _ _ _ _ _ _ _ _ _ Hr _ _ H) as [_ [_ Y]]. destruct (Y _ _ _ Hs) as [c0 [Y1 Y2]].
      pose proof (proj2 (C20_bound ev _ _ _ _ _ _ Y1 X) _ _ _ _ _ Y2) as Z. lia.
    Qed.
  End Run.
End Config.
Print Assumptions C56_options.
Print Assumptions C56_mean.
Print Assumptions C56_draws.
Print Assumptions C57_limit.

(* ---- C57: population and step size of LR runs ---- *)
(* the documented range of Rng::gen::<f64> *)
Definition unit_draws {T} {NT : Num T} (RE : REnv T) : Prop :=
  forall g : rr_t, nleb n0 (fst (rr_f64 g)) = true /\ nltb (fst (rr_f64 g)) n1 = true.
(* a power with exponent between 0 and 1 is not above the larger of its base and 1 (a NaN is allowed) *)
Definition powf_root (LT : Libm f64) : Prop :=
  forall x y : f64, nleb n0 x = true -> nleb n0 y = true -> nleb y n1 = true -> nltb (nmax x n1) (lm_powf x y) = false.
(* 10^y lies between 1/100 and 1 for y between -2 and 0 *)
Definition powf_ten (LT : Libm f64) : Prop :=
  forall y : f64, nleb (nofZ (-2)) y = true -> nleb y n0 = true ->
  nleb (nlit 1 100) (lm_powf (nofZ 10) y) = true /\ nleb (lm_powf (nofZ 10) y) n1 = true.

Section LR.
  Context {LT : Libm f64}.
  Definition lr_pop (d m : N) (u : f64) : N :=
    nto_usize (nfloor (nmul (nofN d) (nmax (lm_powf (ndiv (nofN m) n2) (powi u 2)) n1))).

  Lemma f2x_nofN : forall d, (d <= 9007199254740992)%N -> f2x (nofN d) = XFin (IZR (Z.of_N d)).
  Proof. intros d Hd. apply f2x_ofZ. lia. Qed.
  Lemma f2x_1 : f2x (n1 : f64) = XFin 1.
  Proof. apply (f2x_ofZ 1). lia. Qed.
  Lemma f2x_0 : f2x (n0 : f64) = XFin 0.
  Proof. apply (f2x_ofZ 0). lia. Qed.
  Lemma big : (IZR (2 ^ 1023) < bpow radix2 1024)%R.
  Proof. rewrite <- (IZR_Zpower radix2) by lia. apply IZR_lt. reflexivity. Qed.
  Lemma small_emax : forall z, (Z.abs z <= 9007199254740992)%Z -> (Rabs (IZR z) < bpow radix2 1024)%R.
  Proof.
    intros z Hz. rewrite <- abs_IZR. eapply Rle_lt_trans; [|exact big]. apply IZR_le. eapply Z.le_trans; [exact Hz|]. vm_compute. discriminate.
  Qed.
  Lemma xround_Z : forall z, (Z.abs z <= 9007199254740992)%Z -> xround (XFin (IZR z)) = XFin (IZR z).
  Proof. intros z Hz. apply xround_id; [apply format_IZR; exact Hz|apply small_emax; exact Hz]. Qed.
  Lemma usize_Z : forall d, (d <= 18446744073709551615)%N -> x_to_usize (XFin (IZR (Z.of_N d))) = d.
  Proof. intros d Hd. cbn [x_to_usize]. rewrite Ztrunc_IZR. lia. Qed.
  Lemma floor_Z : forall z, x_floor (XFin (IZR z)) = XFin (IZR z).
  Proof. intros z. cbn. rewrite Zfloor_IZR. reflexivity. Qed.

  Lemma mul_le_r : forall d a b, (0 < d)%R -> xle (XFin 0) a -> xle a b -> xle (x_mul (XFin d) a) (x_mul (XFin d) b).
  Proof.
    intros d [|[]|a] [|[]|b] Hd; cbn; try contradiction; intros _ H; unfold x_signed_inf, Rltb; destruct (Rlt_dec 0 d); try contradiction; cbn; auto.
    apply Rmult_le_compat_l; lra.
  Qed.
  Lemma lr_pop_lower : forall d m u, (d <= 9007199254740992)%N -> (d <= lr_pop d m u)%N.
  Proof.
    intros d m u Hd. destruct (N.eq_dec d 0) as [->|Hz]; [apply N.le_0_l|].
    unfold lr_pop. rewrite f2x_to_usize, f2x_floor, f2x_mul, f2x_max, f2x_1, (f2x_nofN d Hd).
    set (M := nmax _ (XFin 1)). apply (N.le_trans _ (x_to_usize (x_floor (xround (x_mul (XFin (IZR (Z.of_N d))) (XFin 1)))))).
    - cbn [x_mul]. rewrite Rmult_1_r, xround_Z, floor_Z, usize_Z by lia. apply N.le_refl.
    - apply to_usize_le, floor_le, xround_le, mul_le_r.
      + apply (IZR_lt 0). lia.
      + cbn. lra.
      + apply xmax_one.
  Qed.

  Lemma unit_square : forall u : f64, nleb n0 u = true -> nltb u n1 = true -> nleb n0 (powi u 2) = true /\ nleb (powi u 2) n1 = true.
  Proof.
    intros u H0 H1. rewrite f64_xle, f2x_0 in H0. rewrite f2x_ltb, f2x_1 in H1. rewrite !f64_xle, f2x_0, f2x_1.
    change (powi u 2) with (nmul n1 (nmul u u)). rewrite !f2x_mul, f2x_1.
    destruct (f2x u) as [|[]|r]; try contradiction; try discriminate. cbn in H0, H1. unfold Rltb in H1. destruct (Rlt_dec r 1) as [H2|]; [|discriminate].
    assert (Q : forall a, (0 <= a <= 1)%R -> xle (XFin 0) (xround (XFin a)) /\ xle (xround (XFin a)) (XFin 1)).
    { intros a Ha. pose proof (xround_le (XFin 0) (XFin a) (proj1 Ha)) as X. pose proof (xround_le (XFin a) (XFin 1) (proj2 Ha)) as Y.
      change (XFin 0) with (XFin (IZR 0)) in X. change (XFin 1) with (XFin (IZR 1)) in Y. rewrite xround_Z in X by lia. rewrite xround_Z in Y by lia. auto. }
    assert (A : xle (XFin 0) (xround (x_mul (XFin r) (XFin r))) /\ xle (xround (x_mul (XFin r) (XFin r))) (XFin 1)).
    { apply Q. nra. }
    destruct (xround (x_mul (XFin r) (XFin r))) as [|[]|q]; try (destruct A; contradiction). cbn in A. apply Q. lra.
  Qed.

  Lemma format_half : forall z, (Z.abs z <= 9007199254740992)%Z -> generic_format radix2 (SpecFloat.fexp 53 1024) (IZR z / 2).
  Proof.
    intros z Hz. assert (X : generic_format radix2 (FLT_exp (-1074) 53) (IZR z / 2)); [|exact X].
    apply generic_format_FLT. destruct (Z.eq_dec (Z.abs z) 9007199254740992) as [E|E].
    - assert (E' : (z = 9007199254740992 \/ z = -9007199254740992)%Z) by lia. destruct E' as [E'|E']; subst z.
      + apply (FLT_spec _ _ _ _ (Float radix2 4503599627370496 0)); [unfold F2R; simpl; lra|simpl; lia|simpl; lia].
      + apply (FLT_spec _ _ _ _ (Float radix2 (-4503599627370496) 0)); [unfold F2R; simpl; lra|simpl; lia|simpl; lia].
    - apply (FLT_spec _ _ _ _ (Float radix2 z (-1))); [unfold F2R; simpl; lra|cbn [Fnum]; change (radix2 ^ 53)%Z with 9007199254740992%Z; lia|simpl; lia].
  Qed.
  Lemma half_emax : forall z, (Z.abs z <= 9007199254740992)%Z -> (Rabs (IZR z / 2) < bpow radix2 1024)%R.
  Proof.
    intros z Hz. eapply Rle_lt_trans; [|apply (small_emax z Hz)]. unfold Rdiv. rewrite Rabs_mult, (Rabs_pos_eq (/ 2)) by lra.
    pose proof (Rabs_pos (IZR z)). lra.
  Qed.
  Lemma lr_pop_0 : forall m u, lr_pop 0 m u = 0%N.
  Proof.
    intros m u. unfold lr_pop. rewrite f2x_to_usize, f2x_floor, f2x_mul, f2x_max, f2x_1. change (f2x (nofN 0)) with (XFin 0).
    destruct (nmax _ _) as [|b|q]; cbn [x_mul].
    - reflexivity.
    - unfold x_signed_inf, Rltb. destruct (Rlt_dec 0 0); [lra|]. reflexivity.
    - rewrite Rmult_0_l, (xround_Z 0), (floor_Z 0) by lia. change 0%Z with (Z.of_N 0). rewrite usize_Z by lia. reflexivity.
  Qed.
  Lemma lr_pop_upper : forall d m u, powf_root LT -> nleb n0 u = true -> nltb u n1 = true ->
    (1 <= m)%N -> (d * m <= 9007199254740992)%N -> (lr_pop d m u <= N.max d (d * m / 2))%N.
  Proof.
    intros d m u Law U0 U1 Hm Hd. destruct (unit_square u U0 U1) as [S0 S1].
    destruct (N.eq_dec d 0) as [->|Hz]; [rewrite lr_pop_0; lia|].
    assert (Hm' : (m <= 9007199254740992)%N) by nia.
    assert (Hd' : (d <= 9007199254740992)%N) by nia.
    specialize (Law (ndiv (nofN m) n2) (powi u 2)).
    assert (Hh : f2x (ndiv (nofN m) n2) = XFin (IZR (Z.of_N m) / 2)).
    { rewrite f2x_half, (f2x_nofN m Hm'). cbn [x_div]. unfold Reqb. destruct (Req_EM_T 2 0); [lra|].
      apply xround_id; [apply format_half; lia|apply half_emax; lia]. }
    assert (Hm0 : (0 <= IZR (Z.of_N m))%R) by (apply (IZR_le 0); lia).
    specialize (Law ltac:(rewrite f64_xle, f2x_0, Hh; cbn; lra) S0 S1).
    rewrite f2x_ltb, f2x_max, Hh, f2x_1 in Law. apply xmax_up in Law.
    unfold lr_pop. rewrite f2x_to_usize, f2x_floor, f2x_mul, f2x_max, f2x_1, (f2x_nofN d Hd').
    set (M := nmax _ (XFin 1)) in *. assert (HM : xle (XFin 1) M) by apply xmax_one. clearbody M. set (h := (IZR (Z.of_N m) / 2)%R) in *.
    assert (X : exists r, generic_format radix2 (SpecFloat.fexp 53 1024) r /\ (Rabs r < bpow radix2 1024)%R /\
              x_mul (XFin (IZR (Z.of_N d))) (nmax (XFin h) (XFin 1)) = XFin r /\ Zfloor r = Z.of_N (N.max d (d * m / 2))).
    { unfold nmax. cbn [nis_nan Num_xreal x_is_nan nltb x_ltb]. unfold Rltb. destruct (Rlt_dec 1 h) as [Hlt|Hlt].
      - exists (IZR (Z.of_N (d * m)) / 2)%R. split; [apply format_half; lia|]. split; [apply half_emax; lia|].
        split; [cbn [x_mul]; f_equal; unfold h; rewrite N2Z.inj_mul, mult_IZR; field|].
        assert (2 < Z.of_N m)%Z by (apply lt_IZR; unfold h in Hlt; lra).
        rewrite N.max_r. 2: { apply N.div_le_lower_bound; nia. } rewrite N2Z.inj_div. change (Z.of_N 2) with 2%Z.
        apply Zfloor_div. lia.
      - assert (Z.of_N m <= 2)%Z by (apply le_IZR; unfold h in Hlt; lra).
        exists (IZR (Z.of_N d)). split; [apply format_IZR; lia|]. split; [apply small_emax; lia|].
        split; [cbn [x_mul]; f_equal; ring|]. rewrite N.max_l.
        + apply Zfloor_IZR.
        + apply N.div_le_upper_bound; nia. }
    destruct X as [r [X1 [X2 [X3 X4]]]].
    apply (N.le_trans _ (x_to_usize (x_floor (xround (XFin r))))).
    - rewrite <- X3. apply to_usize_le, floor_le, xround_le, mul_le_r; [apply (IZR_lt 0); lia| |exact Law].
      apply (xle_trans _ (XFin 1)); [cbn; lra|apply HM].
    - rewrite xround_id by assumption. cbn [x_floor]. rewrite X4, usize_Z by (apply N.max_lub; [lia|]; apply N.div_le_upper_bound; lia). apply N.le_refl.
  Qed.
End LR.

(* what an LR run is configured with: u and v are the two numbers drawn for it *)
Section Drawn.
  Context {T : Type} {NT : Num T} {LT : Libm T} {E : Env T} {RE : REnv T}.
  Context {F : Type} (ev : F -> vec T -> outcome (T * F)) (checks : bool).
  Context {G : Type} (get : G -> outcome (F * G)).
  Lemma lr_drawn : forall par reuse started fuel env (g : G) seed (o : restart_options T) r,
    restarter_of seed o r -> forall res l,
    restart_run_internal ev checks get par reuse started fuel env g r = Ret (res, l) ->
    forall s pre t post, ro_strategy o = SBipop s -> runs_of l = pre ++ t :: post -> ru_local t = true ->
    exists (gu gv : rr_t) m,
      power checks (bi_increase s) (Nat.pred (length (increasing pre))) m /\
      o_initial_step_size (ru_options t) =
        nmul (nmul (nabs (nsub (ro_hi o) (ro_lo o))) (bi_lr_factor s)) (lm_powf (nofZ 10) (nmul (nofZ (-2)) (fst (rr_f64 gu)))) /\
      o_population_size (ru_options t) =
        nto_usize (nfloor (nmul (nofN (o_population_size (ro_default_options o)))
          (nmax (lm_powf (ndiv (nofN m) n2) (powi (fst (rr_f64 gv)) 2)) n1))) /\
      exists c0, cmaes_new (rt_random (env (length pre))) (rt_created (env (length pre))) (ru_objective t) (ru_options t) = Ret (inl c0).
  Proof.
    intros par reuse started fuel env g seed o r Hr res l H s pre t post Es Hs Hl.
    destruct (proj1 (St _ _ _ _ _ _ _ _ _ _ _ _ Hr _ _ H) _ _ _ Hs) as [[[c0 [Hb _]] Hk [x [g1 [Hx Hc]]] _ _] _].
    destruct (restarter_fields _ _ _ Hr) as (R1 & R2 & R3 & R4 & R5 & R6 & R7 & R8 & R9 & R10 & R11 & R12 & _).
    unfold run_options in Hc. rewrite R1, R3, R4, R5, R6, R7, R8, R11, R12 in Hc.
    rewrite R1, Es in Hk. rewrite Es in Hc. cbn [configured] in Hc. rewrite <- Hk, Hl in Hc. destruct Hc as [m [Hm Hc]].
    exists (snd (rr_u64 g1)), (snd (rr_f64 (snd (rr_u64 g1)))), m. split; [exact Hm|]. rewrite Hc at 1 2.
    destruct (ro_default_options o). cbn. split; [reflexivity|]. split; [reflexivity|]. exists c0. exact Hb.
  Qed.
End Drawn.

Section LRuns.
  Context {LT : Libm f64} {E : Env f64} {RE : REnv f64}.
  Context {F : Type} (ev : F -> vec f64 -> outcome (f64 * F)) (checks : bool).
  Context {G : Type} (get : G -> outcome (F * G)).
  Variables (par reuse : bool) (started : N) (fuel : nat) (env : nat -> rtick) (g : G).
  Variables (seed : N) (o : restart_options f64) (r : restarter f64).
  Hypothesis Hr : restarter_of seed o r.
  Variables (res : restart_results f64) (l : loop_state f64 F G).
  Hypothesis H : restart_run_internal ev checks get par reuse started fuel env g r = Ret (res, l).
  Variables (s : bipop f64) (pre post : list (run_record f64 F)) (t : run_record f64 F).
  Hypothesis Es : ro_strategy o = SBipop s.
  Hypothesis Hs : runs_of l = pre ++ t :: post.
  Hypothesis Hl : ru_local t = true.
  (* the multiplier of the last IPOP run *)
  Let m : N := (bi_increase s ^ N.of_nat (Nat.pred (length (increasing pre))))%N.
  Let d : N := o_population_size (ro_default_options o).

  Theorem C57_population : (d <= 9007199254740992)%N ->
    (d <= o_population_size (ru_options t))%N /\
    (powf_root LT -> unit_draws RE -> (d * m <= 9007199254740992)%N -> (o_population_size (ru_options t) <= N.max d (d * m / 2))%N).
  Proof.
    intros Hd. destruct (lr_drawn _ _ _ _ _ _ _ _ _ _ _ _ Hr _ _ H _ _ _ _ Es Hs Hl) as [gu [gv [k [[Hk _] [_ [Hp _]]]]]].
    change (o_population_size (ru_options t) = lr_pop d k (fst (rr_f64 gv))) in Hp. rewrite Hp. clear Hp. split; [apply lr_pop_lower; exact Hd|].
    intros L U Hm.
    assert (Hi : (1 <= bi_increase s)%N).
    { destruct Hr as [Hf _]. rewrite Es in Hf. inversion Hf as [| |f n b Hb Eb]. subst b. clear Hf. revert Hb. unfold bipop_new.
      destruct f as [f|]; [destruct (negb _); [discriminate|]|]; destruct n as [n|]; try (destruct (N.eqb_spec n 0) as [Hn|Hn]; [discriminate|]);
        intros Hb; apply (f_equal (fun x => match x with inl y => bi_increase y | inr _ => 1%N end)) in Hb; cbn in Hb; rewrite <- Hb; lia. }
    assert (Hm1 : (1 <= m)%N). { unfold m. pose proof (N.pow_nonzero (bi_increase s) (N.of_nat (Nat.pred (length (increasing pre))))). lia. }
    fold m in Hk. destruct (N.eq_dec d 0) as [Z|Z].
    - rewrite Z, lr_pop_0. lia.
    - rewrite N.mod_small in Hk by nia. rewrite Hk. apply lr_pop_upper; auto; apply U.
  Qed.

  (* the step size lies between a hundredth of the range times the factor and the range times the factor; both products
     are the rounded ones *)
  Theorem C57_step_size : powf_ten LT -> unit_draws RE ->
    let top := nmul (nabs (nsub (ro_hi o) (ro_lo o))) (bi_lr_factor s) in
    nleb (nmul top (nlit 1 100)) (o_initial_step_size (ru_options t)) = true /\
    nleb (o_initial_step_size (ru_options t)) top = true.
  Proof.
    intros L U top. destruct (lr_drawn _ _ _ _ _ _ _ _ _ _ _ _ Hr _ _ H _ _ _ _ Es Hs Hl) as [gu [gv [k [_ [Hp [_ [c0 Hb]]]]]]].
    fold top in Hp. destruct (U gu) as [U0 U1]. set (u := fst (rr_f64 gu)) in *. clearbody u.
    destruct (proj1 (build_valid_iff _ _ _ _) (ex_intro _ c0 Hb)) as (_ & _ & [V1 V2] & _).
    set (p := nmul (nofZ (-2)) u) in *.
    assert (Hy : nleb (nofZ (-2)) p = true /\ nleb p n0 = true).
    { unfold p. rewrite !f64_xle, f2x_mul, f2x_0, (f2x_ofZ (-2)) by lia. rewrite f64_xle, f2x_0 in U0. rewrite f2x_ltb, f2x_1 in U1.
      destruct (f2x u) as [|[]|q]; try contradiction; try discriminate. cbn in U0, U1. unfold Rltb in U1. destruct (Rlt_dec q 1) as [H2|]; [|discriminate].
      cbn [x_mul].
      pose proof (xround_le (XFin (-2)) (XFin (-2 * q)) ltac:(cbn; lra)) as X. pose proof (xround_le (XFin (-2 * q)) (XFin 0) ltac:(cbn; lra)) as Y.
      rewrite (xround_Z (-2)) in X by lia. rewrite (xround_Z 0) in Y by lia. auto. }
    destruct (L p (proj1 Hy) (proj2 Hy)) as [L1 L2]. set (q := lm_powf (nofZ 10) p) in *. clearbody q. clear Hy. clearbody p.
    rewrite Hp in *. clear Hp.
    rewrite f64_xle in L1, L2. rewrite !f64_xle, !f2x_mul. rewrite f2x_1 in L2.
    assert (Hl0 : exists c, f2x (nlit 1 100) = XFin c /\ (0 < c)%R).
    { assert (X : nltb n0 (nlit 1 100 : f64) = true) by (vm_compute; reflexivity). assert (Y : BinarySingleNaN.is_finite (nlit 1 100 : f64) = true) by (vm_compute; reflexivity).
      rewrite f2x_ltb, f2x_0, (f2x_finite _ Y) in X. rewrite (f2x_finite _ Y). eexists. split; [reflexivity|]. cbn in X. unfold Rltb in X. destruct (Rlt_dec _ _); [assumption|discriminate]. }
    destruct Hl0 as [c [Hc0 Hc1]]. rewrite Hc0 in *.
    assert (Hf : exists k, f2x (bi_lr_factor s) = XFin k /\ (0 < k)%R).
    { destruct Hr as [Hf _]. rewrite Es in Hf. inversion Hf as [| |f n b Hb' Eb]. subst b. clear Hf.
      assert (X : is_initial_step_size_valid (bi_lr_factor s) = true).
      { revert Hb'. unfold bipop_new. destruct f as [f|]; [destruct (is_initial_step_size_valid f) eqn:Ef; cbn [negb]; [|discriminate]|]; destruct n as [n|];
          try (destruct (n =? 0)%N; [discriminate|]); intros Hb'; apply (f_equal (fun x => match x with inl y => bi_lr_factor y | inr _ => n0 end)) in Hb'; cbn [bi_lr_factor] in Hb';
          rewrite <- Hb'; try exact Ef; vm_compute; reflexivity. }
      apply step_size_valid in X. destruct X as [X1 X2]. rewrite (f2x_finite _ X1). eexists. split; [reflexivity|].
      eapply Rlt_le_trans; [|exact X2]. apply min_normal_pos. }
    destruct Hf as [k0 [Hk0 Hk1]].
    assert (Ht : x_is_nan (f2x top) = true \/ xle (XFin 0) (f2x top)).
    { unfold top. rewrite f2x_mul, f2x_abs, Hk0. destruct (x_abs _) as [|b|q0] eqn:Ex; [left; reflexivity| |].
      - right. cbn [x_mul]. unfold x_signed_inf, Rltb. destruct (Rlt_dec 0 k0); [|lra].
        destruct (f2x (nsub (ro_hi o) (ro_lo o))) as [|b'|b']; cbn in Ex; try discriminate. injection Ex as <-. exact I.
      - right. pose proof (xround_le (XFin 0) (x_mul (XFin q0) (XFin k0))) as X. rewrite (xround_Z 0) in X by lia. apply X.
        destruct (f2x (nsub (ro_hi o) (ro_lo o))) as [|b'|b']; cbn in Ex; try discriminate. injection Ex as <-. cbn. apply Rmult_le_pos; [apply Rabs_pos|lra]. }
    assert (Hfin : exists a, f2x top = XFin a).
    { assert (X : f2x (nmul top q) = XFin (B2R (nmul top q))) by (apply f2x_finite; exact V1). rewrite f2x_mul in X.
      destruct (f2x top) as [|b|a]; [discriminate X| |eauto]. destruct Ht as [Ht|Ht]; [discriminate Ht|]. destruct b; [contradiction|].
      destruct (f2x q) as [|[]|q0]; try contradiction; try discriminate X. cbn in L1. cbn [x_mul] in X. unfold x_signed_inf, Rltb in X.
      destruct (Rlt_dec 0 q0); [discriminate X|lra]. }
    destruct Hfin as [a Ha]. pose proof (xround_f2x top) as Hx. rewrite Ha in *. destruct Ht as [Ht|Ht]; [discriminate Ht|]. cbn in Ht.
    destruct (f2x q) as [|[]|q0]; try contradiction. cbn in L1, L2. split; [apply xround_le; cbn; nra|]. rewrite <- Hx. rewrite Hx at 1. apply xround_le. cbn. nra.
  Qed.
End LRuns.
Print Assumptions C57_population.
Print Assumptions C57_step_size.

(* In exact arithmetic the lower end is excluded. *)
Theorem C57_step_size_exact : forall (E : Env xreal) (RE : REnv xreal) {F} (ev : F -> vec xreal -> outcome (xreal * F)) checks
  {G} (get : G -> outcome (F * G)) par reuse started fuel env (g : G) seed (o : restart_options xreal) r res l s pre t post,
  restarter_of seed o r -> restart_run_internal ev checks get par reuse started fuel env g r = Ret (res, l) ->
  ro_strategy o = SBipop s -> runs_of l = pre ++ t :: post -> ru_local t = true -> unit_draws RE ->
  exists a b : R, nabs (nsub (ro_hi o) (ro_lo o)) = XFin a /\ bi_lr_factor s = XFin b /\
  exists c, o_initial_step_size (ru_options t) = XFin c /\ (a * b / 100 < c <= a * b)%R.
Proof.
  intros E RE F ev checks G get par reuse started fuel env g seed o r res l s pre t post Hr H Es Hs Hl U.
  destruct (lr_drawn _ _ _ _ _ _ _ _ _ _ _ _ Hr _ _ H _ _ _ _ Es Hs Hl) as [gu [gv [k [_ [Hp [_ [c0 Hb]]]]]]].
  apply cmaes_new_inv in Hb. cbv zeta in Hb. destruct Hb as [Hv _].
  assert (Hstep : is_initial_step_size_valid (o_initial_step_size (ru_options t)) = true).
  { revert Hv. unfold validate. destruct (_ =? 0); [discriminate|]. destruct (_ <? _)%N; [discriminate|].
    destruct (is_initial_step_size_valid _); [reflexivity|discriminate]. }
  assert (Hf : is_initial_step_size_valid (bi_lr_factor s) = true).
  { destruct Hr as [Hf _]. rewrite Es in Hf. inversion Hf as [| |f n b Hb' Eb]. subst b. clear Hf. revert Hb'. unfold bipop_new.
    destruct f as [f|]; [destruct (is_initial_step_size_valid f) eqn:Ef; cbn [negb]; [|discriminate]|]; destruct n as [n|];
      try (destruct (n =? 0)%N; [discriminate|]); intros Hb'; injection Hb' as <-; cbn [bi_lr_factor]; try exact Ef.
    all: unfold is_initial_step_size_valid, nlit; cbn; unfold Reqb, Rltb; destruct (Req_EM_T 10 0); [lra|]; cbn; unfold Reqb, Rltb; destruct (Req_EM_T (2 / 10) 0); [lra|];
      cbn; destruct (Rlt_dec 0 (2 / 10)); [reflexivity|lra]. }
  destruct (U gu) as [U0 U1]. destruct (fst (rr_f64 gu)) as [|[]|u]; try discriminate U0; try discriminate U1.
  unfold n0 in U0. cbn in U0, U1. unfold x_leb in U0. cbn in U0. unfold Rltb, Reqb in U0, U1.
  assert (Hu : (0 <= u < 1)%R).
  { destruct (Rlt_dec u 1); [|discriminate]. destruct (Rlt_dec 0 u); [lra|]. destruct (Req_EM_T 0 u); [lra|discriminate]. }
  clear U0 U1 Hv. destruct (bi_lr_factor s) as [|[]|b]; try discriminate Hf.
  assert (Hb : (0 < b)%R).
  { revert Hf. unfold is_initial_step_size_valid. cbn. unfold Reqb, Rltb. destruct (Rlt_dec 0 b); [auto|]. rewrite andb_false_r. discriminate. }
  set (w := nabs (nsub (ro_hi o) (ro_lo o))) in *.
  assert (Hw : match w with XFin a => (0 <= a)%R | _ => True end).
  { unfold w. cbn. destruct (x_sub _ _) as [|?|?]; cbn; auto. apply Rabs_pos. }
  clearbody w. rewrite Hp in *. clear Hp.
  assert (Hpow : lm_powf (nofZ 10) (nmul (nofZ (-2)) (XFin u)) = XFin (Rpower 10 (-2 * u))).
  { cbn. unfold Rltb. destruct (Rlt_dec 0 10); [reflexivity|lra]. }
  rewrite Hpow in *. clear Hpow.
  assert (P1 : (/ 100 < Rpower 10 (-2 * u) <= 1)%R).
  { split.
    - replace (/ 100)%R with (Rpower 10 (-2)).
      + apply Rpower_lt; lra.
      + replace (-2)%R with (- INR 2)%R by (cbn; lra). rewrite Rpower_Ropp, Rpower_pow by lra. f_equal. cbn. lra.
    - rewrite <- (Rpower_O 10) by lra. apply Rle_Rpower; lra. }
  destruct w as [|[]|a].
  - discriminate Hstep.
  - exfalso. revert Hstep. unfold is_initial_step_size_valid. cbn. unfold x_signed_inf, Rltb. destruct (Rlt_dec 0 b); [|lra]. cbn.
    unfold x_signed_inf, Rltb. destruct (Rlt_dec 0 (Rpower 10 (-2 * u))); [|lra]. cbn. discriminate.
  - exfalso. revert Hstep. unfold is_initial_step_size_valid. cbn. unfold x_signed_inf, Rltb. destruct (Rlt_dec 0 b); [|lra]. cbn.
    unfold x_signed_inf, Rltb. destruct (Rlt_dec 0 (Rpower 10 (-2 * u))); [|lra]. cbn. discriminate.
  - exists a, b. split; [reflexivity|]. split; [reflexivity|]. eexists. split; [reflexivity|].
    assert (Ha : (0 < a)%R).
    { revert Hstep. unfold is_initial_step_size_valid. cbn. unfold Reqb, Rltb. destruct (Rlt_dec 0 (a * b * _)) as [X|X].
      - intros _. destruct (Req_dec a 0) as [->|]; [|lra]. rewrite !Rmult_0_l in X. lra.
      - rewrite andb_false_r. discriminate. }
    assert (0 < a * b)%R by (apply Rmult_lt_0_compat; assumption). nra.
Qed.
Print Assumptions C57_step_size_exact.

(* Without max_function_evals_per_run the documented limit of half the evaluations of the last IPOP run is not applied:
   here the first run used 8 evaluations and the LR run after it uses 8, two generations of 4. *)
Definition second_lr {F} (P : run_record f64 F -> run_record f64 F -> bool) (ts : list (run_record f64 F)) : bool :=
  match ts with t0 :: t1 :: _ => negb (ru_local t0) && ru_local t1 && P t0 t1 | _ => false end.
Theorem C57_refuted : exists r res l t0 t1 post,
  restarter_of 0 (toy_restart_options toy_bipop) r /\
  restart_run_with_reuse (log_ev toy_sphere) true false 0 20 toy_renv_of (tt, []) r = Ret (res, l) /\
  runs_of l = t0 :: t1 :: post /\ ru_local t0 = false /\ ru_local t1 = true /\
  (function_evals (ru_final t0) / 2 + o_population_size (ru_options t1) <= function_evals (ru_final t1))%N.
Proof.
  destruct (toy_restart_test_ex toy_sphere tt toy_bipop (fun res ts =>
    second_lr (fun t0 t1 => (function_evals (ru_final t0) / 2 + o_population_size (ru_options t1) <=? function_evals (ru_final t1))%N) ts)
    (proj2 (proj2 toy_fresh))) as [r [res [l [H1 [H2 H3]]]]]; [vm_cast_no_check (eq_refl true)|].
  cbv beta in H3. unfold second_lr in H3. destruct (runs_of l) as [|t0 [|t1 post]] eqn:E2; try discriminate H3.
  apply andb_true_iff in H3. destruct H3 as [H3 H4]. apply andb_true_iff in H3. destruct H3 as [H3 H5]. apply negb_true_iff in H3. apply N.leb_le in H4.
  exists r, res, l, t0, t1, post. repeat (split; [assumption || reflexivity|]). exact H4.
Qed.
Print Assumptions C57_refuted.

(* ---- examples ---- *)
(* a Libm whose powers satisfy both laws: the series of Toy, clamped *)
Definition clamped_powf (x y : f64) : f64 :=
  let p := toy_powf x y in
  if nleb y n0 then (if nleb (nlit 1 100) p && nleb p n1 then p else n1)
  else if nltb (nmax x n1) p then nmax x n1 else p.
Definition clamped_libm : Libm f64 := {| lm_ln := toy_ln; lm_exp := toy_exp; lm_powf := clamped_powf |}.
Lemma clamped_root : powf_root clamped_libm.
Proof.
  intros x y Hx Hy0 Hy1. cbn [lm_powf clamped_libm]. unfold clamped_powf.
  assert (X : forall p : f64, nleb p n1 = true -> nltb (nmax x n1) p = false).
  { intros p Hp. rewrite f64_xle, f2x_1 in Hp. rewrite f2x_ltb, f2x_max, f2x_1. pose proof (xmax_one (f2x x)) as M.
    pose proof (xle_trans _ _ _ Hp M) as Y. destruct (nmax (f2x x) (XFin 1)) as [|[]|a]; destruct (f2x p) as [|[]|b]; try contradiction; try reflexivity.
    cbn in *. unfold Rltb. destruct (Rlt_dec a b); [lra|reflexivity]. }
  destruct (nleb y n0).
  - destruct (_ && _) eqn:Ep; apply X; [|vm_compute; reflexivity]. apply andb_true_iff in Ep. apply Ep.
  - destruct (nltb (nmax x n1) (toy_powf x y)) eqn:Ep; [|exact Ep]. rewrite f2x_ltb. destruct (f2x (nmax x n1)) as [|[]|a]; try reflexivity. cbn. unfold Rltb.
    destruct (Rlt_dec a a); [lra|reflexivity].
Qed.
Lemma clamped_ten : powf_ten clamped_libm.
Proof.
  intros y Hy0 Hy1. cbn [lm_powf clamped_libm]. unfold clamped_powf. rewrite Hy1.
  destruct (_ && _) eqn:Ep; [apply andb_true_iff in Ep; exact Ep|]. split; vm_compute; reflexivity.
Qed.
Lemma toy_draws : unit_draws toy_renv.
Proof.
  intros g. cbn [rr_f64 toy_renv fst]. pose proof (N.mod_lt g 8 ltac:(discriminate)) as X. generalize dependent (g mod 8)%N. intros k Hk.
  assert (Y : forallb (fun k => nleb n0 (lit (Z.of_N k) 8) && nltb (lit (Z.of_N k) 8) n1) [0;1;2;3;4;5;6;7]%N = true) by (vm_compute; reflexivity).
  rewrite forallb_forall in Y. specialize (Y k). apply andb_true_iff. apply Y.
  assert (Z : k = 0%N \/ k = 1%N \/ k = 2%N \/ k = 3%N \/ k = 4%N \/ k = 5%N \/ k = 6%N \/ k = 7%N) by lia. cbn. intuition.
Qed.
Lemma toy_range : forall g : rr_t, let lo := lit (-2) 1 in let hi := lit 3 1 in
  nleb lo (fst (rr_range lo hi g)) = true /\ nleb (fst (rr_range lo hi g)) hi = true.
Proof.
  intros g lo hi. unfold lo, hi. cbn [rr_range toy_renv fst]. pose proof (N.mod_lt g 4 ltac:(discriminate)) as X. generalize dependent (g mod 4)%N. intros k Hk.
  assert (Z : k = 0%N \/ k = 1%N \/ k = 2%N \/ k = 3%N) by lia. destruct Z as [-> |[-> |[-> | ->]]]; split; vm_compute; reflexivity.
Qed.
(* an execution of BIPOP with a limit per run, under the clamped powers *)
Definition limited_options : restart_options f64 :=
  let o := toy_restart_options (SBipop (mkBipop 0 0 1 4 0 1 (lit 2 10) 0)) in
  {| ro_strategy := ro_strategy o; ro_dimensions := 2; ro_mode := ro_mode o; ro_parallel_update := ro_parallel_update o;
     ro_default_options := ro_default_options o; ro_lo := lit (-2) 1; ro_hi := lit 3 1; ro_fun_target := None;
     ro_max_function_evals := Some 33%N; ro_max_time := None;
     ro_max_function_evals_per_run := Some 8%N; ro_max_generations_per_run := None; ro_enable_printing := false;
     ro_seed := Some 5%N |}.
Definition limited_restart {F} (ev : F -> vec f64 -> outcome (f64 * F)) (f : F) :=
  match restarter_new 0 limited_options with
  | inl r => restart_run_with_reuse (LT := clamped_libm) (log_ev ev) true false 0 20 toy_renv_of (f, []) r
  | inr _ => NoFuel
  end.
Definition limited_row {F} (t : run_record f64 F) : bool * N * N :=
  (ru_local t, o_population_size (ru_options t), function_evals (ru_final t)).
Definition row_eqb (a b : bool * N * N) : bool :=
  Bool.eqb (fst (fst a)) (fst (fst b)) && (snd (fst a) =? snd (fst b))%N && (snd a =? snd b)%N.
Fixpoint rows_eqb (a b : list (bool * N * N)) : bool :=
  match a, b with [], [] => true | x :: a, y :: b => row_eqb x y && rows_eqb a b | _, _ => false end.
Definition limited_test {F} (ev : F -> vec f64 -> outcome (f64 * F)) (f : F)
  (P : list (run_record f64 (F * list (entry f64))) -> bool) : bool :=
  match limited_restart ev f with Ret (res, l) => P (runs_of l) | _ => false end.
Lemma limited_test_ex : forall {F} (ev : F -> vec f64 -> outcome (f64 * F)) f P, limited_test ev f P = true ->
  exists r res l, restarter_of 0 limited_options r /\
  restart_run_with_reuse (LT := clamped_libm) (log_ev ev) true false 0 20 toy_renv_of (f, []) r = Ret (res, l) /\ P (runs_of l) = true.
Proof.
  intros F ev f P X. unfold limited_test, limited_restart in X. destruct (restarter_new 0 limited_options) as [r|] eqn:Er; [|discriminate].
  destruct (restart_run_with_reuse _ _ _ _ _ _ _ _) as [[res l]| |] eqn:Ex; try discriminate. exists r, res, l.
  split; [split; [apply (Fr_bipop None (Some 4%N)); reflexivity|exact Er]|]. auto.
Qed.
(* the hypotheses of C56 and C57 are met by an execution with LR runs, one of them with a larger population *)
Definition limited_rows : list (bool * N * N) :=
  [(false, 4, 8); (true, 4, 4); (true, 4, 4); (false, 16, 16); (true, 5, 10)]%N.
Example C57_case : powf_root clamped_libm /\ powf_ten clamped_libm /\ unit_draws toy_renv /\
  exists r res l, restarter_of 0 limited_options r /\
    restart_run_with_reuse (LT := clamped_libm) (log_ev toy_sphere) true false 0 20 toy_renv_of (tt, []) r = Ret (res, l) /\
    rows_eqb (map limited_row (runs_of l)) limited_rows = true.
Proof.
  split; [exact clamped_root|]. split; [exact clamped_ten|]. split; [exact toy_draws|].
  apply (limited_test_ex toy_sphere tt (fun ts => rows_eqb (map limited_row ts) limited_rows)). vm_cast_no_check (eq_refl true).
Qed.
Example C56_mean_case : forall g : rr_t,
  nleb (ro_lo limited_options) (fst (rr_range (ro_lo limited_options) (ro_hi limited_options) g)) = true /\
  nleb (fst (rr_range (ro_lo limited_options) (ro_hi limited_options) g)) (ro_hi limited_options) = true.
Proof. exact toy_range. Qed.
