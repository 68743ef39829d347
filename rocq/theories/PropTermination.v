(* C18, C22 to C27: which termination reasons are reported. *)
From Coq Require Import List NArith ZArith Bool Arith Lia Permutation Sorted Reals.
From Flocq Require Import IEEE754.BinarySingleNaN.
Require Import Verif.Lib Verif.Base Verif.Num Verif.F64 Verif.XReal Verif.LinAlg Verif.Mode Verif.Weights Verif.Options
  Verif.Params Verif.Env Verif.State Verif.Sampling Verif.History Verif.Termination Verif.Plot Verif.Cmaes
  Verif.Order Verif.Sort Verif.NextInv Verif.Spec Verif.LogLemmas Verif.TraceLemmas Verif.BuildLemmas
  Verif.SamplingLemmas Verif.PanicLemmas Verif.NextSafe Verif.StateLemmas Verif.HistoryLemmas Verif.PropSampling
  Verif.PropHistory Verif.TermSpec Verif.TermLemmas Verif.AxisLemmas Verif.Toy Verif.ToyLemmas.
Import ListNotations.
Open Scope nat_scope.

(* ---- C18 ---- *)
Theorem C18_reasons : forall (T : Type) (NT : Num T) (LT : Libm T) (E : Env T) (F : Type)
    (ev : F -> vec T -> outcome (T * F)) par tk c d c',
  next ev par tk c = Ret (Some d, c') ->
  td_reasons d <> [] /\ NoDup (td_reasons d) /\
  (In InvalidFunctionValue (td_reasons d) -> td_reasons d = [InvalidFunctionValue]) /\
  (In PosDefCov (td_reasons d) -> td_reasons d = [PosDefCov]).
Proof.
  intros T NT LT E F ev par tk c d c' H. apply next_outcome in H.
  assert (Hs : forall x : reason, NoDup [x]) by (intros x; constructor; [intros []|constructor]).
  destruct H as [[_ [_ [H _]]]|[inds [ok [_ [_ [_ [_ [[_ [_ [H _]]]|[_ [_ [reasons [Hd H]]]]]]]]]]]].
  - inversion H; subst. cbn. repeat split; auto; try discriminate. intros [X|[]]; discriminate.
  - inversion H; subst. cbn. repeat split; auto; try discriminate. intros [X|[]]; discriminate.
  - destruct (check_termination_NoDup _ _ _ _ _ _ _ _ (nd_check _ _ _ _ _ Hd)) as [N1 [N2 N3]].
    destruct reasons as [|x l]; inversion H; subst. cbn [td_reasons get_termination_data].
    split; [discriminate|]. split; [exact N1|]. split; intros X; contradiction.
Qed.
Print Assumptions C18_reasons.

(* Of a generation without a NaN and with a positive definite covariance matrix, exactly those reasons are
   reported whose condition (TermSpec.condition) holds. *)
Theorem C18_exact : forall (LT : Libm f64) (E : Env f64) (F : Type) (ev : F -> vec f64 -> outcome (f64 * F))
    o f seed h c par tk r c' new,
  eigen_shape (T := f64) ->
  used ev o f seed h c -> next (log_ev ev) par tk c = Ret (r, c') -> calls c' = calls c ++ new ->
  reports InvalidFunctionValue r = false -> reports PosDefCov r = false ->
  forall x, decidable_reason o c' x -> (reports x r = true <-> condition o c' (map snd new) (t_now tk) x).
Proof. intros LT E F ev o f seed h c par tk r c' new He. eapply reported_iff; eauto. Qed.
Print Assumptions C18_exact.

(* nothing is returned exactly when there is no reason *)
Theorem C18_none : forall (LT : Libm f64) (E : Env f64) (F : Type) (ev : F -> vec f64 -> outcome (f64 * F)) par tk c r c',
  next ev par tk c = Ret (r, c') -> (r = None <-> forall x, reports x r = false).
Proof.
  intros LT E F ev par tk c r c' H. split; [intros ->; reflexivity|]. intros Hx. destruct r as [d|]; auto. exfalso.
  apply C18_reasons in H. destruct H as [Hne _]. destruct (td_reasons d) as [|x l] eqn:Ed; [congruence|].
  specialize (Hx x). cbn [reports] in Hx. rewrite Ed in Hx.
  destruct (in_dec reason_eq_dec x (x :: l)) as [_|N]; [discriminate|]. apply N. left. reflexivity.
Qed.
Print Assumptions C18_none.

(* any other reason excludes the two *)
Lemma not_alone : forall {T : Type} {NT : Num T} {LT : Libm T} {E : Env T} {F : Type}
    (ev : F -> vec T -> outcome (T * F)) par tk c r c' x,
  next ev par tk c = Ret (r, c') -> reports x r = true -> x <> InvalidFunctionValue -> x <> PosDefCov ->
  reports InvalidFunctionValue r = false /\ reports PosDefCov r = false.
Proof.
  intros T NT LT E F ev par tk c r c' x Hn R X1 X2. destruct r as [d|]; [|discriminate]. apply C18_reasons in Hn.
  destruct Hn as [_ [_ [A1 A2]]]. rewrite (reports_true x) in R. destruct R as [d' [Hd R]]. inversion Hd; subst d'.
  split; (match goal with |- ?x = false => destruct x eqn:Q; auto end); exfalso; apply reports_true in Q;
    destruct Q as [d' [Hd' Q]]; inversion Hd'; subst d'; [apply A1 in Q|apply A2 in Q]; rewrite Q in R; destruct R as [R|[]]; congruence.
Qed.

(* the conditions are met in a computed run in which several reasons are reported at once *)
Example C18_case : exists h c r new, eigen_shape (T := f64) /\
  used toy_sphere (apply_setters (toy_options 2) [SMaxGenerations 3; SMaxFunctionEvals 11]) tt 7%N (h ++ [mkCall r new]) c /\
  length h = 2 /\ reports InvalidFunctionValue r = false /\ reports PosDefCov r = false /\
  reports MaxGenerations r = true /\ reports MaxFunctionEvals r = true /\ reports TolX r = false.
Proof.
  destruct (toy_test_ex toy_sphere (apply_setters (toy_options 2) [SMaxGenerations 3; SMaxFunctionEvals 11]) 3 (fun rs c =>
    let r := nth 2 rs None in
    negb (reports InvalidFunctionValue r) && negb (reports PosDefCov r) && reports MaxGenerations r &&
    reports MaxFunctionEvals r && negb (reports TolX r))%bool) as [h [c [H1 [H2 H3]]]]; [vm_compute; reflexivity|].
  do 4 (destruct h as [|? h]; try discriminate). cbv zeta in H3. cbn [map nth] in H3. rewrite !andb_true_iff, !negb_true_iff in H3.
  exists [c0; c1], c, (k_result c2), (k_evals c2). split; [exact toy_eigen_shape|].
  split; [destruct c2; exact H1|]. split; [reflexivity|]. tauto.
Qed.

(* ---- C22 ---- *)
Section Target.
  Context {LT : Libm f64} {E : Env f64} {F : Type} (ev : F -> vec f64 -> outcome (f64 * F)).

  Theorem C22_fun_target : forall o f seed h c par tk r c' new,
    eigen_shape (T := f64) ->
    used ev o f seed h c -> next (log_ev ev) par tk c = Ret (r, c') -> calls c' = calls c ++ new ->
    reports InvalidFunctionValue r = false -> reports PosDefCov r = false ->
    (reports FunTarget r = true <->
     exists t e, o_fun_target o = Some t /\ In e new /\ is_better (o_mode o) (snd e) t = true).
  Proof.
    intros o f seed h c par tk r c' new He Hu Hn Hc R1 R2.
    rewrite (reported_iff ev He _ _ _ _ _ _ _ _ _ _ Hu Hn Hc R1 R2 FunTarget I). cbn [condition]. split.
    - intros [t [v [H1 [H2 H3]]]]. apply in_map_iff in H2. destruct H2 as [e [<- H2]]. eauto.
    - intros [t [e [H1 [H2 H3]]]]. exists t, (snd e). split; auto. split; auto. apply in_map. exact H2.
  Qed.

  (* then the overall best individual is strictly better than the target *)
  Theorem C22_overall_best : forall o f seed h c par tk r c',
    eigen_shape (T := f64) ->
    used ev o f seed h c -> next (log_ev ev) par tk c = Ret (r, c') -> reports FunTarget r = true ->
    exists t i, o_fun_target o = Some t /\ overall_best_individual c' = Some i /\ is_better (o_mode o) (i_value i) t = true.
  Proof.
    intros o f seed h c par tk r c' He Hu Hn R.
    destruct (next_log _ _ _ _ _ _ Hn) as [_ [_ [new [_ [_ [_ [Hc _]]]]]]].
    assert (R1 : reports InvalidFunctionValue r = false /\ reports PosDefCov r = false).
    { eapply not_alone; eauto; discriminate. }
    destruct R1 as [R1 R2].
    apply (C22_fun_target _ _ _ _ _ _ _ _ _ _ He Hu Hn Hc R1 R2) in R. destruct R as [t [e [Ht [He' Hb]]]].
    pose proof (used_next _ _ _ _ _ _ _ _ _ _ _ Hu Hn Hc) as Hu'.
    assert (Hg : In new (generations (h ++ [mkCall r new]))).
    { unfold generations. rewrite filter_app, map_app. apply in_or_app. right. cbn [filter]. unfold valid. cbn [k_result].
      rewrite R1. left. reflexivity. }
    destruct (used_recorded _ _ _ _ _ _ Hu') as [B [M Hrec]]. pose proof (rc_nan _ _ _ _ _ Hrec) as Hnn.
    destruct (C14_overall_best _ _ _ _ _ _ _ _ _ Hu') as [Hnone Hsome].
    destruct (overall_best_individual c') as [i|].
    2: { exfalso. rewrite (proj1 Hnone eq_refl) in Hg. destruct Hg. }
    exists t, i. split; [exact Ht|]. split; [reflexivity|]. destruct (Hsome i eq_refl) as [pre [g [post [Hgs [Hin [P1 P2]]]]]].
    rewrite Forall_forall in Hnn. assert (Ni : nis_nan (i_value i) = false).
    { apply (Hnn (i_point i, i_value i)). apply in_concat. exists g. split; auto. rewrite Hgs. apply in_or_app. right; left; reflexivity. }
    assert (Hle : is_better (o_mode o) (snd e) (i_value i) = false).
    { rewrite Hgs in Hg. apply in_app_or in Hg. destruct Hg as [Hg|Hg].
      - apply better_asym. rewrite Forall_forall in P1. specialize (P1 _ Hg). rewrite Forall_forall in P1. apply P1. exact He'.
      - rewrite Forall_forall in P2. specialize (P2 _ Hg). rewrite Forall_forall in P2. apply P2. exact He'. }
    exact (better_trans_r (o_mode o) (i_value i) (snd e) t Ni Hle Hb).
  Qed.

  (* as long as FunTarget is not reported, no value better than the target was seen, except in generations
     that ended with PosDefCov (in which the target is not looked at) *)
  Theorem C22_not_reported : forall o f seed h c t,
    eigen_shape (T := f64) -> used ev o f seed h c -> o_fun_target o = Some t ->
    Forall (fun x => reports InvalidFunctionValue (k_result x) = false -> reports PosDefCov (k_result x) = false ->
                     reports FunTarget (k_result x) = false ->
                     Forall (fun e => is_better (o_mode o) (snd e) t = false) (k_evals x)) h.
  Proof.
    intros o f seed h c t He Hu Ht. revert h c Hu. apply used_core_invariant; auto.
    intros h c par tk r new c' Hu Hn Hc IH. apply Forall_app. split; [exact IH|]. constructor; [|constructor].
    cbn [k_result k_evals]. intros R1 R2 R3. apply Forall_forall. intros e Hin.
    destruct (is_better (o_mode o) (snd e) t) eqn:Hb; auto. exfalso.
    enough (reports FunTarget r = true) by congruence.
    eapply C22_fun_target; eauto.
  Qed.

  (* a value that only equals the target does not count *)
  Theorem C22_equal_not_reached : forall o f seed h c par tk r c' new t,
    eigen_shape (T := f64) ->
    used ev o f seed h c -> next (log_ev ev) par tk c = Ret (r, c') -> calls c' = calls c ++ new ->
    o_fun_target o = Some t -> Forall (fun e => snd e = t) new -> reports FunTarget r = false.
  Proof.
    intros o f seed h c par tk r c' new t He Hu Hn Hc Ht Hall. destruct (reports FunTarget r) eqn:R; auto. exfalso.
    assert (R1 : reports InvalidFunctionValue r = false /\ reports PosDefCov r = false).
    { eapply not_alone; eauto; discriminate. }
    destruct R1 as [R1 R2]. apply (C22_fun_target _ _ _ _ _ _ _ _ _ _ He Hu Hn Hc R1 R2) in R.
    destruct R as [t' [e [Ht' [Hin Hb]]]]. assert (t' = t) by congruence. subst t'.
    rewrite Forall_forall in Hall. rewrite (Hall e Hin) in Hb. rewrite better_irrefl in Hb. discriminate.
  Qed.
End Target.
Print Assumptions C22_fun_target.
Print Assumptions C22_overall_best.
Print Assumptions C22_not_reported.
Print Assumptions C22_equal_not_reached.


(* computed runs, seen at their last call *)
Lemma toy_last_ex : forall ev o n (P : option (term_data f64) -> cmaes f64 (unit * list (entry f64)) -> bool),
  toy_test ev o (S n) (fun rs c => P (last rs None) c) = true ->
  exists h c par tk r c' new, used ev o tt (toy_seed o) h c /\ length h = n /\
    next (log_ev ev) par tk c = Ret (r, c') /\ calls c' = calls c ++ new /\ P r c' = true.
Proof.
  intros ev o n P H. unfold toy_test, toy_after in H. destruct (toy_built o) as [c0| |] eqn:E0; try discriminate. cbn [obind] in H.
  assert (U0 : used ev o tt (toy_seed o) [] c0).
  { unfold toy_built in E0. destruct (cmaes_new 0 0 (tt, []) o) as [[c1|e]| |] eqn:E1; try discriminate. cbn [obind] in E0.
    apply Ret_inj in E0. subst c1. exists 0%N, 0%N, c0. split; [exact E1|]. split; [reflexivity|constructor]. }
  assert (G : forall n h c, used ev o tt (toy_seed o) h c ->
    match nexts (log_ev ev) (repeat (false, toy_tick) (S n)) c with Ret (rs, c) => P (last rs None) c | _ => false end = true ->
    exists h' c1 par tk r c' new, used ev o tt (toy_seed o) h' c1 /\ length h' = length h + n /\
      next (log_ev ev) par tk c1 = Ret (r, c') /\ calls c' = calls c1 ++ new /\ P r c' = true).
  { clear. intros n. induction n as [|n IH]; intros h c U H.
    - cbn [repeat nexts] in H. destruct (next (log_ev ev) false toy_tick c) as [[r c']| |] eqn:En; try discriminate.
      cbn [obind last] in H. destruct (next_log _ _ _ _ _ _ En) as [_ [_ [new [_ [_ [_ [Hc _]]]]]]].
      exists h, c, false, toy_tick, r, c', new. rewrite Nat.add_0_r. auto.
    - change (repeat (false, toy_tick) (S (S n))) with ((false, toy_tick) :: repeat (false, toy_tick) (S n)) in H.
      remember (repeat (false, toy_tick) (S n)) as l eqn:El. cbn [nexts] in H.
      destruct (next (log_ev ev) false toy_tick c) as [[r c']| |] eqn:En; try discriminate. cbn [obind] in H.
      destruct (next_log _ _ _ _ _ _ En) as [_ [_ [new [_ [_ [_ [Hc _]]]]]]].
      pose proof (used_next _ _ _ _ _ _ _ _ _ _ _ U En Hc) as U'.
      destruct (nexts (log_ev ev) l c') as [[rs c2]| |] eqn:Es; try discriminate. cbn [obind] in H.
      assert (Hr : exists x rs', rs = x :: rs').
      { clear H IH. rewrite El in Es. cbn [repeat nexts] in Es. oinv Es. destruct a. oinv Es. destruct a. inversion Es. eauto. }
      destruct Hr as [x [rs' ->]]. assert (X := IH _ _ U').
      rewrite Es in X. specialize (X H). destruct X as [h' X]. exists h'. rewrite app_length in X.
      cbn [length] in X. replace (length h + S n) with (length h + 1 + n) by lia. exact X. }
  apply (G n [] c0 U0). exact H.
Qed.

Example C22_case : eigen_shape (T := f64) /\ exists h c par tk r c' new,
  used toy_sphere (apply_setters (toy_options 2) [SFunTarget (lit 2 1)]) tt 7%N h c /\ length h = 2 /\
  next (log_ev toy_sphere) par tk c = Ret (r, c') /\ calls c' = calls c ++ new /\
  reports FunTarget r = true.
Proof.
  split; [exact toy_eigen_shape|].
  apply (toy_last_ex toy_sphere (apply_setters (toy_options 2) [SFunTarget (lit 2 1)]) 2 (fun r _ => reports FunTarget r)).
  vm_compute. reflexivity.
Qed.
(* the target 12 is attained exactly and FunTarget is not reported *)
Definition toy_constant (v : f64) (_ : unit) (x : vec f64) : outcome (f64 * unit) := Ret (v, tt).
Example C22_equal_case : exists h c par tk r c' new,
  used (toy_constant (lit 12 1)) (apply_setters (toy_options 2) [SFunTarget (lit 12 1)]) tt 7%N h c /\ length h = 2 /\
  next (log_ev (toy_constant (lit 12 1))) par tk c = Ret (r, c') /\ calls c' = calls c ++ new /\
  reports FunTarget r = false /\ exists i, overall_best_individual c' = Some i /\ neqb (i_value i) (lit 12 1) = true.
Proof.
  destruct (toy_last_ex (toy_constant (lit 12 1)) (apply_setters (toy_options 2) [SFunTarget (lit 12 1)]) 2 (fun r c =>
    negb (reports FunTarget r) && match overall_best_individual c with Some i => neqb (i_value i) (lit 12 1) | None => false end)%bool)
    as [h [c [par [tk [r [c' [new [H1 [H2 [H3 [H4 H5]]]]]]]]]]]; [vm_compute; reflexivity|].
  apply andb_true_iff in H5. destruct H5 as [H5 H6]. apply negb_true_iff in H5.
  exists h, c, par, tk, r, c', new. repeat split; auto.
  destruct (overall_best_individual c') as [i|]; [|discriminate]. exists i. auto.
Qed.

(* ---- the remaining reasons ---- *)
Section Rest.
  Context {LT : Libm f64} {E : Env f64} {F : Type} (ev : F -> vec f64 -> outcome (f64 * F)).
  (* a call of next in which the criteria are looked at *)
  Record checked (o : options f64) (f : F) seed h (c : cmaes f64 (F * list (entry f64))) par tk r c' new : Prop := {
    ch_eigen : eigen_shape (T := f64);
    ch_used : used ev o f seed h c;
    ch_next : next (log_ev ev) par tk c = Ret (r, c');
    ch_calls : calls c' = calls c ++ new;
    ch_nan : reports InvalidFunctionValue r = false;
    ch_posdef : reports PosDefCov r = false }.

  Lemma checked_iff : forall o f seed h c par tk r c' new, checked o f seed h c par tk r c' new ->
    forall x, decidable_reason o c' x -> (reports x r = true <-> condition o c' (map snd new) (t_now tk) x).
  Proof. intros o f seed h c par tk r c' new [H1 H2 H3 H4 H5 H6]. eapply reported_iff; eauto. Qed.

  (* ---- C23 ---- *)
  Let window (o : options f64) := (10 + (30 * N.of_nat (length (o_initial_mean o)) + o_population_size o - 1) / o_population_size o)%N.

  Theorem C23_value_tolerances : forall o f seed h c par tk r c' new, checked o f seed h c par tk r c' new ->
    (30 * N.of_nat (length (o_initial_mean o)) < 9007199254740992)%N -> (o_population_size o < 9007199254740992)%N ->
    let recent := firstn (N.to_nat (window o)) (h_best_values (c_history c')) in
    let long_enough := (window o <= N.of_nat (length (h_best_values (c_history c'))))%N in
    (reports TolFunHist r = true <-> long_enough /\ spread_below recent (o_tol_fun_hist o)) /\
    (reports TolFun r = true <->
       long_enough /\ spread_below recent (o_tol_fun o) /\ spread_below (map snd new) (o_tol_fun o)) /\
    (reports TolFunRel r = true <->
       long_enough /\ exists first best, h_first_median (c_history c') = Some first /\ h_best_median (c_history c') = Some best /\
       let tol := nmul (o_tol_fun_rel o) (nabs (nsub first best)) in
       spread_below recent tol /\ spread_below (map snd new) tol).
  Proof.
    intros o f seed h c par tk r c' new H D1 D2 recent long_enough.
    split; [|split].
    - apply (checked_iff _ _ _ _ _ _ _ _ _ _ H TolFunHist). split; assumption.
    - apply (checked_iff _ _ _ _ _ _ _ _ _ _ H TolFun). split; assumption.
    - apply (checked_iff _ _ _ _ _ _ _ _ _ _ H TolFunRel). split; assumption.
  Qed.

  (* infinite values: inf - inf is not below any tolerance *)
  Theorem C23_same_infinity : forall o f seed h c par tk r c' new s, checked o f seed h c par tk r c' new ->
    (30 * N.of_nat (length (o_initial_mean o)) < 9007199254740992)%N -> (o_population_size o < 9007199254740992)%N ->
    Forall (fun v => v = B754_infinity s) (firstn (N.to_nat (window o)) (h_best_values (c_history c'))) ->
    reports TolFunHist r = false /\ reports TolFun r = false /\ reports TolFunRel r = false.
  Proof.
    intros o f seed h c par tk r c' new s H D1 D2 Hs.
    destruct (C23_value_tolerances _ _ _ _ _ _ _ _ _ _ H D1 D2) as [A1 [A2 A3]]. cbv zeta in *.
    assert (Hno : forall tol, ~ spread_below (firstn (N.to_nat (window o)) (h_best_values (c_history c'))) tol).
    { intros tol [a [b [[Ha _] [[Hb _] Ht]]]]. rewrite Forall_forall in Hs. apply Hs in Ha, Hb. subst a b.
      destruct s; discriminate Ht. }
    split; [|split]; match goal with |- ?x = false => destruct x; auto end; exfalso.
    - apply (Hno (o_tol_fun_hist o)). apply A1. reflexivity.
    - apply (Hno (o_tol_fun o)). apply A2. reflexivity.
    - destruct (proj1 A3 eq_refl) as [_ [fst [bst [_ [_ [X _]]]]]]. exact (Hno _ X).
  Qed.

  (* ---- C24 ---- *)
  Theorem C24_tol_x : forall o f seed h c par tk r c' new, checked o f seed h c par tk r c' new ->
    let tol := match o_tol_x o with Some x => x | None => nmul (nlit 1 1000000000000) (o_initial_step_size o) end in
    (reports TolX r = true <->
     (forall i, i < length (o_initial_mean o) ->
        nltb (nabs (nmul (sigma c') (nth i (nth i (covariance_matrix c') []) n0))) tol = true) /\
     (forall x, In x (st_path_c (c_state c')) -> nltb (nabs (nmul (sigma c') x)) tol = true)).
  Proof. intros o f seed h c par tk r c' new H tol. exact (checked_iff _ _ _ _ _ _ _ _ _ _ H TolX I). Qed.

  (* ---- C25 ---- *)
  Theorem C25_no_effect_axis : forall o f seed h c par tk r c' new, checked o f seed h c par tk r c' new ->
    let i := N.to_nat (generation c' mod N.of_nat (length (o_initial_mean o))) in
    let d := nth i (nth i (cm_sqrt_eigenvalues (st_cov (c_state c'))) []) n0 in
    i < length (o_initial_mean o) /\
    (reports NoEffectAxis r = true <->
     forall k, k < length (o_initial_mean o) ->
       let v := nth i (nth k (cm_eigenvectors (st_cov (c_state c'))) []) n0 in
       neqb (nth k (mean c') n0) (nadd (nth k (mean c') n0) (nmul (nmul (nmul (nlit 1 10) (sigma c')) d) v)) = true).
  Proof.
    intros o f seed h c par tk r c' new H i d. split.
    - pose proof (used_wf ev (ch_eigen _ _ _ _ _ _ _ _ _ _ H) _ _ _ _ _ (ch_used _ _ _ _ _ _ _ _ _ _ H)) as Hw.
      pose proof (wf_dim _ _ Hw) as Hd. change (1 <= length (o_initial_mean o)) in Hd. unfold i.
      assert (X : (generation c' mod N.of_nat (length (o_initial_mean o)) < N.of_nat (length (o_initial_mean o)))%N) 
        by (apply N.mod_upper_bound; clear -Hd; lia).
      revert X. generalize (generation c' mod N.of_nat (length (o_initial_mean o)))%N. clear. intros m Hm. apply Nat.lt_le_trans with (N.to_nat (N.of_nat (length (o_initial_mean o)))); [lia|]. rewrite Nat2N.id. apply le_n.
    - exact (checked_iff _ _ _ _ _ _ _ _ _ _ H NoEffectAxis I).
  Qed.
  Theorem C25_no_effect_coord : forall o f seed h c par tk r c' new, checked o f seed h c par tk r c' new ->
    (reports NoEffectCoord r = true <->
     exists i, i < length (o_initial_mean o) /\
       let variance := nth i (nth i (covariance_matrix c') []) n0 in
       neqb (nth i (mean c') n0) (nadd (nth i (mean c') n0) (nmul (nmul (nlit 2 10) (sigma c')) variance)) = true).
  Proof. intros o f seed h c par tk r c' new H. exact (checked_iff _ _ _ _ _ _ _ _ _ _ H NoEffectCoord I). Qed.

  (* ---- C26 ---- *)
  Theorem C26_condition_cov : forall o f seed h c par tk r c' new, checked o f seed h c par tk r c' new ->
    let q := nmul (cmaes_axis_ratio c') (cmaes_axis_ratio c') in
    (reports TolConditionCov r = true <-> nis_normal q = false \/ nltb (o_tol_condition_cov o) q = true).
  Proof.
    intros o f seed h c par tk r c' new H q. rewrite (checked_iff _ _ _ _ _ _ _ _ _ _ H TolConditionCov I). cbn [condition].
    assert (Hq : powi (cmaes_axis_ratio c') 2 = nmul n1 q) by reflexivity. cbv zeta. rewrite Hq.
    assert (Hone : forall x : f64, nmul n1 x = x) by (exact f64_mul_1_l). rewrite Hone. reflexivity.
  Qed.
  (* the axis ratio is the greatest over the least square root of an eigenvalue, and at least 1 *)
  Theorem C26_axis_ratio : forall o f seed h c, eigen_shape (T := f64) -> used ev o f seed h c ->
    let axes := map (fun i => nth i (nth i (cm_sqrt_eigenvalues (st_cov (c_state c))) []) n0) (seq 0 (length (o_initial_mean o))) in
    Forall (fun x => is_finite x = true /\ nltb n0 x = true) axes ->
    nleb n1 (cmaes_axis_ratio c) = true /\
    exists a b, greatest axes b /\ least axes a /\ cmaes_axis_ratio c = ndiv b a.
  Proof.
    intros o f seed h c He Hu axes Ha. pose proof (used_wf ev He _ _ _ _ _ Hu) as Hw.
    assert (Hl : diagonal (cm_sqrt_eigenvalues (st_cov (c_state c))) = axes).
    { unfold diagonal, axes, mnth. rewrite (proj1 (ws_sqrt _ _ (wf_st _ _ Hw))). reflexivity. }
    pose proof (axis_ratio_spec (c_state c)) as H. rewrite Hl in H. destruct H as [a [b [H1 [H2 [H3 H4]]]]]; auto.
    - intros X. apply (f_equal (@length f64)) in X. unfold axes in X. rewrite map_length, seq_length in X.
      pose proof (wf_dim _ _ Hw) as Hd. change (1 <= length (o_initial_mean o)) in Hd. cbn [length] in X. clear -X Hd. lia.
    - split; [exact H4|]. exists a, b. auto.
  Qed.
  Theorem C26_tol_x_up : forall o f seed h c par tk r c' new, checked o f seed h c par tk r c' new ->
    let axes := map (fun i => nth i (nth i (cm_sqrt_eigenvalues (st_cov (c_state c'))) []) n0) (seq 0 (length (o_initial_mean o))) in
    Forall (fun v => nis_nan v = false) axes ->
    (reports TolXUp r = true <-> exists d, greatest axes d /\
       nltb (o_tol_x_up o) (ndiv (nmul (sigma c') d) (o_initial_step_size o)) = true).
  Proof. intros o f seed h c par tk r c' new H axes Ha. exact (checked_iff _ _ _ _ _ _ _ _ _ _ H TolXUp Ha). Qed.

  (* ---- C27 ---- *)
  Theorem C27_tol_stagnation : forall o f seed h c par tk r c' new, checked o f seed h c par tk r c' new ->
    Forall (fun v => nis_nan v = false) (h_median_values (c_history c')) ->
    let w := N.min (generation c' / 5) 20000 in
    (reports TolStagnation r = true <->
     (tol_stagnation_of o <= w)%N /\ got_worse (o_mode o) (N.to_nat w) (h_best_values (c_history c')) /\
     got_worse (o_mode o) (N.to_nat w) (h_median_values (c_history c'))).
  Proof.
    intros o f seed h c par tk r c' new H Hm w.
    exact (checked_iff _ _ _ _ _ _ _ _ _ _ H TolStagnation (fun _ _ => Hm)).
  Qed.
  Theorem C27_disabled : forall o f seed h c par tk r c' new, checked o f seed h c par tk r c' new ->
    (20000 < tol_stagnation_of o)%N \/ (generation c' / 5 < 4)%N -> reports TolStagnation r = false.
  Proof.
    intros o f seed h c par tk r c' new H Hd.
    assert (Hdec : decidable_reason o c' TolStagnation).
    { cbn [decidable_reason]. intros X1 X2. exfalso. generalize dependent (generation c' / 5)%N. intros g. lia. }
    destruct (reports TolStagnation r) eqn:R; auto. exfalso.
    apply (checked_iff _ _ _ _ _ _ _ _ _ _ H TolStagnation Hdec) in R. cbn [condition] in R. cbv zeta in R.
    destruct R as [R1 [[R2 _] _]]. clear Hdec. revert Hd R1 R2.
    generalize (generation c' / 5)%N (tol_stagnation_of o). clear. intros g t Hg R1 R2.
    destruct Hg as [Hg|Hg]; [lia|].
    rewrite Nat.div_small in R2; [lia|]. assert (N.min g 20000 < 4)%N by lia. lia.
  Qed.
  (* a history without any change is not reported *)
  Theorem C27_flat : forall o f seed h c par tk r c' new v, checked o f seed h c par tk r c' new ->
    Forall (fun x => nis_nan x = false) (h_median_values (c_history c')) ->
    Forall (fun x => x = v) (h_best_values (c_history c')) -> reports TolStagnation r = false.
  Proof.
    intros o f seed h c par tk r c' new v H Hm Hf. destruct (reports TolStagnation r) eqn:R; auto. exfalso.
    apply (C27_tol_stagnation _ _ _ _ _ _ _ _ _ _ H Hm) in R.
    pose proof (used_next _ _ _ _ _ _ _ _ _ _ _ (ch_used _ _ _ _ _ _ _ _ _ _ H) (ch_next _ _ _ _ _ _ _ _ _ _ H) (ch_calls _ _ _ _ _ _ _ _ _ _ H)) as Hu.
    destruct (history_long _ _ _ _ _ _ Hu) as [Hlong _].
    assert (Hw : (N.min (generation c' / 5) 20000 <= N.of_nat (length (h_best_values (c_history c'))))%N).
    { eapply N.le_trans; [|exact Hlong]. apply N.min_le_compat_r. apply N.div_le_upper_bound; lia. }
    set (w := N.min (generation c' / 5) 20000) in *. clearbody w.
    destruct R as [_ [[_ [a [b [Ha [Hb Hab]]]]] _]]. set (l := h_best_values (c_history c')) in *. clearbody l.
    set (k := 3 * N.to_nat w / 10) in *.
    assert (Hk : k <= N.to_nat w) by (unfold k; apply Nat.div_le_upper_bound; lia). clearbody k.
    assert (G : forall s a, median_of s a -> length s = k -> Forall (fun x => x = v) s -> a = if Nat.even k then ndiv (nadd (nth (k/2-1) (repeat v k) n0) (nth (k/2) (repeat v k) n0)) n2 else nth (k/2) (repeat v k) n0).
    { clear. intros s a [t [P [_ ->]]] Hl Hv.
      assert (t = repeat v k).
      { assert (Ht : Forall (fun x => x = v) t) by (eapply Permutation_Forall; [apply Permutation_sym; exact P|exact Hv]).
        apply Permutation_length in P. rewrite Hl in P. rewrite <- P. clear -Ht. induction Ht; cbn; congruence. }
      subst t. rewrite Hl. reflexivity. }
    assert (L1 : length (firstn k l) = k) by (rewrite firstn_length; lia).
    assert (L2 : length (skipn (N.to_nat w - k) (firstn (N.to_nat w) l)) = k) by (rewrite skipn_length, firstn_length; lia).
    assert (F1 : forall j, Forall (fun x => x = v) (firstn j l)).
    { intros j. rewrite <- (firstn_skipn j l) in Hf. apply Forall_app in Hf. tauto. }
    assert (F2 : Forall (fun x => x = v) (skipn (N.to_nat w - k) (firstn (N.to_nat w) l))).
    { specialize (F1 (N.to_nat w)). rewrite <- (firstn_skipn (N.to_nat w - k) (firstn (N.to_nat w) l)) in F1. apply Forall_app in F1. tauto. }
    assert (a = b) by (rewrite (G _ _ Ha L2 F2), (G _ _ Hb L1 (F1 k)); reflexivity). subst b.
    rewrite better_irrefl in Hab. discriminate.
  Qed.
End Rest.
Print Assumptions C23_value_tolerances.
Print Assumptions C23_same_infinity.
Print Assumptions C24_tol_x.
Print Assumptions C25_no_effect_axis.
Print Assumptions C25_no_effect_coord.
Print Assumptions C26_condition_cov.
Print Assumptions C26_axis_ratio.
Print Assumptions C26_tol_x_up.
Print Assumptions C27_tol_stagnation.
Print Assumptions C27_disabled.
Print Assumptions C27_flat.

(* ---- cases ---- *)
Lemma toy_checked : forall ev o n (P : option (term_data f64) -> cmaes f64 (unit * list (entry f64)) -> bool),
  toy_test ev o (S n) (fun rs c => let r := last rs None in
    negb (reports InvalidFunctionValue r) && negb (reports PosDefCov r) && P r c)%bool = true ->
  exists h c par tk r c' new, checked ev o tt (toy_seed o) h c par tk r c' new /\ length h = n /\ P r c' = true.
Proof.
  intros ev o n P H. destruct (toy_last_ex ev o n (fun r c => negb (reports InvalidFunctionValue r) &&
    negb (reports PosDefCov r) && P r c)%bool H) as [h [c [par [tk [r [c' [new [H1 [H2 [H3 [H4 H5]]]]]]]]]]].
  rewrite !andb_true_iff, !negb_true_iff in H5. destruct H5 as [[R1 R2] R3].
  exists h, c, par, tk, r, c', new. split; [|auto]. split; auto. exact toy_eigen_shape.
Qed.

(* the tolerances are reached by a constant function after 10 + ceil(30/4) = 18 generations and not before *)
Example C23_case : exists h c par tk r c' new,
  checked (toy_constant (lit 12 1)) (toy_options 1) tt 7%N h c par tk r c' new /\ length h = 17 /\
  (reports TolFun r && reports TolFunHist r && negb (reports TolFunRel r))%bool = true.
Proof.
  apply (toy_checked (toy_constant (lit 12 1)) (toy_options 1) 17 (fun r _ =>
    reports TolFun r && reports TolFunHist r && negb (reports TolFunRel r))%bool). vm_cast_no_check (eq_refl true).
Qed.
Example C23_case_before : exists h c par tk r c' new,
  checked (toy_constant (lit 12 1)) (toy_options 1) tt 7%N h c par tk r c' new /\ length h = 16 /\
  (negb (reports TolFun r) && negb (reports TolFunHist r))%bool = true.
Proof.
  apply (toy_checked (toy_constant (lit 12 1)) (toy_options 1) 16 (fun r _ =>
    negb (reports TolFun r) && negb (reports TolFunHist r))%bool). vm_cast_no_check (eq_refl true).
Qed.
Example C23_infinity_case : exists h c par tk r c' new,
  checked (toy_constant (B754_infinity false)) (toy_options 1) tt 7%N h c par tk r c' new /\ length h = 17 /\
  Nat.eqb (length (h_best_values (c_history c'))) 18 = true.
Proof.
  apply (toy_checked (toy_constant (B754_infinity false)) (toy_options 1) 17 (fun r c' =>
    Nat.eqb (length (h_best_values (c_history c'))) 18)). vm_cast_no_check (eq_refl true).
Qed.

(* TolX is documented with the standard deviations sigma * sqrt(C[i,i]). Both directions fail: *)
Definition documented_tol_x (tol : f64) {F} (c : cmaes f64 F) : bool :=
  forallb (fun i => nltb (nmul (sigma c) (nsqrt (nth i (nth i (covariance_matrix c) []) n0))) tol)
    (seq 0 (length (mean c))) &&
  forallb (fun x => nltb (nabs (nmul (sigma c) x)) tol) (st_path_c (c_state c)).
(* every standard deviation is below tol_x, and TolX is not reported *)
Theorem C24_refuted_missed : exists h c par tk r c' new,
  checked toy_sphere (apply_setters (toy_options 1) [STolX (lit 95 100)]) tt 7%N h c par tk r c' new /\ length h = 2 /\
  (documented_tol_x (lit 95 100) c' && negb (reports TolX r))%bool = true.
Proof.
  apply (toy_checked toy_sphere (apply_setters (toy_options 1) [STolX (lit 95 100)]) 2 (fun r c' =>
    documented_tol_x (lit 95 100) c' && negb (reports TolX r))%bool). vm_cast_no_check (eq_refl true).
Qed.
Print Assumptions C24_refuted_missed.
(* TolX is reported, and the standard deviation is above tol_x *)
Theorem C24_refuted_spurious : exists h c par tk r c' new,
  checked toy_sphere (apply_setters (toy_options 1) [STolX (lit 6 10)]) tt 7%N h c par tk r c' new /\ length h = 3 /\
  (reports TolX r && nltb (lit 6 10) (nmul (sigma c') (nsqrt (nth 0 (nth 0 (covariance_matrix c') []) n0))))%bool = true.
Proof.
  apply (toy_checked toy_sphere (apply_setters (toy_options 1) [STolX (lit 6 10)]) 3 (fun r c' =>
    reports TolX r && nltb (lit 6 10) (nmul (sigma c') (nsqrt (nth 0 (nth 0 (covariance_matrix c') []) n0))))%bool).
  vm_cast_no_check (eq_refl true).
Qed.
Print Assumptions C24_refuted_spurious.

Example C25_case : exists h c par tk r c' new,
  checked toy_sphere (apply_setters (options_new [lit 3 2; lit 3 2] (lit 1 100000000000000000000)) [SPopulationSize 4; SSeed 7]) tt 7%N
    h c par tk r c' new /\ length h = 1 /\ (reports NoEffectAxis r && reports NoEffectCoord r)%bool = true.
Proof.
  apply (toy_checked toy_sphere
    (apply_setters (options_new [lit 3 2; lit 3 2] (lit 1 100000000000000000000)) [SPopulationSize 4; SSeed 7]) 1
    (fun r _ => reports NoEffectAxis r && reports NoEffectCoord r)%bool). vm_cast_no_check (eq_refl true).
Qed.

Example C26_case : exists h c par tk r c' new,
  checked toy_sphere (apply_setters (toy_options 2) [STolConditionCov (lit 11 10); STolXUp (lit 1 2)]) tt 7%N h c par tk r c' new /\
  length h = 3 /\
  (reports TolXUp r && reports TolConditionCov r && nltb n1 (cmaes_axis_ratio c') &&
   forallb (fun i => let x := nth i (nth i (cm_sqrt_eigenvalues (st_cov (c_state c'))) []) n0 in is_finite x && nltb n0 x) (seq 0 2))%bool = true.
Proof.
  apply (toy_checked toy_sphere (apply_setters (toy_options 2) [STolConditionCov (lit 11 10); STolXUp (lit 1 2)]) 3 (fun r c' =>
    reports TolXUp r && reports TolConditionCov r && nltb n1 (cmaes_axis_ratio c') &&
    forallb (fun i => let x := nth i (nth i (cm_sqrt_eigenvalues (st_cov (c_state c'))) []) n0 in is_finite x && nltb n0 x) (seq 0 2))%bool).
  vm_cast_no_check (eq_refl true).
Qed.

(* a jagged function, and a constant one *)
Definition toy_jagged (_ : unit) (x : vec f64) : outcome (f64 * unit) :=
  let y := nmul (norm2 x) (lit 1000 1) in Ret (nsub y (nofZ (Z.of_N (nto_usize y))), tt).
Example C27_case : exists h c par tk r c' new,
  checked toy_jagged (apply_setters (toy_options 1) [STolStagnation 4]) tt 7%N h c par tk r c' new /\ length h = 19 /\
  (reports TolStagnation r && forallb (fun v => negb (nis_nan v)) (h_median_values (c_history c')))%bool = true.
Proof.
  apply (toy_checked toy_jagged (apply_setters (toy_options 1) [STolStagnation 4]) 19 (fun r c' =>
    reports TolStagnation r && forallb (fun v => negb (nis_nan v)) (h_median_values (c_history c')))%bool).
  vm_cast_no_check (eq_refl true).
Qed.
(* The documentation says "have not improved": nothing improves here, and TolStagnation is not reported. *)
Example C27_flat_case : exists h c par tk r c' new,
  checked (toy_constant (lit 12 1)) (apply_setters (toy_options 1) [STolStagnation 4]) tt 7%N h c par tk r c' new /\ length h = 19 /\
  (negb (reports TolStagnation r) && forallb (fun v => neqb v (lit 12 1)) (h_best_values (c_history c')))%bool = true.
Proof.
  apply (toy_checked (toy_constant (lit 12 1)) (apply_setters (toy_options 1) [STolStagnation 4]) 19 (fun r c' =>
    negb (reports TolStagnation r) && forallb (fun v => neqb v (lit 12 1)) (h_best_values (c_history c')))%bool).
  vm_cast_no_check (eq_refl true).
Qed.
