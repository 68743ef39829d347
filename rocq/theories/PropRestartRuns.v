(* C52, C54, C55, C58: evaluations, the best individual, termination and the objective function of a restarter. *)
From Coq Require Import List NArith ZArith Bool Arith Lia Permutation.
Require Import Verif.Base Verif.Num Verif.F64 Verif.LinAlg Verif.Mode Verif.Weights Verif.Options
  Verif.Params Verif.Env Verif.State Verif.Sampling Verif.History Verif.Termination Verif.Plot Verif.Cmaes Verif.Restart
  Verif.Lib Verif.Order Verif.Sort Verif.NextInv Verif.Spec Verif.LogLemmas Verif.TraceLemmas Verif.BuildLemmas
  Verif.SamplingLemmas Verif.HistoryLemmas Verif.RelLemmas Verif.TermLemmas Verif.Toy Verif.ToyLemmas Verif.PropRun
  Verif.RestartLemmas Verif.PropRestart Verif.RunLemmas.
Import ListNotations.
Open Scope nat_scope.

(* runs that did not meet a NaN *)
Definition counted {T} {NT : Num T} {E : Env T} {F} (t : run_record T F) : bool := negb (reports InvalidFunctionValue (Some (ru_data t))).

(* ---- C58: where the objective of each run comes from ---- *)
Section Objectives.
  Context {T : Type} {NT : Num T} {LT : Libm T} {E : Env T} {RE : REnv T}.
  Context {F : Type} (ev : F -> vec T -> outcome (T * F)) (checks : bool).

  (* successive calls of the factory returned fs *)
  Inductive fetched {G} (get : G -> outcome (F * G)) : G -> list F -> G -> Prop :=
  | Fe_nil : forall g, fetched get g [] g
  | Fe_snoc : forall g fs g1 f g2, fetched get g fs g1 -> get g1 = Ret (f, g2) -> fetched get g (fs ++ [f]) g2.

  Section Factory.
    Context {G : Type} (get : G -> outcome (F * G)).

    Lemma journey_factory : forall par started env r g n l,
      journey ev checks get par false started env r g n l ->
      fetched get g (map ru_objective (runs_of l)) (l_factory l) /\ l_objective l = None.
    Proof.
      intros par started env r g n l H. induction H as [|n l l' t H [IH1 IH2] _ P _].
      - split; [constructor|reflexivity].
      - split; [|rewrite (pf_objective _ _ _ _ _ _ _ _ _ _ _ P); reflexivity].
        rewrite (runs_snoc _ _ _ (pf_log _ _ _ _ _ _ _ _ _ _ _ P)), map_app. cbn [map].
        pose proof (pf_get _ _ _ _ _ _ _ _ _ _ _ P) as Hg. unfold objective_for in Hg. rewrite IH2 in Hg.
        eapply Fe_snoc; eauto.
    Qed.
    (* run: exactly one call of the factory per run, in order, and its result is the objective of the run *)
    Theorem C58_factory : forall par started fuel env g r res l, fresh (rs_strategy r) ->
      restart_run ev checks get par started fuel env g r = Ret (res, l) ->
      fetched get g (map ru_objective (runs_of l)) (l_factory l).
    Proof.
      intros par started fuel env g r res l Hf H. unfold restart_run in H.
      destruct (execution _ _ _ _ _ _ _ _ _ _ _ _ Hf H) as [_ [_ [n [l1 [_ [Hj Hc]]]]]].
      destruct (journey_factory _ _ _ _ _ _ _ Hj) as [I1 I2].
      destruct Hc as [[-> _]|[[-> _]|[[-> _]|[_ [t P]]]]]; [exact I1|exact I1|exact I1|].
      rewrite (runs_snoc _ _ _ (pf_log _ _ _ _ _ _ _ _ _ _ _ P)), map_app. cbn [map].
      pose proof (pf_get _ _ _ _ _ _ _ _ _ _ _ P) as Hg. unfold objective_for in Hg. rewrite I2 in Hg.
      eapply Fe_snoc; eauto.
    Qed.
  End Factory.

  (* the objective of the run after the runs ts, if the first one gets f *)
  Definition handed_on (f : F) (ts : list (run_record T F)) : F :=
    match rev ts with [] => f | u :: _ => into_objective_function (ru_final u) end.

  Lemma journey_reuse : forall par started env r f n l,
    journey ev checks take_once par true started env r (Some f) n l ->
    (forall pre t post, runs_of l = pre ++ t :: post -> ru_objective t = handed_on f pre) /\
    match runs_of l with [] => l_objective l = None /\ l_factory l = Some f | _ => l_objective l = Some (handed_on f (runs_of l)) end.
  Proof.
    intros par started env r f n l H. induction H as [|n l l' t H [IH1 IH2] _ P _].
    - split; [|cbn; auto]. intros pre t post X. destruct pre; discriminate.
    - pose proof (runs_snoc _ _ _ (pf_log _ _ _ _ _ _ _ _ _ _ _ P)) as Hr.
      pose proof (pf_get _ _ _ _ _ _ _ _ _ _ _ P) as Hg. unfold objective_for in Hg.
      assert (Ho : ru_objective t = handed_on f (runs_of l)).
      { destruct (runs_of l) as [|u us] eqn:El.
        - destruct IH2 as [X1 X2]. rewrite X1, X2 in Hg. cbn in Hg. injection Hg as <- _. reflexivity.
        - rewrite IH2 in Hg. apply Hg. }
      split.
      + intros pre t' post Hs. rewrite Hr in Hs. apply snoc_split in Hs. destruct Hs as [[_ [-> ->]]|[post' [_ Hs]]]; [exact Ho|eauto].
      + rewrite (pf_objective _ _ _ _ _ _ _ _ _ _ _ P), Hr. unfold handed_on. rewrite rev_unit.
        destruct (runs_of l ++ [t]) as [|u us] eqn:X; [destruct (runs_of l); discriminate|reflexivity].
  Qed.
  (* run_with_reuse: one instance, handed on from run to run *)
  Theorem C58_reuse : forall par started fuel env f r res l, fresh (rs_strategy r) ->
    restart_run_with_reuse ev checks par started fuel env f r = Ret (res, l) ->
    forall pre t post, runs_of l = pre ++ t :: post -> ru_objective t = handed_on f pre.
  Proof.
    intros par started fuel env f r res l Hf H. unfold restart_run_with_reuse in H.
    destruct (execution _ _ _ _ _ _ _ _ _ _ _ _ Hf H) as [_ [_ [n [l1 [_ [Hj Hc]]]]]].
    destruct (journey_reuse _ _ _ _ _ _ _ Hj) as [I1 I2].
    destruct Hc as [[-> _]|[[-> _]|[[-> _]|[_ [t P]]]]]; [exact I1|exact I1|exact I1|].
    intros pre t' post Hs. rewrite (runs_snoc _ _ _ (pf_log _ _ _ _ _ _ _ _ _ _ _ P)) in Hs.
    apply snoc_split in Hs. destruct Hs as [[_ [-> ->]]|[post' [_ Hs]]]; [|eauto].
    pose proof (pf_get _ _ _ _ _ _ _ _ _ _ _ P) as Hg. unfold objective_for in Hg. destruct (runs_of l1) as [|u us] eqn:El.
    - destruct I2 as [X1 X2]. rewrite X1, X2 in Hg. cbn in Hg. injection Hg as <- _. reflexivity.
    - rewrite I2 in Hg. apply Hg.
  Qed.

  (* the stored function is never taken twice: a factory that could be called again and again would change nothing *)
  Definition same_loop {G} (f : F) (l1 : loop_state T F (option F)) (l2 : loop_state T F G) : Prop :=
    l_strategy l1 = l_strategy l2 /\ l_rng l1 = l_rng l2 /\ l_best l1 = l_best l2 /\
    l_function_evals l1 = l_function_evals l2 /\ l_runs l1 = l_runs l2 /\ l_objective l1 = l_objective l2 /\
    l_log l1 = l_log l2.
  Lemma step_same : forall {G} (get : G -> outcome (F * G)) f g g' par started rt r l1 (l2 : loop_state T F G),
    get g = Ret (f, g') -> same_loop f l1 l2 ->
    (l_objective l1 = None -> l_factory l1 = Some f /\ l_factory l2 = g) ->
    out_rel (fun a b => same_loop f (fst a) (fst b) /\ snd a = snd b /\ (snd a = None -> l_objective (fst a) <> None))
      (restart_step ev checks take_once par true started rt r l1) (restart_step ev checks get par true started rt r l2).
  Proof.
    intros G get f g g' par started rt r l1 l2 Hg (E1 & E2 & E3 & E4 & E5 & E6 & E7) Hf. unfold restart_step.
    rewrite E1, E2, E3, E4, E5, E7.
    destruct (has_zero_max_runs _). { cbn. repeat (split; auto). discriminate. }
    destruct (match rs_max_function_evals r with Some m => _ | None => _ end). { cbn. repeat (split; auto). discriminate. }
    destruct (match rs_max_time r with Some m => _ | None => _ end). { cbn. repeat (split; auto). discriminate. }
    eapply (out_rel_bind eq); [apply out_rel_refl; auto|]. intros [x g1] b <-. destruct (rr_u64 g1) as [seed g2].
    eapply (out_rel_bind (fun a b => fst a = fst b)).
    { rewrite <- E6. destruct (l_objective l1) as [f0|] eqn:Eo; [reflexivity|]. destruct (Hf eq_refl) as [-> ->]. rewrite Hg. reflexivity. }
    intros [f1 a1] [f2 a2] X. cbn in X. subst f2. eapply (out_rel_bind eq); [apply out_rel_refl; auto|].
    intros [[s t] g3] b <-. destruct (has_reason _ _). { cbn. repeat (split; auto). discriminate. }
    destruct (has_reason _ _). { cbn. repeat (split; auto). discriminate. }
    destruct (ru_control t); cbn; repeat (split; auto); discriminate.
  Qed.
  Theorem C58_never_taken_twice : forall {G} (get : G -> outcome (F * G)) f g g' par started fuel env r,
    get g = Ret (f, g') ->
    out_rel (fun a b => fst a = fst b /\ l_log (snd a) = l_log (snd b))
      (restart_run_with_reuse ev checks par started fuel env f r)
      (restart_run_internal ev checks get par true started fuel env g r).
  Proof.
    intros G get f g g' par started fuel env r Hg. unfold restart_run_with_reuse, restart_run_internal.
    assert (X : forall fuel env l1 (l2 : loop_state T F G), same_loop f l1 l2 ->
      (l_objective l1 = None -> l_factory l1 = Some f /\ l_factory l2 = g) ->
      out_rel (fun a b => same_loop f (fst a) (fst b) /\ snd a = snd b)
        (restart_loop ev checks take_once par true started fuel env r l1) (restart_loop ev checks get par true started fuel env r l2)).
    { clear fuel env. induction fuel as [|fuel IH]; intros env l1 l2 Hs Hf; cbn [restart_loop]; [exact I|].
      eapply out_rel_bind; [eapply step_same; eauto|]. intros [a x] [b y] [H1 [H2 H3]]. cbn [fst snd] in *. subst y.
      destruct x as [x|]; [cbn; auto|]. apply IH; [exact H1|]. intros X. exfalso. apply H3; auto. }
    eapply out_rel_bind; [apply X|].
    - repeat (split; auto).
    - intros _. auto.
    - intros [a x] [b y] [(E1 & E2 & E3 & E4 & E5 & E6 & E7) H2]. cbn [fst snd] in *. subst y. cbn. rewrite E3, E4, E5. auto.
  Qed.
End Objectives.
Print Assumptions C58_factory.
Print Assumptions C58_reuse.
Print Assumptions C58_never_taken_twice.

Section NotInvalid.
  Context {T : Type} {NT : Num T} {LT : Libm T} {E : Env T} {RE : REnv T}.
  Context {F : Type} (ev : F -> vec T -> outcome (T * F)) (checks : bool).
  Lemma not_invalid : forall {G} (get : G -> outcome (F * G)) par reuse started fuel env g seed o r res l,
    restarter_of seed o r ->
    restart_run_internal ev checks get par reuse started fuel env g r = Ret (res, l) ->
    rr_reason res <> RInvalidFunctionValue -> forall t, In t (runs_of l) -> counted t = true.
  Proof.
    intros G get par reuse started fuel env g seed o r res l Hr H Hn t Ht. apply in_split in Ht. destruct Ht as [pre [post Ht]].
    unfold counted. destruct (reports InvalidFunctionValue (Some (ru_data t))) eqn:R; [|reflexivity]. exfalso.
    destruct post as [|u post].
    - apply Hn. apply (C53_invalid _ _ _ _ _ _ _ _ _ _ _ _ Hr _ _ H). eauto.
    - destruct (C53_no_run_after _ _ _ _ _ _ _ _ _ _ _ _ Hr _ _ H _ _ _ Ht) as [_ [_ X]]. destruct X as [X _]; [discriminate|congruence].
  Qed.
  Lemma filter_all : forall {A} (p : A -> bool) (x : list A), (forall a, In a x -> p a = true) -> filter p x = x.
  Proof. intros A p x. induction x as [|a x IH]; intros H; [reflexivity|]. cbn [filter]. rewrite (H a (or_introl eq_refl)), IH; [reflexivity|]. intros b Hb. apply H. right. exact Hb. Qed.
End NotInvalid.

(* ---- C52: calls of the objective ---- *)
Section Calls.
  Context {T : Type} {NT : Num T} {LT : Libm T} {E : Env T} {RE : REnv T} {OL : OrdLaws T}.
  Context {F : Type} (ev : F -> vec T -> outcome (T * F)) (checks : bool).

  (* in every run without NaN the objective is called function_evals() times *)
  Theorem C52_calls : forall {G} (get : G -> outcome (F * list (entry T) * G)) par reuse started fuel env g seed o r res l,
    restarter_of seed o r ->
    restart_run_internal (log_ev ev) checks get par reuse started fuel env g r = Ret (res, l) ->
    forall t, In t (runs_of l) -> counted t = true ->
    exists new, calls (ru_final t) = snd (ru_objective t) ++ new /\ N.of_nat (length new) = function_evals (ru_final t).
  Proof.
    intros G get par reuse started fuel env g seed o r res l Hr H t Ht Hc. apply in_split in Ht. destruct Ht as [pre [post Ht]].
    destruct (C52_totals _ _ _ _ _ _ _ _ _ _ _ _ Hr _ _ H) as [_ [_ X]]. specialize (X _ _ _ Ht).
    apply negb_true_iff in Hc. destruct (run_best_logged _ _ _ _ X Hc) as [i [new [_ [H1 [H2 _]]]]]. eauto.
  Qed.

  (* the calls received by the one instance used by run_with_reuse *)
  Definition all_calls (ts : list (run_record T (F * list (entry T)))) : list (entry T) :=
    match rev ts with [] => [] | t :: _ => calls (ru_final t) end.

  Lemma all_calls_snoc : forall ts t, all_calls (ts ++ [t]) = calls (ru_final t).
  Proof. intros. unfold all_calls. rewrite rev_unit. reflexivity. Qed.
  Lemma handed_calls : forall f (ts : list (run_record T (F * list (entry T)))),
    snd (handed_on (f, []) ts) = all_calls ts.
  Proof. intros f ts. unfold handed_on, all_calls. destruct (rev ts); reflexivity. Qed.

  Lemma prefix_calls : forall par started fuel env f seed o r res l,
    restarter_of seed o r ->
    restart_run_with_reuse (log_ev ev) checks par started fuel env (f, []) r = Ret (res, l) ->
    forall ts post, runs_of l = ts ++ post -> (forall t, In t ts -> counted t = true) ->
    N.of_nat (length (all_calls ts)) = evals ts /\ Forall (fun e => nis_nan (snd e) = false) (all_calls ts) /\
    (forall m, (forall t, In t ts -> o_mode (ru_options t) = m) ->
      forall e, In e (all_calls ts) -> exists t i, In t ts /\ overall_best_individual (ru_final t) = Some i /\ is_better m (snd e) (i_value i) = false) /\
    (forall t i, In t ts -> overall_best_individual (ru_final t) = Some i -> In (i_point i, i_value i) (all_calls ts)).
  Proof.
    intros par started fuel env f seed o r res l Hr H ts. unfold restart_run_with_reuse in H.
    induction ts as [|t ts IH] using rev_ind; intros post Hs Hc.
    - split; [reflexivity|]. split; [constructor|]. split; [intros m Hm e []|intros t i []].
    - rewrite <- app_assoc in Hs. specialize (IH _ Hs (fun u Hu => Hc u (in_or_app _ _ _ (or_introl Hu)))).
      destruct IH as [I1 [I2 [I3 I4]]]. rewrite all_calls_snoc, evals_app. cbn [evals fold_right].
      assert (Ct : counted t = true) by (apply Hc; apply in_or_app; right; left; reflexivity). apply negb_true_iff in Ct.
      destruct (C52_totals _ _ _ _ _ _ _ _ _ _ _ _ Hr _ _ H) as [_ [_ X]]. specialize (X _ _ _ Hs).
      destruct (run_best_logged _ _ _ _ X Ct) as [i [new [B1 [B2 [B3 [B4 [B5 B6]]]]]]].
      assert (Hf : fresh (rs_strategy r)) by apply (restarter_fields _ _ _ Hr).
      pose proof (C58_reuse _ _ _ _ _ _ _ _ _ _ Hf H _ _ _ Hs) as Ho. rewrite Ho, handed_calls in B2. rewrite B2.
      split; [rewrite app_length; lia|]. split; [apply Forall_app; auto|]. split.
      + intros m Hm e He. apply in_app_or in He. destruct He as [He|He].
        * destruct (I3 m (fun u Hu => Hm u (in_or_app _ _ _ (or_introl Hu))) e He) as [u [j [U1 U2]]]. exists u, j. split; [apply in_or_app; auto|exact U2].
        * exists t, i. split; [apply in_or_app; right; left; reflexivity|]. split; [exact B1|].
          rewrite (Hm t (in_elt t ts [])) in B6. rewrite Forall_forall in B6. apply (B6 e He).
      + intros u j Hu Hj. apply in_or_app. apply in_app_or in Hu. destruct Hu as [Hu|[<- |[]]]; [left; eauto|right].
        rewrite B1 in Hj. injection Hj as <-. exact B5.
  Qed.

  (* the number of all calls of the objective, counted by the objective itself, is the number in the results *)
  Theorem C52_counter : forall par started fuel env f seed o r res l,
    restarter_of seed o r ->
    restart_run_with_reuse (log_ev ev) checks par started fuel env (f, []) r = Ret (res, l) ->
    rr_reason res <> RInvalidFunctionValue ->
    rr_function_evals res = N.of_nat (length (all_calls (runs_of l))).
  Proof.
    intros par started fuel env f seed o r res l Hr H Hn. pose proof H as H'. unfold restart_run_with_reuse in H'.
    destruct (prefix_calls _ _ _ _ _ _ _ _ _ _ Hr H (runs_of l) [] ltac:(rewrite app_nil_r; reflexivity)) as [X _].
    { eapply not_invalid; eauto. }
    rewrite X. apply (C52_totals _ _ _ _ _ _ _ _ _ _ _ _ Hr _ _ H').
  Qed.
End Calls.
Print Assumptions C52_calls.
Print Assumptions C52_counter.

(* ---- C54 ---- *)
Section Best.
  Context {T : Type} {NT : Num T} {LT : Libm T} {E : Env T} {RE : REnv T} {OL : OrdLaws T}.
  Context {F : Type} (ev : F -> vec T -> outcome (T * F)) (checks : bool).

  (* i is the overall best individual of one of the runs, the first that no other beats *)
  Definition best_of_runs (m : mode) (ts : list (run_record T F)) (i : individual T) : Prop :=
    exists pre t post, ts = pre ++ t :: post /\ overall_best_individual (ru_final t) = Some i /\
      (forall u j, In u pre -> overall_best_individual (ru_final u) = Some j -> is_better m (i_value i) (i_value j) = true) /\
      (forall u j, In u (t :: post) -> overall_best_individual (ru_final u) = Some j -> is_better m (i_value j) (i_value i) = false).

  Lemma best_fold : forall m (ts : list (run_record T F)),
    (forall t, In t ts -> counted t = true -> exists i, overall_best_individual (ru_final t) = Some i /\ nis_nan (i_value i) = false) ->
    match fold_left (best_after m) ts None with
    | None => filter counted ts = []
    | Some i => best_of_runs m (filter counted ts) i
    end.
  Proof.
    intros m ts. induction ts as [|t ts IH] using rev_ind; intros H; [reflexivity|].
    specialize (IH (fun u Hu => H u (in_or_app _ _ _ (or_introl Hu)))). rewrite fold_left_app, filter_app. cbn [fold_left filter].
    unfold best_after at 1. specialize (H t (in_elt t ts [])) as Ht. unfold counted in Ht at 1. unfold counted at 2 4.
    destruct (reports InvalidFunctionValue (Some (ru_data t))); cbn [negb] in *.
    - rewrite app_nil_r. exact IH.
    - destruct (Ht eq_refl) as [i [Hi Ni]]. rewrite Hi. destruct (fold_left (best_after m) ts None) as [b|].
      + destruct IH as [pre [u [post [I1 [I2 [I3 I4]]]]]].
        assert (Nb : nis_nan (i_value b) = false).
        { assert (Hu : In u (filter counted ts)) by (rewrite I1; apply in_elt). apply filter_In in Hu. destruct Hu as [Hu1 Hu2].
          destruct (H u (in_or_app _ _ _ (or_introl Hu1)) Hu2) as [i' [X1 X2]]. congruence. }
        destruct (is_better m (i_value i) (i_value b)) eqn:B.
        * exists (filter counted ts), t, []. split; [reflexivity|]. split; [exact Hi|]. split.
          -- intros v j Hv Hj. rewrite I1 in Hv. apply in_app_or in Hv. destruct Hv as [Hv|Hv].
             ++ eapply better_trans; [exact B|]. eapply I3; eauto.
             ++ specialize (I4 v j Hv Hj). assert (Hv' : In v (filter counted ts)) by (rewrite I1; apply in_or_app; auto).
                apply filter_In in Hv'. destruct Hv' as [V1 V2]. destruct (H v (in_or_app _ _ _ (or_introl V1)) V2) as [i' [X1 X2]].
                assert (i' = j) by congruence. subst i'. destruct (is_better m (i_value i) (i_value j)) eqn:Q; [reflexivity|].
                rewrite (better_negtrans m (i_value i) (i_value j) (i_value b) X2 Q I4) in B. discriminate.
          -- intros v j [<- |[]] Hj. rewrite Hi in Hj. injection Hj as <-. apply better_irrefl.
        * exists pre, u, (post ++ [t]). split; [rewrite I1, <- app_assoc; reflexivity|]. split; [exact I2|]. split; [exact I3|].
          intros v j Hv Hj. change (u :: post ++ [t]) with ((u :: post) ++ [t]) in Hv. apply in_app_or in Hv. destruct Hv as [Hv|[<- |[]]]; [eauto|].
          rewrite Hi in Hj. injection Hj as <-. exact B.
      + rewrite IH. exists [], t, []. split; [reflexivity|]. split; [exact Hi|]. split; [intros u j []|].
        intros v j [<- |[]] Hj. rewrite Hi in Hj. injection Hj as <-. apply better_irrefl.
  Qed.

  (* the result is the best over all runs that did not end with InvalidFunctionValue *)
  Theorem C54_best_of_counted_runs : forall {G} (get : G -> outcome (F * G)) par reuse started fuel env g seed o r res l,
    restarter_of seed o r ->
    restart_run_internal ev checks get par reuse started fuel env g r = Ret (res, l) ->
    (rr_best res = None <-> filter counted (runs_of l) = []) /\
    forall i, rr_best res = Some i -> best_of_runs (ro_mode o) (filter counted (runs_of l)) i.
  Proof.
    intros G get par reuse started fuel env g seed o r res l Hr H.
    destruct (restarter_fields _ _ _ Hr) as [_ [_ [Hm [_ [_ [_ [_ [_ [_ [_ [_ [_ [_ [Hb [Hf _]]]]]]]]]]]]]]].
    destruct (execution _ _ _ _ _ _ _ _ _ _ _ _ Hf H) as [-> [[_ _ _ _ I] _]]. cbn [rr_best]. rewrite I, Hb, Hm.
    pose proof (best_fold (ro_mode o) (runs_of l)) as X.
    destruct (C52_totals _ _ _ _ _ _ _ _ _ _ _ _ Hr _ _ H) as [_ [_ R]].
    assert (Y : forall t, In t (runs_of l) -> counted t = true ->
      exists i, overall_best_individual (ru_final t) = Some i /\ nis_nan (i_value i) = false).
    { intros t Ht Hc. apply in_split in Ht. destruct Ht as [pre [post Ht]]. apply negb_true_iff in Hc.
      eapply run_best; [exact (R _ _ _ Ht)|exact Hc]. }
    specialize (X Y). revert X. match goal with |- context [fold_left ?a ?b ?c = None] => generalize (fold_left a b c) end. intros [b|] X.
    - split; [|intros i Hi; injection Hi as <-; exact X]. split; [discriminate|]. intros Z.
      destruct X as [pre [t [post [X _]]]]. rewrite Z in X. destruct pre; discriminate.
    - split; [tauto|]. discriminate.
  Qed.
  (* in particular over all runs when the last one did not end with InvalidFunctionValue *)
  Theorem C54_best_of_all_runs : forall {G} (get : G -> outcome (F * G)) par reuse started fuel env g seed o r res l,
    restarter_of seed o r ->
    restart_run_internal ev checks get par reuse started fuel env g r = Ret (res, l) ->
    rr_reason res <> RInvalidFunctionValue ->
    match rr_best res with None => runs_of l = [] | Some i => best_of_runs (ro_mode o) (runs_of l) i end.
  Proof.
    intros G get par reuse started fuel env g seed o r res l Hr H Hn.
    destruct (C54_best_of_counted_runs _ _ _ _ _ _ _ _ _ _ _ _ Hr H) as [H1 H2].
    assert (X : filter counted (runs_of l) = runs_of l).
    { apply filter_all. intros t Ht. eapply not_invalid; eauto. }
    rewrite X in *. destruct (rr_best res) as [i|]; [apply H2; reflexivity|apply H1; reflexivity].
  Qed.
End Best.
Print Assumptions C54_best_of_counted_runs.
Print Assumptions C54_best_of_all_runs.

Section BestEvaluation.
  Context {T : Type} {NT : Num T} {LT : Libm T} {E : Env T} {RE : REnv T} {OL : OrdLaws T}.
  Context {F : Type} (ev : F -> vec T -> outcome (T * F)) (checks : bool).

  Lemma configured_mode : forall (s0 : strategy T) (ts : list (run_record T F)) g range o o', configured checks s0 ts g range o o' -> o_mode o' = o_mode o.
  Proof.
    intros s0 ts g range o o' H. destruct s0 as [l|i|b]; cbn [configured] in H.
    - subst. destruct o; reflexivity.
    - destruct H as [n [-> _]]. destruct o; reflexivity.
    - destruct (next_local _ _).
      + destruct H as [m [_ ->]]. destruct o; reflexivity.
      + destruct H as [n [-> _]]. destruct o; reflexivity.
  Qed.
End BestEvaluation.
Section BestEvaluation2.
  Context {T : Type} {NT : Num T} {LT : Libm T} {E : Env T} {RE : REnv T} {OL : OrdLaws T}.
  Context {F : Type} (ev : F -> vec T -> outcome (T * F)) (checks : bool).

  (* in terms of the calls of the objective: the best individual is one of the evaluated points with its value, and
     no evaluation in any of the runs had a better value *)
  Theorem C54_best_evaluation : forall par started fuel env f seed o r res l i,
    restarter_of seed o r ->
    restart_run_with_reuse (log_ev ev) checks par started fuel env (f, []) r = Ret (res, l) ->
    rr_reason res <> RInvalidFunctionValue -> rr_best res = Some i ->
    In (i_point i, i_value i) (all_calls (runs_of l)) /\
    Forall (fun e => is_better (ro_mode o) (snd e) (i_value i) = false) (all_calls (runs_of l)).
  Proof.
    intros par started fuel env f seed o r res l i Hr H Hn Hi. pose proof H as H'. unfold restart_run_with_reuse in H'.
    pose proof (not_invalid _ _ _ _ _ _ _ _ _ _ _ _ _ _ Hr H' Hn) as Hc.
    pose proof (C54_best_of_all_runs _ _ _ _ _ _ _ _ _ _ _ _ _ _ Hr H' Hn) as Hb. rewrite Hi in Hb.
    destruct (prefix_calls _ _ _ _ _ _ _ _ _ _ _ _ Hr H (runs_of l) [] ltac:(rewrite app_nil_r; reflexivity) Hc) as [_ [P2 [P3 P4]]].
    destruct Hb as [pre [t [post [B1 [B2 [B3 B4]]]]]]. split.
    - eapply P4; [|exact B2]. rewrite B1. apply in_elt.
    - apply Forall_forall. intros e He. destruct (P3 (ro_mode o)) with (e := e) as [u [j [U1 [U2 U3]]]]; [|exact He|].
      + intros u Hu. apply in_split in Hu. destruct Hu as [p [q Hu]].
        destruct (St _ _ _ _ _ _ _ _ _ _ _ _ Hr _ _ H') as [X _]. destruct (X _ _ _ Hu) as [[_ _ [x [g1 [_ Y]]] _ _] _].
        apply configured_mode in Y. rewrite Y. destruct (restarter_fields _ _ _ Hr) as [_ [_ [<- _]]].
        unfold run_options. destruct (rs_default_options r); reflexivity.
      + assert (Nj : nis_nan (i_value j) = false).
        { rewrite Forall_forall in P2. exact (P2 _ (P4 _ _ U1 U2)). }
        apply (better_negtrans _ _ (i_value j)); [exact Nj|exact U3|]. rewrite B1 in U1. apply in_app_or in U1. destruct U1 as [U1|U1].
        * apply better_asym. eapply B3; eauto.
        * eapply B4; eauto.
  Qed.
End BestEvaluation2.
Print Assumptions C54_best_evaluation.

(* ---- C55: the loop ends ---- *)
Section Ends.
  Context {T : Type} {NT : Num T} {LT : Libm T} {E : Env T} {RE : REnv T}.
  Context {F : Type} (ev : F -> vec T -> outcome (T * F)) (checks : bool).
  Context {G : Type} (get : G -> outcome (F * G)).

  (* the number of local runs of BIPOP is bounded by the evaluations of the increasing runs *)
  Theorem C55_bipop_local_runs : forall par reuse started fuel env g seed o r res l s,
    restarter_of seed o r ->
    restart_run_internal ev checks get par reuse started fuel env g r = Ret (res, l) ->
    ro_strategy o = SBipop s ->
    (2 * N.of_nat (length (local_runs (runs_of l))) < evals (increasing (runs_of l)) + 2)%N.
  Proof.
    intros par reuse started fuel env g seed o r res l s Hr H Hs.
    destruct (St _ _ _ _ _ _ _ _ _ _ _ _ Hr _ _ H) as [X _].
    assert (P : forall ts post, runs_of l = ts ++ post -> post <> [] ->
      (2 * N.of_nat (length (local_runs ts)) <= evals (local_runs ts))%N).
    { induction ts as [|t ts IH] using rev_ind; intros post Hp Hne; [cbn; lia|]. rewrite <- app_assoc in Hp.
      specialize (IH _ Hp ltac:(discriminate)). destruct (X _ _ _ Hp) as [Hf Hv]. specialize (Hv Hne). apply verdict_none in Hv.
      pose proof (ran_evals _ _ _ _ (rf_ran _ _ _ _ _ _ _ _ Hf) (proj1 Hv)) as He.
      rewrite local_app, app_length, evals_app. cbn [local_runs filter]. destruct (ru_local t); cbn [length evals fold_right]; lia. }
    assert (M : forall ts us : list (run_record T F), (evals (increasing ts) <= evals (increasing (ts ++ us)))%N).
    { intros ts us. rewrite increasing_app, evals_app. lia. }
    assert (Q : forall ts post, runs_of l = ts ++ post -> (2 * N.of_nat (length (local_runs ts)) < evals (increasing ts) + 2)%N).
    { induction ts as [|t ts IH] using rev_ind; intros post Hp; [cbn; lia|]. rewrite <- app_assoc in Hp.
      specialize (IH _ Hp). rewrite local_app, app_length. specialize (M ts [t]).
      destruct (ru_local t) eqn:El; cbn [local_runs filter]; rewrite El; cbn [length]; [|lia].
      destruct (C55_bipop_kind _ _ _ _ _ _ _ _ _ _ _ _ Hr _ _ H _ _ _ _ Hs Hp) as [_ [K _]]. destruct (K El) as [_ K2].
      specialize (P _ _ Hp ltac:(discriminate)). lia. }
    apply (Q (runs_of l) []). rewrite app_nil_r. reflexivity.
  Qed.

  (* lexicographic measure of the work left after the runs ts *)
  Definition runs_left (s0 : strategy T) (ts : list (run_record T F)) : nat :=
    match s0 with
    | SLocal s => N.to_nat (lo_max_runs s) - length ts
    | SIpop _ => 10 - length ts
    | SBipop _ => 10 - length (increasing ts)
    end.
  Definition budget_left (s0 : strategy T) (ts : list (run_record T F)) : nat :=
    match s0 with SBipop _ => N.to_nat (evals (increasing ts) - evals (local_runs ts)) | _ => 0 end.

  Lemma performs_less : forall par reuse rt r l l' t, performs ev checks get par reuse rt r l l' t None ->
    runs_left (rs_strategy r) (runs_of l') < runs_left (rs_strategy r) (runs_of l) \/
    (runs_left (rs_strategy r) (runs_of l') = runs_left (rs_strategy r) (runs_of l) /\
     budget_left (rs_strategy r) (runs_of l') < budget_left (rs_strategy r) (runs_of l)).
  Proof.
    intros par reuse rt r l l' t P. rewrite (runs_snoc _ _ _ (pf_log _ _ _ _ _ _ _ _ _ _ _ P)).
    pose proof (pf_control _ _ _ _ _ _ _ _ _ _ _ P) as Hc. pose proof (pf_kind _ _ _ _ _ _ _ _ _ _ _ P) as Hk.
    pose proof (pf_res _ _ _ _ _ _ _ _ _ _ _ P) as Hv. symmetry in Hv. apply verdict_none in Hv. destruct Hv as [V1 [_ V3]].
    rewrite V3 in Hc. pose proof (ran_evals _ _ _ _ (pf_ran _ _ _ _ _ _ _ _ _ _ _ P) V1) as He.
    destruct (rs_strategy r) as [s|s|s]; cbn [stops runs_left budget_left next_local] in *.
    - left. destruct (N.leb_spec (lo_max_runs s) (N.of_nat (length (runs_of l ++ [t])))) as [|L]; [discriminate|].
      rewrite app_length in *. cbn [length] in *. lia.
    - left. destruct (N.leb_spec 10 (N.of_nat (length (runs_of l ++ [t])))) as [|L]; [discriminate|].
      rewrite app_length in *. cbn [length] in *. lia.
    - rewrite increasing_app, local_app in *. cbn [increasing local_runs filter] in *. destruct (ru_local t) eqn:El; cbn [negb andb] in *.
      + right. rewrite app_nil_r, evals_app. split; [reflexivity|]. symmetry in Hk. apply andb_true_iff in Hk. destruct Hk as [_ Hk].
        apply N.ltb_lt in Hk. cbn [evals fold_right]. lia.
      + left. destruct (N.leb_spec 10 (N.of_nat (length (increasing (runs_of l) ++ [t])))) as [|L]; [discriminate|].
        rewrite app_length in *. cbn [length] in *. lia.
  Qed.

  (* If every iteration of the loop returns (in particular the run it performs), the loop ends. *)
  Theorem C55_loop_ends : forall par reuse started env g seed o r,
    restarter_of seed o r ->
    (forall n l, journey ev checks get par reuse started env r g n l ->
       exists l' x, restart_step ev checks get par reuse started (env n) r l = Ret (l', x)) ->
    exists fuel res l, restart_run_internal ev checks get par reuse started fuel env g r = Ret (res, l).
  Proof.
    intros par reuse started env g seed o r Hr Hstep. assert (Hf : fresh (rs_strategy r)) by apply (restarter_fields _ _ _ Hr).
    assert (X : forall a b n l, journey ev checks get par reuse started env r g n l ->
      runs_left (rs_strategy r) (runs_of l) = a -> budget_left (rs_strategy r) (runs_of l) = b ->
      exists fuel l' x, restart_loop ev checks get par reuse started fuel (fun i => env (n + i)) r l = Ret (l', x)).
    { intros a. induction a as [a IHa] using lt_wf_ind. intros b. induction b as [b IHb] using lt_wf_ind. intros n l Hj Ha Hb.
      destruct (Hstep n l Hj) as [l' [x Hs]]. destruct x as [x|].
      - exists 1, l', x. cbn [restart_loop]. rewrite Nat.add_0_r, Hs. reflexivity.
      - destruct (journey_inv _ _ _ _ _ _ _ _ _ _ _ Hf Hj) as [Hi _].
        destruct (step_cases _ _ _ _ _ _ _ _ _ _ _ Hi Hs) as [[_ [_ Y]]|[[_ [_ [_ Y]]]|[[_ [_ [_ [_ Y]]]]|[Hn [t P]]]]]; try discriminate Y.
        assert (Hj' : journey ev checks get par reuse started env r g (S n) l') by (eapply Jo_run; eauto).
        assert (Z : exists fuel l2 x, restart_loop ev checks get par reuse started fuel (fun i => env (S n + i)) r l' = Ret (l2, x)).
        { destruct (performs_less _ _ _ _ _ _ _ P) as [L|[L1 L2]].
          - eapply IHa; [|exact Hj'|reflexivity|reflexivity]. lia.
          - eapply IHb; [|exact Hj'|lia|reflexivity]. lia. }
        destruct Z as [fuel [l2 [x Z]]]. exists (S fuel), l2, x. cbn [restart_loop]. rewrite Nat.add_0_r, Hs. cbn [obind].
        rewrite <- Z. clear. assert (W : forall fu e1 e2 l0, (forall i, e1 i = e2 i) ->
            restart_loop ev checks get par reuse started fu e1 r l0 = restart_loop ev checks get par reuse started fu e2 r l0).
        { induction fu as [|fu IHf]; intros e1 e2 l0 He; cbn [restart_loop]; [reflexivity|]. rewrite He.
          destruct (restart_step _ _ _ _ _ _ _ _ _) as [[l3 [y|]]| |]; cbn [obind]; auto. }
        apply W. intros i. f_equal. lia. }
    destruct (X _ _ 0 (loop_init r g) (Jo_start _ _ _ _ _ _ _ _ _) eq_refl eq_refl) as [fuel [l [x H]]].
    exists fuel. unfold restart_run_internal. cbn [Nat.add] in H. change (fun i => env i) with env in H. rewrite H. cbn [obind]. eauto.
  Qed.
End Ends.
Print Assumptions C55_bipop_local_runs.
Print Assumptions C55_loop_ends.

(* ---- examples ---- *)
#[export] Instance toy_renv : REnv f64 := {|
  rr_t := N;
  rr_seed := fun s => s;
  rr_f64 := fun g => (lit (Z.of_N (g mod 8)) 8, (g + 1)%N);
  rr_u64 := fun g => (g, (g + 1)%N);
  rr_range := fun lo hi g => (nadd lo (nmul (nsub hi lo) (lit (Z.of_N (g mod 4)) 4)), (g + 3)%N)
|}.
Definition toy_rtick : rtick := mkRtick 0 0 0 10 toy_env_of.
Definition toy_renv_of (k : nat) : rtick := toy_rtick.
Definition toy_ipop : strategy f64 := SIpop (mkIpop 0 1 2).
Definition toy_local : strategy f64 := SLocal (mkLocal 0 (lit 1 2) 3).
Definition toy_bipop : strategy f64 := SBipop (mkBipop 0 0 1 2 0 1 (lit 2 10) 0).
Definition toy_restart_options (s : strategy f64) : restart_options f64 :=
  let o := restart_options_new 2 (lit (-2) 1) (lit 3 1) s in
  {| ro_strategy := s; ro_dimensions := ro_dimensions o; ro_mode := ro_mode o; ro_parallel_update := ro_parallel_update o;
     ro_default_options := apply_setters (ro_default_options o) [SPopulationSize 4];
     ro_lo := ro_lo o; ro_hi := ro_hi o; ro_fun_target := None; ro_max_function_evals := Some 60%N; ro_max_time := None;
     ro_max_function_evals_per_run := None; ro_max_generations_per_run := Some 2%N; ro_enable_printing := false;
     ro_seed := Some 5%N |}.
(* the execution of run_with_reuse with a recording objective *)
Definition toy_restart {F} (ev : F -> vec f64 -> outcome (f64 * F)) (f : F) (s : strategy f64) :=
  match restarter_new 0 (toy_restart_options s) with
  | inl r => restart_run_with_reuse (log_ev ev) true false 0 20 toy_renv_of (f, []) r
  | inr _ => NoFuel
  end.
Definition toy_restart_test {F} (ev : F -> vec f64 -> outcome (f64 * F)) (f : F) (s : strategy f64)
  (P : restart_results f64 -> list (run_record f64 (F * list (entry f64))) -> bool) : bool :=
  match toy_restart ev f s with Ret (res, l) => P res (runs_of l) | _ => false end.
Lemma toy_fresh : fresh toy_ipop /\ fresh toy_local /\ fresh toy_bipop.
Proof.
  split; [|split].
  - apply (Fr_ipop 2%N). reflexivity.
  - apply (Fr_local 3%N None). reflexivity.
  - apply (Fr_bipop None None). reflexivity.
Qed.
Lemma toy_restart_test_ex : forall {F} (ev : F -> vec f64 -> outcome (f64 * F)) f s P, fresh s ->
  toy_restart_test ev f s P = true ->
  exists r res l, restarter_of 0 (toy_restart_options s) r /\
    restart_run_with_reuse (log_ev ev) true false 0 20 toy_renv_of (f, []) r = Ret (res, l) /\ P res (runs_of l) = true.
Proof.
  intros F ev f s P Hf H. unfold toy_restart_test, toy_restart in H.
  destruct (restarter_new 0 (toy_restart_options s)) as [r|] eqn:Er; [|discriminate].
  destruct (restart_run_with_reuse _ _ _ _ _ _ _ _) as [[res l]| |] eqn:E; try discriminate. exists r, res, l.
  split; [split; [exact Hf|exact Er]|]. auto.
Qed.
Definition reason_is (a b : restart_reason) : bool :=
  match a, b with
  | RMaxRuns, RMaxRuns | RFunTarget, RFunTarget | RMaxFunctionEvals, RMaxFunctionEvals | RMaxTime, RMaxTime
  | RInvalidFunctionValue, RInvalidFunctionValue => true
  | _, _ => false
  end.
Definition kinds (ts : list (run_record f64 (unit * list (entry f64)))) : list bool := map ru_local ts.

(* the hypotheses of C52 to C55 and C58 are met: three local runs; IPOP stopped by the limit on evaluations; BIPOP with
   a local run *)
Example C53_cases :
  (exists r res l, restarter_of 0 (toy_restart_options toy_local) r /\
    restart_run_with_reuse (log_ev toy_sphere) true false 0 20 toy_renv_of (tt, []) r = Ret (res, l) /\
    (reason_is (rr_reason res) RMaxRuns && (length (runs_of l) =? 3) && (rr_function_evals res =? 24)%N
      && match rr_best res with Some _ => true | None => false end && (length (all_calls (runs_of l)) =? 24)) = true) /\
  (exists r res l, restarter_of 0 (toy_restart_options toy_ipop) r /\
    restart_run_with_reuse (log_ev toy_sphere) true false 0 20 toy_renv_of (tt, []) r = Ret (res, l) /\
    (reason_is (rr_reason res) RMaxFunctionEvals && (length (runs_of l) =? 4) && (rr_function_evals res =? 120)%N
      && (length (all_calls (runs_of l)) =? 120)) = true) /\
  (exists r res l, restarter_of 0 (toy_restart_options toy_bipop) r /\
    restart_run_with_reuse (log_ev toy_sphere) true false 0 20 toy_renv_of (tt, []) r = Ret (res, l) /\
    (reason_is (rr_reason res) RMaxFunctionEvals && (length (runs_of l) =? 6)
      && existsb (fun x => x) (kinds (runs_of l)) && existsb negb (kinds (runs_of l))) = true).
Proof.
  destruct toy_fresh as [F1 [F2 F3]].
  split; [|split].
  - apply (toy_restart_test_ex toy_sphere tt toy_local (fun res ts => reason_is (rr_reason res) RMaxRuns && (length ts =? 3) && (rr_function_evals res =? 24)%N
      && match rr_best res with Some _ => true | None => false end && (length (all_calls ts) =? 24)) F2). vm_cast_no_check (eq_refl true).
  - apply (toy_restart_test_ex toy_sphere tt toy_ipop (fun res ts => reason_is (rr_reason res) RMaxFunctionEvals && (length ts =? 4) && (rr_function_evals res =? 120)%N
      && (length (all_calls ts) =? 120)) F1). vm_cast_no_check (eq_refl true).
  - apply (toy_restart_test_ex toy_sphere tt toy_bipop (fun res ts => reason_is (rr_reason res) RMaxFunctionEvals && (length ts =? 6)
      && existsb (fun x => x) (kinds ts) && existsb negb (kinds ts)) F3). vm_cast_no_check (eq_refl true).
Qed.

(* C54 as documented (the best over all runs) fails when the last run ends with InvalidFunctionValue: here the only run
   completed a generation before the objective returned NaN, its best individual is lost. *)
Definition nan_later (n : N) (x : vec f64) : outcome (f64 * N) :=
  Ret (if (n =? 5)%N then nnan else norm2 x, (n + 1)%N).
Theorem C54_refuted : exists r res l t i,
  restarter_of 0 (toy_restart_options toy_local) r /\
  restart_run_with_reuse (log_ev nan_later) true false 0 20 toy_renv_of (0%N, []) r = Ret (res, l) /\
  rr_best res = None /\ runs_of l = [t] /\ overall_best_individual (ru_final t) = Some i.
Proof.
  destruct (toy_restart_test_ex nan_later 0%N toy_local (fun res ts =>
    match rr_best res, ts with None, [t] => match overall_best_individual (ru_final t) with Some _ => true | None => false end | _, _ => false end)
    (proj1 (proj2 toy_fresh))) as [r [res [l [H1 [H2 H3]]]]]; [vm_cast_no_check (eq_refl true)|].
  cbv beta in H3. destruct (rr_best res) eqn:E1; [discriminate H3|]. destruct (runs_of l) as [|t [|u ts]] eqn:E2; try discriminate H3.
  destruct (overall_best_individual (ru_final t)) as [i|] eqn:E3; [|discriminate H3]. exists r, res, l, t, i. auto.
Qed.
Print Assumptions C54_refuted.
