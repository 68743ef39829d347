(* C30 and C31: the search depends only on the ranking of the values. *)
From Coq Require Import List NArith ZArith Bool Arith Lia Permutation.
From Coq Require Import Reals.
From Flocq Require Import IEEE754.BinarySingleNaN.
Require Import Verif.Base Verif.Num Verif.F64 Verif.XReal Verif.LinAlg Verif.Mode Verif.Weights Verif.Options Verif.Params Verif.Env
  Verif.State Verif.Sampling Verif.History Verif.Termination Verif.Plot Verif.Cmaes Verif.Lib Verif.Order
  Verif.NextInv Verif.Spec Verif.LogLemmas Verif.TraceLemmas Verif.Toy Verif.BuildLemmas Verif.Sort Verif.PanicLemmas Verif.NextSafe Verif.CastLemmas
  Verif.RelLemmas Verif.ToyLemmas Verif.TermLemmas Verif.Session Verif.PropParallel Verif.SimLemmas Verif.XRound Verif.NegLemmas Verif.CalmLemmas.
Import ListNotations.
Open Scope nat_scope.

Lemma Forall2_weaken : forall {A B} (R S : A -> B -> Prop) l1 l2, (forall a b, R a b -> S a b) -> Forall2 R l1 l2 -> Forall2 S l1 l2.
Proof. intros A B R S l1 l2 H G. induction G; constructor; auto. Qed.

Section Map.
  Context {T : Type} {NT : Num T} {LT : Libm T} {E : Env T}.
  Context {F : Type} (ev : F -> vec T -> outcome (T * F)).
  (* the objective whose values are passed through g *)
  Definition mapped (g : T -> T) (f : F) (x : vec T) : outcome (T * F) := r <- ev f x ;; Ret (g (fst r), snd r).
  (* the values the objective can return *)
  Definition returned (v : T) : Prop := exists f x f', ev f x = Ret (v, f').
  Definition map_entry (g : T -> T) (e : entry T) : entry T := (fst e, g (snd e)).
  Definition map_ind (g : T -> T) (i : individual T) : individual T := mkIndividual (i_point i) (g (i_value i)).
  Definition map_data (g : T -> T) (d : term_data T) : term_data T :=
    mkTermData (option_map (map_ind g) (td_current_best d)) (option_map (map_ind g) (td_overall_best d))
      (td_final_mean d) (td_reasons d).

  (* the two optimisers have made the same calls and are in the same state; the values differ by g *)
  Record same_path (g : T -> T) (c1 c2 : cmaes T (F * list (entry T))) : Prop := {
    pa_calls : calls c2 = map (map_entry g) (calls c1);
    pa_mean : mean c2 = mean c1;
    pa_sigma : sigma c2 = sigma c1;
    pa_cov : covariance_matrix c2 = covariance_matrix c1;
    pa_state : c_state c2 = c_state c1;
    pa_generation : generation c2 = generation c1;
    pa_evals : function_evals c2 = function_evals c1;
    pa_cur : current_best_individual c2 = option_map (map_ind g) (current_best_individual c1);
    pa_all : overall_best_individual c2 = option_map (map_ind g) (overall_best_individual c1);
    pa_rng : sm_rng (c_sampler c2) = sm_rng (c_sampler c1)
  }.

  (* options that agree except for the mode, the termination criteria, printing and plotting *)
  Record same_dynamics (o1 o2 : options T) : Prop := {
    sd_mean : o_initial_mean o1 = o_initial_mean o2;
    sd_step : o_initial_step_size o1 = o_initial_step_size o2;
    sd_pop : o_population_size o1 = o_population_size o2;
    sd_con : o_constraints o1 = o_constraints o2;
    sd_max : o_max_resamples o1 = o_max_resamples o2;
    sd_weights : o_weights o1 = o_weights o2;
    sd_par : o_parallel_update o1 = o_parallel_update o2;
    sd_cm : o_cm o1 = o_cm o2;
    sd_seed : o_seed o1 = o_seed o2
  }.

  Lemma dynamics_validate : forall o1 o2, same_dynamics o1 o2 -> validate o1 = validate o2.
  Proof. intros o1 o2 H. unfold validate. rewrite (sd_mean _ _ H), (sd_pop _ _ H), (sd_step _ _ H), (sd_cm _ _ H). reflexivity. Qed.
  Lemma dynamics_params : forall o1 o2 seed, same_dynamics o1 o2 ->
    params_of_options o2 seed = with_goal (o_mode o2) (term_params_of_options o2) (params_of_options o1 seed).
  Proof. intros o1 o2 seed []. unfold params_of_options, with_goal. cbn. congruence. Qed.

  Definition only_next (l : list op) : Prop := Forall (fun o => match o with ORun _ _ _ => False | _ => True end) l.
End Map.

Lemma loud_matching_next : forall l1 l2, only_next l1 -> filter loud l1 = filter loud l2 -> matching False same_call l1 l2.
Proof.
  assert (G : forall l1 l2, matching True same_call l1 l2 -> only_next l1 -> only_next l2 -> matching False same_call l1 l2).
  { induction 1 as [|p1 t1 p2 t2 l1 l2 Ht Hm IH|p1 p2 fuel e1 e2 l1 l2 Hr Ht Hm IH|o l1 l2 Hq Hm IH|o l1 l2 Hq Hm IH]; intros H1 H2.
    - constructor.
    - apply Forall_inv_tail in H1. apply Forall_inv_tail in H2. constructor; auto.
    - apply Forall_inv in H1. contradiction.
    - apply Forall_inv_tail in H1. apply M_left; auto.
    - apply Forall_inv_tail in H2. apply M_right; auto. }
  intros l1 l2 H1 H. apply G; auto; [apply loud_matching; exact H|].
  unfold only_next in *. rewrite Forall_forall in *. intros o Ho. destruct o; auto.
  assert (Hi : In (ORun par fuel env) (filter loud l2)) by (apply filter_In; auto).
  rewrite <- H in Hi. apply filter_In in Hi. apply (H1 _ (proj1 Hi)).
Qed.

Section LogMap.
  Context {T : Type} {NT : Num T} {CL : CastLaws T} {LT : Libm T} {E : Env T}.
  Context {F : Type} (ev : F -> vec T -> outcome (T * F)) (g : T -> T) (P : T -> Prop).
  Hypothesis HP : forall v, returned ev v -> P v.

  Definition value_rel (a b : T) : Prop := b = g a /\ P a.
  Definition log_rel (s1 s2 : F * list (entry T)) : Prop := fst s1 = fst s2 /\ snd s2 = map (map_entry g) (snd s1).

  Lemma log_mapped : forall x s1 s2, log_rel s1 s2 ->
    out_rel (fun a b => value_rel (fst a) (fst b) /\ log_rel (snd a) (snd b)) (log_ev ev s1 x) (log_ev (mapped ev g) s2 x).
  Proof.
    intros x [f1 l1] [f2 l2] [H1 H2]. cbn in H1, H2. subst. unfold log_ev, mapped. cbn [fst snd].
    destruct (ev f2 x) as [[v f']| |] eqn:Ee; cbn; auto. split.
    - split; auto. apply HP. exists f2, x, f'. exact Ee.
    - split; cbn; auto. rewrite map_app. reflexivity.
  Qed.

  Lemma similar_path : forall (Rm : T -> T -> Prop) m1 m2 Rterm (c1 c2 : cmaes T (F * list (entry T))),
    similar log_rel value_rel Rm m1 m2 Rterm c1 c2 -> same_path g c1 c2.
  Proof.
    intros Rm m1 m2 Rterm c1 c2 [A1 A2 A3 A4 A5 A6].
    assert (Ho : forall i1 i2, opt_rel (ind_rel value_rel) i1 i2 -> i2 = option_map (map_ind g) i1).
    { intros [[p1 v1]|] [[p2 v2]|] H; cbn in H; try contradiction; auto. destruct H as [H1 [[H2 _] _]]. cbn in H1, H2. subst. reflexivity. }
    constructor; unfold mean, sigma, covariance_matrix, generation; try (rewrite A4; reflexivity).
    - apply (sr_obj _ _ _ A1).
    - symmetry. apply (sr_evals _ _ _ A1).
    - apply Ho. apply (hr_cur _ _ _ _ A5).
    - apply Ho. apply (hr_all _ _ _ _ A5).
    - symmetry. apply (sr_rng _ _ _ A1).
  Qed.

  Lemma start_similar : forall (Rm : T -> T -> Prop) (Rterm : term_params T -> term_params T -> Prop) rs now f o1 o2 c1 c2,
    same_dynamics o1 o2 -> Rterm (term_params_of_options o1) (term_params_of_options o2) ->
    cmaes_new rs now (f, []) o1 = Ret (inl c1) -> cmaes_new rs now (f, []) o2 = Ret (inl c2) ->
    similar log_rel value_rel Rm (o_mode o1) (o_mode o2) Rterm c1 c2.
  Proof.
    intros Rm Rterm rs now f o1 o2 c1 c2 Hd Ht H1 H2. apply cmaes_new_inv in H1. apply cmaes_new_inv in H2. cbv zeta in H1, H2.
    destruct H1 as [_ [A1 [A2 [A3 [A4 [_ [_ [A5 _]]]]]]]], H2 as [_ [B1 [B2 [B3 [B4 [_ [_ [B5 _]]]]]]]].
    rewrite <- (sd_seed _ _ Hd) in B1, B2. set (seed := match o_seed o1 with Some s => s | None => rs end) in *.
    constructor; rewrite ?A1, ?A2, ?A3, ?A4, ?A5, ?B1, ?B2, ?B3, ?B4, ?B5.
    - constructor; cbn; rewrite ?(sd_mean _ _ Hd), ?(sd_max _ _ Hd), ?(sd_pop _ _ Hd); auto. split; reflexivity.
    - cbn. apply (sd_con _ _ Hd).
    - constructor; try reflexivity; [apply dynamics_params; exact Hd|exact Ht].
    - rewrite (sd_mean _ _ Hd), (sd_step _ _ Hd). reflexivity.
    - constructor; cbn; auto.
    - reflexivity.
  Qed.
End LogMap.

(* reasons that depend on the values, which a change of scale may affect *)
Definition same_failures (r1 r2 : list reason) : Prop :=
  (In InvalidFunctionValue r1 <-> In InvalidFunctionValue r2) /\ (In PosDefCov r1 <-> In PosDefCov r2).
Definition reasons_of {T} (r : option (term_data T)) : list reason := match r with Some d => td_reasons d | None => [] end.

Section Ranking.
  Context {T : Type} {NT : Num T} {CL : CastLaws T} {OL : OrdLaws T} {LT : Libm T} {E : Env T}.
  Hypothesis Heig : eigen_shape (T := T).
  Context {F : Type} (ev : F -> vec T -> outcome (T * F)).

  (* g is strictly increasing on the values the objective returns, and keeps NaN and numbers apart *)
  Definition increasing (g : T -> T) : Prop :=
    (forall v, returned ev v -> nis_nan (g v) = nis_nan v) /\
    (forall a b, returned ev a -> returned ev b -> nltb (g a) (g b) = nltb a b).

  Lemma checked_ordinary : forall p evals created now (s : state T) h inds l, check_termination p evals created now s h inds = Ret l ->
    ~ In InvalidFunctionValue l /\ ~ In PosDefCov l.
  Proof.
    intros p evals created now s h inds l H. apply check_termination_inv in H.
    destruct H as [l5 [tx [nea [nec [ts [txu [H5 [_ [_ [_ [_ [_ ->]]]]]]]]]]]].
    apply check_tol_fun_inv in H5. destruct H5 as [b1 [b2 [b3 ->]]]. rewrite !in_app_iff.
    assert (G : forall b (x r : reason), In x (push_if b r) -> x = r) by (intros [|] x r Hx; cbn in Hx; [destruct Hx; [auto|contradiction]|contradiction]).
    split; intros Hi; repeat match type of Hi with _ \/ _ => destruct Hi as [Hi|Hi] end; apply G in Hi; discriminate.
  Qed.

  Definition ranked_alike (g : T -> T) (a b : list (option (term_data T)) * cmaes T (F * list (entry T))) : Prop :=
    Forall2 (fun r1 r2 => same_failures (reasons_of r1) (reasons_of r2)) (fst a) (fst b) /\ same_path g (snd a) (snd b).

  Lemma ranking_sim : forall free (Rm : T -> T -> Prop) g rs now f o1 o2 l1 l2, increasing g ->
    same_dynamics o1 o2 -> o_mode o1 = o_mode o2 -> only_next l1 -> filter loud l1 = filter loud l2 ->
    (forall a1 a2, value_rel g (returned ev) a1 a2 -> number a1 -> Rm a1 a2) ->
    (Nat.even (pop o1) = true -> forall a1 a2 b1 b2, value_rel g (returned ev) a1 a2 -> value_rel g (returned ev) b1 b2 ->
      number a1 -> number b1 -> Rm (ndiv (nadd a1 b1) n2) (ndiv (nadd a2 b2) n2)) ->
    (forall a1 a2 b1 b2, Rm a1 a2 -> Rm b1 b2 -> Rm (choose_best (o_mode o1) a1 b1) (choose_best (o_mode o2) a2 b2)) ->
    (free \/ medians_return (T := T) \/ forall a b, Rm a b -> number a /\ number b) ->
    out_relp free (sess_rel (ranked_alike g))
      (session (log_ev ev) rs now (f, []) o1 l1) (session (log_ev (mapped ev g)) rs now (f, []) o2 l2).
  Proof.
    intros free Rm g rs now f o1 o2 l1 l2 [Hg1 Hg2] Hd Hm Hn Hl M1 M2 M3 M4.
    assert (Hlt : forall a1 a2 b1 b2, value_rel g (returned ev) a1 a2 -> value_rel g (returned ev) b1 b2 -> nltb a2 b2 = nltb a1 b1).
    { intros a1 a2 b1 b2 [-> Ha] [-> Hb]. apply Hg2; auto. }
    assert (Hna : forall a b, value_rel g (returned ev) a b -> nis_nan a = nis_nan b).
    { intros a b [-> Ha]. symmetry. apply Hg1. exact Ha. }
    eapply out_relp_impl.
    { apply (session_similar Heig (log_ev ev) (log_ev (mapped ev g)) (log_rel g) (value_rel g (returned ev)) Rm
               (o_mode o1) (o_mode o2) (fun _ _ => True) same_failures) with (runs := False) (lambda := pop o1).
      - apply log_mapped. auto.
      - exact Hna.
      - intros a1 a2 b1 b2 Ha Hb _ _. rewrite Hm. unfold sort_cmp, partial_cmp, npartial_cmp.
        rewrite !ol_eq, (Hna _ _ Ha), (Hna _ _ Hb), (Hlt _ _ _ _ Ha Hb), (Hlt _ _ _ _ Hb Ha). reflexivity.
      - intros a1 a2 b1 b2 Ha Hb _ _. rewrite Hm. unfold is_better, ngtb. rewrite (Hlt _ _ _ _ Ha Hb), (Hlt _ _ _ _ Hb Ha). reflexivity.
      - exact M1.
      - exact M2.
      - exact M3.
      - intros p1 p2 evals created now' s h1 h2 i1 i2 r1 r2 _ _ _ H1 H2. apply checked_ordinary in H1. apply checked_ordinary in H2.
        unfold same_failures. tauto.
      - exact M4.
      - unfold same_failures. tauto.
      - unfold same_failures. tauto.
      - contradiction.
      - apply loud_matching_next; auto.
      - apply dynamics_validate. exact Hd.
      - reflexivity.
      - intros c1 c2 H1 H2. eapply start_similar; eauto. }
    intros [[r1 c1]|e1] [[r2 c2]|e2]; cbn; try tauto. intros [H1 H2]. split; [|eapply similar_path; exact H2].
    eapply Forall2_weaken; [|exact H1]. intros [d1|] [d2|]; cbn; try tauto. unfold same_failures. tauto.
  Qed.

  (* C31: the two sessions are alike whenever both return *)
  Theorem C31_ranking : forall g rs now f o1 o2 l1 l2 s1 s2, increasing g ->
    same_dynamics o1 o2 -> o_mode o1 = o_mode o2 -> only_next l1 -> filter loud l1 = filter loud l2 ->
    session (log_ev ev) rs now (f, []) o1 l1 = Ret s1 -> session (log_ev (mapped ev g)) rs now (f, []) o2 l2 = Ret s2 ->
    sess_rel (ranked_alike g) s1 s2.
  Proof.
    intros g rs now f o1 o2 l1 l2 s1 s2 Hg Hd Hm Hn Hl H1 H2.
    refine (out_relp_Ret True _ _ _ _ _ (ranking_sim True (fun _ _ => True) g rs now f o1 o2 l1 l2 Hg Hd Hm Hn Hl _ _ _ _) H1 H2); auto.
  Qed.

  (* and one returns (panics) if and only if the other does, unless the median of values that include NaN panics *)
  Theorem C31_outcome : forall g rs now f o1 o2 l1 l2, increasing g ->
    same_dynamics o1 o2 -> o_mode o1 = o_mode o2 -> only_next l1 -> filter loud l1 = filter loud l2 ->
    medians_ok ev o1 -> medians_ok (mapped ev g) o2 ->
    out_rel (sess_rel (ranked_alike g))
      (session (log_ev ev) rs now (f, []) o1 l1) (session (log_ev (mapped ev g)) rs now (f, []) o2 l2).
  Proof.
    intros g rs now f o1 o2 l1 l2 Hg Hd Hm Hn Hl Hk1 Hk2. apply out_relp_False.
    assert (Hpop : pop o2 = pop o1) by (unfold pop; rewrite (sd_pop _ _ Hd); reflexivity).
    destruct Hk1 as [Hk1|Hk1]; [apply (ranking_sim False (fun _ _ => True)); auto|].
    destruct Hk2 as [Hk2|Hk2]; [apply (ranking_sim False (fun _ _ => True)); auto|].
    assert (Hgn : forall a1 a2, value_rel g (returned ev) a1 a2 -> number a1 -> number a2).
    { intros a1 a2 [-> Ha] N1. unfold number in *. rewrite (proj1 Hg); auto. }
    apply (ranking_sim False (fun a b => number a /\ number b)); auto.
    - intros a1 a2 Ha N1. split; [exact N1|eauto].
    - intros Hev a1 a2 b1 b2 Ha Hb N1 N2. rewrite Hpop in Hk2. pose proof (Hgn _ _ Ha N1) as N3. pose proof (Hgn _ _ Hb N2) as N4.
      destruct Hk1 as [Ho|[V [V1 V2]]]; [rewrite <- Nat.negb_even, Hev in Ho; discriminate|].
      destruct Hk2 as [Ho|[W [W1 W2]]]; [rewrite <- Nat.negb_even, Hev in Ho; discriminate|].
      destruct Ha as [-> [fa [xa [fa' Ha]]]], Hb as [-> [fb [xb [fb' Hb]]]]. split; [apply V2; eapply V1; eauto|].
      apply W2; [eapply (W1 fa xa _ fa')|eapply (W1 fb xb _ fb')]; auto; unfold mapped; [rewrite Ha|rewrite Hb]; reflexivity.
    - intros a1 a2 b1 b2 [A1 A2] [B1 B2]. unfold choose_best, nmax, nmin, number in *. rewrite Hm.
      destruct (o_mode o2); rewrite ?A1, ?A2, ?B1, ?B2; split; match goal with |- context [if ?x then _ else _] => destruct x end; auto.
  Qed.
End Ranking.

Print Assumptions C31_ranking.
Print Assumptions C31_outcome.

Section Negate.
  Context {LT : Libm f64} {E : Env f64}.
  Hypothesis Heig : eigen_shape (T := f64).
  Context {F : Type} (ev : F -> vec f64 -> outcome (f64 * F)).

  (* the same problem with the mode and the target exchanged; printing and plotting are free *)
  Record negated (o1 o2 : options f64) : Prop := {
    ng_dynamics : same_dynamics o1 o2;
    ng_mode1 : o_mode o1 = Maximize;
    ng_mode2 : o_mode o2 = Minimize;
    ng_target : o_fun_target o2 = option_map nneg (o_fun_target o1);
    ng_evals : o_max_function_evals o1 = o_max_function_evals o2;
    ng_gens : o_max_generations o1 = o_max_generations o2;
    ng_time : o_max_time o1 = o_max_time o2;
    ng_tol_fun : o_tol_fun o1 = o_tol_fun o2;
    ng_tol_fun_rel : o_tol_fun_rel o1 = o_tol_fun_rel o2;
    ng_tol_fun_hist : o_tol_fun_hist o1 = o_tol_fun_hist o2;
    ng_tol_x : o_tol_x o1 = o_tol_x o2;
    ng_stag : o_tol_stagnation o1 = o_tol_stagnation o2;
    ng_tol_x_up : o_tol_x_up o1 = o_tol_x_up o2;
    ng_cond : o_tol_condition_cov o1 = o_tol_condition_cov o2
  }.
  Lemma negated_target : forall o1 o2, negated o1 o2 -> neg_target (term_params_of_options o1) (term_params_of_options o2).
  Proof.
    intros o1 o2 [[] M1 M2 H1 H2 H3 H4 H5 H6 H7 H8 H9 H10 H11]. unfold neg_target, term_params_of_options.
    cbn [tp_fun_target tp_max_function_evals tp_max_generations tp_max_time tp_tol_fun tp_tol_fun_rel tp_tol_fun_hist tp_tol_x tp_tol_stagnation tp_tol_x_up tp_tol_condition_cov].
    split; [rewrite H1; destruct (o_fun_target o1); cbn [option_map opt_rel]; [apply neg_nneg|exact I]|]. clear H1.
    repeat match goal with H : _ o1 = _ o2 |- _ => rewrite H; clear H end. repeat split; reflexivity.
  Qed.

  Definition never (s : bool) : Prop := forall v, returned ev v -> v <> B754_infinity s.

  Let Ra := value_rel nneg (fun v : f64 => True).

  Lemma negated_pop : forall o1 o2, negated o1 o2 -> pop o1 = pop o2.
  Proof. intros o1 o2 H. unfold pop. rewrite (sd_pop _ _ (ng_dynamics _ _ H)). reflexivity. Qed.

  Definition negated_exactly (a b : list (option (term_data f64)) * cmaes f64 (F * list (entry f64))) : Prop :=
    fst b = map (option_map (map_data nneg)) (fst a) /\ same_path nneg (snd a) (snd b).
  Lemma maximize_sim : forall (Rm : f64 -> f64 -> Prop) rs now f o1 o2 l1 l2, negated o1 o2 -> filter loud l1 = filter loud l2 ->
    (forall a b, Rm a b -> neg a b) ->
    (forall a1 a2, value_rel nneg (returned ev) a1 a2 -> number a1 -> Rm a1 a2) ->
    (Nat.even (pop o1) = true -> forall a1 a2 b1 b2, value_rel nneg (returned ev) a1 a2 -> value_rel nneg (returned ev) b1 b2 ->
      number a1 -> number b1 -> Rm (ndiv (nadd a1 b1) n2) (ndiv (nadd a2 b2) n2)) ->
    (forall a1 a2 b1 b2, Rm a1 a2 -> Rm b1 b2 -> Rm (choose_best Maximize a1 b1) (choose_best Minimize a2 b2)) ->
    (odd_median /\ medians_return (T := f64) \/ forall a b, Rm a b -> number a) ->
    out_rel (sess_rel negated_exactly)
      (session (log_ev ev) rs now (f, []) o1 l1) (session (log_ev (mapped ev nneg)) rs now (f, []) o2 l2).
  Proof.
    intros Rm rs now f o1 o2 l1 l2 Hn Hl HRm M1 M2 M3 M4. apply out_relp_False.
    set (P := fun v : f64 => returned ev v).
    assert (HR : forall a b, value_rel nneg P a b -> neg a b) by (intros a b [-> _]; apply neg_nneg).
    eapply out_relp_impl.
    { apply (session_similar Heig (log_ev ev) (log_ev (mapped ev nneg)) (log_rel nneg) (value_rel nneg P) Rm Maximize Minimize neg_target eq) with (runs := True) (lambda := pop o1).
      - apply log_mapped. auto.
      - intros a b H. apply neg_nan. auto.
      - intros a1 a2 b1 b2 Ha Hb _ _. apply neg_cmp; auto.
      - intros a1 a2 b1 b2 Ha Hb _ _. apply neg_better; auto.
      - exact M1.
      - exact M2.
      - exact M3.
      - intros p1 p2 evals created now' st h1 h2 i1 i2 r1 r2 Hp Hh Hi H1 H2.
        rewrite (check_neg (value_rel nneg P) HR Rm p1 p2 evals created now' st h1 h2 i1 i2 HRm) in H1; [congruence| |exact Hp|exact Hh|exact Hi].
        destruct M4 as [[M4 _]|M4]; [left; exact M4|right; exact M4].
      - right. destruct M4 as [[_ M4]|M4]; [left; exact M4|right]. intros a b H1. split; [exact (M4 _ _ H1)|].
        unfold number. rewrite <- (neg_nan _ _ (HRm _ _ H1)). exact (M4 _ _ H1).
      - reflexivity.
      - reflexivity.
      - intros _ [d1|] [d2|]; cbn; split; intros; try discriminate; auto; destruct H as [H H']; congruence.
      - apply loud_matching. exact Hl.
      - apply dynamics_validate. apply Hn.
      - reflexivity.
      - intros c1 c2 H1 H2. rewrite <- (ng_mode1 _ _ Hn), <- (ng_mode2 _ _ Hn). eapply start_similar; eauto; [apply Hn|apply negated_target; exact Hn]. }
    intros [[r1 c1]|e1] [[r2 c2]|e2]; cbn; try tauto. intros [H1 H2]. unfold negated_exactly. cbn [fst snd]. split; [|eapply similar_path; exact H2].
    clear -H1. induction H1 as [|a b r1 r2 Hab H IH]; cbn; auto. rewrite IH. f_equal.
    destruct a as [d1|], b as [d2|]; cbn in *; auto; try (destruct Hab; congruence).
    destruct Hab as [Q1 [Q2 [Q3 Q4]]]. destruct d1 as [x1 y1 z1 w1], d2 as [x2 y2 z2 w2]. cbn in *. subst.
    assert (Ho : forall i1 i2, opt_rel (ind_rel (value_rel nneg P)) i1 i2 -> i2 = option_map (map_ind nneg) i1).
    { intros [[p1 v1]|] [[p2 v2]|] Hi; cbn in Hi; try contradiction; auto. destruct Hi as [I1 [[I2 _] _]]. cbn in I1, I2. subst. reflexivity. }
    rewrite (Ho _ _ Q1), (Ho _ _ Q2). reflexivity.
  Qed.

  (* C30, partial: odd populations; objectives that return at most one of the two infinities; and any population and
     objective if the library's median of values that include NaN returns and changes sign with the values.  The full
     statement quantifies over every population and objective; missing is what that median does (see also
     C30_path_partial). *)
  Theorem C30_maximize_partial : forall rs now f o1 o2 l1 l2,
    N.odd (o_population_size o1) = true \/ (exists s, never s) \/ (odd_median /\ forall l : list f64, nan_median l <> None) ->
    negated o1 o2 -> filter loud l1 = filter loud l2 ->
    out_rel (sess_rel negated_exactly)
      (session (log_ev ev) rs now (f, []) o1 l1) (session (log_ev (mapped ev nneg)) rs now (f, []) o2 l2).
  Proof.
    intros rs now f o1 o2 l1 l2 Hs Hn Hl.
    assert (HR : forall a b, value_rel nneg (returned ev) a b -> neg a b) by (intros a b [-> _]; apply neg_nneg).
    assert (G : N.odd (o_population_size o1) = true \/ (exists s, never s) -> out_rel (sess_rel negated_exactly)
      (session (log_ev ev) rs now (f, []) o1 l1) (session (log_ev (mapped ev nneg)) rs now (f, []) o2 l2)).
    { clear Hs. intros Hs. apply (maximize_sim negn); auto.
      - intros a b H. apply H.
      - intros a1 a2 Ha Hv. split; auto.
      - intros He a1 a2 b1 b2 Ha Hb N1 N2. split; [apply neg_half, neg_add; auto|].
        destruct Hs as [Hs|[s Hs]]; [apply odd_nat in Hs; fold (pop o1) in Hs; rewrite <- Nat.negb_even, He in Hs; discriminate|].
        destruct Ha as [_ Ha], Hb as [_ Hb]. apply (tame_middle s); auto.
      - intros a1 a2 b1 b2 [H1 N1] [H2 N2]. split; [apply neg_choose; auto|].
        unfold choose_best, nmax, number in *. rewrite N1, N2. destruct (nltb b1 a1); auto.
      - right. intros a b H. apply H. }
    destruct Hs as [Hs|[Hs|Hs]]; [apply G; auto|apply G; auto|]. apply (maximize_sim neg); auto.
    - intros _ a1 a2 b1 b2 Ha Hb N1 N2. apply neg_half, neg_add; auto.
    - apply neg_choose.
  Qed.

  (* C30 for every objective: the path and every reason except TolStagnation, which averages medians; a median
     of a generation containing both infinities is NaN *)
  Definition same_but_stagnation (r1 r2 : list reason) : Prop := forall x, x <> TolStagnation -> (In x r1 <-> In x r2).
  Definition negated_alike (a b : list (option (term_data f64)) * cmaes f64 (F * list (entry f64))) : Prop :=
    Forall2 (fun r1 r2 => same_but_stagnation (reasons_of r1) (reasons_of r2)) (fst a) (fst b) /\ same_path nneg (snd a) (snd b).
  Lemma negate_sim : forall free rs now f o1 o2 l1 l2, free \/ medians_return (T := f64) -> negated o1 o2 -> only_next l1 -> filter loud l1 = filter loud l2 ->
    out_relp free (sess_rel negated_alike)
      (session (log_ev ev) rs now (f, []) o1 l1) (session (log_ev (mapped ev nneg)) rs now (f, []) o2 l2).
  Proof.
    intros free rs now f o1 o2 l1 l2 Hfree Hn Hx Hl.
    assert (HR : forall a b, Ra a b -> neg a b) by (intros a b [-> _]; apply neg_nneg).
    eapply out_relp_impl.
    { apply (session_similar Heig (log_ev ev) (log_ev (mapped ev nneg)) (log_rel nneg) Ra neg Maximize Minimize neg_target same_but_stagnation) with (runs := False) (lambda := pop o1).
      - apply log_mapped. auto.
      - intros a b H. apply neg_nan. auto.
      - intros a1 a2 b1 b2 Ha Hb _ _. apply neg_cmp; auto.
      - intros a1 a2 b1 b2 Ha Hb _ _. apply neg_better; auto.
      - auto.
      - intros _ a1 a2 b1 b2 Ha Hb N1 N2. apply neg_half, neg_add; auto.
      - apply neg_choose.
      - intros p1 p2 evals created now' st h1 h2 i1 i2 r1 r2 Hp Hh Hi H1 H2.
        exact (check_neg_almost Ra HR p1 p2 evals created now' st h1 h2 i1 i2 r1 r2 Hp Hh Hi H1 H2).
      - tauto.
      - intros x _. reflexivity.
      - intros x _. reflexivity.
      - contradiction.
      - apply loud_matching_next; auto.
      - apply dynamics_validate. apply Hn.
      - reflexivity.
      - intros c1 c2 H1 H2. rewrite <- (ng_mode1 _ _ Hn), <- (ng_mode2 _ _ Hn). eapply start_similar; eauto; [apply Hn|apply negated_target; exact Hn]. }
    intros [[r1 c1]|e1] [[r2 c2]|e2]; cbn; try tauto. intros [H1 H2]. split; [|eapply similar_path; exact H2].
    eapply Forall2_weaken; [|exact H1]. intros [d1|] [d2|]; cbn; try tauto. intros _ x _. tauto.
  Qed.

  (* whenever both sessions return; and if the median of values that include NaN does not panic, one returns if and
     only if the other does *)
  Theorem C30_path_partial : forall rs now f o1 o2 l1 l2, negated o1 o2 -> only_next l1 -> filter loud l1 = filter loud l2 ->
    (forall s1 s2, session (log_ev ev) rs now (f, []) o1 l1 = Ret s1 -> session (log_ev (mapped ev nneg)) rs now (f, []) o2 l2 = Ret s2 ->
      sess_rel negated_alike s1 s2) /\
    ((forall l : list f64, nan_median l <> None) ->
      out_rel (sess_rel negated_alike) (session (log_ev ev) rs now (f, []) o1 l1) (session (log_ev (mapped ev nneg)) rs now (f, []) o2 l2)).
  Proof.
    intros rs now f o1 o2 l1 l2 Hn Hx Hl. split.
    - intros s1 s2 H1 H2. exact (out_relp_Ret True _ _ _ _ _ (negate_sim True rs now f o1 o2 l1 l2 (or_introl I) Hn Hx Hl) H1 H2).
    - intros Hm. apply out_relp_False. apply negate_sim; auto.
  Qed.
End Negate.

Print Assumptions C30_maximize_partial.
Print Assumptions C30_path_partial.

(* cubing is strictly increasing on the values of an objective that returns 1, 2 or 3 *)
Definition c31_ev : unit -> vec f64 -> outcome (f64 * unit) :=
  pure_ev (fun x => if nltb (hd n0 x) n1 then n1 else if nltb (hd n0 x) n2 then n2 else nofZ 3).
Definition cube (v : f64) : f64 := nmul v (nmul v v).
Definition c31_calls : list op := [ONext false toy_tick; OPrintInfo; ONext false toy_tick; ONext false toy_tick].
Lemma c31_values : forall v, returned c31_ev v -> v = n1 \/ v = n2 \/ v = nofZ 3.
Proof.
  intros v [f [x [f' H]]]. unfold c31_ev, pure_ev in H. apply Ret_inj in H. apply (f_equal fst) in H. cbn [fst] in H. rewrite <- H. clear H.
  destruct (nltb (hd n0 x) n1); [left; reflexivity|]. destruct (nltb (hd n0 x) n2); right; [left|right]; reflexivity.
Qed.
Example C31_case : eigen_shape (T := f64) /\ increasing c31_ev cube /\
  medians_ok c31_ev (toy_options 2) /\ medians_ok (mapped c31_ev cube) (toy_options 2) /\
  same_dynamics (toy_options 2) (apply_setters (toy_options 2) [STolFun n2; SEnablePrinting 3]) /\ only_next c31_calls /\
  exists rs c, session (log_ev c31_ev) 0 0 (tt, []) (toy_options 2) c31_calls = Ret (inl (rs, c)) /\ generation c = 3%N /\
    length (calls c) = 12.
Proof.
  split; [exact toy_eigen_shape|]. split; [|split; [left; intros l; discriminate|split; [left; intros l; discriminate|split; [constructor; reflexivity|split; [repeat constructor|]]]]].
  - split.
    + intros v Hv. destruct (c31_values v Hv) as [-> | [-> | ->]]; vm_compute; reflexivity.
    + intros a b Ha Hb. destruct (c31_values a Ha) as [-> | [-> | ->]], (c31_values b Hb) as [-> | [-> | ->]]; vm_compute; reflexivity.
  - destruct (session_test_ex (session (log_ev c31_ev) 0 0 (tt, []) (toy_options 2) c31_calls)
      (fun _ c => (generation c =? 3)%N && (length (calls c) =? 12))) as [rs [c [H1 H2]]].
    { vm_compute. reflexivity. }
    exists rs, c. split; auto. apply andb_prop in H2. destruct H2 as [H2 H3]. split; [apply N.eqb_eq; auto|apply Nat.eqb_eq; auto].
Qed.

(* maximising the squared norm until it exceeds 9, and minimising its negation *)
Definition c30_max : options f64 := apply_setters (toy_options 2) [SMode Maximize; SFunTarget (nofZ 9)].
Definition c30_min : options f64 := apply_setters (toy_options 2) [SFunTarget (nneg (nofZ 9)); SEnablePrinting 3].
Definition c30_calls : list op := [ONext false toy_tick; ORun false 20 toy_env_of].
Definition c30_ev : unit -> vec f64 -> outcome (f64 * unit) := pure_ev (fun x => nabs (norm2 x)).
Example C30_case : eigen_shape (T := f64) /\ never c30_ev true /\ negated c30_max c30_min /\
  exists rs c, session (log_ev c30_ev) 0 0 (tt, []) c30_max c30_calls = Ret (inl (rs, c)) /\ (1 <? generation c)%N = true /\
    In FunTarget (reasons_of (last rs None)).
Proof.
  split; [exact toy_eigen_shape|]. split; [|split; [repeat constructor|]].
  - intros v [f [x [f' H]]]. unfold c30_ev, pure_ev in H. apply Ret_inj in H. apply (f_equal fst) in H. cbn [fst] in H. rewrite <- H. clear H.
    change (Babs (norm2 (T := f64) x) <> B754_infinity true). destruct (norm2 (T := f64) x) as [[]|[]| |[]]; discriminate.
  - destruct (session_test_ex (session (log_ev c30_ev) 0 0 (tt, []) c30_max c30_calls)
      (fun rs c => (1 <? generation c)%N && existsb (fun r => match r with FunTarget => true | _ => false end) (reasons_of (last rs None)))) as [rs [c [H1 H2]]].
    { vm_compute. reflexivity. }
    exists rs, c. split; auto. apply andb_prop in H2. destruct H2 as [H2 H3]. split; [exact H2|].
    apply existsb_exists in H3. destruct H3 as [x [H3 H4]]. destruct x; try discriminate H4. exact H3.
Qed.
