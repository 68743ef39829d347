(* Specification and proofs for building an optimiser (C01, C02, C03). *)
From Coq Require Import List NArith ZArith Bool Arith Reals Lra Lia.
From Flocq Require Import Core IEEE754.BinarySingleNaN.
Require Import Verif.Base Verif.Num Verif.F64 Verif.XReal Verif.LinAlg Verif.Mode Verif.Weights Verif.Options
  Verif.Params Verif.Env Verif.State Verif.Sampling Verif.History Verif.Termination Verif.Plot Verif.Cmaes
  Verif.Lib Verif.Order Verif.Spec Verif.F64Lemmas.
Import ListNotations.
Local Open Scope nat_scope.

(* ---- specification ---- *)

(* a finite number not smaller than 2^-1022 *)
Definition positive_normal (x : f64) : Prop := is_finite x = true /\ (min_normal <= B2R x)%R.

Definition cm_valid (x : f64) : Prop := positive_normal x /\ (B2R x <= 1)%R.

Definition options_valid (o : options f64) : Prop :=
  o_initial_mean o <> [] /\ (2 <= o_population_size o)%N /\
  positive_normal (o_initial_step_size o) /\ cm_valid (o_cm o).

(* the first violated condition *)
Inductive first_violation (o : options f64) : invalid_options -> Prop :=
| FV_dimensions : o_initial_mean o = [] -> first_violation o EDimensions
| FV_population : o_initial_mean o <> [] -> (o_population_size o < 2)%N -> first_violation o EPopulationSize
| FV_step : o_initial_mean o <> [] -> (2 <= o_population_size o)%N ->
    ~ positive_normal (o_initial_step_size o) -> first_violation o EInitialStepSize
| FV_cm : o_initial_mean o <> [] -> (2 <= o_population_size o)%N ->
    positive_normal (o_initial_step_size o) -> ~ cm_valid (o_cm o) -> first_violation o ECm.

(* the last value given to a setter *)
Section Last.
  Context {T : Type}.
  Definition last_mean (l : list (setter T)) (d : vec T) : vec T :=
    fold_left (fun a s => match s with SInitialMean v => v | _ => a end) l d.
  Definition last_step_size (l : list (setter T)) (d : T) : T :=
    fold_left (fun a s => match s with SInitialStepSize v => v | _ => a end) l d.
  Definition last_population (l : list (setter T)) (d : N) : N :=
    fold_left (fun a s => match s with SPopulationSize v => v | _ => a end) l d.
  Definition last_cm (l : list (setter T)) (d : T) : T :=
    fold_left (fun a s => match s with SCm v => v | _ => a end) l d.
End Last.

(* ---- proofs ---- *)
Section Generic.
  Context {T : Type} {NT : Num T} {LT : Libm T} {E : Env T} {F : Type}.

  Lemma push_each_ok : forall (hs : list (list T)) xs, length xs <= length hs -> exists r, push_each hs xs = Ret r.
  Proof.
    induction hs as [|h hs IH]; intros [|x xs] H; simpl in *; eauto; try lia.
    destruct (IH xs) as [r Hr]; [lia|]. rewrite Hr. simpl. eauto.
  Qed.

  Lemma push_each_length : forall (hs : list (list T)) xs r, push_each hs xs = Ret r -> length r = length hs.
  Proof.
    induction hs as [|h hs IH]; intros [|x xs] r H; simpl in *; try (inversion H; reflexivity); try discriminate.
    oinv H. inversion H; subst. simpl. f_equal. eauto.
  Qed.

  Lemma mbuild_length : forall r c (f : nat -> nat -> T), length (mbuild r c f) = r.
  Proof. intros. unfold mbuild. rewrite map_length, seq_length. reflexivity. Qed.
  Lemma diagonal_length : forall m : mat T, length (diagonal m) = length m.
  Proof. intros. unfold diagonal. rewrite map_length, seq_length. reflexivity. Qed.
  Lemma insert_by_length : forall {A} (cmp : A -> A -> comparison) x l, length (insert_by cmp x l) = S (length l).
  Proof. induction l as [|y l IH]; simpl; auto. destruct (cmp x y); simpl; auto. Qed.
  Lemma sort_by_len : forall {A} (cmp : A -> A -> comparison) l, length (sort_by cmp l) = length l.
  Proof. induction l; simpl; auto. rewrite insert_by_length. auto. Qed.

  (* a data point can be added when the number of series is the number of dimensions *)
  Lemma data_add_point_ok : forall evals (s : state T) h (d : plot_data T),
    length (st_mean s) <= length (pd_mean d) ->
    length (cm_sqrt_eigenvalues (st_cov s)) <= length (pd_sqrt_eigenvalues d) ->
    length (cm_cov (st_cov s)) <= length (pd_coord_scales d) ->
    exists d', data_add_point evals s h d = Ret d'.
  Proof.
    intros evals s h d H1 H2 H3. unfold data_add_point.
    destruct (push_each_ok (pd_mean d) (st_mean s) H1) as [r1 ->]. simpl.
    destruct (push_each_ok (pd_sqrt_eigenvalues d)
      (map apply_offset (sort_by (fun a b => partial_cmp a b) (diagonal (cm_sqrt_eigenvalues (st_cov s)))))) as [r2 ->].
    { rewrite map_length, sort_by_len, diagonal_length. assumption. }
    simpl.
    destruct (push_each_ok (pd_coord_scales d)
      (map (fun x => apply_offset (nsqrt x)) (diagonal (cm_cov (st_cov s))))) as [r3 ->].
    { rewrite map_length, diagonal_length. assumption. }
    simpl. eauto.
  Qed.

  Lemma plot_new_add_ok : forall n po m evals (s : state T) h,
    length (st_mean s) <= n -> length (cm_sqrt_eigenvalues (st_cov s)) <= n -> length (cm_cov (st_cov s)) <= n ->
    exists p', plot_add_point evals s h (plot_new n po m) = Ret p'.
  Proof.
    intros n po m evals s h H1 H2 H3. unfold plot_add_point, plot_new. simpl.
    destruct (data_add_point_ok evals s h (plot_data_new n)) as [d ->]; simpl; rewrite ?repeat_length; eauto.
  Qed.

  (* building never panics and fails only by validation *)
  Lemma cmaes_new_outcome : forall random_seed now (f : F) (o : options T),
    match validate o with
    | Some e => cmaes_new random_seed now f o = Ret (inr e)
    | None => exists c, cmaes_new random_seed now f o = Ret (inl c)
    end.
  Proof.
    intros. unfold cmaes_new. destruct (validate o); auto.
    unfold add_plot_point. simpl.
    destruct (o_plot_options o) as [po|]; simpl; [|eauto].
    destruct (plot_new_add_ok (length (o_initial_mean o)) po (o_mode o) 0
      (state_new (o_initial_mean o) (o_initial_step_size o)) history_new) as [p' Hp]; simpl;
      try (unfold identity; rewrite mbuild_length); auto.
    unfold function_evals. simpl. rewrite Hp. simpl. eauto.
  Qed.

  (* everything about a freshly built optimiser *)
  Lemma cmaes_new_inv : forall random_seed now (f : F) (o : options T) c,
    cmaes_new random_seed now f o = Ret (inl c) ->
    let seed := match o_seed o with Some s => s | None => random_seed end in
    validate o = None /\
    c_sampler c = sampler_new (length (o_initial_mean o)) (o_constraints o) (o_max_resamples o)
                              (o_population_size o) f seed /\
    c_params c = params_of_options o seed /\
    c_state c = state_new (o_initial_mean o) (o_initial_step_size o) /\
    c_history c = history_new /\ c_print_gap c = o_print_gap_evals o /\ c_last_print c = 0%N /\
    c_created c = now /\
    c_out c = match o_print_gap_evals o with Some _ => [LInitial] | None => [] end /\
    match o_plot_options o with
    | None => c_plot c = None
    | Some po => exists p', plot_add_point 0 (c_state c) (c_history c)
                              (plot_new (length (o_initial_mean o)) po (o_mode o)) = Ret p' /\ c_plot c = Some p'
    end.
  Proof.
    intros random_seed now f o c H. unfold cmaes_new in H. destruct (validate o) eqn:Ev; [discriminate|].
    oinv H. unfold add_plot_point in Ho. simpl in Ho.
    destruct (o_plot_options o) as [po|]; simpl in Ho.
    - oinv Ho. inversion Ho; subst; clear Ho. simpl in H. inversion H; subst; clear H.
      destruct (o_print_gap_evals o); simpl; repeat split; auto; exists a0; auto.
    - inversion Ho; subst; clear Ho. simpl in H. inversion H; subst; clear H.
      destruct (o_print_gap_evals o); simpl; repeat split; auto.
  Qed.

  Lemma setters_fields : forall l (o : options T),
    o_initial_mean (apply_setters o l) = last_mean l (o_initial_mean o) /\
    o_initial_step_size (apply_setters o l) = last_step_size l (o_initial_step_size o) /\
    o_population_size (apply_setters o l) = last_population l (o_population_size o) /\
    o_cm (apply_setters o l) = last_cm l (o_cm o).
  Proof.
    unfold apply_setters, last_mean, last_step_size, last_population, last_cm.
    induction l as [|s l IH]; intros o; simpl; auto.
    specialize (IH (apply_setter o s)). destruct IH as [-> [-> [-> ->]]].
    destruct o; destruct s; simpl; auto.
  Qed.
End Generic.

Lemma step_size_valid : forall x : f64, is_initial_step_size_valid x = true <-> positive_normal x.
Proof.
  intros x. unfold is_initial_step_size_valid, positive_normal. rewrite andb_true_iff. apply f64_normal_pos.
Qed.

Lemma f64_one : is_finite (n1 : f64) = true /\ B2R (n1 : f64) = 1%R.
Proof. exact (f64_ofZ_exact 1 ltac:(lia)). Qed.

Lemma f64_le_zero : forall x : f64, is_finite x = true -> nleb x n0 = true <-> (B2R x <= 0)%R.
Proof.
  intros x H. change (nleb x n0) with (Bleb x (B754_zero false)). rewrite Bleb_correct by auto.
  rewrite Rle_bool_Rleb, Rleb_true. simpl. reflexivity.
Qed.

Lemma cm_check : forall x : f64,
  negb (nis_normal x) || nleb x n0 || ngtb x n1 = false <-> cm_valid x.
Proof.
  intros x. rewrite !orb_false_iff, negb_false_iff. unfold cm_valid, positive_normal, ngtb.
  destruct f64_one as [F1 V1].
  assert (Hone : is_finite x = true -> nltb (n1 : f64) x = false <-> (B2R x <= 1)%R).
  { intros Fx. change (nltb (n1 : f64) x) with (Bltb (n1 : f64) x). rewrite Bltb_correct by auto.
    rewrite V1, Rlt_bool_Rltb, Rltb_false. reflexivity. }
  split.
  - intros [[H1 H2] H3]. pose proof (f64_is_normal_finite x H1) as Fx.
    split; [|apply Hone; assumption]. apply f64_normal_pos. split; auto.
    assert (~ (B2R x <= 0)%R) by (rewrite <- f64_le_zero by assumption; congruence).
    change (nltb n0 x) with (Bltb (B754_zero false) x). rewrite Bltb_correct by auto.
    rewrite Rlt_bool_Rltb, Rltb_true. simpl. lra.
  - intros [[Fx H2] H3]. assert (H := conj Fx H2). apply f64_normal_pos in H. destruct H as [H1 _].
    repeat split; auto.
    + destruct (nleb x n0) eqn:L; auto. apply f64_le_zero in L; auto. pose proof min_normal_pos. lra.
    + apply Hone; auto.
Qed.

Section F64Build.
  Context {LT : Libm f64} {E : Env f64} {F : Type}.

  Lemma validate_spec : forall o : options f64,
    match validate o with
    | None => options_valid o
    | Some e => first_violation o e
    end.
  Proof.
    intros o. unfold validate.
    destruct (length (o_initial_mean o) =? 0) eqn:Em.
    { apply Nat.eqb_eq in Em. constructor. destruct (o_initial_mean o); auto; discriminate. }
    assert (Hm : o_initial_mean o <> []) by (intros X; rewrite X in Em; discriminate).
    destruct (o_population_size o <? 2)%N eqn:Ep.
    { apply N.ltb_lt in Ep. constructor; auto. }
    apply N.ltb_ge in Ep.
    destruct (is_initial_step_size_valid (o_initial_step_size o)) eqn:Es; cbn [negb].
    - apply step_size_valid in Es. destruct (negb (nis_normal (o_cm o)) || nleb (o_cm o) n0 || ngtb (o_cm o) n1) eqn:Ec.
      + constructor; auto. intros Hc. apply cm_check in Hc. congruence.
      + apply cm_check in Ec. unfold options_valid. auto.
    - constructor; auto. intros Hs. apply step_size_valid in Hs. congruence.
  Qed.

  Lemma valid_no_violation : forall o e, options_valid o -> first_violation o e -> False.
  Proof.
    intros o e [H1 [H2 [H3 H4]]] H. destruct H; auto. lia.
  Qed.
  Lemma violation_unique : forall o e e', first_violation o e -> first_violation o e' -> e = e'.
  Proof. intros o e e' H H'. destruct H; destruct H'; auto; try contradiction; lia. Qed.

  Lemma build_valid_iff : forall random_seed now (f : F) (o : options f64),
    (exists c, cmaes_new random_seed now f o = Ret (inl c)) <-> options_valid o.
  Proof.
    intros random_seed now f o.
    pose proof (cmaes_new_outcome random_seed now f o) as H. pose proof (validate_spec o) as V.
    destruct (validate o) as [e|].
    - split.
      + intros [c Hc]. rewrite H in Hc. discriminate.
      + intros Hv. exfalso. eapply valid_no_violation; eauto.
    - tauto.
  Qed.

  Lemma build_error_iff : forall random_seed now (f : F) (o : options f64) e,
    cmaes_new random_seed now f o = Ret (inr e) <-> first_violation o e.
  Proof.
    intros random_seed now f o e.
    pose proof (cmaes_new_outcome random_seed now f o) as H. pose proof (validate_spec o) as V.
    destruct (validate o) as [e0|].
    - rewrite H. split.
      + intros X. inversion X; subst. assumption.
      + intros X. rewrite (violation_unique o e0 e) by assumption. reflexivity.
    - destruct H as [c ->]. split; [discriminate|]. intros X. exfalso. eapply valid_no_violation; eauto.
  Qed.

  Lemma default_cm_valid : cm_valid (n1 : f64).
  Proof.
    apply cm_check. vm_compute. reflexivity.
  Qed.

  Lemma default_builds : forall random_seed now (f : F) mean s,
    mean <> [] -> positive_normal s ->
    (4 <= o_population_size (options_new mean s))%N /\
    exists c, cmaes_new random_seed now f (options_new mean s) = Ret (inl c).
  Proof.
    intros random_seed now f mean s Hm Hs.
    assert (Hp : (4 <= o_population_size (options_new mean s))%N).
    { simpl. unfold default_population_size. lia. }
    split; auto. apply build_valid_iff. unfold options_valid. repeat split; auto; try (apply default_cm_valid).
    - lia.
    - apply Hs.
    - apply Hs.
  Qed.

  (* what build decides, as a function of the four values *)
  Lemma build_by_setters : forall random_seed now (f : F) mean s l,
    ((exists c, cmaes_new random_seed now f (apply_setters (options_new mean s) l) = Ret (inl c)) <->
     last_mean l mean <> [] /\
     (2 <= last_population l (o_population_size (options_new mean s)))%N /\
     positive_normal (last_step_size l s) /\ cm_valid (last_cm l n1)).
  Proof.
    intros. rewrite build_valid_iff. unfold options_valid.
    destruct (setters_fields l (options_new mean s)) as [-> [-> [-> ->]]]. reflexivity.
  Qed.

  Lemma build_error_depends : forall random_seed now random_seed' now' (f f' : F) (o o' : options f64) e,
    o_initial_mean o = o_initial_mean o' -> o_initial_step_size o = o_initial_step_size o' ->
    o_population_size o = o_population_size o' -> o_cm o = o_cm o' ->
    cmaes_new random_seed now f o = Ret (inr e) -> cmaes_new random_seed' now' f' o' = Ret (inr e).
  Proof.
    intros random_seed now random_seed' now' f f' o o' e H1 H2 H3 H4 H.
    apply build_error_iff in H. apply build_error_iff.
    destruct H; constructor; congruence.
  Qed.

  Lemma setters_error : forall random_seed now random_seed' now' (f f' : F) mean s l l' e,
    last_mean l mean = last_mean l' mean -> last_step_size l s = last_step_size l' s ->
    last_population l (o_population_size (options_new mean s))
      = last_population l' (o_population_size (options_new mean s)) ->
    last_cm l n1 = last_cm l' n1 ->
    cmaes_new random_seed now f (apply_setters (options_new mean s) l) = Ret (inr e) ->
    cmaes_new random_seed' now' f' (apply_setters (options_new mean s) l') = Ret (inr e).
  Proof.
    intros random_seed now random_seed' now' f f' mean s l l' e H1 H2 H3 H4.
    destruct (setters_fields l (options_new mean s)) as [A1 [A2 [A3 A4]]].
    destruct (setters_fields l' (options_new mean s)) as [B1 [B2 [B3 B4]]].
    apply build_error_depends; simpl in *; congruence.
  Qed.
End F64Build.

Section Fresh.
  Context {T : Type} {NT : Num T} {LT : Libm T} {E : Env T} {F : Type}.

  Lemma fresh_state : forall random_seed now (f : F) (o : options T) c,
    cmaes_new random_seed now f o = Ret (inl c) ->
    generation c = 0%N /\ function_evals c = 0%N /\ mean c = o_initial_mean o /\
    sigma c = o_initial_step_size o /\
    covariance_matrix c = map (fun i => map (fun j => if Nat.eqb i j then n1 else n0)
                                            (seq 0 (length (o_initial_mean o))))
                              (seq 0 (length (o_initial_mean o))) /\
    current_best_individual c = None /\ overall_best_individual c = None /\
    into_objective_function c = f.
  Proof.
    intros random_seed now f o c H. apply cmaes_new_inv in H.
    destruct H as [_ [H1 [_ [H3 [H4 _]]]]].
    unfold generation, function_evals, mean, sigma, covariance_matrix, current_best_individual,
      overall_best_individual, into_objective_function.
    rewrite H1, H3, H4. simpl. repeat split.
  Qed.
End Fresh.
