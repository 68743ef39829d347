(* C49, C50 and C60: Scale, fmin/fmax and the range helper. *)
From Coq Require Import List NArith ZArith Bool Arith Lia Reals Lra Permutation.
From Flocq Require Import Core IEEE754.BinarySingleNaN.
Require Import Verif.Base Verif.Num Verif.F64 Verif.XReal Verif.LinAlg Verif.Mode Verif.Weights Verif.Options
  Verif.Params Verif.Env Verif.State Verif.Sampling Verif.History Verif.Termination Verif.Plot Verif.Cmaes Verif.Functions
  Verif.Lib Verif.Order Verif.Sort Verif.NextInv Verif.Spec Verif.LogLemmas Verif.TraceLemmas Verif.F64Lemmas Verif.CeilLemmas
  Verif.BuildLemmas Verif.SamplingLemmas Verif.PanicLemmas Verif.NextSafe Verif.RelLemmas Verif.TermSpec Verif.TermLemmas
  Verif.XRound Verif.Toy Verif.ToyLemmas Verif.PropBuild Verif.PropHistory Verif.PropRun Verif.CalmLemmas.
Import ListNotations.
Open Scope nat_scope.

(* ---- C49 ---- *)
Section Scale.
  Context {T : Type} {NT : Num T} {F : Type} (ev : F -> vec T -> outcome (T * F)).

  (* y is the componentwise product of x and s *)
  Definition product_of (x s y : vec T) : Prop :=
    length x = length s /\ length y = length x /\ forall i, i < length x -> nth i y n0 = nmul (nth i x n0) (nth i s n0).

  Lemma map2_product : forall x s : vec T, length x = length s -> product_of x s (map2 nmul x s).
  Proof.
    intros x s H. split; [exact H|]. revert s H. induction x as [|a x IH]; intros [|b s] H; try discriminate.
    - split; [reflexivity|]. simpl. lia.
    - injection H as H. destruct (IH s H) as [I1 I2]. cbn [map2 length]. split; [congruence|].
      intros [|i] Hi; [reflexivity|]. cbn [nth]. apply I2. lia.
  Qed.
  Lemma product_unique : forall x s y z : vec T, product_of x s y -> product_of x s z -> y = z.
  Proof.
    intros x s y z [_ [Y1 Y2]] [_ [Z1 Z2]]. apply (nth_ext y z n0 n0); [congruence|].
    intros i Hi. rewrite Y2, Z2; auto; congruence.
  Qed.

  (* the value is that of the wrapped function at the componentwise product, the scales stay *)
  Theorem C49_value : forall f s x y, product_of x s y ->
    forall v s', scale_evaluate ev (mkScale f s) x = Ret (v, s') <->
      exists f', ev f y = Ret (v, f') /\ s' = mkScale f' s.
  Proof.
    intros f s x y Hp v s'. rewrite (product_unique _ _ _ _ Hp (map2_product _ _ (proj1 Hp))).
    unfold scale_evaluate, scale_apply, check. cbn [sc_function sc_scales]. rewrite (proj1 Hp), Nat.eqb_refl. cbn [obind].
    destruct (ev f (map2 nmul x s)) as [[v1 f1]| |]; cbn [obind].
    - split.
      + intros H. injection H as <- <-. eauto.
      + intros [f' [H1 ->]]. injection H1 as <- <-. reflexivity.
    - split; [discriminate|]. intros [f' [H _]]. discriminate.
    - split; [discriminate|]. intros [f' [H _]]. discriminate.
  Qed.

  (* it panics exactly when the lengths differ or the wrapped function does *)
  Theorem C49_panics : forall f s x,
    (exists p, scale_evaluate ev (mkScale f s) x = Panic p) <->
    (length x <> length s \/ exists y p, product_of x s y /\ ev f y = Panic p).
  Proof.
    intros f s x. unfold scale_evaluate, scale_apply, check. cbn [sc_function sc_scales].
    destruct (Nat.eqb_spec (length x) (length s)) as [Hl|Hl]; cbn [obind].
    - pose proof (map2_product x s Hl) as Hp. split.
      + intros [p H]. right. exists (map2 nmul x s), p. split; [exact Hp|].
        destruct (ev f (map2 nmul x s)) as [[v1 f1]| |]; cbn [obind] in H; congruence.
      + intros [H|[y [p [H1 H2]]]]; [contradiction|]. rewrite (product_unique _ _ _ _ Hp H1), H2. exists p. reflexivity.
    - split; [auto|]. intros _. eauto.
  Qed.
  (* and it does so before the wrapped function is called *)
  Theorem C49_panics_first : forall f s x, length x <> length s -> scale_evaluate ev (mkScale f s) x = Panic PDimension.
  Proof.
    intros f s x H. unfold scale_evaluate, scale_apply, check. cbn [sc_function sc_scales].
    destruct (Nat.eqb_spec (length x) (length s)); [contradiction|reflexivity].
  Qed.
End Scale.

(* exactly one call of the wrapped function per evaluation, at the product *)
Theorem C49_once : forall (T : Type) (NT : Num T) (F : Type) (ev : F -> vec T -> outcome (T * F)) f log s x v s',
  scale_evaluate (log_ev ev) (mkScale (f, log) s) x = Ret (v, s') ->
  exists y f', product_of x s y /\ ev f y = Ret (v, f') /\ s' = mkScale (f', log ++ [(y, v)]) s.
Proof.
  intros T NT F ev f log s x v s' H.
  assert (Hl : length x = length s).
  { destruct (Nat.eq_dec (length x) (length s)) as [|N]; [auto|]. rewrite (C49_panics_first (log_ev ev)) in H by exact N. discriminate. }
  pose proof (map2_product x s Hl) as Hp. rewrite (C49_value _ _ _ _ _ Hp) in H. destruct H as [g [H ->]].
  unfold log_ev in H. cbn [fst snd] in H. destruct (ev f (map2 nmul x s)) as [[v1 f1]| |] eqn:E1; cbn [obind] in H; try discriminate.
  injection H as <- <-. eauto 8.
Qed.

(* nesting: the argument is multiplied by the outer scales, then by the inner ones *)
Theorem C49_nested : forall (T : Type) (NT : Num T) (F : Type) (ev : F -> vec T -> outcome (T * F)) f a b x y z v s',
  product_of x b y -> product_of y a z ->
  scale_evaluate (scale_evaluate ev) (mkScale (mkScale f a) b) x = Ret (v, s') <->
    exists f', ev f z = Ret (v, f') /\ s' = mkScale (mkScale f' a) b.
Proof.
  intros T NT F ev f a b x y z v s' Hy Hz. rewrite (C49_value _ _ _ _ _ Hy). split.
  - intros [g [H ->]]. rewrite (C49_value _ _ _ _ _ Hz) in H. destruct H as [f' [H ->]]. eauto.
  - intros [f' [H ->]]. exists (mkScale f' a). split; [|reflexivity]. rewrite (C49_value _ _ _ _ _ Hz). eauto.
Qed.
(* which in exact arithmetic is one scaling by the products of the scales *)
Theorem C49_nested_exact : forall (F : Type) (ev : F -> vec xreal -> outcome (xreal * F)) f a b ab (x : vec xreal) v,
  product_of a b ab ->
  Forall (fun t => exists r, t = XFin r) a -> Forall (fun t => exists r, t = XFin r) b -> Forall (fun t => exists r, t = XFin r) x ->
  (exists s', scale_evaluate (scale_evaluate ev) (mkScale (mkScale f a) b) x = Ret (v, s')) <->
  (exists s', scale_evaluate ev (mkScale f ab) x = Ret (v, s')).
Proof.
  intros F ev f a b ab x v Hab Fa Fb Fx. pose proof Hab as [L1 [L2 L3]].
  destruct (Nat.eq_dec (length x) (length b)) as [Hl|N].
  2: { rewrite (C49_panics_first (scale_evaluate ev)) by exact N. rewrite (C49_panics_first ev) by congruence.
       split; intros [s' H]; discriminate. }
  pose proof (map2_product x b Hl) as Hy. set (y := map2 nmul x b) in *. destruct Hy as [_ [Y1 Y2]].
  assert (Hya : length y = length a) by congruence.
  pose proof (map2_product y a Hya) as Hz. set (z := map2 nmul y a) in *.
  assert (Hxz : product_of x ab z).
  { split; [congruence|]. destruct Hz as [_ [Z1 Z2]]. split; [congruence|]. intros i Hi.
    rewrite Z2 by lia. rewrite Y2 by lia. rewrite L3 by lia.
    assert (G : forall (l : vec xreal), Forall (fun t => exists r, t = XFin r) l -> i < length l -> exists r, nth i l n0 = XFin r).
    { intros l Hf Hi'. rewrite Forall_forall in Hf. apply Hf, nth_In, Hi'. }
    destruct (G a Fa) as [ra ->]; [lia|]. destruct (G b Fb) as [rb ->]; [lia|]. destruct (G x Fx) as [rx ->]; [lia|].
    cbn [nmul Num_xreal x_mul]. f_equal. lra. }
  assert (Hxb : product_of x b y) by (split; [exact Hl|split; auto]).
  split.
  - intros [s' H]. rewrite (C49_nested _ _ _ _ _ _ _ _ _ _ _ _ Hxb Hz) in H. destruct H as [f' [H _]].
    exists (mkScale f' ab). rewrite (C49_value _ _ _ _ _ Hxz). eauto.
  - intros [s' H]. rewrite (C49_value _ _ _ _ _ Hxz) in H. destruct H as [f' [H _]].
    exists (mkScale (mkScale f' a) b). rewrite (C49_nested _ _ _ _ _ _ _ _ _ _ _ _ Hxb Hz). eauto.
Qed.
Print Assumptions C49_value.
Print Assumptions C49_panics.
Print Assumptions C49_panics_first.
Print Assumptions C49_once.
Print Assumptions C49_nested.
Print Assumptions C49_nested_exact.

Definition num_list (l : list Z) : vec f64 := map nofZ l.
Definition f64s_eqb (a b : vec f64) : bool := forallb (fun p => neqb (fst p) (snd p)) (combine a b) && Nat.eqb (length a) (length b).
Example C49_case :
  match scale_evaluate (log_ev toy_sphere) (mkScale (tt, []) (num_list [2; 3]%Z)) (num_list [5; 7]%Z) with
  | Ret (v, s) => neqb v (nofZ 541) && Nat.eqb (length (snd (sc_function s))) 1 &&
                  match snd (sc_function s) with [(y, _)] => f64s_eqb y (num_list [10; 21]%Z) | _ => false end
  | _ => false
  end = true.
Proof. vm_compute. reflexivity. Qed.
Example C49_nested_case :
  match scale_evaluate (scale_evaluate (log_ev toy_sphere)) (mkScale (mkScale (tt, []) (num_list [2; 3]%Z)) (num_list [1; 4]%Z))
          (num_list [5; 7]%Z) with
  | Ret (v, s) => match snd (sc_function (sc_function s)) with [(y, _)] => f64s_eqb y (num_list [10; 84]%Z) | _ => false end
  | _ => false
  end = true.
Proof. vm_compute. reflexivity. Qed.
Example C49_panic_case : scale_evaluate toy_sphere (mkScale tt (num_list [2; 3]%Z)) (num_list [5]%Z) = Panic PDimension.
Proof. apply C49_panics_first. discriminate. Qed.

(* ---- C50 ---- *)
Section Fopt.
  Context {LT : Libm f64} {E : Env f64} {F : Type} (ev : F -> vec f64 -> outcome (f64 * F)).

  (* the options of the documentation: the defaults, the mode, printing every 200 evaluations *)
  Definition simple_options (m : mode) (x : vec f64) (s : f64) : options f64 :=
    apply_setters (options_new x s) [SMode m; SEnablePrinting 200%N].

  Lemma fopt_unfold : forall (G : Type) (e : G -> vec f64 -> outcome (f64 * G)) m par rs now fuel env f x s,
    fopt e m par rs now fuel env f x s =
    (b <- cmaes_new rs now f (simple_options m x s) ;;
     match b with inr _ => Panic PUnwrap | inl c => ' (d, _) <- run e par fuel env c ;; unwrap (td_overall_best d) end).
  Proof. intros G e m par rs now fuel env f x s. unfold fopt, simple_options, print_gap_evals. destruct m; reflexivity. Qed.

  Lemma simple_mode : forall m x s, o_mode (simple_options m x s) = m.
  Proof. reflexivity. Qed.
  Lemma simple_valid : forall rs now (G : Type) (f : G) m x s,
    (exists c, cmaes_new rs now f (simple_options m x s) = Ret (inl c)) <-> x <> [] /\ positive_normal s.
  Proof.
    intros rs now G f m x s. unfold simple_options. rewrite C02_setters_valid. cbn [last_mean last_population last_step_size last_cm].
    split.
    - intros [H1 [_ [H2 _]]]. auto.
    - intros [H1 H2]. split; [exact H1|]. split; [|split; [exact H2|apply default_cm_valid]].
      pose proof (proj1 (C02_default_builds LT E G rs now f x s H1 H2)) as H4. eapply N.le_trans; [|exact H4]. lia.
  Qed.

  (* recording the calls of the objective changes nothing *)
  Theorem C50_logged : forall m par rs now fuel env f x s r,
    fopt ev m par rs now fuel env f x s = r <-> fopt (log_ev ev) m par rs now fuel env (f, []) x s = r.
  Proof.
    intros m par rs now fuel env f x s r.
    assert (H : out_rel (@eq (individual f64)) (fopt (log_ev ev) m par rs now fuel env (f, []) x s) (fopt ev m par rs now fuel env f x s)).
    { rewrite !fopt_unfold. eapply out_rel_bind.
      - apply (new_alike (fun (a : F * list (entry f64)) b => fst a = b) rs now (f, []) f). reflexivity.
      - intros [c1|e1] [c2|e2] H; try contradiction; [|reflexivity]. eapply out_rel_bind.
        + apply (run_alike (log_ev ev) ev _ (log_ev_alike ev) par fuel env c1 c2 H).
        + intros [d1 e1] [d2 e2] [Hd _]. cbn [fst] in Hd. subst d2. destruct (td_overall_best d1); reflexivity. }
    destruct (fopt (log_ev ev) m par rs now fuel env (f, []) x s), (fopt ev m par rs now fuel env f x s);
      cbn [out_rel] in H; try contradiction; subst; split; auto.
  Qed.

  (* Whatever is returned was evaluated in a generation without NaN, with that value, and nothing evaluated in any
     generation without NaN of the run is strictly better. The calls of the objective during the run are exactly
     those of the history h. *)
  Theorem C50_best : forall m par rs now fuel env f x s i,
    fopt ev m par rs now fuel env f x s = Ret i ->
    exists c0 d c h, cmaes_new rs now (f, []) (simple_options m x s) = Ret (inl c0) /\
      run (log_ev ev) par fuel env c0 = Ret (d, c) /\
      used ev (simple_options m x s) f rs h c /\ calls c = concat (map k_evals h) /\
      td_overall_best d = Some i /\
      (exists g, In g (generations h) /\ In (i_point i, i_value i) g) /\
      (forall g e, In g (generations h) -> In e g -> is_better m (snd e) (i_value i) = false).
  Proof.
    intros m par rs now fuel env f x s i H. rewrite C50_logged, fopt_unfold in H. oinv H.
    destruct a as [c0|e]; [|discriminate]. oinv H. destruct a as [d c].
    destruct (td_overall_best d) as [j|] eqn:Ej; [|discriminate]. cbn [unwrap] in H. injection H as H. subst j.
    destruct (steps_used ev (simple_options m x s) f rs now c0 [ORun par fuel env] c Ho) as [h Hu].
    { cbn [steps step]. rewrite Ho0. reflexivity. }
    change (match o_seed (simple_options m x s) with Some s0 => s0 | None => rs end) with rs in Hu.
    assert (Ho' : overall_best_individual c = Some i).
    { pose proof (C29_run_is_iterated_next (log_ev ev) _ _ _ _ _ _ Ho0) as [n [c1 [c2 [_ [_ [Hn Hf]]]]]].
      apply C15_termination_data in Hn. destruct Hn as [_ [Hn _]]. rewrite Ej in Hn.
      unfold overall_best_individual in *. rewrite (fi_history _ _ _ Hf). auto. }
    exists c0, d, c, h. split; [exact Ho|]. split; [exact Ho0|]. split; [exact Hu|]. split; [eapply used_calls; eauto|].
    split; [exact Ej|].
    destruct (proj2 (C14_overall_best _ _ _ _ _ _ _ _ _ Hu) i Ho') as [pre [g [post [G1 [G2 [G3 G4]]]]]].
    rewrite simple_mode in *. rewrite G1. split.
    - exists g. split; [apply in_or_app; right; left; reflexivity|exact G2].
    - intros g' e Hg He. apply in_app_or in Hg. destruct Hg as [Hg|Hg].
      + rewrite Forall_forall in G3. specialize (G3 g' Hg). rewrite Forall_forall in G3. apply better_asym. auto.
      + rewrite Forall_forall in G4. specialize (G4 g' Hg). rewrite Forall_forall in G4. auto.
  Qed.

  (* the first generation of the run contains NaN *)
  Definition first_generation_nan (m : mode) (par : bool) (rs now : N) (env : nat -> tick) (f : F) (x : vec f64) (s : f64) : Prop :=
    exists c0 r c1, cmaes_new rs now (f, []) (simple_options m x s) = Ret (inl c0) /\
      next (log_ev ev) par (env 0) c0 = Ret (r, c1) /\ exists y, In (y, B754_nan) (calls c1).

  (* they panic exactly for invalid options and NaN in the first generation *)
  Theorem C50_panics_partial : forall m par rs now fuel env f x s,
    eigen_shape (T := f64) ->
    (forall g y, length y = length x -> forall q, ev g y <> Panic q) ->
    1 <= fuel ->
    medians_known ev (o_population_size (simple_options m x s)) ->
    ((exists p, fopt ev m par rs now fuel env f x s = Panic p) <->
     (x = [] \/ ~ positive_normal s) \/ first_generation_nan m par rs now env f x s).
  Proof.
    intros m par rs now fuel env f x s He Hev Hfuel Hmed.
    assert (Hq : (exists p, fopt ev m par rs now fuel env f x s = Panic p) <->
                 (exists p, fopt (log_ev ev) m par rs now fuel env (f, []) x s = Panic p)).
    { split; intros [p H]; exists p; apply C50_logged; exact H. }
    rewrite Hq. clear Hq. rewrite fopt_unfold.
    destruct (C01_build_total LT E _ rs now (f, @nil (entry f64)) (simple_options m x s)) as [[c0|e] Hb]; rewrite Hb; cbn [obind].
    2: { split; [|eauto]. intros _. left.
         destruct x as [|x0 x1] eqn:Ex; [left; reflexivity|right]. intros Hp. rewrite <- Ex in *.
         destruct (proj2 (simple_valid rs now _ (f, @nil (entry f64)) m x s)) as [c Hc]; [split; [subst; discriminate|exact Hp]|].
         rewrite Hb in Hc. discriminate. }
    assert (Hv : x <> [] /\ positive_normal s) by (apply (simple_valid rs now _ (f, @nil (entry f64)) m x s); eauto).
    assert (Hr0 : reaches (log_ev ev) (simple_options m x s) (f, []) c0).
    { exists c0, []. split; [exists rs, now; exact Hb|reflexivity]. }
    assert (Hc0 : calls c0 = []).
    { assert (Hu : used ev (simple_options m x s) f rs [] c0) by (exists rs, now, c0; split; [exact Hb|split; [reflexivity|constructor]]).
      apply used_calls in Hu. exact Hu. }
    split.
    - intros [p H]. right. destruct (run (log_ev ev) par fuel env c0) as [[d c]|q|] eqn:Er; cbn [obind] in H.
      + destruct (td_overall_best d) as [j|] eqn:Ej; [discriminate|].
        pose proof (C29_run_is_iterated_next (log_ev ev) _ _ _ _ _ _ Er) as [n [c1 [c2 [_ [Hi [Hn _]]]]]].
        (* the calls before the last one are generations without NaN *)
        assert (G : forall k ck, iterates (log_ev ev) par env c0 k ck -> exists h,
                   used ev (simple_options m x s) f rs h ck /\ length h = k /\
                   Forall (fun y => reports InvalidFunctionValue (k_result y) = false) h).
        { intros k ck Hk. induction Hk as [|k ck ck' Hk [h [I1 [I2 I3]]] Hnx].
          - exists []. split; [exists rs, now, c0; split; [exact Hb|split; [reflexivity|constructor]]|]. split; [reflexivity|constructor].
          - destruct (next_log _ _ _ _ _ _ Hnx) as [cands [out [new [_ [_ [_ [Hc _]]]]]]].
            exists (h ++ [mkCall None new]). split; [eapply used_next; eauto|]. rewrite app_length, I2. split; [simpl; lia|].
            apply Forall_app. split; [exact I3|]. constructor; [reflexivity|constructor]. }
        destruct (G n c1 Hi) as [h [G1 [G2 G3]]].
        destruct (next_log _ _ _ _ _ _ Hn) as [cands [out [new [_ [_ [_ [Hc _]]]]]]].
        pose proof (proj1 (proj2 (C15_present _ _ _ _ _ _ _ _ _ _ _ _ _ _ G1 Hn Hc)) Ej) as Hall.
        apply Forall_app in Hall. destruct Hall as [A1 A2].
        destruct h as [|y h].
        2: { inversion A1; subst. inversion G3; subst. congruence. }
        cbn [length] in G2. subst n. inversion Hi; subst. inversion A2 as [|? ? A3 _]; subst. cbn [k_result] in A3.
        exists c1, (Some d), c2. split; [exact Hb|]. split; [exact Hn|].
        destruct (C12_nan _ _ _ _ _ _ _ _ _ Hn) as [new' [Hc' [Hnan _]]].
        apply Hnan in A3. destruct A3 as [[y v] [A3 A4]]. cbn [snd] in A4. subst v. exists y. rewrite Hc'. apply in_or_app. right. exact A3.
      + exfalso. eapply (steps_no_panic He (log_ev ev) (simple_options m x s) (f, []) c0 [ORun par fuel env] q (medians_known_ok _ _ (medians_known_log _ _ Hmed)) Hr0).
        * intros g y Hy q'. unfold log_ev. pose proof (Hev (fst g) y Hy) as Hp.
          destruct (ev (fst g) y) as [[v g']|q''|]; cbn [obind]; try discriminate. intros _. apply (Hp q''). reflexivity.
        * intros meets y Hm. discriminate Hm.
        * cbn [steps step]. rewrite Er. reflexivity.
      + discriminate.
    - intros [[H|H]|[c0' [r [c1 [Hb' [Hn [y Hy]]]]]]]; [destruct Hv; contradiction|destruct Hv; contradiction|].
      rewrite Hb in Hb'. injection Hb' as Hb'. subst c0'.
      destruct (C12_nan _ _ _ _ _ _ _ _ _ Hn) as [new [Hc [Hnan Hrep]]]. rewrite Hc0 in Hc. cbn [app] in Hc.
      assert (R : reports InvalidFunctionValue r = true).
      { apply Hnan. exists (y, B754_nan). split; [rewrite <- Hc; exact Hy|reflexivity]. }
      destruct (Hrep R) as [-> [_ _]].
      assert (Hu : used ev (simple_options m x s) f rs [] c0) by (exists rs, now, c0; split; [exact Hb|split; [reflexivity|constructor]]).
      destruct (proj1 (C14_overall_best _ _ _ _ _ _ _ _ _ Hu)) as [_ Hnone]. specialize (Hnone eq_refl).
      destruct fuel as [|fuel]; [lia|]. unfold run. cbn [run_loop]. rewrite Hn. cbn [obind]. rewrite Hnone.
      assert (Hw : wf (simple_options m x s) c1).
      { eapply (next_wf He (log_ev ev)); [|exact Hn]. eapply (reaches_wf He (log_ev ev)). exact Hr0. }
      destruct (run_internal_returns _ (mkTermData (current_best_individual c0) None (mean c0) [InvalidFunctionValue]) c1 Hw) as [c' Hi].
      rewrite Hi. cbn [obind td_overall_best unwrap]. eauto.
  Qed.
End Fopt.
Print Assumptions C50_logged.
Print Assumptions C50_best.
Print Assumptions C50_panics_partial.

Example C50_case : exists i, fopt toy_sphere Minimize false 0%N 0%N 400 toy_env_of tt [n1] (lit 1 2) = Ret i.
Proof. apply is_ret_ex. vm_compute. reflexivity. Qed.
Example C50_panics_case : eigen_shape (T := f64) /\ medians_known (pure_ev (fun _ => nnan)) 6 /\
  (forall g (y : vec f64), length y = 2 -> forall q, pure_ev (fun _ => nnan) g y <> Panic q) /\
  exists p, fopt (pure_ev (fun _ => nnan)) Maximize false 0%N 0%N 1 toy_env_of tt [n1; n0] (lit 1 2) = Panic p.
Proof.
  split; [apply toy_eigen_shape|]. split; [left; intros l; discriminate|]. split; [intros; discriminate|].
  assert (H : match fopt (pure_ev (fun _ => nnan)) Maximize false 0%N 0%N 1 toy_env_of tt [n1; n0] (lit 1 2) with
              | Panic _ => true | _ => false end = true) by (vm_compute; reflexivity).
  destruct (fopt _ _ _ _ _ _ _ _ _ _) as [i|p|]; try discriminate H. exists p. reflexivity.
Qed.

(* ---- C60 ---- *)

Lemma cmp_gt : forall a b : f64, partial_cmp a b = Gt <-> nltb b a = true.
Proof.
  intros a b. unfold partial_cmp, npartial_cmp. destruct (nltb a b) eqn:L1.
  - split; [discriminate|]. intros L2. pose proof (ol_trans _ _ _ L1 L2) as L3. rewrite ol_irrefl in L3. discriminate.
  - destruct (nltb b a) eqn:L2; [tauto|]. destruct (neqb a b); split; discriminate.
Qed.
Lemma cmp_lt : forall a b : f64, partial_cmp a b = Lt <-> nltb a b = true.
Proof.
  intros a b. unfold partial_cmp, npartial_cmp. destruct (nltb a b) eqn:L1; [tauto|].
  destruct (nltb b a) eqn:L2; [split; discriminate|]. destruct (neqb a b); split; discriminate.
Qed.

Lemma not_lt_trans : forall a b c : f64, nis_nan b = false -> nltb b a = false -> nltb c b = false -> nltb c a = false.
Proof. intros a b c N H1 H2. apply (ol_negtrans c b a N H2 H1). Qed.

Lemma range_loop_spec : forall (l pre : list f64) mn mx,
  Forall (fun v => nis_nan v = false) (mn :: mx :: pre) -> least pre mn -> greatest pre mx ->
  match range_loop mn mx l with
  | Some (a, b) => Forall (fun v => nis_nan v = false) l /\ least (pre ++ l) a /\ greatest (pre ++ l) b
  | None => Exists (fun v => nis_nan v = true) l
  end.
Proof.
  induction l as [|x l IH]; intros pre mn mx Hn Hl Hg; cbn [range_loop].
  - rewrite app_nil_r. auto.
  - destruct (nis_nan x) eqn:Nx; [constructor; exact Nx|].
    inversion Hn as [|? ? N1 Hn']; subst. inversion Hn' as [|? ? N2 N3]; subst.
    set (mn' := match partial_cmp x mn with Lt => x | _ => mn end).
    set (mx' := match partial_cmp x mx with Gt => x | _ => mx end).
    assert (A : nis_nan mn' = false /\ least (pre ++ [x]) mn').
    { subst mn'. destruct Hl as [L1 L2]. pose proof (cmp_lt x mn) as C.
      assert (D : nltb x mn = false -> least (pre ++ [x]) mn).
      { intros D. split; [apply in_or_app; auto|]. apply Forall_app. split; [exact L2|]. constructor; [exact D|constructor]. }
      destruct (partial_cmp x mn).
      - split; [exact N1|]. apply D. destruct (nltb x mn); auto. destruct C as [_ C]. discriminate (C eq_refl).
      - split; [exact Nx|]. split; [apply in_or_app; right; left; reflexivity|]. apply Forall_app.
        destruct C as [C _]. specialize (C eq_refl). split.
        + eapply Forall_impl; [|exact L2]. intros v Hv. cbv beta in Hv. destruct (nltb v x) eqn:V; auto.
          rewrite (ol_trans _ _ _ V C) in Hv. discriminate.
        + constructor; [apply ol_irrefl|constructor].
      - split; [exact N1|]. apply D. destruct (nltb x mn); auto. destruct C as [_ C]. discriminate (C eq_refl). }
    assert (B : nis_nan mx' = false /\ greatest (pre ++ [x]) mx').
    { subst mx'. destruct Hg as [L1 L2]. pose proof (cmp_gt x mx) as C.
      assert (D : nltb mx x = false -> greatest (pre ++ [x]) mx).
      { intros D. split; [apply in_or_app; auto|]. apply Forall_app. split; [exact L2|]. constructor; [exact D|constructor]. }
      destruct (partial_cmp x mx).
      - split; [exact N2|]. apply D. destruct (nltb mx x); auto. destruct C as [_ C]. discriminate (C eq_refl).
      - split; [exact N2|]. apply D. destruct (nltb mx x); auto. destruct C as [_ C]. discriminate (C eq_refl).
      - split; [exact Nx|]. split; [apply in_or_app; right; left; reflexivity|]. apply Forall_app.
        destruct C as [C _]. specialize (C eq_refl). split.
        + eapply Forall_impl; [|exact L2]. intros v Hv. cbv beta in Hv. destruct (nltb x v) eqn:V; auto.
          rewrite (ol_trans _ _ _ C V) in Hv. discriminate.
        + constructor; [apply ol_irrefl|constructor]. }
    destruct A as [A1 A2]. destruct B as [B1 B2].
    specialize (IH (pre ++ [x]) mn' mx'). destruct (range_loop mn' mx' l) as [[a b]|].
    + destruct IH as [I1 [I2 I3]]; auto.
      * constructor; [exact A1|]. constructor; [exact B1|]. apply Forall_app. split; [exact N3|]. constructor; [exact Nx|constructor].
      * rewrite <- app_assoc in I2, I3. auto.
    + right. apply IH; auto. constructor; [exact A1|]. constructor; [exact B1|]. apply Forall_app.
      split; [exact N3|]. constructor; [exact Nx|constructor].
Qed.

Lemma range_loop_none : forall (l : list f64) mn mx, range_loop mn mx l = None <-> Exists (fun v => nis_nan v = true) l.
Proof.
  induction l as [|x l IH]; intros mn mx; cbn [range_loop].
  - split; [discriminate|]. intros H. inversion H.
  - destruct (nis_nan x) eqn:N.
    + split; auto.
    + rewrite IH. split; [intros; right; auto|]. intros H. inversion H; subst; [congruence|auto].
Qed.

(* None exactly when there is no element, or NaN among the elements after the first *)
Theorem C60_none : forall l : list f64,
  range l = None <-> (l = [] \/ exists x l', l = x :: l' /\ In B754_nan l').
Proof.
  intros [|x l]; cbn [range]; [tauto|]. pose proof (range_loop_none l x x) as H.
  assert (Hn : Exists (fun v => nis_nan v = true) l <-> In B754_nan l).
  { rewrite Exists_exists. split.
    - intros [v [H1 H2]]. destruct v; try discriminate. exact H1.
    - intros H1. exists B754_nan. auto. }
  rewrite Hn in H. destruct (range_loop x x l) as [[a b]|].
  - split; [discriminate|]. intros [X|[y [l' [X1 X2]]]]; [discriminate|]. injection X1 as <- <-. discriminate (proj2 H X2).
  - split; auto. intros _. right. exists x, l. split; auto. apply H. reflexivity.
Qed.
(* so, unless only the first element is NaN: exactly when it is empty or contains NaN *)
Theorem C60_none_iff : forall l : list f64, (In B754_nan l -> In B754_nan (tl l)) ->
  (range l = None <-> (l = [] \/ In B754_nan l)).
Proof.
  intros l H. rewrite C60_none. split.
  - intros [X|[x [l' [-> X]]]]; auto. right. right. exact X.
  - intros [X|X]; auto. right. destruct l as [|x l]; [contradiction|]. exists x, l. split; auto.
Qed.

Lemma xround_nonneg : forall r, (0 <= r)%R -> x_leb (XFin 0) (xround (XFin r)) = true.
Proof.
  intros r H. unfold xround. destruct (Rlt_bool _ _).
  - unfold x_leb. cbn [x_ltb x_eqb]. assert (X : (0 <= rnd64 r)%R) by (rewrite <- rnd64_0; apply rnd64_le; exact H).
    destruct (Rltb 0 (rnd64 r)) eqn:L; [reflexivity|]. cbn [orb]. rcmp. lra.
  - assert (X : Rltb r 0 = false) by (rcmp; exact H). rewrite X. reflexivity.
Qed.

(* otherwise the difference of the largest and the smallest element; never negative, and it is NaN only when all
   elements are the same infinity *)
Theorem C60_difference : forall l : list f64, l <> [] -> ~ In B754_nan l ->
  exists a b, least l a /\ greatest l b /\ range l = Some (nsub b a) /\
    ((exists s, Forall (fun v => v = B754_infinity s) l) \/ (is_nan (nsub b a) = false /\ nleb n0 (nsub b a) = true)).
Proof.
  intros [|x l] He Hn; [contradiction|]. clear He.
  assert (Hf : Forall (fun v : f64 => nis_nan v = false) (x :: l)).
  { apply Forall_forall. intros v Hv. change (nis_nan v) with (is_nan v). destruct v; auto. contradiction. }
  inversion Hf as [|? ? Nx Nl]; subst. pose proof (range_loop_spec l [x] x x) as H.
  cbn [range]. destruct (range_loop x x l) as [[a b]|].
  2: { assert (X : Exists (fun v : f64 => nis_nan v = true) l).
       { apply H; [constructor; [exact Nx|constructor; [exact Nx|constructor; [exact Nx|constructor]]]| |];
         (split; [left; reflexivity|constructor; [apply ol_irrefl|constructor]]). }
       apply Exists_exists in X. destruct X as [v [X1 X2]]. rewrite Forall_forall in Nl. rewrite (Nl v X1) in X2. discriminate. }
  destruct H as [_ [Ha Hb]].
  { constructor; [exact Nx|constructor; [exact Nx|constructor; [exact Nx|constructor]]]. }
  { split; [left; reflexivity|constructor; [apply ol_irrefl|constructor]]. }
  { split; [left; reflexivity|constructor; [apply ol_irrefl|constructor]]. }
  cbn [app] in Ha, Hb. exists a, b. split; [exact Ha|]. split; [exact Hb|]. split; [reflexivity|].
  destruct Ha as [Ia La]. destruct Hb as [Ib Lb]. rewrite Forall_forall in Hf, La, Lb.
  pose proof (Hf a Ia) as Na. pose proof (Hf b Ib) as Nb. pose proof (Lb a Ia) as Lab.
  assert (Hcase : (exists s, a = B754_infinity s /\ b = B754_infinity s) \/ (is_nan (nsub b a) = false /\ nleb n0 (nsub b a) = true)).
  { clear - Na Nb Lab. change (is_nan (nsub b a)) with (nis_nan (nsub b a)). rewrite f2x_nan, f2x_leb, f2x_sub.
    rewrite f2x_nan in Na, Nb. rewrite f2x_ltb in Lab.
    assert (H0 : f2x (n0 : f64) = XFin 0) by reflexivity. rewrite H0.
    assert (Hi : forall (v : f64) s, f2x v = XInf s -> v = B754_infinity s).
    { intros [sv|sv| |sv mv ev Bv] s X; cbn [f2x] in X; try discriminate X. injection X as ->. reflexivity. }
    destruct (f2x a) as [|sa|ra] eqn:Ea; try discriminate Na; destruct (f2x b) as [|sb|rb] eqn:Eb; try discriminate Nb.
    - apply Hi in Ea, Eb. destruct sa, sb; try discriminate Lab; try (left; eexists; split; eassumption). right. split; reflexivity.
    - right. destruct sa; try discriminate Lab. split; reflexivity.
    - right. destruct sb; try discriminate Lab. split; reflexivity.
    - right. rewrite xround_nan. split; [reflexivity|]. apply xround_nonneg. cbn [x_ltb] in Lab. rcmp. lra. }
  destruct Hcase as [[s [-> ->]]|Hcase]; [left|right; exact Hcase]. exists s. apply Forall_forall. intros v Hv.
  specialize (La v Hv). specialize (Lb v Hv). specialize (Hf v Hv). destruct v as [sv|sv| |sv mv ev Bv]; try discriminate Hf;
    destruct s; try (destruct sv); try discriminate La; try discriminate Lb; reflexivity.
Qed.
Print Assumptions C60_none.
Print Assumptions C60_none_iff.
Print Assumptions C60_difference.

(* NaN in the first place only is not noticed ... *)
Theorem C60_refuted : exists l : list f64, In B754_nan l /\ range l <> None.
Proof. exists [B754_nan; n1]. split; [left; reflexivity|]. rewrite C60_none. intros [H|[x [l [H1 H2]]]]; [discriminate H|].
  injection H1 as <- <-. destruct H2 as [H2|H2]; [discriminate H2|contradiction]. Qed.
(* ... and the difference of two infinities is NaN *)
Theorem C60_refuted_infinity : exists l : list f64, l <> [] /\ ~ In B754_nan l /\ range l = Some B754_nan.
Proof.
  exists [B754_infinity false; B754_infinity false]. split; [discriminate|]. split; [|reflexivity].
  intros [H|[H|H]]; try discriminate H. contradiction.
Qed.
Print Assumptions C60_refuted.
Print Assumptions C60_refuted_infinity.
Example C60_case : match range (num_list [3; -4; 11; 0]%Z) with Some v => neqb v (nofZ 15) | None => false end = true /\
  range [n1; B754_nan; n1 : f64] = None.
Proof. split; [vm_compute; reflexivity|]. apply C60_none. right. exists n1, [B754_nan; n1]. split; [reflexivity|left; reflexivity]. Qed.
