(* The plot as a list of snapshots: what the recorded series contain. *)
From Coq Require Import List NArith ZArith Bool Arith Lia Sorting.Sorted.
Require Import Verif.Base Verif.Num Verif.LinAlg Verif.Mode Verif.Weights Verif.Options Verif.Params Verif.Env
  Verif.State Verif.Sampling Verif.History Verif.Termination Verif.Plot Verif.Cmaes Verif.Lib Verif.Order Verif.Sort
  Verif.NextInv Verif.Spec Verif.LogLemmas Verif.TraceLemmas Verif.BuildLemmas Verif.PanicLemmas Verif.NextSafe
  Verif.CastLemmas Verif.TermLemmas.
Import ListNotations.
Open Scope nat_scope.

Lemma map2_seq : forall {A B C} (f : A -> B -> C) (g : nat -> A) (xs : list B) d k,
  map2 f (map g (seq k (length xs))) xs = map (fun i => f (g i) (nth (i - k) xs d)) (seq k (length xs)).
Proof.
  intros A B C f g xs d. induction xs as [|x xs IH]; intros k; cbn [length seq map map2]; auto.
  rewrite IH, Nat.sub_diag. cbn [nth]. f_equal. apply map_ext_in. intros i Hi. apply in_seq in Hi.
  replace (i - k) with (S (i - S k)) by lia. reflexivity.
Qed.

Lemma SS_snoc : forall {A} (R : A -> A -> Prop) l a, StronglySorted R l -> Forall (fun x => R x a) l -> StronglySorted R (l ++ [a]).
Proof.
  intros A R l a H. induction H as [|x l H IH Hx]; intros Hf; simpl.
  - constructor; constructor.
  - inversion Hf; subst. constructor; auto. apply Forall_app. auto.
Qed.
Lemma last_map : forall {A B} (f : A -> B) l d, last (map f l) (f d) = f (last l d).
Proof. intros A B f l d. induction l as [|x l IH]; [reflexivity|]. destruct l as [|y l]; [reflexivity|exact IH]. Qed.
Lemma last_cons : forall {A} (l : list A) x d, last (x :: l) d = last l x.
Proof.
  intros A. induction l as [|y l IH]; intros x d; [reflexivity|]. rewrite (IH y x). exact (IH y d).
Qed.
Lemma snoc_case : forall {A} (l : list A), l <> [] -> exists l' x, l = l' ++ [x].
Proof. intros A l H. destruct (exists_last H) as [l' [x ->]]. eauto. Qed.

Section Shots.
  Context {T : Type} {NT : Num T} {CL : CastLaws T} {LT : Libm T} {E : Env T}.

  (* one recorded moment *)
  Record shot := mkShot {
    sh_evals : N;
    sh_best : T;
    sh_median : T;
    sh_sigma : T;
    sh_axis_ratio : T;
    sh_mean : list T;
    sh_eigen : list T;
    sh_scales : list T
  }.

  Definition shot_at (evals : N) (s : state T) (h : history T) : shot :=
    mkShot evals
      (apply_offset match h_current_best h with Some i => i_value i | None => nnan end)
      (apply_offset match h_median_values h with x :: _ => x | [] => nnan end)
      (apply_offset (st_sigma s))
      (apply_offset (axis_ratio s))
      (st_mean s)
      (map apply_offset (sort_by (fun a b => partial_cmp a b) (diagonal (cm_sqrt_eigenvalues (st_cov s)))))
      (map (fun x => apply_offset (nsqrt x)) (diagonal (cm_cov (st_cov s)))).
  (* the moment c is in *)
  Definition shot_of {F} (c : cmaes T F) : shot := shot_at (function_evals c) (c_state c) (c_history c).

  Definition series (n : nat) (ls : list (list T)) : list (list T) :=
    map (fun i => map (fun v => nth i v n0) ls) (seq 0 n).

  (* the data consists of exactly these moments, in this order *)
  Record describes (n : nat) (d : plot_data T) (l : list shot) : Prop := {
    ds_evals : pd_function_evals d = map sh_evals l;
    ds_best : pd_best d = map sh_best l;
    ds_median : pd_median d = map sh_median l;
    ds_sigma : pd_sigma d = map sh_sigma l;
    ds_axis : pd_axis_ratio d = map sh_axis_ratio l;
    ds_mean : pd_mean d = series n (map sh_mean l);
    ds_eigen : pd_sqrt_eigenvalues d = series n (map sh_eigen l);
    ds_scales : pd_coord_scales d = series n (map sh_scales l)
  }.

  Lemma series_len : forall n ls, length (series n ls) = n.
  Proof. intros. unfold series. rewrite map_length, seq_length. reflexivity. Qed.
  Lemma series_nil : forall n, series n [] = repeat [] n.
  Proof.
    intros n. unfold series. cbn [map]. generalize 0. induction n as [|n IH]; intros k; cbn [seq map repeat]; [auto|].
    rewrite (IH (S k)). reflexivity.
  Qed.

  Lemma push_each_map2 : forall hs (xs : list T), length xs = length hs ->
    push_each hs xs = Ret (map2 (fun h x => h ++ [x]) hs xs).
  Proof.
    induction hs as [|h hs IH]; intros [|x xs] H; simpl in *; try discriminate; auto.
    rewrite IH; auto.
  Qed.
  Lemma push_series : forall n ls (x : list T), length x = n ->
    push_each (series n ls) x = Ret (series n (ls ++ [x])).
  Proof.
    intros n ls x <-. rewrite push_each_map2 by (rewrite series_len; reflexivity). f_equal.
    unfold series. rewrite (map2_seq _ _ _ n0 0). apply map_ext. intros i.
    rewrite map_app, Nat.sub_0_r. reflexivity.
  Qed.

  Lemma data_add_describes : forall n evals s h d l, wf_state n s -> describes n d l ->
    exists d', data_add_point evals s h d = Ret d' /\ describes n d' (l ++ [shot_at evals s h]).
  Proof.
    intros n evals s h d l Hs [D1 D2 D3 D4 D5 D6 D7 D8]. unfold data_add_point.
    rewrite D6, push_series by apply (ws_mean _ _ Hs). cbn [obind].
    rewrite D7, push_series by (rewrite map_length, sort_by_len, diagonal_length; apply (ws_sqrt _ _ Hs)). cbn [obind].
    rewrite D8, push_series by (rewrite map_length, diagonal_length; apply (ws_cov _ _ Hs)). cbn [obind].
    eexists. split; [reflexivity|]. constructor; cbn [pd_function_evals pd_best pd_median pd_sigma pd_axis_ratio pd_mean
      pd_sqrt_eigenvalues pd_coord_scales]; rewrite ?D1, ?D2, ?D3, ?D4, ?D5, map_app; try reflexivity.
    cbn [map sh_median shot_at]. unfold current_median. destruct (h_median_values h); reflexivity.
  Qed.

  Lemma clear_vec_last : forall {A} (l : list A) d, l <> [] -> clear_vec l = Ret [last l d].
  Proof.
    intros A [|x l] d H; [congruence|]. cbn [clear_vec]. rewrite (last_cons l x d). reflexivity.
  Qed.
  Lemma clear_series : forall n (ls : list (list T)) d, ls <> [] ->
    omap clear_vec (series n ls) = Ret (series n [last ls d]).
  Proof.
    intros n ls d H. unfold series. generalize 0. induction n as [|n IH]; intros k; cbn [seq map omap]; auto.
    rewrite (clear_vec_last _ (nth k d n0)) by (destruct ls; cbn [map]; congruence).
    cbn [obind]. rewrite (IH (S k)). cbn [obind]. rewrite (last_map (fun v => nth k v n0)). reflexivity.
  Qed.
  Lemma data_clear_describes : forall n d l x, describes n d (l ++ [x]) ->
    exists d', data_clear d = Ret d' /\ describes n d' [x].
  Proof.
    intros n d l x [D1 D2 D3 D4 D5 D6 D7 D8]. unfold data_clear.
    assert (Hne : forall {B} (g : shot -> B), map g (l ++ [x]) <> []) by (intros B g; destruct l; discriminate).
    assert (Hl : forall {B} (g : shot -> B), last (map g (l ++ [x])) (g x) = g x).
    { intros B g. rewrite last_map, last_last. reflexivity. }
    rewrite D1, D2, D3, D4, D5, D6, D7, D8.
    rewrite (clear_vec_last (map sh_evals (l ++ [x])) (sh_evals x)), (clear_vec_last (map sh_best (l ++ [x])) (sh_best x)),
      (clear_vec_last (map sh_median (l ++ [x])) (sh_median x)), (clear_vec_last (map sh_sigma (l ++ [x])) (sh_sigma x)),
      (clear_vec_last (map sh_axis_ratio (l ++ [x])) (sh_axis_ratio x)) by apply Hne.
    rewrite (clear_series n (map sh_mean (l ++ [x])) (sh_mean x)), (clear_series n (map sh_eigen (l ++ [x])) (sh_eigen x)),
      (clear_series n (map sh_scales (l ++ [x])) (sh_scales x)) by apply Hne.
    cbn [obind]. eexists. split; [reflexivity|]. rewrite !Hl. constructor; reflexivity.
  Qed.

  Lemma describes_length : forall n d l, describes n d l ->
    series_length (length l) d /\ wf_plot_data n d.
  Proof.
    intros n d l [D1 D2 D3 D4 D5 D6 D7 D8]. unfold series_length, wf_plot_data.
    assert (G : forall ls, Forall (fun x : list T => length x = length ls) (series n ls)).
    { intros ls. unfold series. apply Forall_forall. intros x Hx. apply in_map_iff in Hx. destruct Hx as [i [<- _]]. apply map_length. }
    rewrite D1, D2, D3, D4, D5, D6, D7, D8, !map_length, !series_len. repeat split; auto;
      (eapply Forall_impl; [|apply G]); cbv beta; intros a ->; apply map_length.
  Qed.

  (* ---- the plot of a reachable optimiser ---- *)
  Hypothesis Heig : eigen_shape (T := T).
  Context {F : Type} (ev : F -> vec T -> outcome (T * F)).

  Definition earlier (c1 c : cmaes T F) : Prop := exists l, steps ev c1 l = Ret c.
  Lemma earlier_refl : forall c, earlier c c.
  Proof. intros c. exists []. reflexivity. Qed.
  Lemma earlier_step : forall c1 c op c', earlier c1 c -> step ev c op = Ret c' -> earlier c1 c'.
  Proof.
    intros c1 c op c' [l H] H'. exists (l ++ [op]). rewrite steps_app, H. cbn [obind steps]. rewrite H'. reflexivity.
  Qed.
  Lemma reaches_step : forall o f c op c', reaches ev o f c -> step ev c op = Ret c' -> reaches ev o f c'.
  Proof.
    intros o f c op c' [c0 [l [H1 H2]]] H. exists c0, (l ++ [op]). split; auto. rewrite steps_app, H2. cbn [obind steps].
    rewrite H. reflexivity.
  Qed.
  Lemma next_step : forall par tk c r c', next ev par tk c = Ret (r, c') -> step ev c (ONext par tk) = Ret c'.
  Proof. intros par tk c r c' H. cbn [step]. rewrite H. reflexivity. Qed.

  (* moment (g, x) is one the optimiser was in: after some earlier call its generation was g and x described it *)
  Definition moment_of (o : options T) (f : F) (c : cmaes T F) (m : N * shot) : Prop :=
    exists c1, reaches ev o f c1 /\ earlier c1 c /\ generation c1 = fst m /\ shot_of c1 = snd m.

  Record recorded (o : options T) (f : F) (c : cmaes T F) (p : plot T) (l : list (N * shot)) : Prop := {
    rd_data : describes (dims o) (pl_data p) (map snd l);
    rd_gens : StronglySorted N.lt (map fst l);
    rd_evals : StronglySorted N.le (map (fun m => sh_evals (snd m)) l);
    rd_moments : Forall (moment_of o f c) l;
    rd_le : Forall (fun m => (fst m <= generation c)%N /\ (sh_evals (snd m) <= function_evals c)%N) l;
    rd_last : exists l' m, l = l' ++ [m] /\ pl_last_generation p = Some (fst m) /\
                           pl_last_evals p = Some (sh_evals (snd m));
    rd_options : o_plot_options o = Some (pl_options p)
  }.
  Definition plot_inv (o : options T) (f : F) (c : cmaes T F) : Prop :=
    reaches ev o f c /\
    match c_plot c with
    | None => o_plot_options o = None
    | Some p => exists l, recorded o f c p l
    end.

  Lemma recorded_later : forall o f c c' p l, recorded o f c p l ->
    (forall c1, earlier c1 c -> earlier c1 c') -> (generation c <= generation c')%N ->
    (function_evals c <= function_evals c')%N -> recorded o f c' p l.
  Proof.
    intros o f c c' p l [R1 R2 R3 R4 R5 R6 R7] He Hg Hf. constructor; auto.
    - eapply Forall_impl; [|exact R4]. intros m [c1 [M1 [M2 M3]]]. exists c1. auto.
    - eapply Forall_impl; [|exact R5]. intros m [M1 M2]. split; eapply N.le_trans; eauto.
  Qed.

  (* a point is added, or the generation is already there *)
  Lemma plot_add_recorded : forall o f c p p' l, recorded o f c p l -> reaches ev o f c ->
    plot_add_point (function_evals c) (c_state c) (c_history c) p = Ret p' ->
    (pl_last_generation p = Some (generation c) /\ p' = p) \/
    (pl_last_generation p <> Some (generation c) /\ recorded o f c p' (l ++ [(generation c, shot_of c)])).
  Proof.
    intros o f c p p' l [R1 R2 R3 R4 R5 [l' [m [-> [R6 R7]]]] R8] Hr H. unfold plot_add_point in H. rewrite R6 in *.
    destruct (fst m =? st_generation (c_state c))%N eqn:Eg.
    - apply N.eqb_eq in Eg. left. unfold generation. split; [congruence|]. congruence.
    - apply N.eqb_neq in Eg. right. split; [unfold generation; congruence|]. oinv H.
      assert (Hp : p' = mkPlot a (pl_options p) (pl_mode p) (Some (function_evals c)) (Some (st_generation (c_state c)))) by congruence.
      subst p'. clear H.
      pose proof (reaches_wf Heig ev _ _ _ Hr) as Hw.
      destruct (data_add_describes (dims o) (function_evals c) (c_state c) (c_history c) (pl_data p) _ (wf_st _ _ Hw) R1)
        as [d' [D1 D2]]. rewrite Ho in D1. assert (a = d') by congruence. subst d'. clear D1.
      assert (Hlast : (fst m < generation c)%N).
      { apply Forall_app in R5. destruct R5 as [_ R5]. inversion R5 as [|y z [M1 _] _]; subst. unfold generation in *. lia. }
      constructor; cbn [pl_data pl_options pl_last_generation pl_last_evals].
      + rewrite map_app. exact D2.
      + rewrite map_app. apply SS_snoc; [exact R2|]. apply Forall_forall. intros g Hg. cbn [fst].
        rewrite map_app in R2, Hg. apply in_app_or in Hg. destruct Hg as [Hg|[<-|[]]]; [|exact Hlast].
        assert (g < fst m)%N; [|lia]. clear -R2 Hg. induction (map fst l') as [|x r IH]; [destruct Hg|].
        cbn [app] in R2. inversion R2 as [|y z S1 S2]; subst. destruct Hg as [->|Hg]; auto.
        rewrite Forall_forall in S2. apply S2. apply in_or_app. right. left. reflexivity.
      + rewrite map_app. apply SS_snoc; [exact R3|]. apply Forall_forall. intros x Hx. apply in_map_iff in Hx.
        destruct Hx as [y [<- Hy]]. rewrite Forall_forall in R5. apply (R5 y Hy).
      + apply Forall_app. split; [exact R4|]. constructor; [|constructor]. exists c. repeat split; auto. apply earlier_refl.
      + apply Forall_app. split; [exact R5|]. constructor; [|constructor]. cbn [fst snd shot_of shot_at sh_evals]. lia.
      + exists (l' ++ [m]), (generation c, shot_of c). repeat split; auto.
      + exact R8.
  Qed.

  Lemma plot_clear_recorded : forall o f c p l m, recorded o f c p (l ++ [m]) ->
    exists p', plot_clear p = Ret p' /\ recorded o f c p' [m] /\ pl_last_generation p' = pl_last_generation p.
  Proof.
    intros o f c p l m [R1 R2 R3 R4 R5 [l' [m' [R6 R7]]] R8]. apply app_inj_tail in R6. destruct R6 as [<- <-].
    rewrite map_app in R1. apply data_clear_describes in R1. destruct R1 as [d' [D1 D2]].
    unfold plot_clear. rewrite D1. cbn [obind]. eexists. split; [reflexivity|]. split; [|reflexivity].
    constructor; cbn [pl_data pl_options pl_last_generation pl_last_evals map]; auto.
    - constructor; constructor.
    - constructor; constructor.
    - apply Forall_app in R4. apply R4.
    - apply Forall_app in R5. apply R5.
    - exists [], m. split; auto.
  Qed.

  Lemma quiet_recorded : forall o f c op c' p l, reaches ev o f c -> c_plot c = Some p -> recorded o f c p l -> quiet op ->
    step ev c op = Ret c' ->
    exists p', c_plot c' = Some p' /\
      match op with
      | OAddPlotPoint => (pl_last_generation p = Some (generation c) /\ p' = p /\ recorded o f c' p l) \/
                         (pl_last_generation p <> Some (generation c) /\ recorded o f c' p' (l ++ [(generation c, shot_of c)]))
      | OClearPlot => forall l' m, l = l' ++ [m] -> recorded o f c' p' [m] /\ pl_last_generation p' = pl_last_generation p
      | _ => p' = p /\ recorded o f c' p l
      end.
  Proof.
    intros o f c op c' p l Hr Hp Hl Hq H.
    assert (Hlater : forall p l, recorded o f c p l -> recorded o f c' p l).
    { intros p0 l0 H0. pose proof (quiet_core _ _ _ _ Hq H) as [K1 [_ [K3 _]]]. eapply recorded_later; [exact H0| | |].
      - intros c1 Hc. eapply earlier_step; eauto.
      - unfold generation. rewrite K3. lia.
      - unfold function_evals. rewrite K1. lia. }
    destruct op; try contradiction; cbn [step] in H.
    - unfold add_plot_point in H. rewrite Hp in H. oinv H. exists a.
      split; [apply Ret_inj in H; subst c'; reflexivity|].
      destruct (plot_add_recorded _ _ _ _ _ _ Hl Hr Ho) as [[A1 A2]|[A1 A2]]; [left|right]; auto.
    - unfold clear_plot in H. rewrite Hp in H. oinv H. exists a. split; [apply Ret_inj in H; subst c'; reflexivity|].
      intros l' m ->. destruct (plot_clear_recorded _ _ _ _ _ _ Hl) as [p' [X1 [X2 X3]]].
      rewrite Ho in X1. apply Ret_inj in X1. subst p'. auto.
    - exists p. apply Ret_inj in H. subst c'. auto.
    - exists p. apply Ret_inj in H. subst c'. auto.
    - exists p. split; [|auto]. apply Ret_inj in H. subst c'. unfold print_final_info.
      destruct (function_evals c =? c_last_print c)%N; auto.
  Qed.

  Lemma next_monotone : forall par tk c r c', next ev par tk c = Ret (r, c') ->
    (generation c <= generation c')%N /\ (function_evals c <= function_evals c')%N.
  Proof. intros par tk c r c' H. apply next_counters in H. lia. Qed.

  Lemma next_recorded : forall o f par tk c r c' p l, reaches ev o f c -> c_plot c = Some p -> recorded o f c p l ->
    next ev par tk c = Ret (r, c') ->
    exists p', c_plot c' = Some p' /\
      if negb (reports InvalidFunctionValue r) && negb (reports PosDefCov r)
         && ((generation c' <=? 1)%N || (next_data_point_evals p <=? function_evals c')%N)
      then recorded o f c' p' (l ++ [(generation c', shot_of c')])
      else p' = p /\ recorded o f c' p l.
  Proof.
    intros o f par tk c r c' p l Hr Hp Hl H.
    assert (Hr' : reaches ev o f c') by (eapply reaches_step; [exact Hr|eapply next_step; exact H]).
    assert (Hl' : recorded o f c' p l).
    { destruct (next_monotone _ _ _ _ _ H) as [M1 M2]. eapply recorded_later; [exact Hl| |exact M1|exact M2].
      intros c1 Hc. eapply earlier_step; [exact Hc|eapply next_step; exact H]. }
    pose proof (next_counters _ _ _ _ _ _ H) as [_ Hg].
    apply next_outcome in H. destruct H as [[_ [H9 [_ X]]]|[inds [ok [_ [H9 [_ [_ X]]]]]]]; rewrite H9 in *.
    { exists p. split; [rewrite X; exact Hp|]. cbn [negb andb]. auto. }
    destruct X as [[_ [-> [_ [X _]]]]|[_ [Hd [reasons [X _]]]]].
    { exists p. rewrite X. cbn [negb andb]. auto. }
    rewrite Hd in *. cbn [negb andb]. pose proof (nd_plot _ _ _ _ _ X) as Y. rewrite Hp in Y.
    destruct ((generation c' <=? 1)%N || (next_data_point_evals p <=? function_evals c')%N).
    - destruct Y as [p' [Y1 Y2]]. exists p'. split; auto.
      destruct (plot_add_recorded _ _ _ _ _ _ Hl' Hr' Y1) as [[A1 A2]|[A1 A2]]; auto. exfalso.
      destruct (rd_last _ _ _ _ _ Hl) as [l' [m [-> [B1 _]]]]. pose proof (rd_le _ _ _ _ _ Hl) as B2.
      apply Forall_app in B2. destruct B2 as [_ B2]. inversion B2 as [|y z [B3 _] _]; subst.
      assert (fst m = generation c') by congruence. cbn [orb] in Hg. lia.
    - exists p. auto.
  Qed.

  Lemma built_recorded : forall o f c0, built o f c0 ->
    match o_plot_options o with
    | None => c_plot c0 = None
    | Some po => exists p, c_plot c0 = Some p /\ recorded o f c0 p [(generation c0, shot_of c0)]
    end.
  Proof.
    intros o f c0 Hb. assert (Hr : reaches ev o f c0) by (exists c0, []; split; auto).
    destruct Hb as [rs [now Hb]]. apply cmaes_new_inv in Hb. cbv zeta in Hb.
    destruct Hb as [_ [S1 [_ [S2 [_ [_ [_ [_ [_ Hp]]]]]]]]].
      destruct (o_plot_options o) as [po|] eqn:Eo; [|exact Hp]. destruct Hp as [p' [Hp ->]].
      exists p'. split; [reflexivity|].
      
      unfold plot_add_point, plot_new in Hp. cbn [pl_last_generation pl_data pl_options pl_mode] in Hp.
      oinv Hp. apply Ret_inj in Hp. subst p'.
      pose proof (reaches_wf Heig ev _ _ _ Hr) as Hw.
      destruct (data_add_describes (dims o) 0 (c_state c0) (c_history c0) (plot_data_new (length (o_initial_mean o))) [] (wf_st _ _ Hw))
        as [d' [D1 D2]].
      { unfold plot_data_new. constructor; cbn [pd_function_evals pd_best pd_median pd_sigma pd_axis_ratio pd_mean
          pd_sqrt_eigenvalues pd_coord_scales map]; rewrite ?series_nil; reflexivity. }
      rewrite Ho in D1. apply Ret_inj in D1. subst d'.
      assert (G0 : generation c0 = 0%N) by (unfold generation; rewrite S2; reflexivity).
      assert (F0 : function_evals c0 = 0%N) by (unfold function_evals; rewrite S1; reflexivity).
      assert (Sh : shot_of c0 = shot_at 0 (c_state c0) (c_history c0)) by (unfold shot_of; rewrite F0; reflexivity).
      constructor; cbn [pl_data pl_options pl_last_generation pl_last_evals map fst snd].
      - rewrite Sh. exact D2.
      - constructor; constructor.
      - constructor; constructor.
      - constructor; [|constructor]. exists c0. repeat split; auto. apply earlier_refl.
      - constructor; [|constructor]. rewrite Sh. cbn. lia.
      - exists [], (generation c0, shot_of c0). split; [reflexivity|]. rewrite Sh. cbn [fst snd shot_at sh_evals]. split; [|reflexivity].
        reflexivity.
      - exact Eo.
  Qed.

  Lemma plot_inv_reaches : forall o f c, reaches ev o f c -> plot_inv o f c.
  Proof.
    intros o f c [c0 [l [Hb Hs]]].
    assert (H0 : plot_inv o f c0).
    { assert (Hr : reaches ev o f c0) by (exists c0, []; split; auto). split; [exact Hr|].
      apply built_recorded in Hb. destruct (o_plot_options o) as [po|] eqn:Eo.
      - destruct Hb as [p [-> Hb]]. eauto.
      - rewrite Hb. reflexivity. }
    revert H0 Hs. apply (steps_invariant ev (plot_inv o f)).
    - intros c1 op c2 [I1 I2] Hq H. split; [eapply reaches_step; eauto|]. destruct (c_plot c1) as [p|] eqn:Ep.
      + destruct I2 as [l1 I2]. destruct (quiet_recorded _ _ _ _ _ _ _ I1 Ep I2 Hq H) as [p' [Q1 Q2]]. rewrite Q1.
        destruct (rd_last _ _ _ _ _ I2) as [l2 [m [E1 _]]].
        destruct op; try contradiction; try (destruct Q2 as [-> Q2]; eauto; fail).
        * destruct Q2 as [[_ [-> Q2]]|[_ Q2]]; eauto.
        * destruct (Q2 _ _ E1). eauto.
      + assert (Ec : c_plot c2 = None); [|rewrite Ec; exact I2].
        destruct op; try contradiction; cbn [step] in H;
          try (unfold add_plot_point in H; rewrite Ep in H); try (unfold clear_plot in H; rewrite Ep in H);
          apply Ret_inj in H; subst c2; auto. unfold print_final_info.
        destruct (function_evals c1 =? c_last_print c1)%N; auto.
    - intros par tk c1 r c2 [I1 I2] H. split; [eapply reaches_step; [exact I1|eapply next_step; exact H]|].
      destruct (c_plot c1) as [p|] eqn:Ep.
      + destruct I2 as [l1 I2]. destruct (next_recorded _ _ _ _ _ _ _ _ _ I1 Ep I2 H) as [p' [Q1 Q2]]. rewrite Q1.
        match type of Q2 with if ?b then _ else _ => destruct b end; [eauto|]. destruct Q2 as [-> Q2]. eauto.
      + assert (Ec : c_plot c2 = None); [|rewrite Ec; exact I2].
        apply next_inv in H. destruct H as [sm H|inds sm h st c' H1 H2 H3 ->|inds c' reasons H1 H2]; auto.
        pose proof (nd_plot _ _ _ _ _ H2) as X. rewrite Ep in X. exact X.
  Qed.

  Lemma reaches_plot : forall o f c p, reaches ev o f c -> c_plot c = Some p -> exists l, recorded o f c p l.
  Proof. intros o f c p H Hp. apply plot_inv_reaches in H. destruct H as [_ H]. rewrite Hp in H. exact H. Qed.
End Shots.
Arguments shot : clear implicits.
