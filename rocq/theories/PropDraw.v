(* C66 to C68: the saved image of a plot. *)
From Coq Require Import List NArith ZArith Bool Arith Lia Reals Lra Sorting.Sorted.
From Flocq Require Import Core BinarySingleNaN.
Require Import Verif.Base Verif.Num Verif.F64 Verif.XReal Verif.LinAlg Verif.Mode Verif.Weights Verif.Options
  Verif.Params Verif.Env Verif.State Verif.Sampling Verif.History Verif.Termination Verif.Plot Verif.Draw Verif.Cmaes Verif.Lib Verif.Order
  Verif.NextInv Verif.Spec Verif.LogLemmas Verif.TraceLemmas Verif.BuildLemmas Verif.PanicLemmas Verif.NextSafe
  Verif.CastLemmas Verif.TermSpec Verif.TermLemmas Verif.Sort Verif.F64Lemmas Verif.CeilLemmas Verif.XRound Verif.XLe
  Verif.Toy Verif.ToyLemmas Verif.PlotLemmas Verif.DrawLemmas Verif.DrawAxis Verif.PropPlot Verif.XToy.
Import ListNotations.
Open Scope nat_scope.

Section Saves.
  Context {T : Type} {NT : Num T} {OL : OrdLaws T} {CL : CastLaws T} {LT : Libm T} {DT : DrawLib T} {E : Env T}.
  Hypothesis Heig : eigen_shape (T := T).
  Hypothesis Habs : forall x : T, nis_nan (nabs x) = nis_nan x.
  Hypothesis Hoff : forall x : T, nis_nan (apply_offset x) = nis_nan x.
  Hypothesis Hstep : forall x : T, is_initial_step_size_valid x = true -> nis_nan x = false.
  Context {F : Type} (ev : F -> vec T -> outcome (T * F)).

  Lemma reaches_valid : forall o f c, reaches ev o f c -> validate o = None.
  Proof. intros o f c [c0 [l [[rs [now H]] _]]]. apply cmaes_new_inv in H. apply H. Qed.

  Lemma save_returns : forall o f c p, reaches ev o f c -> c_plot c = Some p -> exists im, build_plot p = Ret im.
  Proof.
    intros o f c p Hr Hp. destruct (reaches_plot Heig ev _ _ _ _ Hr Hp) as [l Hl].
    pose proof (reaches_valid _ _ _ Hr) as Hv. unfold validate in Hv.
    destruct (length (o_initial_mean o) =? 0)%nat eqn:En; [discriminate Hv|]. apply Nat.eqb_neq in En.
    destruct (o_population_size o <? 2)%N; [discriminate Hv|].
    destruct (is_initial_step_size_valid (o_initial_step_size o)) eqn:Es; [|discriminate Hv].
    apply (build_plot_returns (dims o) p (map snd l)); [unfold dims; lia|apply (rd_data _ _ _ _ _ _ Hl)|].
    destruct (rd_last _ _ _ _ _ _ Hl) as [l' [m [El _]]].
    assert (Hm : In m l) by (rewrite El; apply in_or_app; right; left; reflexivity).
    exists (snd m). split; [apply in_map; exact Hm|].
    pose proof (rd_moments _ _ _ _ _ _ Hl) as Hmo. rewrite Forall_forall in Hmo. destruct (Hmo m Hm) as [c1 [M1 [_ [_ <-]]]].
    pose proof (reaches_drawable ev _ _ _ M1) as Hd. unfold drawable in Hd. unfold shot_of, shot_at. cbn [sh_best sh_sigma].
    rewrite Habs, !Hoff. destruct (h_current_best (c_history c1)) as [i|]; [left; exact Hd|right]. rewrite Hd. apply Hstep. exact Es.
  Qed.
End Saves.

Lemma f64_step_not_nan : forall x : f64, is_initial_step_size_valid x = true -> nis_nan x = false.
Proof. intros x H. apply step_size_valid in H. destruct H as [H _]. destruct x; try discriminate H; reflexivity. Qed.
Lemma x_offset_nan : forall x : xreal, nis_nan (apply_offset x) = nis_nan x.
Proof.
  intros x. unfold apply_offset. destruct x_offset as [o [_ Ho]]. rewrite Ho.
  unfold ngeb. destruct (nleb n0 x); destruct x as [|s|r]; reflexivity.
Qed.
Lemma x_abs_nan : forall x : xreal, nis_nan (nabs x) = nis_nan x.
Proof. intros [|s|r]; reflexivity. Qed.
Lemma x_step_not_nan : forall x : xreal, is_initial_step_size_valid x = true -> nis_nan x = false.
Proof. intros [|s|r] H; [discriminate H|reflexivity|reflexivity]. Qed.

(* C66. Saving the plot of any optimiser that has one never panics. *)
Theorem C66_saves : forall {LT : Libm f64} {DT : DrawLib f64} {E : Env f64}, eigen_shape (T := f64) ->
  forall {F} (ev : F -> vec f64 -> outcome (f64 * F)) o f c p,
    reaches ev o f c -> c_plot c = Some p -> exists im, build_plot p = Ret im.
Proof. intros LT DT E Heig F ev o f c p. apply (save_returns Heig f64_abs_nan f64_offset_nan f64_step_not_nan). Qed.

(* ---- C67 ---- *)
Section Charts.
  Context {T : Type} {NT : Num T}.
  (* a usable chart: the value axis runs upwards, and every point and every mark of the chart lies in both ranges *)
  Definition x_inside (ch : chart T) : Prop :=
    Forall (fun pt => (fst (ch_x ch) <= fst pt <= snd (ch_x ch))%N) (ch_marks ch ++ concat (ch_lines ch)).
  Definition y_inside (ch : chart T) : Prop :=
    nltb (ya_start (ch_y ch)) (ya_end (ch_y ch)) = true /\
    Forall (fun pt => nleb (ya_start (ch_y ch)) (snd pt) = true /\ nleb (snd pt) (ya_end (ch_y ch)) = true)
      (ch_marks ch ++ concat (ch_lines ch)).
  Definition charts (im : image T) : list (chart T) := [im_values im; im_mean im; im_axes im; im_scales im].
  Definition usable (im : image T) : Prop := Forall (fun ch => x_inside ch /\ y_inside ch) (charts im).

  Lemma spans_y : forall axis evals V ch, spans axis evals V ch ->
    (forall y, axis V = Ret y -> nltb (ya_start y) (ya_end y) = true /\
       Forall (fun v => nleb (ya_start y) v = true /\ nleb v (ya_end y) = true) V) ->
    y_inside ch.
  Proof.
    intros axis evals V ch [H1 [_ H3]] H. destruct (H _ H1) as [G1 G2]. split; [exact G1|]. rewrite Forall_forall in G2.
    eapply Forall_impl; [|exact H3]. intros pt [_ Hp]. apply G2. exact Hp.
  Qed.
  Lemma spans_x : forall axis evals V ch, spans axis evals V ch ->
    (forall n, (n < 2 ^ 64)%N -> (n <= nto_usize (nmul (nofN n) (nlit 105 100 : T)))%N) ->
    StronglySorted N.le evals -> Forall (fun n => (n < 2 ^ 64)%N) evals -> x_inside ch.
  Proof.
    intros axis evals V ch [_ [H2 H3]] Hn Hs Hb. pose proof (x_range_spans _ _ Hn Hs Hb H2) as G. rewrite Forall_forall in G.
    eapply Forall_impl; [|exact H3]. intros pt [Hp _]. apply G. exact Hp.
  Qed.
End Charts.

(* C67 in exact arithmetic. The numbers recorded in the plot are not infinite, the means and scales are numbers,
   and the means are not all one and the same negative number (for which the claim is false, C67_refuted).
   Missing: rounding of the logarithmic axes (the mean chart in binary64 is C67_mean_chart_partial). *)
Record plain (d : plot_data xreal) : Prop := {
  pn_evals : Forall (fun n => (n < 2 ^ 64)%N) (pd_function_evals d);
  pn_best : Forall not_inf (pd_best d);
  pn_median : Forall not_inf (pd_median d);
  pn_sigma : Forall not_inf (pd_sigma d);
  pn_ratio : Forall not_inf (pd_axis_ratio d);
  pn_mean : Forall (Forall fin) (pd_mean d);
  pn_spread : x_spread (concat (pd_mean d));
  pn_eigen : Forall (Forall fin) (pd_sqrt_eigenvalues d);
  pn_scales : Forall (Forall fin) (pd_coord_scales d)
}.

Section Exact.
  Context {E : Env xreal}.
  Hypothesis Heig : eigen_shape (T := xreal).
  Context {F : Type} (ev : F -> vec xreal -> outcome (xreal * F)).

  Lemma concat_fin : forall l : list (list xreal), Forall (Forall fin) l -> Forall fin (concat l).
  Proof.
    intros l H. apply Forall_forall. intros v Hv. apply in_concat in Hv. destruct Hv as [x [H1 H2]].
    rewrite Forall_forall in H. specialize (H x H1). rewrite Forall_forall in H. apply H. exact H2.
  Qed.
  Lemma fin_pos : forall v, fin v -> (exists y, v = apply_offset y /\ not_neg y) -> pos v.
  Proof. intros v [r ->] [y [H1 H2]]. rewrite H1. apply x_offset_pos; auto; rewrite <- H1; [exact I|reflexivity]. Qed.

  Lemma moments_ok : forall o f c p l, recorded ev o f c p l -> Forall (fun m => shot_ok (snd m)) l.
  Proof.
    intros o f c p l Hl. eapply Forall_impl; [|apply (rd_moments _ _ _ _ _ _ Hl)]. intros m [c1 [M1 [_ [_ <-]]]].
    apply shot_of_ok. eapply reaches_scales. exact M1.
  Qed.
  Lemma moments_len : forall o f c p l, recorded ev o f c p l ->
    Forall (fun m => length (sh_eigen (snd m)) = dims o /\ length (sh_scales (snd m)) = dims o) l.
  Proof.
    intros o f c p l Hl. eapply Forall_impl; [|apply (rd_moments _ _ _ _ _ _ Hl)]. intros m [c1 [M1 [_ [_ <-]]]].
    pose proof (reaches_wf Heig ev _ _ _ M1) as W.
    pose proof (wf_st _ _ W) as S. unfold shot_of, shot_at. cbn [sh_eigen sh_scales]. rewrite !map_length, sort_by_len, !diagonal_length.
    split; [apply (ws_sqrt _ _ S)|apply (ws_cov _ _ S)].
  Qed.

  Lemma series_pos : forall n (g : shot xreal -> list xreal) (l : list (shot xreal)),
    Forall (fun x => length (g x) = n /\ Forall (fun v => exists y, v = apply_offset y /\ not_neg y) (g x)) l ->
    Forall (Forall fin) (series n (map g l)) -> Forall pos (concat (series n (map g l))).
  Proof.
    intros n g l H1 H2. apply concat_fin in H2. apply Forall_forall. intros v Hv. rewrite Forall_forall in H2.
    apply fin_pos; [apply H2; exact Hv|]. apply series_concat in Hv. destruct Hv as [i [m [I1 [I2 ->]]]].
    rewrite Forall_forall in H1. destruct (H1 m I2) as [G1 G2]. rewrite Forall_forall in G2. apply G2. apply nth_In. rewrite G1. exact I1.
  Qed.

  Lemma values_pos : forall m n (d : plot_data xreal) l, describes n d l -> Forall shot_ok l -> plain d ->
    Forall pos (single_dimensioned_values m d).
  Proof.
    intros m n d l D Hok Hp. apply Forall_forall. intros v Hv. unfold single_dimensioned_values in Hv.
    apply filter_In in Hv. destruct Hv as [Hv Hn]. unfold not_nan in Hn. apply negb_true_iff in Hn.
    rewrite Forall_forall in Hok.
    pose proof (pn_best _ Hp) as P1. pose proof (pn_median _ Hp) as P2. pose proof (pn_sigma _ Hp) as P3. pose proof (pn_ratio _ Hp) as P4.
    rewrite Forall_forall in P1, P2, P3, P4.
    repeat (apply in_app_or in Hv; destruct Hv as [Hv|Hv]).
    - apply in_map_iff in Hv. destruct Hv as [b [<- Hb]]. pose proof (P1 b Hb) as Q. rewrite (ds_best _ _ _ D) in Hb.
      apply in_map_iff in Hb. destruct Hb as [x [<- Hx]]. destruct (so_best _ (Hok x Hx)) as [y E1]. rewrite E1 in *.
      apply x_abs_offset_pos; assumption.
    - apply in_map_iff in Hv. destruct Hv as [b [<- Hb]]. pose proof (P2 b Hb) as Q. rewrite (ds_median _ _ _ D) in Hb.
      apply in_map_iff in Hb. destruct Hb as [x [<- Hx]]. destruct (so_median _ (Hok x Hx)) as [y E1]. rewrite E1 in *.
      apply x_abs_offset_pos; assumption.
    - pose proof (P3 v Hv) as Q. rewrite (ds_sigma _ _ _ D) in Hv.
      apply in_map_iff in Hv. destruct Hv as [x [<- Hx]]. destruct (so_sigma _ (Hok x Hx)) as [y [E1 E2]]. rewrite E1 in *.
      apply x_offset_pos; assumption.
    - pose proof (P4 v Hv) as Q. rewrite (ds_axis _ _ _ D) in Hv.
      apply in_map_iff in Hv. destruct Hv as [x [<- Hx]]. destruct (so_ratio _ (Hok x Hx)) as [y [E1 E2]]. rewrite E1 in *.
      apply x_offset_pos; assumption.
    - pose proof (first_best_spec m (pd_best d)) as Hs. change (first_best m (pd_best d)) with (overall_best m d) in Hs.
      destruct (overall_best m d) as [[i b]|]; [|destruct Hv]. destruct Hs as [b1 [b2 [S1 _]]].
      apply in_map_iff in Hv. destruct Hv as [[j w] [Ew Hv]]. cbn [snd] in Ew. subst w. apply filter_In in Hv. destruct Hv as [Hv _].
      apply in_combine_r in Hv. unfold dist_to_best in Hv. apply in_map_iff in Hv. destruct Hv as [a [<- Ha]].
      apply x_dist_pos; [apply P1; exact Ha| |exact Hn]. apply P1. rewrite S1. apply in_or_app. right. left. reflexivity.
  Qed.

  Theorem C67_axes_exact_partial : forall o f c p, reaches ev o f c -> c_plot c = Some p -> plain (pl_data p) ->
    exists im, build_plot p = Ret im /\ usable im.
  Proof.
    intros o f c p Hr Hp Hd.
    destruct (save_returns Heig x_abs_nan x_offset_nan x_step_not_nan ev _ _ _ _ Hr Hp) as [im Him]. exists im. split; [exact Him|].
    destruct (reaches_plot Heig ev _ _ _ _ Hr Hp) as [l Hl]. pose proof (rd_data _ _ _ _ _ _ Hl) as D.
    pose proof (moments_ok _ _ _ _ _ Hl) as Hok. pose proof (moments_len _ _ _ _ _ Hl) as Hlen.
    assert (Hs : StronglySorted N.le (pd_function_evals (pl_data p))).
    { rewrite (ds_evals _ _ _ D), map_map. apply (rd_evals _ _ _ _ _ _ Hl). }
    pose proof (build_plot_spans x_abs_nan _ _ _ _ D Him) as [S1 [S2 [S3 S4]]]. cbv zeta in *.
    pose proof (spans_x _ _ _ _ S1 x_nofN_105 Hs (pn_evals _ Hd)). pose proof (spans_x _ _ _ _ S2 x_nofN_105 Hs (pn_evals _ Hd)).
    pose proof (spans_x _ _ _ _ S3 x_nofN_105 Hs (pn_evals _ Hd)). pose proof (spans_x _ _ _ _ S4 x_nofN_105 Hs (pn_evals _ Hd)).
    unfold usable, charts. repeat (apply Forall_cons; [split; [assumption|]|]); [| | | |constructor].
    - apply (spans_y _ _ _ _ S1). intros y. apply x_log_axis. eapply values_pos; [exact D| |exact Hd].
      apply Forall_map. exact Hok.
    - apply (spans_y _ _ _ _ S2). intros y. apply x_linear_axis; [apply concat_fin; apply (pn_mean _ Hd)|apply (pn_spread _ Hd)].
    - apply (spans_y _ _ _ _ S3). intros y. apply x_log_axis. rewrite (ds_eigen _ _ _ D). apply series_pos.
      + apply Forall_map. apply Forall_forall. intros m Hm. rewrite Forall_forall in Hok, Hlen. split; [apply (Hlen m Hm)|apply (so_eigen _ (Hok m Hm))].
      + rewrite <- (ds_eigen _ _ _ D). apply (pn_eigen _ Hd).
    - apply (spans_y _ _ _ _ S4). intros y. apply x_log_axis. rewrite (ds_scales _ _ _ D). apply series_pos.
      + apply Forall_map. apply Forall_forall. intros m Hm. rewrite Forall_forall in Hok, Hlen. split; [apply (Hlen m Hm)|apply (so_scales _ (Hok m Hm))].
      + rewrite <- (ds_scales _ _ _ D). apply (pn_scales _ Hd).
  Qed.
End Exact.

(* C67 in binary64: the evaluation range of every chart, and the whole mean chart. *)
Theorem C67_mean_chart_partial : forall {LT : Libm f64} {DT : DrawLib f64} {E : Env f64}, eigen_shape (T := f64) ->
  forall {F} (ev : F -> vec f64 -> outcome (f64 * F)) o f c p, reaches ev o f c -> c_plot c = Some p ->
  (function_evals c < 2 ^ 64)%N ->
  exists im, build_plot p = Ret im /\ Forall x_inside (charts im) /\
    (Forall (fun l => Forall (fun v : f64 => is_finite v = true) l) (pd_mean (pl_data p)) -> f64_spread (concat (pd_mean (pl_data p))) ->
     y_inside (im_mean im)).
Proof.
  intros LT DT E Heig F ev o f c p Hr Hp Hc. destruct (C66_saves Heig ev _ _ _ _ Hr Hp) as [im Him]. exists im. split; [exact Him|].
  destruct (reaches_plot Heig ev _ _ _ _ Hr Hp) as [l Hl]. pose proof (rd_data _ _ _ _ _ _ Hl) as D.
  assert (Hs : StronglySorted N.le (pd_function_evals (pl_data p))).
  { rewrite (ds_evals _ _ _ D), map_map. apply (rd_evals _ _ _ _ _ _ Hl). }
  assert (Hb : Forall (fun n => (n < 2 ^ 64)%N) (pd_function_evals (pl_data p))).
  { rewrite (ds_evals _ _ _ D), map_map. apply Forall_map. eapply Forall_impl; [|apply (rd_le _ _ _ _ _ _ Hl)]. intros m [_ H].
    eapply N.le_lt_trans; [exact H|exact Hc]. }
  pose proof (build_plot_spans f64_abs_nan _ _ _ _ D Him) as [S1 [S2 [S3 S4]]]. cbv zeta in *. split.
  - unfold charts. repeat (apply Forall_cons || apply Forall_nil); eapply spans_x; eauto using nofN_105.
  - intros H1 H2. apply (spans_y _ _ _ _ S2). intros y. apply f64_linear_axis; [|exact H2].
    apply Forall_forall. intros v Hv. apply in_concat in Hv. destruct Hv as [x [X1 X2]].
    rewrite Forall_forall in H1. specialize (H1 x X1). rewrite Forall_forall in H1. apply H1. exact X2.
Qed.

(* ---- C68 ---- *)
Section Shown.
  Context {T : Type} {NT : Num T} {OL : OrdLaws T} {CL : CastLaws T} {LT : Libm T} {DT : DrawLib T} {E : Env T}.
  Hypothesis Heig : eigen_shape (T := T).
  Context {F : Type} (ev : F -> vec T -> outcome (T * F)).

  Definition styled (n : nat) (scientific : bool) (im : image T) : Prop :=
    ya_kind (ch_y (im_values im)) = KLog /\ ya_kind (ch_y (im_mean im)) = KLinear scientific /\
    ya_kind (ch_y (im_axes im)) = KLog /\ ya_kind (ch_y (im_scales im)) = KLog /\
    Forall (fun ch => (ya_labels (ch_y ch) <= 26)%N) (charts im) /\
    map ch_legend (charts im) = [true; n <=? 18; false; n <=? 18].

  Lemma build_plot_styled : forall n p l im, describes n (pl_data p) l -> build_plot p = Ret im ->
    styled n (po_scientific_notation (pl_options p)) im.
  Proof.
    intros n p l im D H. unfold build_plot in H. oinv H. oinv H. oinv H. oinv H. apply Ret_inj in H. subst im.
    assert (L : forall V (y : y_axis T), get_log_y_axis V = Ret y -> ya_kind y = KLog /\ (ya_labels y <= 26)%N).
    { intros V y Hy. unfold get_log_y_axis in Hy. oinv Hy. oinv Hy. apply Ret_inj in Hy. subst y. cbn [ya_kind ya_labels]. split; [reflexivity|].
      apply N.le_min_r. }
    assert (L2 : forall V b (y : y_axis T), get_linear_y_axis V b = Ret y -> ya_kind y = KLinear b /\ ya_labels y = 26%N).
    { intros V b y Hy. unfold get_linear_y_axis in Hy. oinv Hy. oinv Hy. apply Ret_inj in Hy. subst y. split; reflexivity. }
    unfold draw_mean in Ho0. oinv Ho0. unfold configure_area in Ho0. oinv Ho0. apply Ret_inj in Ho0. subst a0.
    unfold draw_sqrt_eigenvalues in Ho1. oinv Ho1. unfold configure_area in Ho1. oinv Ho1. apply Ret_inj in Ho1. subst a1.
    unfold draw_coord_axis_scales in Ho2. oinv Ho2. unfold configure_area in Ho2. oinv Ho2. apply Ret_inj in Ho2. subst a2.
    unfold draw_single_dimensioned in Ho. oinv Ho. oinv Ho. lazymatch type of Ho with context [let '(_, _) := ?x in _] => destruct x as [dl mk] | context [match ?x with pair _ _ => _ end] => destruct x as [dl mk] end. unfold configure_area in Ho. oinv Ho. apply Ret_inj in Ho. subst a.
    unfold styled, charts, max_legend_values. cbn [im_values im_mean im_axes im_scales ch_y ch_legend map].
    repeat match goal with H : get_log_y_axis _ = Ret _ |- _ => apply L in H; destruct H end.
    match goal with H : get_linear_y_axis _ _ = Ret _ |- _ => apply L2 in H; destruct H as [K1 K2] end.
    rewrite (ds_mean _ _ _ D), (ds_scales _ _ _ D), !series_len.
    split; [assumption|]. split; [assumption|]. split; [assumption|]. split; [assumption|]. split; [|reflexivity].
    repeat (apply Forall_cons; [cbn [ch_y]; first [assumption|rewrite K2; apply N.le_refl]|]). constructor.
  Qed.

  (* C68. What a saved image shows. *)
  Theorem C68_content : forall o f c p im, reaches ev o f c -> c_plot c = Some p -> build_plot p = Ret im ->
    exists po l, o_plot_options o = Some po /\ l <> [] /\ Forall (moment_of ev o f c) l /\ StronglySorted N.lt (map fst l) /\
      plot_len p = length l /\
      draws (o_mode o) (dims o) (map snd l) im /\ styled (dims o) (po_scientific_notation po) im.
  Proof.
    intros o f c p im Hr Hp Him. destruct (reaches_plot Heig ev _ _ _ _ Hr Hp) as [l Hl].
    pose proof (rd_data _ _ _ _ _ _ Hl) as D. exists (pl_options p), l. split; [apply (rd_options _ _ _ _ _ _ Hl)|].
    split; [destruct (rd_last _ _ _ _ _ _ Hl) as [l' [m [-> _]]]; destruct l'; discriminate|].
    split; [apply (rd_moments _ _ _ _ _ _ Hl)|]. split; [apply (rd_gens _ _ _ _ _ _ Hl)|].
    split; [unfold plot_len; rewrite (ds_evals _ _ _ D), !map_length; reflexivity|].
    split; [|eapply build_plot_styled; eauto].
    pose proof (reaches_plot_mode ev _ _ _ Hr) as Hm. unfold plot_mode_is in Hm. rewrite Hp in Hm. rewrite <- Hm.
    apply build_plot_draws; assumption.
  Qed.
End Shown.

(* ---- cases ---- *)
#[local] Instance toy_draw : DrawLib f64 := {| lm_log10 := fun x => ndiv (toy_ln x) (toy_ln (nofZ 10)); lm_round := fun x => x |}.

(* the plot of C44_case, saved: two distance lines, four value lines and a mark in the first chart, two lines in each of the others *)
Definition c68_test (im : image f64) : bool :=
  listN_eqb (map N.of_nat (map (@length _) (concat (map ch_lines (charts im))))) [2; 0; 3; 3; 4; 4; 4; 4; 4; 4; 4; 4]%N
  && listN_eqb (map (fun ch => N.of_nat (length (ch_lines ch))) (charts im)) [6; 2; 2; 2]%N
  && listN_eqb (map fst (ch_marks (im_values im))) [16]%N.
Example C68_case : eigen_shape (T := f64) /\
  exists (c : cmaes f64 unit) p im, reaches toy_sphere c44_options tt c /\ c_plot c = Some p /\ plot_len p = 4 /\ build_plot p = Ret im /\
    map N.of_nat (map (@length _) (concat (map ch_lines (charts im)))) = [2; 0; 3; 3; 4; 4; 4; 4; 4; 4; 4; 4]%N /\
    map (fun ch => N.of_nat (length (ch_lines ch))) (charts im) = [6; 2; 2; 2]%N /\
    map fst (ch_marks (im_values im)) = [16]%N.
Proof.
  split; [exact toy_eigen_shape|].
  destruct (holds_ex (after toy_sphere tt c44_options c44_ops)
    (fun c => match c_plot c with Some p => (plot_len p =? 4) && holds (build_plot p) c68_test | None => false end)) as [c [H1 H2]].
  { vm_compute. reflexivity. }
  apply after_reaches in H1. destruct H1 as [c0 [H0 H1]]. destruct (c_plot c) as [p|] eqn:Ep; [|discriminate H2].
  apply andb_prop in H2. destruct H2 as [H2 H3]. apply Nat.eqb_eq in H2. apply holds_ex in H3. destruct H3 as [im [H3 H4]].
  unfold c68_test in H4. apply andb_prop in H4. destruct H4 as [H4 H5]. apply andb_prop in H4. destruct H4 as [H4 H6].
  apply listN_eqb_eq in H4. apply listN_eqb_eq in H5. apply listN_eqb_eq in H6.
  exists c, p, im. split; [exists c0, c44_ops; auto|]. auto 10.
Qed.
(* a plot of a single moment before the first generation can be saved as well, although there is no best value yet *)
Example C66_case : eigen_shape (T := f64) /\
  exists (c : cmaes f64 unit) p, reaches toy_sphere c44_options tt c /\ c_plot c = Some p /\ plot_len p = 1 /\
    Forall (fun y => nis_nan y = true) (pd_best (pl_data p)).
Proof.
  split; [exact toy_eigen_shape|].
  destruct (holds_ex (after toy_sphere tt c44_options [])
    (fun c => match c_plot c with Some p => (plot_len p =? 1) && forallb nis_nan (pd_best (pl_data p)) | None => false end)) as [c [H1 H2]].
  { vm_compute. reflexivity. }
  apply after_reaches in H1. destruct H1 as [c0 [H0 H1]]. destruct (c_plot c) as [p|] eqn:Ep; [|discriminate H2].
  apply andb_prop in H2. destruct H2 as [H2 H3]. apply Nat.eqb_eq in H2. exists c, p. split; [exists c0, []; auto|].
  split; [exact Ep|]. split; [exact H2|]. apply Forall_forall. intros y Hy. rewrite forallb_forall in H3. apply H3. exact Hy.
Qed.

(* C67 is false in general: one dimension, initial mean -1; the axis of the mean chart of the untouched optimiser
   runs downwards, and the recorded mean is outside it. *)
Definition c67_options : options f64 :=
  apply_setters (options_new [lit (-1) 1] (lit 1 2)) [SPopulationSize 4; SSeed 7; SEnablePlot (mkPlotOptions 5 false)].
Theorem C67_refuted : eigen_shape (T := f64) /\
  exists (c : cmaes f64 unit) p im, reaches toy_sphere c67_options tt c /\ c_plot c = Some p /\ build_plot p = Ret im /\
    ~ y_inside (im_mean im) /\
    (exists pt, In pt (concat (ch_lines (im_mean im))) /\ nltb (snd pt) (ya_start (ch_y (im_mean im))) = true) /\
    nltb (ya_end (ch_y (im_mean im))) (ya_start (ch_y (im_mean im))) = true.
Proof.
  split; [exact toy_eigen_shape|].
  destruct (holds_ex (after toy_sphere tt c67_options [])
    (fun c => match c_plot c with Some p => holds (build_plot p) (fun im =>
       nltb (ya_end (ch_y (im_mean im))) (ya_start (ch_y (im_mean im))) &&
       existsb (fun pt => nltb (snd pt) (ya_start (ch_y (im_mean im)))) (concat (ch_lines (im_mean im)))) | None => false end)) as [c [H1 H2]].
  { vm_compute. reflexivity. }
  apply after_reaches in H1. destruct H1 as [c0 [H0 H1]]. destruct (c_plot c) as [p|] eqn:Ep; [|discriminate H2].
  apply holds_ex in H2. destruct H2 as [im [H2 H3]]. apply andb_prop in H3. destruct H3 as [H3 H4].
  exists c, p, im. split; [exists c0, []; auto|]. split; [exact Ep|]. split; [exact H2|].
  split; [|split; [|exact H3]].
  - intros [X _]. apply lt_asym in X. congruence.
  - apply existsb_exists in H4. destruct H4 as [pt H4]. exists pt. exact H4.
Qed.
(* the hypotheses of C67_mean_chart_partial hold for the plot of C44_case *)
Example C67_case : eigen_shape (T := f64) /\
  exists (c : cmaes f64 unit) p, reaches toy_sphere c44_options tt c /\ c_plot c = Some p /\ plot_len p = 4 /\ (function_evals c < 2 ^ 64)%N /\
    Forall (fun l => Forall (fun v : f64 => is_finite v = true) l) (pd_mean (pl_data p)) /\ f64_spread (concat (pd_mean (pl_data p))).
Proof.
  split; [exact toy_eigen_shape|].
  destruct (holds_ex (after toy_sphere tt c44_options c44_ops)
    (fun c => (function_evals c <? 2 ^ 64)%N && match c_plot c with Some p => (plot_len p =? 4) && forallb (forallb (@is_finite 53 1024)) (pd_mean (pl_data p))
       && existsb (fun v => nleb (lit 1 1) v) (concat (pd_mean (pl_data p))) | None => false end)) as [c [H1 H2]].
  { vm_compute. reflexivity. }
  apply after_reaches in H1. destruct H1 as [c0 [H0 H1]]. apply andb_prop in H2. destruct H2 as [Hc H2]. apply N.ltb_lt in Hc.
  destruct (c_plot c) as [p|] eqn:Ep; [|discriminate H2].
  apply andb_prop in H2. destruct H2 as [H2 H3]. apply andb_prop in H2. destruct H2 as [H2 H4]. apply Nat.eqb_eq in H2.
  rewrite forallb_forall in H4.
  exists c, p. split; [exists c0, c44_ops; auto|]. split; [exact Ep|]. split; [exact H2|]. split; [exact Hc|]. split.
  - apply Forall_forall. intros l Hl. apply Forall_forall. specialize (H4 l Hl). rewrite forallb_forall in H4. exact H4.
  - left. apply existsb_exists in H3. destruct H3 as [v [V1 V2]]. exists v. split; [exact V1|]. right.
    assert (Fv : is_finite v = true). { apply in_concat in V1. destruct V1 as [x [X1 X2]]. specialize (H4 x X1). rewrite forallb_forall in H4. apply H4. exact X2. }
    rewrite f2x_leb in V2. rewrite (f2x_finite _ Fv) in V2. 
    assert (E1 : f2x (lit 1 1) = XFin 1).
    { rewrite f2x_finite by reflexivity. apply f_equal. vm_compute. lra. }
    rewrite E1 in V2. apply Rle_trans with 1%R; [change 1%R with (bpow radix2 0); apply bpow_le; lia|].
    apply xle_leb in V2. exact V2.
Qed.

(* the hypotheses of C67_axes_exact_partial hold for the first plot of an optimiser with the mean (3, -4) *)
Section ExactCase.
  #[local] Existing Instance xtoy_env.
  Definition c67_exact : options xreal := apply_setters (xtoy_options [XFin 3; XFin (-4)]) [SEnablePlot (mkPlotOptions 5 true)].
  Lemma x_offset_fin : forall y, fin y -> fin (apply_offset y).
  Proof. intros y [r ->]. unfold apply_offset. destruct x_offset as [o [_ Ho]]. rewrite Ho. destruct (ngeb _ _); eexists; reflexivity. Qed.
  Lemma one_over : fin (ndiv (XFin 1) (XFin 1)).
  Proof. cbn. unfold x_div, Reqb. destruct (Req_EM_T 1 0); [lra|]. eexists. reflexivity. Qed.
  Lemma sqrt_one : fin (nsqrt (XFin 1)).
  Proof. cbn. unfold Rltb. destruct (Rlt_dec 1 0); [lra|]. eexists. reflexivity. Qed.
  Lemma series_fin : forall n (v : list xreal), Forall fin v -> Forall (Forall fin) (series n [v]).
  Proof.
    intros n v H. apply Forall_forall. intros s Hs. unfold series in Hs. apply in_map_iff in Hs. destruct Hs as [i [<- _]].
    constructor; [|constructor]. destruct (nth_in_or_default i v n0) as [Hi|Hi]; [|rewrite Hi; eexists; reflexivity].
    rewrite Forall_forall in H. apply H. exact Hi.
  Qed.
  Example C67_exact_case : eigen_shape (T := xreal) /\
    exists (c : cmaes xreal unit) p, reaches xtoy_sphere c67_exact tt c /\ c_plot c = Some p /\ plain (pl_data p).
  Proof.
    split; [exact xtoy_eigen_shape|].
    assert (Hv : validate c67_exact = None) by (apply (xtoy_valid [XFin 3; XFin (-4)]); discriminate).
    pose proof (cmaes_new_outcome 0 0 tt c67_exact) as Hn. rewrite Hv in Hn. destruct Hn as [c Hc].
    assert (Hb : built c67_exact tt c) by (exists 0%N, 0%N; exact Hc).
    pose proof (built_recorded xtoy_eigen_shape xtoy_sphere _ _ _ Hb) as Hr. cbn [c67_exact apply_setters fold_left apply_setter o_plot_options] in Hr.
    destruct Hr as [p [Hp Hr]]. exists c, p. split; [exists c, []; auto|]. split; [exact Hp|].
    pose proof (rd_data _ _ _ _ _ _ Hr) as D. cbn [map snd] in D.
    apply cmaes_new_inv in Hc. cbv zeta in Hc. destruct Hc as [_ [C1 [_ [C2 [C3 _]]]]].
    unfold shot_of, function_evals in D. rewrite C1, C2, C3 in D. cbn [c67_exact xtoy_options apply_setters fold_left apply_setter options_new o_initial_mean o_initial_step_size] in D.
    change (dims c67_exact) with 2 in D. destruct D as [D1 D2 D3 D4 D5 D6 D7 D8].
    constructor.
    - rewrite D1. constructor; [|constructor]. reflexivity.
    - rewrite D2. constructor; [|constructor]. cbn [sh_best shot_at history_new h_current_best].
      match goal with |- not_inf ?v => assert (X : nis_nan v = true) by (rewrite x_offset_nan; reflexivity); destruct v; [exact I|discriminate X|exact I] end.
    - rewrite D3. constructor; [|constructor]. cbn [sh_median shot_at history_new h_median_values].
      match goal with |- not_inf ?v => assert (X : nis_nan v = true) by (rewrite x_offset_nan; reflexivity); destruct v; [exact I|discriminate X|exact I] end.
    - rewrite D4. constructor; [|constructor]. cbn [sh_sigma shot_at state_new st_sigma].
      destruct (x_offset_fin (XFin (1/2)) ltac:(eexists; reflexivity)) as [r ->]. exact I.
    - rewrite D5. constructor; [|constructor]. cbn [sh_axis_ratio shot_at].
      match goal with |- not_inf (apply_offset ?y) => assert (X : fin y) end; [|destruct (x_offset_fin _ X) as [r ->]; exact I].
      match goal with |- fin (axis_ratio ?s) => assert (Dg : diagonal (cm_sqrt_eigenvalues (st_cov s)) = [XFin 1; XFin 1]) by reflexivity end.
      unfold axis_ratio. rewrite Dg. unfold vmax, vmin. cbn [fold_left].
      destruct (ngeb (XFin 1) (XFin 1)), (nleb (XFin 1) (XFin 1)); apply one_over.
    - rewrite D6. cbn. repeat constructor; eexists; reflexivity.
    - rewrite D6. left. exists (XFin 3). split; [left; reflexivity|]. apply xle_leb. cbn. lra.
    - rewrite D7. apply series_fin. cbn [sh_eigen shot_at]. apply Forall_map. apply Forall_forall. intros v Hin. apply x_offset_fin.
      apply (Permutation.Permutation_in _ (Permutation.Permutation_sym (sort_by_perm _ _))) in Hin. destruct Hin as [<- |[<- |[]]]; eexists; reflexivity.
    - rewrite D8. apply series_fin. cbn [sh_scales shot_at].
      apply Forall_map. match goal with |- Forall _ ?d => change d with [XFin 1; XFin 1] end.
      repeat constructor; apply x_offset_fin, sqrt_one.
  Qed.
End ExactCase.

Print Assumptions C66_saves.
Print Assumptions C67_axes_exact_partial.
Print Assumptions C67_mean_chart_partial.
Print Assumptions C67_refuted.
Print Assumptions C68_content.
