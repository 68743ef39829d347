(* C67, continued: in exact arithmetic the numbers a plot is drawn from are finite. *)
From Coq Require Import List NArith ZArith Bool Arith Lia Reals Lra Permutation Sorted.
Require Import Verif.Base Verif.Num Verif.XReal Verif.XLe Verif.LinAlg Verif.Mode Verif.Weights Verif.Options Verif.Params Verif.Env
  Verif.State Verif.Sampling Verif.History Verif.Termination Verif.Plot Verif.Draw Verif.Cmaes Verif.Lib Verif.Order Verif.Sort
  Verif.NextInv Verif.Spec Verif.LogLemmas Verif.SamplingLemmas Verif.BuildLemmas Verif.TraceLemmas Verif.PanicLemmas Verif.NextSafe Verif.HistoryLemmas
  Verif.TermLemmas Verif.PlotLemmas Verif.DrawLemmas Verif.DrawAxis Verif.PropDraw
  Verif.RSum Verif.WeightLemmas Verif.ExactStep Verif.ExactEigen Verif.ExactInv Verif.PropExact Verif.Session Verif.XToy Verif.ExactToy.
Import ListNotations.
Open Scope nat_scope.

Section DrawExact.
  Context {E : Env xreal}.
  Hypothesis Heig : eigen_shape (T := xreal).
  Context {F : Type} (ev : F -> vec xreal -> outcome (xreal * F)).

  (* the objective never returns an infinity; it may return NaN *)
  Definition bounded_values : Prop := forall g x v g', ev g x = Ret (v, g') -> not_inf v.
  Hypothesis Hev : bounded_values.

  Definition seen_finite (h : history xreal) : Prop :=
    (forall i, h_current_best h = Some i -> not_inf (i_value i)) /\ match h_median_values h with [] => True | x :: _ => not_inf x end.

  Lemma middle_not_inf : forall l : list xreal, Forall not_inf l -> not_inf (middle l).
  Proof.
    intros l H. assert (G : forall i, not_inf (nth i l n0)).
    { intros i. destruct (nth_in_or_default i l n0) as [Hi|Hi]; [|rewrite Hi; exact I]. rewrite Forall_forall in H. apply H. exact Hi. }
    unfold middle. destruct (Nat.even (length l)); [|apply G]. pose proof (G (length l / 2 - 1)) as A. pose proof (G (length l / 2)) as B.
    destruct (nth (length l / 2 - 1) l n0); [exact I|contradiction|]. destruct (nth (length l / 2) l n0); [exact I|contradiction|].
    cbn. unfold x_div, Reqb. destruct (Req_EM_T 2 0); [lra|exact I].
  Qed.
  Lemma push_head : forall {A} (x : A) l, match push_bounded x l with [] => True | y :: _ => y = x end.
  Proof. intros A x l. unfold push_bounded. destruct (_ <? _)%N; [|reflexivity]. destruct l; cbn; auto. Qed.
  Lemma reaches_seen : forall o f c, reaches ev o f c -> seen_finite (c_history c).
  Proof.
    intros o f c [c0 [l [[rs [now H1]] H2]]].
    eapply (steps_invariant ev (fun c => seen_finite (c_history c))); [| | |exact H2].
    - intros a op a' Ha Hq Hx. apply (quiet_core ev) in Hx; auto. unfold same_core in Hx. decompose [and] Hx.
      match goal with H : c_history a' = c_history a |- _ => rewrite H end. exact Ha.
    - intros par tk a r a' Ha Hn. destruct (next_outcome ev _ _ _ _ _ Hn) as [[_ [_ [_ ->]]]|[inds [ok [Hs [_ [Hh _]]]]]]; [exact Ha|].
      apply sample_Some in Hs. destruct Hs as [ys [g [f0 [pts [_ [_ [He [_ [Hi _]]]]]]]]].
      assert (Hp : Permutation pts inds) by (subst; apply sort_by_perm).
      assert (Hv : Forall not_inf (map pt_value inds)).
      { apply Forall_map. eapply Permutation_Forall; [exact Hp|]. eapply Forall_impl; [|eapply eval_points_valued; exact He].
        intros p [_ [g1 [g2 Hg]]]. eapply Hev. exact Hg. }
      apply history_update_inv in Hh. destruct Hh as [b [rest [Eb Hh]]]. cbv zeta in Hh. destruct Hh as [_ [Hm [Hc _]]]. split.
      + intros i Hi0. rewrite Hc in Hi0. injection Hi0 as <-. cbn [i_value]. rewrite Eb in Hv. cbn [map] in Hv. inversion Hv; assumption.
      + rewrite Hm. pose proof (push_head (middle (map pt_value inds)) (h_median_values (c_history a))) as X.
        destruct (push_bounded _ _); [exact I|]. subst x. apply middle_not_inf. exact Hv.
    - apply cmaes_new_inv in H1. cbv zeta in H1. destruct H1 as [_ [_ [_ [_ [H4 _]]]]]. rewrite H4. split; [discriminate|exact I].
  Qed.

  Lemma x_offset_not_inf : forall y, not_inf y -> not_inf (apply_offset y).
  Proof.
    intros [|s|r] Hy; [|contradiction|].
    - assert (X : nis_nan (apply_offset XNaN) = true) by (rewrite x_offset_nan; reflexivity). destruct (apply_offset XNaN); [exact I|discriminate X|exact I].
    - destruct (x_offset_fin (XFin r) ltac:(eexists; reflexivity)) as [q ->]. exact I.
  Qed.
  Lemma fin_not_inf : forall y, fin y -> not_inf y.
  Proof. intros y [r ->]. exact I. Qed.
  Lemma fv_fin : forall n v x, fv n v x -> Forall fin v.
  Proof.
    intros n v x [L V]. apply Forall_forall. intros y Hy. apply (In_nth _ _ (n0 : xreal)) in Hy. destruct Hy as [i [Hi <-]].
    exists (x i). apply V. lia.
  Qed.
  Lemma pick_fin : forall (g : xreal -> xreal -> xreal), (forall a b, g a b = a \/ g a b = b) ->
    forall (P : xreal -> Prop) l x, Forall P l -> P x -> P (fold_left g l x).
  Proof.
    intros g Hg P l. induction l as [|a l IH]; intros x Hl Hx; [exact Hx|]. inversion Hl; subst. cbn [fold_left]. apply IH; [assumption|].
    destruct (Hg x a) as [-> | ->]; assumption.
  Qed.
  Lemma series_fin2 : forall n (ls : list (list xreal)), Forall (Forall fin) ls -> Forall (Forall fin) (series n ls).
  Proof.
    intros n ls H. apply Forall_forall. intros s Hs. unfold series in Hs. apply in_map_iff in Hs. destruct Hs as [i [<- _]].
    apply Forall_map. eapply Forall_impl; [|exact H]. intros v Hv.
    destruct (nth_in_or_default i v n0) as [Hi|Hi]; [|rewrite Hi; eexists; reflexivity]. rewrite Forall_forall in Hv. apply Hv. exact Hi.
  Qed.

  Lemma posdef_diag : forall n A i, posdef n A -> i < n -> (0 < A i i)%R.
  Proof.
    intros n A i H Hi. specialize (H (fun j => delta j i)). assert (Hz : nonzero n (fun j => delta j i)).
    { exists i. split; [exact Hi|]. unfold delta. rewrite Nat.eqb_refl. lra. }
    specialize (H Hz). unfold quad in H.
    rewrite (Sig_ext n _ (fun a => (delta i a * A a i)%R)), Sig_delta in H by (try exact Hi; intros a Ha; rewrite Sig_delta_r by exact Hi; rewrite (delta_sym i a); reflexivity).
    exact H.
  Qed.
  Lemma same_rates : forall o f c f1 c1, world o -> reaches ev o f c -> reaches ev o f1 c1 -> rates_below_one (c_params c) -> rates_below_one (c_params c1).
  Proof.
    intros o f c f1 c1 W H H1 [a [b [R1 [R2 R3]]]]. destruct (reaches_good ev o f c W H) as [v G]. destruct (reaches_good ev o f1 c1 W H1) as [v1 G1].
    destruct (gd_par _ _ _ G) as [s Es]. destruct (gd_par _ _ _ G1) as [s1 Es1]. exists a, b. rewrite Es in R1, R2. rewrite Es1. split; [exact R1|]. split; [exact R2|exact R3].
  Qed.

  (* the numbers recorded at one moment *)
  Record shot_fin (x : shot xreal) : Prop := {
    sn_best : not_inf (sh_best x);
    sn_median : not_inf (sh_median x);
    sn_sigma : not_inf (sh_sigma x);
    sn_ratio : not_inf (sh_axis_ratio x);
    sn_mean : Forall fin (sh_mean x);
    sn_eigen : Forall fin (sh_eigen x);
    sn_scales : Forall fin (sh_scales x)
  }.
  Lemma reaches_shot : forall o f c, world o -> reaches ev o f c -> rates_below_one (c_params c) -> shot_fin (shot_of c).
  Proof.
    intros o f c W Hr Hb. destruct (reaches_good ev o f c W Hr) as [v G]. pose proof (gd_fin _ _ _ G) as Sf. pose proof (gd_dec _ _ _ G) as De.
    destruct (reaches_seen o f c Hr) as [S1 S2]. pose proof (reaches_wf Heig ev _ _ _ Hr) as Wf.
    assert (Hd : 0 < dims o) by (apply (wf_dim _ _ Wf)).
    pose proof (fm_diagonal _ _ _ (sf_D _ _ _ Sf)) as Dd.
    set (d := diagonal (cm_sqrt_eigenvalues (st_cov (c_state c)))) in *.
    assert (Pd : Forall pos d).
    { apply Forall_forall. intros y Hy. destruct Dd as [L V]. apply (In_nth _ _ (n0 : xreal)) in Hy. destruct Hy as [i [Hi <-]].
      rewrite V by lia. eexists. split; [reflexivity|]. rewrite delta_eq, Rmult_1_l. apply (dc_d _ _ De). lia. }
    unfold shot_of, shot_at. constructor; cbn [sh_best sh_median sh_sigma sh_axis_ratio sh_mean sh_eigen sh_scales].
    - apply x_offset_not_inf. destruct (h_current_best _) as [i|]; [apply (S1 i); reflexivity|exact I].
    - apply x_offset_not_inf. destruct (h_median_values _) as [|m l]; [exact I|exact S2].
    - apply x_offset_not_inf. rewrite (sf_sg _ _ _ Sf). exact I.
    - apply x_offset_not_inf, fin_not_inf. unfold axis_ratio. fold d.
      assert (Hne : d <> []) by (intros X; destruct Dd as [L _]; rewrite X in L; cbn in L; lia).
      assert (P1 : pos (vmax d)). { destruct d as [|x l]; [congruence|]. inversion Pd; subst. unfold vmax. apply pick_fin; auto. intros a b. destruct (ngeb a b); auto. }
      assert (P2 : pos (vmin d)). { destruct d as [|x l]; [congruence|]. inversion Pd; subst. unfold vmin. apply pick_fin; auto. intros a b. destruct (nleb a b); auto. }
      destruct P1 as [a [-> _]]. destruct P2 as [b [-> Hpos]]. cbn. unfold Reqb. destruct (Req_EM_T b 0); [lra|]. eexists. reflexivity.
    - eapply fv_fin. apply (sf_m _ _ _ Sf).
    - apply Forall_map. apply Forall_forall. intros y Hy. apply x_offset_fin.
      apply (Permutation_in _ (Permutation_sym (sort_by_perm _ _))) in Hy. rewrite Forall_forall in Pd. destruct (Pd y Hy) as [r [-> _]]. eexists. reflexivity.
    - destruct (C39_positive_definite ev o f c W Hr Hb) as [[C [C1 [_ C3]]] _].
      pose proof (fm_diagonal _ _ _ C1) as [L V]. unfold covariance_matrix in *. apply Forall_map. apply Forall_forall. intros y Hy.
      apply x_offset_fin. apply (In_nth _ _ (n0 : xreal)) in Hy. destruct Hy as [i [Hi <-]]. rewrite V by lia.
      pose proof (posdef_diag _ _ i C3 ltac:(lia)) as P. cbn. unfold Rltb. destruct (Rlt_dec (C i i) 0); [lra|]. eexists. reflexivity.
  Qed.

  Theorem C67_axes_world_partial : forall o f c p, world o -> reaches ev o f c -> rates_below_one (c_params c) -> c_plot c = Some p ->
    (function_evals c < 2 ^ 64)%N -> x_spread (concat (pd_mean (pl_data p))) ->
    exists im, build_plot p = Ret im /\ usable im.
  Proof.
    intros o f c p W Hr Hb Hp He Hs. apply (C67_axes_exact_partial Heig ev o f c p Hr Hp).
    destruct (reaches_plot Heig ev _ _ _ _ Hr Hp) as [l Hl]. pose proof (rd_data _ _ _ _ _ _ Hl) as [D1 D2 D3 D4 D5 D6 D7 D8].
    assert (Hf : Forall shot_fin (map snd l)).
    { apply Forall_map. eapply Forall_impl; [|apply (rd_moments _ _ _ _ _ _ Hl)]. intros m [c1 [M1 [_ [_ <-]]]].
      eapply reaches_shot; [exact W|exact M1|]. eapply same_rates; [exact W|exact Hr|exact M1|exact Hb]. }
    constructor.
    - rewrite D1, map_map. apply Forall_map. eapply Forall_impl; [|apply (rd_le _ _ _ _ _ _ Hl)]. intros m [_ X]. cbn beta. lia.
    - rewrite D2. apply Forall_map. eapply Forall_impl; [|exact Hf]. apply sn_best.
    - rewrite D3. apply Forall_map. eapply Forall_impl; [|exact Hf]. apply sn_median.
    - rewrite D4. apply Forall_map. eapply Forall_impl; [|exact Hf]. apply sn_sigma.
    - rewrite D5. apply Forall_map. eapply Forall_impl; [|exact Hf]. apply sn_ratio.
    - rewrite D6. apply series_fin2, Forall_map. eapply Forall_impl; [|exact Hf]. apply sn_mean.
    - exact Hs.
    - rewrite D7. apply series_fin2, Forall_map. eapply Forall_impl; [|exact Hf]. apply sn_eigen.
    - rewrite D8. apply series_fin2, Forall_map. eapply Forall_impl; [|exact Hf]. apply sn_scales.
  Qed.
End DrawExact.

(* an objective without infinities, and the first plot of an optimiser with the mean (3, 4) *)
Section Case.
  #[local] Existing Instance plane_env.
  Definition tame_sphere (_ : unit) (x : vec xreal) : outcome (xreal * unit) := Ret (match norm2 x with XFin r => XFin r | _ => XNaN end, tt).
  Definition c67_world (w : weights_setting) : options xreal := apply_setters (plane_options w false) [SEnablePlot (mkPlotOptions 0 true)].
  Example C67_world_case : forall w, eigen_shape (T := xreal) /\ bounded_values tame_sphere /\ world (c67_world w) /\
    exists (c : cmaes xreal unit) p, reaches tame_sphere (c67_world w) tt c /\ rates_below_one (c_params c) /\ c_plot c = Some p /\
      (function_evals c < 2 ^ 64)%N /\ x_spread (concat (pd_mean (pl_data p))).
  Proof.
    intros w. split; [exact plane_shape|]. split.
    { intros g x v g' H. unfold tame_sphere in H. apply Ret_inj in H. apply (f_equal fst) in H. cbn [fst] in H. subst v. destruct (norm2 x); exact I. }
    assert (V : validate (c67_world w) = None) by exact (plane_valid w false).
    split.
    { destruct (plane_world w false) as [W1 W2 W3 W4 W5]. constructor; assumption. }
    pose proof (cmaes_new_outcome 0%N 0%N tt (c67_world w)) as Hn. rewrite V in Hn. destruct Hn as [c Hc].
    assert (Hb : built (c67_world w) tt c) by (exists 0%N, 0%N; exact Hc).
    assert (Hr : reaches tame_sphere (c67_world w) tt c) by (exists c, []; split; [exact Hb|reflexivity]).
    pose proof (built_recorded plane_shape tame_sphere _ _ _ Hb) as Hp. cbn [c67_world plane_options plane_setters app apply_setters fold_left apply_setter o_plot_options] in Hp.
    destruct Hp as [p [Hp Hl]]. exists c, p. split; [exact Hr|]. split; [apply (C39_population tame_sphere _ _ _ Hr); change (6 <= 28); lia|].
    split; [exact Hp|]. pose proof (rd_data _ _ _ _ _ _ Hl) as D. cbn [map snd] in D.
    apply cmaes_new_inv in Hc. cbv zeta in Hc. destruct Hc as [_ [C1 [_ [C2 _]]]]. split.
    - unfold function_evals. rewrite C1. reflexivity.
    - rewrite (ds_mean _ _ _ D). change (dims _) with 2. left. exists (XFin 3).
      split; [|apply xle_leb; cbn; lra]. left. cbn [map sh_mean shot_of shot_at]. rewrite C2. reflexivity.
  Qed.
End Case.

Print Assumptions C67_axes_world_partial.
