(* The axes and points of a saved plot. *)
From Coq Require Import List NArith ZArith Bool Arith Lia Sorting.Sorted.
Require Import Verif.Base Verif.Num Verif.LinAlg Verif.Mode Verif.Weights Verif.Options Verif.Params Verif.Env
  Verif.State Verif.Sampling Verif.History Verif.Termination Verif.Plot Verif.Draw Verif.Cmaes Verif.Lib Verif.Order Verif.Sort
  Verif.NextInv Verif.Spec Verif.LogLemmas Verif.TraceLemmas Verif.BuildLemmas Verif.PanicLemmas Verif.NextSafe
  Verif.CastLemmas Verif.TermSpec Verif.TermLemmas Verif.HistoryLemmas Verif.PlotLemmas.
Import ListNotations.
Open Scope nat_scope.

Lemma combine_map : forall {A B C} (f : A -> B) (g : A -> C) l, combine (map f l) (map g l) = map (fun x => (f x, g x)) l.
Proof. induction l as [|x l IH]; cbn; [reflexivity|rewrite IH; reflexivity]. Qed.
Lemma filter_map : forall {A B} (f : A -> B) (p : B -> bool) l, filter p (map f l) = map f (filter (fun x => p (f x)) l).
Proof. induction l as [|x l IH]; cbn; auto. destruct (p (f x)); cbn; rewrite IH; reflexivity. Qed.
Lemma combine_app1 : forall {A B} (l1 l2 : list A) (m1 m2 : list B), length l1 = length m1 ->
  combine (l1 ++ l2) (m1 ++ m2) = combine l1 m1 ++ combine l2 m2.
Proof. induction l1 as [|x l1 IH]; intros l2 [|y m1] m2 H; cbn in *; try discriminate; auto. rewrite IH by lia. reflexivity. Qed.

Section Min.
  Context {T : Type} {NT : Num T} {OL : OrdLaws T}.
  Lemma min_by_snoc : forall {A} (cmp : A -> A -> comparison) l x,
    min_by cmp (l ++ [x]) = Some (match min_by cmp l with None => x | Some a => match cmp a x with Gt => x | _ => a end end).
  Proof. intros A cmp [|y l] x; cbn; auto. rewrite fold_left_app. reflexivity. Qed.
  Lemma max_by_snoc : forall (cmp : T -> T -> comparison) l x,
    max_by cmp (l ++ [x]) = Some (match max_by cmp l with None => x | Some a => match cmp a x with Gt => a | _ => x end end).
  Proof. intros cmp [|y l] x; cbn; auto. rewrite fold_left_app. reflexivity. Qed.
  Lemma min_by_some : forall {A} (cmp : A -> A -> comparison) l, l <> [] -> exists a, min_by cmp l = Some a.
  Proof. intros A cmp [|x l] H; [congruence|]. cbn. eauto. Qed.
  Lemma max_by_some : forall (cmp : T -> T -> comparison) l, l <> [] -> exists a, max_by cmp l = Some a.
  Proof. intros cmp [|x l] H; [congruence|]. cbn. eauto. Qed.

  Lemma min_least : forall (l : list T) a, Forall (fun v => nis_nan v = false) l -> min_by partial_cmp l = Some a -> least l a.
  Proof.
    induction l as [|x l IH] using rev_ind; intros a Hn H; [discriminate|]. rewrite min_by_snoc in H. apply Forall_app in Hn.
    destruct Hn as [Hn Hx]. apply Forall_inv in Hx. destruct (min_by partial_cmp l) as [b|] eqn:Em.
    - destruct (IH b Hn eq_refl) as [I1 I2]. assert (Nb : nis_nan b = false) by (rewrite Forall_forall in Hn; auto).
      destruct (partial_cmp b x) eqn:Ec; assert (Hlt : partial_cmp b x = Gt <-> nltb x b = true) by apply partial_cmp_Gt;
        apply f_equal with (f := fun o => match o with Some v => v | None => a end) in H; cbn in H; subst a;
        try (assert (Hf : nltb x b = false) by (destruct (nltb x b); auto; destruct Hlt as [_ Hlt]; rewrite Hlt in Ec by auto; discriminate);
             split; [apply in_or_app; auto|apply Forall_app; split; auto]).
      split; [apply in_or_app; right; left; auto|]. apply Hlt in Ec. apply Forall_app. split; [|repeat constructor; apply ol_irrefl].
      eapply Forall_impl; [|exact I2]. intros y Hy. cbv beta in Hy. apply (ol_negtrans y b x); auto. apply lt_asym. exact Ec.
    - destruct l as [|y l]; [|discriminate]. cbn in H. assert (x = a) by congruence. subst a.
      split; [left; auto|repeat constructor; apply ol_irrefl].
  Qed.
  Lemma max_greatest : forall (l : list T) a, Forall (fun v => nis_nan v = false) l -> max_by partial_cmp l = Some a -> greatest l a.
  Proof.
    induction l as [|x l IH] using rev_ind; intros a Hn H; [discriminate|]. rewrite max_by_snoc in H. apply Forall_app in Hn.
    destruct Hn as [Hn Hx]. apply Forall_inv in Hx. destruct (max_by partial_cmp l) as [b|] eqn:Em.
    - destruct (IH b Hn eq_refl) as [I1 I2]. assert (Nb : nis_nan b = false) by (rewrite Forall_forall in Hn; auto).
      destruct (partial_cmp b x) eqn:Ec; assert (Hlt : partial_cmp b x = Gt <-> nltb x b = true) by apply partial_cmp_Gt;
        apply f_equal with (f := fun o => match o with Some v => v | None => a end) in H; cbn in H; subst a;
        try (assert (Hf : nltb x b = false) by (destruct (nltb x b); auto; destruct Hlt as [_ Hlt]; rewrite Hlt in Ec by auto; discriminate);
             split; [apply in_or_app; right; left; reflexivity|apply Forall_app; split; [|repeat constructor; apply ol_irrefl]];
             eapply Forall_impl; [|exact I2]; intros y Hy; cbv beta in Hy; apply (ol_negtrans x b y); auto).
      split; [apply in_or_app; auto|]. apply Hlt in Ec. apply Forall_app. split; auto. repeat constructor. apply lt_asym. exact Ec.
    - destruct l as [|y l]; [|discriminate]. cbn in H. assert (x = a) by congruence. subst a.
      split; [left; auto|repeat constructor; apply ol_irrefl].
  Qed.

  (* the first of the best values that are not NaN *)
  Definition first_best (m : mode) (bs : list T) : option (nat * T) :=
    min_by (fun a b => sort_cmp m (snd a) (snd b)) (filter (fun p => not_nan (snd p)) (combine (seq 0 (length bs)) bs)).
  Lemma first_best_spec : forall m bs,
    match first_best m bs with
    | None => Forall (fun y => nis_nan y = true) bs
    | Some (i, b) => exists b1 b2, bs = b1 ++ b :: b2 /\ length b1 = i /\ nis_nan b = false /\
        Forall (fun y => nis_nan y = true \/ is_better m b y = true) b1 /\ Forall (fun y => is_better m y b = false) b2
    end.
  Proof.
    intros m. induction bs as [|y bs IH] using rev_ind; [constructor|]. unfold first_best in *.
    rewrite app_length, seq_app, combine_app1, filter_app by apply seq_length. cbn [length seq combine filter Nat.add snd].
    unfold not_nan at 2. destruct (nis_nan y) eqn:Ny; cbn [negb].
    - rewrite app_nil_r. destruct (min_by _ _) as [[i b]|].
      + destruct IH as [b1 [b2 [H1 [H2 [H3 [H4 H5]]]]]]. exists b1, (b2 ++ [y]). rewrite H1, <- app_assoc.
        repeat (split; [auto; fail|]). repeat split; auto. apply Forall_app. split; auto. repeat constructor.
        destruct m; cbn; [apply ol_lt_nan_l|apply ol_lt_nan_r]; exact Ny.
      + apply Forall_app. auto.
    - rewrite min_by_snoc. destruct (min_by _ _) as [[i b]|].
      + destruct IH as [b1 [b2 [H1 [H2 [H3 [H4 H5]]]]]]. cbn [snd].
        pose proof (sort_cmp_Gt m b y) as G. destruct (sort_cmp m b y) eqn:Ec.
        3: { assert (Hb : is_better m y b = true) by (apply G; reflexivity). exists bs, []. repeat (split; [auto; fail|]).
             split; [|constructor]. rewrite H1.
             apply Forall_app. split; [|apply Forall_cons].
             - eapply Forall_impl; [|exact H4]. intros z [Hz|Hz]; auto. right. destruct m; cbn in *; eapply ol_trans; eauto.
             - right. exact Hb.
             - eapply Forall_impl; [|exact H5]. cbv beta. intros z Hz. destruct (nis_nan z) eqn:Nz; auto. right.
               destruct (is_better m y z) eqn:E0; auto. exfalso.
               assert (is_better m y b = false); [|congruence]. destruct m; cbn in *; unfold ngtb in *.
               + apply (ol_negtrans y z b); auto.
               + apply (ol_negtrans b z y); auto. }
        1, 2: assert (Hb : is_better m y b = false) by (destruct (is_better m y b); auto; destruct G as [_ G]; discriminate (G eq_refl));
          exists b1, (b2 ++ [y]); rewrite H1, <- app_assoc; repeat (split; [auto; fail|]); repeat split; auto; apply Forall_app; split; auto.
      + exists bs, []. repeat split; auto. eapply Forall_impl; [|exact IH]. auto.
  Qed.
End Min.

Section Content.
  Context {T : Type} {NT : Num T} {OL : OrdLaws T} {CL : CastLaws T} {LT : Libm T} {DT : DrawLib T} {E : Env T}.

  (* the points of a line showing the quantity g: the moments at which it is a number, in order *)
  Definition line (g : shot T -> T) (l : list (shot T)) : list (N * T) :=
    map (fun m => (sh_evals m, g m)) (filter (fun m => negb (nis_nan (g m))) l).
  Lemma get_points_line : forall g l, get_points (map sh_evals l) (map g l) = line g l.
  Proof. intros g l. unfold get_points, line, not_nan. rewrite combine_map, filter_map. reflexivity. Qed.

  Lemma series_lines : forall n (g : shot T -> list T) (l : list (shot T)),
    map (get_points (map sh_evals l)) (series n (map g l)) = map (fun i => line (fun m => nth i (g m) n0) l) (seq 0 n).
  Proof.
    intros n g l. unfold series. rewrite map_map. apply map_ext. intros i. rewrite map_map. apply get_points_line.
  Qed.
  Lemma series_concat : forall n (g : shot T -> list T) (l : list (shot T)) (v : T),
    In v (concat (series n (map g l))) <-> exists i m, i < n /\ In m l /\ v = nth i (g m) n0.
  Proof.
    intros n g l v. unfold series. rewrite in_concat. split.
    - intros [x [Hx Hv]]. apply in_map_iff in Hx. destruct Hx as [i [<- Hi]]. apply in_seq in Hi. rewrite map_map in Hv.
      apply in_map_iff in Hv. destruct Hv as [m [<- Hm]]. exists i, m. split; [lia|]. auto.
    - intros [i [m [Hi [Hm ->]]]]. exists (map (fun v => nth i v n0) (map g l)). split.
      + apply in_map_iff. exists i. split; auto. apply in_seq. lia.
      + rewrite map_map. apply in_map_iff. exists m. auto.
  Qed.

  Lemma neqb_better : forall m (a b : T), is_better m a b = true -> neqb a b = false /\ neqb b a = false.
  Proof.
    intros m a b H. rewrite !ol_eq. destruct m; cbn in H; unfold ngtb in H; rewrite H; cbn [negb]; rewrite !andb_false_r; auto.
  Qed.
  Lemma neqb_refl : forall a : T, nis_nan a = false -> neqb a a = true.
  Proof. intros a H. rewrite ol_eq, H, ol_irrefl. reflexivity. Qed.
  Lemma neqb_nan_l : forall a b : T, nis_nan a = true -> neqb a b = false.
  Proof. intros a b H. rewrite ol_eq, H. reflexivity. Qed.

  (* b is the first of the best recorded moments l1 ++ b :: l2 *)
  Definition best_moment (m : mode) (l1 : list (shot T)) (b : shot T) (l2 : list (shot T)) : Prop :=
    nis_nan (sh_best b) = false /\
    Forall (fun x => nis_nan (sh_best x) = true \/ is_better m (sh_best b) (sh_best x) = true) l1 /\
    Forall (fun x => is_better m (sh_best x) (sh_best b) = false) l2.

  Lemma map_split : forall {A B} (g : A -> B) l b1 b b2, map g l = b1 ++ b :: b2 ->
    exists l1 x l2, l = l1 ++ x :: l2 /\ map g l1 = b1 /\ g x = b /\ map g l2 = b2.
  Proof.
    intros A B g l b1. revert l. induction b1 as [|y b1 IH]; intros [|x l] b b2 H; cbn in H; try discriminate.
    - assert (g x = b /\ map g l = b2) as [H1 H2] by (split; congruence). exists [], x, l. auto.
    - assert (g x = y /\ map g l = b1 ++ b :: b2) as [H1 H2] by (split; congruence).
      apply IH in H2. destruct H2 as [l1 [z [l2 [-> [H2 [H3 H4]]]]]]. exists (x :: l1), z, l2. cbn. rewrite H1, H2. auto.
  Qed.

  Lemma overall_best_moment : forall n d l m, describes n d l ->
    match overall_best m d with
    | None => Forall (fun x => nis_nan (sh_best x) = true) l
    | Some (i, v) => exists l1 b l2, l = l1 ++ b :: l2 /\ length l1 = i /\ sh_best b = v /\ best_moment m l1 b l2
    end.
  Proof.
    intros n d l m D. pose proof (first_best_spec m (pd_best d)) as H. fold (overall_best m d) in H.
    unfold overall_best. change (min_by _ _) with (first_best m (pd_best d)). rewrite (ds_best _ _ _ D) in *.
    destruct (first_best m (map sh_best l)) as [[i v]|].
    - destruct H as [b1 [b2 [H1 [H2 [H3 [H4 H5]]]]]]. apply map_split in H1. destruct H1 as [l1 [b [l2 [-> [H6 [H7 H8]]]]]].
      exists l1, b, l2. subst b1 b2 v. rewrite map_length in H2. rewrite Forall_map in H4, H5.
      repeat (split; [auto; fail|]). repeat split; auto.
    - rewrite Forall_map in H. exact H.
  Qed.

  Lemma best_count_again : forall n d l1 b l2 m, describes n d (l1 ++ b :: l2) -> best_moment m l1 b l2 ->
    (1 <? best_count (sh_best b) d) = existsb (fun x => neqb (sh_best x) (sh_best b)) l2.
  Proof.
    intros n d l1 b l2 m D [H1 [H2 H3]]. unfold best_count. rewrite (ds_best _ _ _ D), filter_map, map_length, filter_app, app_length.
    cbn [filter]. rewrite (neqb_refl _ H1). cbn [length].
    replace (filter (fun x => neqb (sh_best x) (sh_best b)) l1) with (@nil (shot T)).
    2: { symmetry. clear -H2 OL. induction H2 as [|x l1 Hx H2 IH]; cbn; auto.
         replace (neqb (sh_best x) (sh_best b)) with false; auto. symmetry.
         destruct Hx as [Hx|Hx]; [apply neqb_nan_l; exact Hx|apply neqb_better in Hx; apply Hx]. }
    cbn [length Nat.add]. clear. induction l2 as [|x l2 IH]; cbn; auto.
    destruct (neqb (sh_best x) (sh_best b)); cbn [length orb]; auto.
  Qed.

  Definition dist_of (b m : shot T) : T := apply_offset (nabs (nsub (sh_best m) (sh_best b))).
  Lemma dist_map : forall n d l b, describes n d l -> dist_to_best (sh_best b) d = map (dist_of b) l.
  Proof. intros n d l b D. unfold dist_to_best. rewrite (ds_best _ _ _ D), map_map. reflexivity. Qed.

  (* the lines and marks of the first chart *)
  Definition values_lines (l : list (shot T)) : list (list (N * T)) :=
    [line (fun x => nabs (sh_best x)) l; line (fun x => nabs (sh_median x)) l; line sh_sigma l; line sh_axis_ratio l].
  Definition shows_best (m : mode) (l : list (shot T)) (lines : list (list (N * T))) (marks : list (N * T)) : Prop :=
    (Forall (fun x => nis_nan (sh_best x) = true) l /\ lines = [] /\ marks = []) \/
    (exists l1 b l2, l = l1 ++ b :: l2 /\ best_moment m l1 b l2 /\ marks = [(sh_evals b, nabs (sh_best b))] /\
       lines = [line (dist_of b) (l1 ++ if existsb (fun x => neqb (sh_best x) (sh_best b)) l2 then [b] else []);
                line (dist_of b) l2]).

  Lemma draw_values_content : forall n d l m ch, describes n d l -> draw_single_dimensioned m d = Ret ch ->
    exists dl, ch_lines ch = dl ++ values_lines l /\ shows_best m l dl (ch_marks ch).
  Proof.
    intros n d l m ch D H. unfold draw_single_dimensioned in H. oinv H. oinv H. destruct a0 as [dl mk].
    unfold configure_area in H. oinv H. apply Ret_inj in H. subst ch. cbn [ch_lines ch_marks]. exists dl.
    pose proof (overall_best_moment n d l m D) as Hb. split.
    - unfold values_lines. rewrite (ds_evals _ _ _ D), (ds_best _ _ _ D), (ds_median _ _ _ D), (ds_sigma _ _ _ D), (ds_axis _ _ _ D).
      rewrite !map_map, !get_points_line. reflexivity.
    - destruct (overall_best m d) as [[i v]|].
      + destruct Hb as [l1 [b [l2 [H1 [H2 [H3 H4]]]]]]. right. exists l1, b, l2. oinv Ho0. apply Ret_inj in Ho0.
        apply (f_equal (fun q => (fst q, snd q))) in Ho0. cbn [fst snd] in Ho0.
        pose proof (f_equal fst Ho0) as X1. pose proof (f_equal snd Ho0) as X2. cbn [fst snd] in X1, X2. clear Ho0.
        split; [exact H1|]. split; [exact H4|]. rewrite <- H3 in X1, X2. destruct H4 as [N1 N2].
        rewrite N1 in X2. split.
        * rewrite <- X2. apply (f_equal (fun e => [(e, nabs (sh_best b))])).
          unfold index in Ho2. rewrite (ds_evals _ _ _ D), H1, map_app, nth_error_app2 in Ho2 by (rewrite map_length; lia).
          rewrite map_length, H2, Nat.sub_diag in Ho2. cbn in Ho2. congruence.
        * rewrite <- X1. rewrite H1 in D. rewrite (dist_map n d _ b D), (best_count_again n d l1 b l2 m D (conj N1 N2)).
          rewrite (ds_evals _ _ _ D). rewrite !firstn_map, !skipn_map, !get_points_line.
          assert (S1 : skipn (S i) (l1 ++ b :: l2) = l2).
          { rewrite skipn_app, <- H2, skipn_all2 by lia. replace (S (length l1) - length l1) with 1 by lia. reflexivity. }
          rewrite S1. f_equal. apply (f_equal (line (dist_of b))).
          destruct (existsb _ l2); rewrite firstn_app, <- H2.
          -- rewrite firstn_all2 by lia. replace (S (length l1) - length l1) with 1 by lia. reflexivity.
          -- rewrite firstn_all, Nat.sub_diag. reflexivity.
      + left. apply Ret_inj in Ho0. split; auto. split; congruence.
  Qed.

  (* ---- what is drawn in the four areas ---- *)
  Definition draws (m : mode) (n : nat) (l : list (shot T)) (im : image T) : Prop :=
    (exists dl, ch_lines (im_values im) = dl ++ values_lines l /\ shows_best m l dl (ch_marks (im_values im))) /\
    ch_lines (im_mean im) = map (fun i => line (fun x => nth i (sh_mean x) n0) l) (seq 0 n) /\
    ch_lines (im_axes im) = map (fun i => line (fun x => nth i (sh_eigen x) n0) l) (seq 0 n) /\
    ch_lines (im_scales im) = map (fun i => line (fun x => nth i (sh_scales x) n0) l) (seq 0 n) /\
    ch_marks (im_mean im) = [] /\ ch_marks (im_axes im) = [] /\ ch_marks (im_scales im) = [].
  Lemma build_plot_draws : forall n p l im, describes n (pl_data p) l -> build_plot p = Ret im -> draws (pl_mode p) n l im.
  Proof.
    intros n p l im D H. unfold build_plot in H. oinv H. oinv H. oinv H. oinv H. apply Ret_inj in H. subst im.
    unfold draws. cbn [im_values im_mean im_axes im_scales]. split; [eapply draw_values_content; eauto|].
    unfold draw_mean in Ho0. oinv Ho0. unfold configure_area in Ho0. oinv Ho0. apply Ret_inj in Ho0. subst a0.
    unfold draw_sqrt_eigenvalues in Ho1. oinv Ho1. unfold configure_area in Ho1. oinv Ho1. apply Ret_inj in Ho1. subst a1.
    unfold draw_coord_axis_scales in Ho2. oinv Ho2. unfold configure_area in Ho2. oinv Ho2. apply Ret_inj in Ho2. subst a2.
    cbn [ch_lines ch_marks]. rewrite (ds_evals _ _ _ D), (ds_mean _ _ _ D), (ds_eigen _ _ _ D), (ds_scales _ _ _ D), !series_lines.
    auto 10.
  Qed.

  (* ---- drawing returns ---- *)
  Lemma log_axis_returns : forall l : list T, l <> [] -> exists y, get_log_y_axis l = Ret y.
  Proof.
    intros l H. unfold get_log_y_axis. destruct (min_by_some partial_cmp l H) as [a ->]. destruct (max_by_some partial_cmp l H) as [b ->].
    cbn. eauto.
  Qed.
  Lemma linear_axis_returns : forall (l : list T) b, l <> [] -> exists y, get_linear_y_axis l b = Ret y.
  Proof.
    intros l s H. unfold get_linear_y_axis. destruct (min_by_some partial_cmp l H) as [a ->]. destruct (max_by_some partial_cmp l H) as [b ->].
    cbn. eauto.
  Qed.
  Lemma x_range_returns : forall l, l <> [] -> exists x, x_range (T := T) l = Ret x.
  Proof.
    intros l H. destruct (exists_last H) as [l' [e ->]]. unfold x_range. rewrite rev_app_distr.
    destruct (l' ++ [e]) eqn:El; [destruct l'; discriminate|]. cbn. eauto.
  Qed.

  Lemma build_plot_returns : forall n p l, 1 <= n -> describes n (pl_data p) l ->
    (exists x, In x l /\ (nis_nan (nabs (sh_best x)) = false \/ nis_nan (sh_sigma x) = false)) ->
    exists im, build_plot p = Ret im.
  Proof.
    intros n p l Hn D [x [Hx Hv]].
    assert (Hne : forall (g : shot T -> list T), concat (series n (map g l)) <> []).
    { intros g Hc. assert (In (nth 0 (g x) n0) []) as []. rewrite <- Hc. apply series_concat. exists 0, x. auto. }
    destruct (x_range_returns (pd_function_evals (pl_data p))) as [xr Hxr].
    { rewrite (ds_evals _ _ _ D). destruct l; [destruct Hx|discriminate]. }
    unfold build_plot, draw_single_dimensioned, draw_mean, draw_sqrt_eigenvalues, draw_coord_axis_scales, configure_area.
    destruct (log_axis_returns (single_dimensioned_values (pl_mode p) (pl_data p))) as [y1 Hy1].
    { intros Hc. assert (exists v, In v (single_dimensioned_values (pl_mode p) (pl_data p))) as [v Hin].
      - unfold single_dimensioned_values. rewrite (ds_best _ _ _ D), (ds_sigma _ _ _ D). destruct Hv as [Hv|Hv].
        + exists (nabs (sh_best x)). apply filter_In. split; [|unfold not_nan; rewrite Hv; reflexivity].
          apply in_or_app. left. apply in_map. apply in_map. exact Hx.
        + exists (sh_sigma x). apply filter_In. split; [|unfold not_nan; rewrite Hv; reflexivity].
          apply in_or_app. right. apply in_or_app. right. apply in_or_app. left. apply in_map. exact Hx.
      - rewrite Hc in Hin. destruct Hin. }
    rewrite Hy1. cbn [obind].
    pose proof (overall_best_moment n _ l (pl_mode p) D) as Hb. rewrite Hxr.
    rewrite (ds_mean _ _ _ D), (ds_eigen _ _ _ D), (ds_scales _ _ _ D).
    destruct (linear_axis_returns (concat (series n (map sh_mean l))) (po_scientific_notation (pl_options p)) (Hne _)) as [y2 Hy2].
    destruct (log_axis_returns (concat (series n (map sh_eigen l))) (Hne _)) as [y3 Hy3].
    destruct (log_axis_returns (concat (series n (map sh_scales l))) (Hne _)) as [y4 Hy4].
    destruct (overall_best (pl_mode p) (pl_data p)) as [[i v]|].
    - destruct Hb as [l1 [b [l2 [H1 [H2 _]]]]]. unfold index.
      rewrite (ds_evals _ _ _ D), H1, map_app, nth_error_app2 by (rewrite map_length; lia).
      rewrite map_length, H2, Nat.sub_diag. cbn [map nth_error obind]. rewrite H1 in Hy2, Hy3, Hy4. rewrite Hy2, Hy3, Hy4. cbn [obind]. eauto.
    - cbn [obind]. rewrite Hy2, Hy3, Hy4. cbn [obind]. eauto.
  Qed.
End Content.

Section Reachable.
  Context {T : Type} {NT : Num T} {OL : OrdLaws T} {LT : Libm T} {E : Env T}.
  Context {F : Type} (ev : F -> vec T -> outcome (T * F)).

  Definition plot_mode_is (o : options T) (c : cmaes T F) : Prop :=
    match c_plot c with Some p => pl_mode p = o_mode o | None => True end.
  Lemma plot_add_mode : forall e (s : state T) h p p', plot_add_point e s h p = Ret p' -> pl_mode p' = pl_mode p.
  Proof.
    intros e s h p p' H. unfold plot_add_point in H.
    destruct (match pl_last_generation p with Some g => (g =? st_generation s)%N | None => false end).
    - apply Ret_inj in H. subst; auto.
    - oinv H. apply Ret_inj in H. subst. reflexivity.
  Qed.
  Lemma reaches_plot_mode : forall o f c, reaches ev o f c -> plot_mode_is o c.
  Proof.
    intros o f c [c0 [l [[rs [now Hb]] H]]]. revert H. apply steps_invariant.
    - clear. intros c op c' Hc Hq H. unfold plot_mode_is in *. destruct op; try contradiction; cbn [step] in H.
      + unfold add_plot_point in H. destruct (c_plot c) as [p|] eqn:Ep; [|apply Ret_inj in H; subst; rewrite Ep; auto].
        oinv H. apply Ret_inj in H. subst. cbn [c_plot]. rewrite <- Hc. eapply plot_add_mode; eauto.
      + unfold clear_plot in H. destruct (c_plot c) as [p|] eqn:Ep; [|apply Ret_inj in H; subst; rewrite Ep; auto].
        oinv H. apply Ret_inj in H. subst. cbn [c_plot]. unfold plot_clear in Ho. oinv Ho. apply Ret_inj in Ho. subst. exact Hc.
      + apply Ret_inj in H. subst c'. exact Hc.
      + apply Ret_inj in H. subst c'. exact Hc.
      + apply Ret_inj in H. subst c'. unfold print_final_info. destruct (function_evals c =? c_last_print c)%N; exact Hc.
    - clear. intros par tk c r c' Hc H. unfold plot_mode_is in *. apply next_outcome in H.
      destruct H as [[_ [_ [_ X]]]|[inds [ok [_ [_ [_ [_ X]]]]]]]; [rewrite X; exact Hc|].
      destruct X as [[_ [_ [_ [X _]]]]|[_ [_ [reasons [X _]]]]]; [rewrite X; exact Hc|].
      pose proof (nd_plot _ _ _ _ _ X) as Y. destruct (c_plot c) as [p|]; [|rewrite Y; exact I].
      destruct (_ || _); [|rewrite Y; exact Hc]. destruct Y as [p' [Y1 Y2]]. rewrite Y2, <- Hc. eapply plot_add_mode; eauto.
    - apply cmaes_new_inv in Hb. cbv zeta in Hb. destruct Hb as [_ [_ [_ [_ [_ [_ [_ [_ [_ Hp]]]]]]]]]. unfold plot_mode_is.
      destruct (o_plot_options o); [|rewrite Hp; exact I]. destruct Hp as [p' [Hp ->]]. apply plot_add_mode in Hp. exact Hp.
  Qed.

  (* either a generation has been evaluated, or the step size is the initial one *)
  Definition drawable (o : options T) (c : cmaes T F) : Prop :=
    match h_current_best (c_history c) with
    | Some i => nis_nan (i_value i) = false
    | None => st_sigma (c_state c) = o_initial_step_size o
    end.
  Lemma reaches_drawable : forall o f c, reaches ev o f c -> drawable o c.
  Proof.
    intros o f c [c0 [l [[rs [now Hb]] H]]]. revert H. apply steps_invariant.
    - clear. intros c op c' Hc Hq H. destruct (quiet_core _ _ _ _ Hq H) as [_ [_ [K3 [K4 _]]]]. unfold drawable in *.
      rewrite K3, K4. exact Hc.
    - clear. intros par tk c r c' Hc H. apply next_outcome in H. unfold drawable in *.
      destruct H as [[_ [_ [_ X]]]|[inds [ok [X1 [_ [X2 _]]]]]]; [rewrite X; exact Hc|].
      apply history_update_inv in X2. destruct X2 as [b [rest [X3 [_ [_ [X4 _]]]]]]. rewrite X4. cbn [i_value].
      apply sample_Some in X1. destruct X1 as [ys [g [f [pts [_ [_ [X5 [_ [X6 _]]]]]]]]].
      apply eval_points_valued in X5.
      assert (Hin : In b pts). { apply (Permutation.Permutation_in _ (Permutation.Permutation_sym (sort_by_perm (fun a b => sort_cmp (p_mode (c_params c)) (pt_value a) (pt_value b)) pts))).
        rewrite <- X6, X3. left. reflexivity. }
      rewrite Forall_forall in X5. apply X5. exact Hin.
    - apply cmaes_new_inv in Hb. cbv zeta in Hb. destruct Hb as [_ [_ [_ [S1 [S2 _]]]]]. unfold drawable. rewrite S1, S2. reflexivity.
  Qed.
End Reachable.
