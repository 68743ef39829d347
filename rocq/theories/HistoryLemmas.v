(* What is recorded about the generations: best individuals, value histories, medians. *)
From Coq Require Import List NArith ZArith Bool Arith Lia Permutation Sorted.
Require Import Verif.Base Verif.Num Verif.LinAlg Verif.Mode Verif.Weights Verif.Options Verif.Params Verif.Env
  Verif.State Verif.Sampling Verif.History Verif.Termination Verif.Plot Verif.Cmaes Verif.Lib Verif.Order Verif.Sort
  Verif.NextInv Verif.Spec Verif.LogLemmas Verif.TraceLemmas Verif.BuildLemmas Verif.SamplingLemmas Verif.StateLemmas.
Import ListNotations.

Section HistorySpec.
  Context {T : Type} {NT : Num T}.

  (* e is the best entry of g, the first one in some order of the entries (evaluation order when sequential) *)
  Definition generation_best (m : mode) (g : list (entry T)) (e : entry T) : Prop :=
    exists l, Permutation l g /\ first_best m snd l e.
  (* the middle value, or half the sum of the two middle values *)
  Definition middle (s : list T) : T :=
    let n := length s in
    if Nat.even n then ndiv (nadd (nth (n / 2 - 1) s n0) (nth (n / 2) s n0)) n2 else nth (n / 2) s n0.
  Definition generation_median (m : mode) (g : list (entry T)) (v : T) : Prop :=
    exists s, Permutation s (map snd g) /\ StronglySorted (fun a b => is_better m b a = false) s /\ v = middle s.

  (* the overall best of a list of generations, oldest first: everything older is strictly worse, nothing is
     strictly better *)
  Definition overall_best_of (m : mode) (gens : list (list (entry T))) (i : individual T) : Prop :=
    exists pre g post, gens = pre ++ g :: post /\ In (i_point i, i_value i) g /\
      Forall (Forall (fun e => is_better m (i_value i) (snd e) = true)) pre /\
      Forall (Forall (fun e => is_better m (snd e) (i_value i) = false)) (g :: post).

  (* the best median: NaN only if all are NaN *)
  Definition best_median_of (m : mode) (meds : list T) (v : T) : Prop :=
    In v meds /\ Forall (fun x => is_better m x v = false) meds /\
    (nis_nan v = true -> Forall (fun x => nis_nan x = true) meds).
End HistorySpec.

Section HistoryLemmas.
  Context {T : Type} {NT : Num T} {OL : OrdLaws T}.

  Lemma push_bounded_firstn : forall (x : T) L,
    push_bounded x (firstn (N.to_nat max_history_length) L) = firstn (N.to_nat max_history_length) (x :: L).
  Proof.
    intros x L. unfold push_bounded. set (n := N.to_nat max_history_length).
    assert (Hn : max_history_length = N.of_nat n) by (unfold n; rewrite N2Nat.id; reflexivity).
    assert (Hp : 0 < n) by (unfold n, max_history_length; lia).
    destruct (N.ltb_spec max_history_length (N.of_nat (length (x :: firstn n L)))) as [H|H].
    - cbn [length] in H. rewrite Hn in H. rewrite firstn_length in H.
      assert (Hl : length (firstn n L) = n) by (rewrite firstn_length; lia).
      rewrite removelast_firstn_len. cbn [length]. rewrite Hl. simpl pred.
      destruct n as [|k]; [lia|]. rewrite !firstn_cons, firstn_firstn. f_equal. f_equal. lia.
    - cbn [length] in H. rewrite Hn in H. rewrite firstn_length in H.
      destruct n as [|k]; [lia|]. rewrite firstn_cons. assert (length L <= k) by lia.
      rewrite !firstn_all2 by lia. reflexivity.
  Qed.

  Lemma get_median_inv : forall (inds : list (point T)) v, get_median_value inds = Ret v -> v = middle (map pt_value inds).
  Proof.
    intros inds v H. unfold get_median_value in H. unfold middle. rewrite map_length.
    assert (Hi : forall i a, index inds i = Ret a -> nth i (map pt_value inds) n0 = pt_value a).
    { intros i a Hi. apply index_Ret in Hi. apply nth_error_nth. rewrite nth_error_map, Hi. reflexivity. }
    destruct (Nat.even (length inds)).
    - destruct (length inds / 2) as [|k] eqn:Ek; [discriminate|]. oinv H. oinv H. inversion H; subst.
      apply Hi in Ho, Ho0. rewrite Ho0. simpl. rewrite Nat.sub_0_r, Ho. reflexivity.
    - oinv H. inversion H; subst. apply Hi in Ho. rewrite Ho. reflexivity.
  Qed.

  Lemma history_update_inv : forall m inds (h h' : history T), history_update m inds h = Ret h' ->
    exists b rest, inds = b :: rest /\
    let med := middle (map pt_value inds) in
    let cur := mkIndividual (pt_point b) (pt_value b) in
    h_best_values h' = push_bounded (pt_value b) (h_best_values h) /\
    h_median_values h' = push_bounded med (h_median_values h) /\
    h_current_best h' = Some cur /\
    h_overall_best h' = update_overall_best m (h_overall_best h) cur /\
    h_first_median h' = (match h_first_median h with Some x => Some x | None => Some med end) /\
    h_best_median h' = (match h_best_median h with Some x => Some (choose_best m x med) | None => Some med end).
  Proof.
    intros m inds h h' H. unfold history_update in H. oinv H. oinv H. inversion H; subst; clear H. cbn.
    apply get_median_inv in Ho0. subst. destruct inds as [|b rest]; [discriminate|]. inversion Ho; subst.
    exists a, rest. split; auto. cbn. repeat split; auto.
  Qed.

  (* choose_best returns one of its arguments, the better one, ignoring NaN *)
  Lemma nmin_spec : forall x y : T, (nmin x y = x \/ nmin x y = y) /\ nltb x (nmin x y) = false /\
    nltb y (nmin x y) = false /\ (nis_nan (nmin x y) = true -> nis_nan x = true /\ nis_nan y = true).
  Proof.
    intros x y. unfold nmin. destruct (nis_nan x) eqn:Nx.
    - repeat split; auto. + apply ol_lt_nan_l; exact Nx. + apply ol_irrefl.
    - destruct (nis_nan y) eqn:Ny.
      + repeat split; auto; try congruence. * apply ol_irrefl. * apply ol_lt_nan_l; exact Ny.
      + destruct (nltb x y) eqn:L.
        * repeat split; auto; try congruence. -- apply ol_irrefl. -- apply lt_asym. exact L.
        * repeat split; auto; try congruence. apply ol_irrefl.
  Qed.
  Lemma nmax_spec : forall x y : T, (nmax x y = x \/ nmax x y = y) /\ nltb (nmax x y) x = false /\
    nltb (nmax x y) y = false /\ (nis_nan (nmax x y) = true -> nis_nan x = true /\ nis_nan y = true).
  Proof.
    intros x y. unfold nmax. destruct (nis_nan x) eqn:Nx.
    - repeat split; auto. + apply ol_lt_nan_r; exact Nx. + apply ol_irrefl.
    - destruct (nis_nan y) eqn:Ny.
      + repeat split; auto; try congruence. * apply ol_irrefl. * apply ol_lt_nan_r; exact Ny.
      + destruct (nltb y x) eqn:L.
        * repeat split; auto; try congruence. -- apply ol_irrefl. -- apply lt_asym. exact L.
        * repeat split; auto; try congruence. apply ol_irrefl.
  Qed.
  Lemma choose_best_spec : forall m (x y : T),
    let z := choose_best m x y in
    (z = x \/ z = y) /\ is_better m x z = false /\ is_better m y z = false /\
    (nis_nan z = true -> nis_nan x = true /\ nis_nan y = true).
  Proof. intros [] x y; [apply nmin_spec|apply nmax_spec]. Qed.

  Lemma better_nan_l : forall m (a b : T), nis_nan a = true -> is_better m a b = false.
  Proof. intros [] a b H; simpl; [apply ol_lt_nan_l|apply ol_lt_nan_r]; exact H. Qed.
  Lemma better_nan_r : forall m (a b : T), nis_nan b = true -> is_better m a b = false.
  Proof. intros [] a b H; simpl; [apply ol_lt_nan_r|apply ol_lt_nan_l]; exact H. Qed.

  Lemma best_median_snoc : forall m M v x, best_median_of m M v -> best_median_of m (M ++ [x]) (choose_best m v x).
  Proof.
    intros m M v x [H1 [H2 H3]]. destruct (choose_best_spec m v x) as [A [B [C D]]].
    set (z := choose_best m v x) in *. split; [|split].
    - apply in_or_app. destruct A as [-> | ->]; [left; exact H1|right; left; reflexivity].
    - apply Forall_app. split; [|constructor; auto].
      destruct (nis_nan z) eqn:Nz.
      + eapply Forall_impl; [|exact H2]. intros a _. apply better_nan_r. exact Nz.
      + destruct (nis_nan v) eqn:Nv.
        * eapply Forall_impl; [|exact (H3 eq_refl)]. intros a Ha. simpl in Ha. apply better_nan_l. exact Ha.
        * eapply Forall_impl; [|exact H2]. simpl. intros a Ha. exact (better_negtrans m a v z Nv Ha B).
    - intros Nz. destruct (D Nz) as [N1 N2]. apply Forall_app. split; [apply H3; exact N1|constructor; auto].
  Qed.

  Lemma overall_best_snoc : forall m gens i g l b,
    overall_best_of m gens i -> Permutation l g -> first_best m snd l b ->
    Forall (fun e => nis_nan (snd e) = false) (concat (gens ++ [g])) ->
    forall j, update_overall_best m (Some i) (mkIndividual (fst b) (snd b)) = Some j ->
    overall_best_of m (gens ++ [g]) j.
  Proof.
    intros m gens i g l b [pre [g0 [post [Hg [Hin [H1 H2]]]]]] Hp [l1 [l2 [Hl [B1 B2]]]] Hn j Hj.
    rewrite concat_app in Hn. apply Forall_app in Hn. destruct Hn as [Hn Hng]. simpl in Hng. rewrite app_nil_r in Hng.
    assert (Nb : nis_nan (snd b) = false).
    { rewrite Forall_forall in Hng. apply Hng. eapply Permutation_in; [exact Hp|]. rewrite Hl. apply in_or_app. right. left. reflexivity. }
    assert (Ni : nis_nan (i_value i) = false).
    { rewrite Forall_forall in Hn. apply (Hn (i_point i, i_value i)). apply in_concat. exists g0. split; auto.
      rewrite Hg. apply in_or_app. right. left. reflexivity. }
    assert (Bg : Forall (fun e => is_better m (snd e) (snd b) = false) g).
    { eapply Permutation_Forall; [exact Hp|]. rewrite Hl. apply Forall_app. split.
      - eapply Forall_impl; [|exact B1]. simpl. intros a Ha. apply better_asym. exact Ha.
      - constructor; [apply better_irrefl|exact B2]. }
    simpl in Hj. destruct (is_better m (snd b) (i_value i)) eqn:Eb; inversion Hj; subst j; clear Hj.
    - exists gens, g, []. split; [reflexivity|]. cbn [i_point i_value]. split; [|split].
      + eapply Permutation_in; [exact Hp|]. rewrite Hl. apply in_or_app. right. left. destruct b; reflexivity.
      + rewrite Hg. apply Forall_app. split.
        * eapply Forall_impl; [|exact H1]. intros a Ha. eapply Forall_impl; [|exact Ha]. simpl. intros e He.
          eapply better_trans; eauto.
        * rewrite Forall_forall. intros a Ha. rewrite Forall_forall. intros e He. rewrite Forall_forall in H2.
          specialize (H2 a Ha). rewrite Forall_forall in H2. specialize (H2 e He). simpl in H2.
          eapply better_trans_l; [|exact Eb|exact H2]. rewrite Forall_forall in Hn. apply Hn. apply in_concat.
          exists a. split; auto. rewrite Hg. apply in_or_app. right. exact Ha.
      + constructor; [exact Bg|constructor].
    - exists pre, g0, (post ++ [g]). split; [rewrite Hg, <- app_assoc; reflexivity|]. split; [exact Hin|].
      split; [exact H1|]. inversion H2; subst. constructor; [assumption|]. apply Forall_app. split; [assumption|].
      constructor; [|constructor]. eapply Forall_impl; [|exact Bg]. simpl. intros e He.
      eapply better_negtrans; [exact Nb| |]; eauto.
  Qed.

  Lemma overall_best_first : forall m g l b,
    Permutation l g -> first_best m snd l b ->
    overall_best_of m [g] (mkIndividual (fst b) (snd b)).
  Proof.
    intros m g l b Hp [l1 [l2 [Hl [B1 B2]]]]. exists [], g, []. split; [reflexivity|]. cbn [i_point i_value]. split; [|split].
    - eapply Permutation_in; [exact Hp|]. rewrite Hl. apply in_or_app. right. left. destruct b; reflexivity.
    - constructor.
    - constructor; [|constructor]. eapply Permutation_Forall; [exact Hp|]. rewrite Hl. apply Forall_app. split.
      + eapply Forall_impl; [|exact B1]. simpl. intros a Ha. apply better_asym. exact Ha.
      + constructor; [apply better_irrefl|exact B2].
  Qed.

  Context {LT : Libm T} {E : Env T} {F : Type} (ev : F -> vec T -> outcome (T * F)).

  (* one completed generation *)
  Lemma next_best : forall par tk (c c' : cmaes T (F * list (entry T))) r new,
    next (log_ev ev) par tk c = Ret (r, c') -> calls c' = calls c ++ new ->
    reports InvalidFunctionValue r = false ->
    let m := p_mode (c_params c) in
    Forall (fun e => nis_nan (snd e) = false) new /\
    exists l b v, Permutation l new /\ (par = false -> l = new) /\ first_best m snd l b /\ generation_median m new v /\
    let h := c_history c in let h' := c_history c' in
    let cur := mkIndividual (fst b) (snd b) in
    h_best_values h' = push_bounded (snd b) (h_best_values h) /\
    h_median_values h' = push_bounded v (h_median_values h) /\
    h_current_best h' = Some cur /\
    h_overall_best h' = update_overall_best m (h_overall_best h) cur /\
    h_first_median h' = (match h_first_median h with Some x => Some x | None => Some v end) /\
    h_best_median h' = (match h_best_median h with Some x => Some (choose_best m x v) | None => Some v end).
  Proof.
    intros par tk c c' r new H Hc Hr m. apply next_log in H. destruct H as [cands [out [new' [_ [_ [_ [Hc' H]]]]]]].
    assert (new' = new) by (rewrite Hc in Hc'; apply app_inv_head in Hc'; auto). subst new'. rewrite Hr in H.
    destruct H as [Hn [pts [_ [[P1 P2] [Hh _]]]]]. split; [exact Hn|].
    fold m in Hh. set (inds := sort_by (fun a b => sort_cmp m (pt_value a) (pt_value b)) pts) in *.
    destruct (history_update_inv _ _ _ _ Hh) as [b [rest [Hi H]]].
    assert (Np : Forall (fun p => nis_nan (pt_value p) = false) pts).
    { apply Permutation_sym in P1. eapply Permutation_Forall in Hn; [|exact P1]. rewrite Forall_map in Hn. exact Hn. }
    exists (map pt_entry pts), (pt_entry b), (middle (map pt_value inds)).
    split; [exact P1|]. split; [exact P2|]. split; [|split; [|exact H]].
    - destruct (sort_head m pt_value pts Np b rest Hi) as [l1 [l2 [Hl [B1 B2]]]].
      exists (map pt_entry l1), (map pt_entry l2). rewrite Hl, map_app. split; [reflexivity|].
      rewrite !Forall_map. split; [exact B1|exact B2].
    - exists (map pt_value inds). split; [|split; [|reflexivity]].
      + apply Permutation_trans with (map snd (map pt_entry pts)).
        * rewrite map_map. change (fun x => snd (pt_entry x)) with (fun x : point T => pt_value x).
          apply Permutation_map. apply Permutation_sym, sort_by_perm.
        * apply Permutation_map. exact P1.
      + pose proof (sort_ranked m pt_value pts Np) as Hs. unfold ranked in Hs. fold inds in Hs.
        clear -Hs. induction Hs; simpl; constructor; auto. rewrite Forall_map. assumption.
  Qed.

  Lemma generations_snoc : forall h (x : call T),
    generations (h ++ [x]) = generations h ++ if reports InvalidFunctionValue (k_result x) then [] else [k_evals x].
  Proof.
    intros h x. unfold generations. rewrite filter_app, map_app. f_equal. simpl. unfold valid.
    destruct (reports InvalidFunctionValue (k_result x)); reflexivity.
  Qed.

  Record recorded (m : mode) (gens : list (list (entry T))) (h : history T) (B : list (entry T)) (M : list T) : Prop := {
    rc_nan : Forall (fun e => nis_nan (snd e) = false) (concat gens);
    rc_best : Forall2 (generation_best m) gens B;
    rc_median : Forall2 (generation_median m) gens M;
    rc_best_values : h_best_values h = firstn (N.to_nat max_history_length) (rev (map snd B));
    rc_median_values : h_median_values h = firstn (N.to_nat max_history_length) (rev M);
    rc_current : h_current_best h = match rev B with b :: _ => Some (mkIndividual (fst b) (snd b)) | [] => None end;
    rc_overall : match gens with [] => h_overall_best h = None
                 | _ => exists i, h_overall_best h = Some i /\ overall_best_of m gens i end;
    rc_first_median : h_first_median h = hd_error M;
    rc_best_median : match M with [] => h_best_median h = None
                     | _ => exists v, h_best_median h = Some v /\ best_median_of m M v end
  }.

  Lemma used_recorded : forall o f seed h c, used ev o f seed h c ->
    exists B M, recorded (o_mode o) (generations h) (c_history c) B M.
  Proof.
    intros o f seed. apply used_core_invariant.
    - intros h c c' [_ [_ [_ [H _]]]]. rewrite H. auto.
    - intros now c0 _ _ Hh _ _ _. exists [], []. rewrite Hh. constructor; cbn; auto; try constructor;
        rewrite firstn_nil; reflexivity.
    - intros h c par tk r new c' Hu Hnx Hc [B [M H]]. rewrite generations_snoc. cbn [k_result k_evals].
      destruct (reports InvalidFunctionValue r) eqn:R.
      + rewrite app_nil_r. exists B, M. apply next_outcome in Hnx.
        destruct Hnx as [[_ [_ [_ ->]]]|[inds [ok [_ [R' _]]]]]; [exact H|congruence].
      + pose proof (next_best _ _ _ _ _ _ Hnx Hc R) as [Hn [l [b [v [P1 [_ [Fb [Gm [A1 [A2 [A3 [A4 [A5 A6]]]]]]]]]]]]].
        pose proof (used_setup _ _ _ _ _ _ Hu) as [Hp _].
        assert (Hm : p_mode (c_params c) = o_mode o) by (rewrite Hp; reflexivity). rewrite Hm in *.
        destruct H as [C0 C1 C2 C3 C4 C5 C6 C7 C8].
        assert (N0 : Forall (fun e => nis_nan (snd e) = false) (concat (generations h ++ [new]))).
        { rewrite concat_app. apply Forall_app. split; [exact C0|]. simpl. rewrite app_nil_r. exact Hn. }
        exists (B ++ [b]), (M ++ [v]). constructor.
        * exact N0.
        * apply Forall2_app; [exact C1|]. constructor; [|constructor]. exists l. auto.
        * apply Forall2_app; [exact C2|]. constructor; [exact Gm|constructor].
        * rewrite A1, C3, push_bounded_firstn, map_app, rev_app_distr. reflexivity.
        * rewrite A2, C4, push_bounded_firstn, rev_app_distr. reflexivity.
        * rewrite A3, rev_app_distr. reflexivity.
        * rewrite A4. destruct (generations h) as [|g gs] eqn:Eg.
          -- rewrite C6. simpl. eexists. split; [reflexivity|]. eapply overall_best_first; eauto.
          -- destruct C6 as [i [-> Hi]]. cbn [app].
             destruct (update_overall_best (o_mode o) (Some i) (mkIndividual (fst b) (snd b))) as [j|] eqn:Ej.
             ++ exists j. split; [reflexivity|]. exact (overall_best_snoc (o_mode o) (g :: gs) i new l b Hi P1 Fb N0 j Ej).
             ++ simpl in Ej. destruct (is_better _ _ _); discriminate.
        * rewrite A5, C7. destruct M; reflexivity.
        * rewrite A6. destruct M as [|x M'].
          -- rewrite C8. simpl. exists v. split; auto. split; [left; reflexivity|]. split.
             ++ constructor; [apply better_irrefl|constructor].
             ++ intros N. constructor; [exact N|constructor].
          -- destruct C8 as [w [-> Hw]]. cbn [app]. eexists. split; [reflexivity|].
             exact (best_median_snoc (o_mode o) (x :: M') w v Hw).
  Qed.
End HistoryLemmas.
