(* Parallel evaluation of an objective whose values do not depend on its state. *)
From Coq Require Import List NArith ZArith Bool Arith Lia Permutation.
Require Import Verif.Base Verif.Num Verif.LinAlg Verif.Mode Verif.Weights Verif.Options Verif.Params Verif.Env
  Verif.State Verif.Sampling Verif.History Verif.Termination Verif.Plot Verif.Cmaes Verif.Lib
  Verif.NextInv Verif.Spec Verif.LogLemmas Verif.TraceLemmas Verif.BuildLemmas Verif.Sort Verif.PanicLemmas Verif.NextSafe
  Verif.RelLemmas Verif.TermLemmas Verif.Session.
Import ListNotations.

Section Par.
  Context {T : Type} {NT : Num T} {LT : Libm T} {E : Env T}.
  Context {F : Type} (ev : F -> vec T -> outcome (T * F)) (value : vec T -> T).
  Hypothesis Hpure : forall f x, exists f', ev f x = Ret (value x, f').

  (* what evaluating the step y gives *)
  Definition result_at (s : state T) (y : vec T) : option (point T) :=
    let x := vadd (st_mean s) (vscale (st_sigma s) y) in
    if nis_nan (value x) then None else Some (mkPoint x y (value x)).
  Fixpoint all_some {A} (l : list (option A)) : option (list A) :=
    match l with
    | [] => Some []
    | Some a :: l' => match all_some l' with Some r => Some (a :: r) | None => None end
    | None :: _ => None
    end.

  Lemma evaluate_point_pure : forall s y f, length y = length (st_mean s) ->
    exists f', evaluate_point ev s y f = Ret (result_at s y, f').
  Proof.
    intros s y f Hl. unfold evaluate_point, to_point, vadd_c, vscale. rewrite map_length, Hl, Nat.eqb_refl. cbn [check obind].
    destruct (Hpure f (vadd (st_mean s) (map (nmul (st_sigma s)) y))) as [f' Hf]. rewrite Hf. cbn [obind]. exists f'. reflexivity.
  Qed.

  Lemma evaluate_seq_pure : forall s ys f, Forall (fun y : vec T => length y = length (st_mean s)) ys ->
    exists f', evaluate_seq ev s ys f = Ret (all_some (map (result_at s) ys), f').
  Proof.
    intros s ys f H. revert f. induction H as [|y ys Hy H IH]; intros f; cbn [evaluate_seq map all_some]; [eauto|].
    destruct (evaluate_point_pure s y f Hy) as [f1 H1]. rewrite H1. cbn [obind].
    destruct (result_at s y) as [p|]; [|eauto]. destruct (IH f1) as [f2 H2]. rewrite H2. cbn [obind].
    destruct (all_some _); eauto.
  Qed.

  (* what is known of the slots: nothing, or the result *)
  Definition slot_ok (s : state T) (ys : list (vec T)) (slots : list (option (option (point T)))) : Prop :=
    length slots = length ys /\
    forall i y r, nth_error ys i = Some y -> nth_error slots i = Some (Some r) -> r = result_at s y.

  Lemma evaluate_sched_pure : forall s ys sched slots f slots' f', Forall (fun y : vec T => length y = length (st_mean s)) ys ->
    slot_ok s ys slots -> evaluate_sched ev s ys sched slots f = Ret (slots', f') ->
    slot_ok s ys slots' /\
    (forall i r, nth_error slots i = Some (Some r) -> nth_error slots' i = Some (Some r)) /\
    (forall i, In i sched -> nth_error slots' i <> Some None).
  Proof.
    intros s ys sched. induction sched as [|i sched IH]; intros slots f slots' f' Hy Hs H; cbn [evaluate_sched] in H.
    - apply Ret_inj in H. inversion H; subst. split; auto.
    - destruct (nth_error ys i) as [y|] eqn:Ey; [|discriminate].
      destruct (nth_error slots i) as [[r|]|] eqn:Es; try discriminate.
      assert (Hl : length y = length (st_mean s)). { rewrite Forall_forall in Hy. apply Hy. eapply nth_error_In; eauto. }
      destruct (evaluate_point_pure s y f Hl) as [f1 H1]. rewrite H1 in H. cbn [obind] in H.
      assert (Hi : i < length slots) by (apply nth_error_Some; congruence).
      destruct Hs as [S1 S2].
      set (new := firstn i slots ++ [Some (result_at s y)] ++ skipn (S i) slots) in *.
      assert (Hn : forall j, nth_error new j = if Nat.eqb j i then Some (Some (result_at s y)) else nth_error slots j).
      { intros j. unfold new. apply (set_slot_nth 1 (le_n 1) slots i (Some (result_at s y)) j Hi). }
      apply IH in H; auto.
      + destruct H as [H2 [H3 H4]]. split; auto. split.
        * intros j r Hj. apply H3. rewrite Hn. destruct (Nat.eqb j i) eqn:Ej; auto. apply Nat.eqb_eq in Ej. congruence.
        * intros j [<-|Hj]; auto. rewrite (H3 i (result_at s y)); [discriminate|]. rewrite Hn, Nat.eqb_refl. reflexivity.
      + split.
        * unfold new. rewrite (set_slot_length 1 (le_n 1) slots i (Some (result_at s y)) Hi). exact S1.
        * intros j y' r Hj Hr. rewrite Hn in Hr. destruct (Nat.eqb j i) eqn:Ej.
          -- apply Nat.eqb_eq in Ej. subst. congruence.
          -- eapply S2; eauto.
  Qed.

  Lemma slots_full : forall s ys slots, slot_ok s ys slots -> (forall i, nth_error slots i <> Some None) ->
    slots = map (fun y => Some (result_at s y)) ys.
  Proof.
    intros s ys slots [H1 H2] H3. revert ys H1 H2. induction slots as [|r slots IH]; intros [|y ys] H1 H2; try discriminate; auto.
    simpl. f_equal.
    - destruct r as [r|]; [|exfalso; apply (H3 0); reflexivity]. f_equal. apply (H2 0 y r); reflexivity.
    - apply IH; auto.
      + intros i. apply (H3 (S i)).
      + intros i. apply (H2 (S i)).
  Qed.
  Lemma collect_full : forall slots l, collect_slots slots = Ret l -> (forall i, nth_error slots i <> Some (@None (option (point T)))) /\
    slots = map (fun p => Some (Some p)) l.
  Proof.
    induction slots as [|[[p|]|] slots IH]; intros l H; simpl in H; try discriminate.
    - apply Ret_inj in H. subst. split; auto. intros [|i]; discriminate.
    - oinv H. apply Ret_inj in H. subst. apply IH in Ho. destruct Ho as [H1 ->]. split; auto.
      intros [|i]; simpl; [discriminate|]. apply H1.
  Qed.
  Lemma all_some_map : forall {A} (l : list (option A)), match all_some l with
    | Some r => l = map Some r
    | None => In None l
    end.
  Proof.
    induction l as [|[a|] l IH]; simpl; auto. destruct (all_some l); simpl; [congruence|auto].
  Qed.

  Lemma evaluate_par_any : forall sched s ys f r f', Forall (fun y : vec T => length y = length (st_mean s)) ys ->
    evaluate_par ev sched s ys f = Ret (r, f') -> r = all_some (map (result_at s) ys).
  Proof.
    intros sched s ys f r f' Hy H. unfold evaluate_par in H. oinv H. destruct a as [slots f1].
    apply evaluate_sched_pure in Ho; auto.
    2: { split; [apply repeat_length|]. intros i y q _ Hq. exfalso. apply nth_error_In in Hq. apply repeat_spec in Hq. discriminate. }
    destruct Ho as [Hs _]. destruct (existsb _ slots) eqn:Ex.
    - apply Ret_inj in H. inversion H; subst. apply existsb_exists in Ex. destruct Ex as [q [Q1 Q2]].
      destruct q as [[q|]|]; try discriminate. apply In_nth_error in Q1. destruct Q1 as [i Hi].
      destruct Hs as [S1 S2]. assert (Hl : i < length ys) by (rewrite <- S1; apply nth_error_Some; congruence).
      apply nth_error_Some in Hl. destruct (nth_error ys i) as [y|] eqn:Ey; [|congruence].
      pose proof (S2 _ _ _ Ey Hi) as Hn. pose proof (all_some_map (map (result_at s) ys)) as Ha.
      destruct (all_some _) as [l|]; auto. assert (Hin : In (result_at s y) (map (result_at s) ys)) by (apply in_map; eapply nth_error_In; eauto).
      rewrite Ha in Hin. rewrite <- Hn in Hin. apply in_map_iff in Hin. destruct Hin as [? [? _]]. discriminate.
    - oinv H. apply Ret_inj in H. inversion H; subst. apply collect_full in Ho. destruct Ho as [H1 H2].
      apply slots_full in Hs; auto. rewrite H2 in Hs.
      assert (Hm : map (result_at s) ys = map Some a).
      { clear -Hs. revert ys Hs. induction a as [|p l IH]; intros [|y ys] Hs; simpl in *; try discriminate; auto.
        injection Hs as Hy Hs. rewrite <- Hy, (IH _ Hs). reflexivity. }
      rewrite Hm. clear. induction a as [|p l IH]; simpl; auto. rewrite <- IH. reflexivity.
  Qed.

  Lemma evaluate_par_perm : forall sched s ys f, Forall (fun y : vec T => length y = length (st_mean s)) ys ->
    Permutation sched (seq 0 (length ys)) ->
    exists f', evaluate_par ev sched s ys f = Ret (all_some (map (result_at s) ys), f').
  Proof.
    intros sched s ys f Hy Hp.
    assert (Hev : forall f x, length x = length (st_mean s) -> safe False False (fun _ => True) (ev f x)).
    { intros g x _. destruct (Hpure g x) as [g' Hg]. rewrite Hg. exact I. }
    assert (G : forall sched slots f, length slots = length ys ->
      NoDup sched -> (forall i, In i sched -> nth_error slots i = Some None) ->
      exists slots' f', evaluate_sched ev s ys sched slots f = Ret (slots', f') /\
        (forall i, nth_error slots' i = Some None -> ~ In i sched /\ nth_error slots i = Some None)).
    { clear Hp f sched. induction sched as [|i sched IH]; intros slots f Hl Hd Hi; cbn [evaluate_sched].
      - exists slots, f. auto.
      - assert (Hs : nth_error slots i = Some None) by (apply Hi; left; auto).
        assert (Hlt : i < length slots) by (apply nth_error_Some; congruence).
        destruct (nth_error ys i) as [y|] eqn:Ey; [|apply nth_error_None in Ey; lia]. rewrite Hs.
        assert (Hly : length y = length (st_mean s)). { rewrite Forall_forall in Hy. apply Hy. eapply nth_error_In; eauto. }
        destruct (evaluate_point_pure s y f Hly) as [f1 H1]. rewrite H1. cbn [obind]. inversion Hd; subst.
        set (new := firstn i slots ++ [Some (result_at s y)] ++ skipn (S i) slots).
        assert (Hn : forall j, nth_error new j = if Nat.eqb j i then Some (Some (result_at s y)) else nth_error slots j).
        { intros j. unfold new. apply (set_slot_nth 1 (le_n 1) slots i (Some (result_at s y)) j Hlt). }
        destruct (IH new f1) as [slots' [f' [A1 A2]]]; auto.
        + unfold new. rewrite (set_slot_length 1 (le_n 1) slots i (Some (result_at s y)) Hlt). exact Hl.
        + intros j Hj. rewrite Hn. destruct (Nat.eqb j i) eqn:Ej; [apply Nat.eqb_eq in Ej; subst; contradiction|]. apply Hi. right. auto.
        + exists slots', f'. split; auto. intros j Hj. apply A2 in Hj. destruct Hj as [J1 J2]. rewrite Hn in J2.
          destruct (Nat.eqb j i) eqn:Ej; [discriminate|]. apply Nat.eqb_neq in Ej. split; auto. intros [<-|Hj]; auto. }
    destruct (G sched (repeat None (length ys)) f) as [slots [f1 [H1 H2]]].
    - apply repeat_length.
    - symmetry in Hp. eapply Permutation_NoDup; [exact Hp|apply seq_NoDup].
    - intros i Hi. eapply Permutation_in in Hi; [|exact Hp]. apply in_seq in Hi. apply nth_error_repeat. lia.
    - pose proof H1 as H0. apply evaluate_sched_pure in H1; auto.
      2: { split; [apply repeat_length|]. intros i y q _ Hq. exfalso. apply nth_error_In in Hq. apply repeat_spec in Hq. discriminate. }
      destruct H1 as [Hs [_ _]].
      assert (Hf : forall i, nth_error slots i <> Some None).
      { intros i Hi. apply H2 in Hi. destruct Hi as [I1 I2]. apply I1. symmetry in Hp. eapply Permutation_in; [exact Hp|].
        apply in_seq. split; [lia|]. rewrite <- (repeat_length (@None (option (point T))) (length ys)). apply nth_error_Some. congruence. }
      apply slots_full in Hs; auto. unfold evaluate_par. rewrite H0. cbn [obind]. rewrite Hs.
      exists f1. assert (G2 : forall l : list (vec T), existsb (fun r : option (option (point T)) => match r with Some None => true | _ => false end)
        (map (fun y => Some (result_at s y)) l) = match all_some (map (result_at s) l) with Some _ => false | None => true end).
      { induction l as [|y l IH]; simpl; auto. destruct (result_at s y); simpl; auto. rewrite IH. destruct (all_some _); auto. }
      rewrite G2. destruct (all_some (map (result_at s) ys)) as [l|] eqn:Ea; auto.
      assert (G3 : forall l r, all_some (map (result_at s) l) = Some r -> collect_slots (map (fun y => Some (result_at s y)) l) = Ret r).
      { clear. induction l as [|y l IH]; intros r H; simpl in *; [congruence|]. destruct (result_at s y); [|discriminate].
        destruct (all_some _) eqn:Ea; [|discriminate]. inversion H; subst. rewrite (IH _ eq_refl). reflexivity. }
      rewrite (G3 _ _ Ea). reflexivity.
  Qed.

  Context {CL : CastLaws T}.

  Definition any_state (a b : F) : Prop := True.

  (* one evaluation strategy against another: the same points *)
  Lemma sample_pure : forall o c p1 t1 p2 t2, wf o c -> t_fuel t1 = t_fuel t2 ->
    (p1 = true -> Permutation (t_sched t1) (seq 0 (pop o))) -> (p2 = true -> Permutation (t_sched t2) (seq 0 (pop o))) ->
    forall c2, alike any_state c c2 ->
    out_rel (fun r1 r2 => fst r1 = fst r2 /\ alike any_state (snd r1) (snd r2)) (cmaes_sample ev p1 t1 c) (cmaes_sample ev p2 t2 c2).
  Proof.
    intros o c p1 t1 p2 t2 Hw Hf Hp1 Hp2 c2 [A1 A2 A3 A4 A5 A6 A7 A8 A9 A10]. unfold cmaes_sample, sample.
    rewrite <- A3, <- A4, <- A5, <- A2. destruct A1 as [S1 S2 S3 S4 S5 _]. rewrite <- S1, <- S2, <- S3, <- S4, <- S5, Hf.
    pose proof (resample_safe (dims o) (wf_dim _ _ Hw) True True (t_fuel t2) (pop o) (sm_constraints (c_sampler c)) (sm_max_resamples (c_sampler c)) (c_state c) 0 []
      (sm_rng (c_sampler c)) (wf_st _ _ Hw)) as Hs.
    rewrite (wf_sm_pop _ _ Hw), (wf_sm_dim _ _ Hw). fold (pop o).
    assert (Hm : wf_meets (dims o) True True (sm_constraints (c_sampler c))).
    { unfold wf_meets. destruct (sm_constraints (c_sampler c)); auto. intros. apply safe_True. }
    specialize (Hs Hm ltac:(simpl; lia) (Forall_nil _) (or_introl I)).
    destruct (resample _ _ _ _ _ _ _ _ _) as [[ys g]| |]; cbn [obind out_rel]; auto.
    destruct Hs as [Hy Hlen]. cbn [fst] in Hy, Hlen.
    assert (Hy' : Forall (fun y : vec T => length y = length (st_mean (c_state c))) ys).
    { eapply Forall_impl; [|exact Hy]. intros y Hl. cbn in Hl. rewrite Hl. symmetry. apply (wf_st _ _ Hw). }
    assert (G : forall (p : bool) t f, (p = true -> Permutation (t_sched t) (seq 0 (pop o))) ->
      exists f', (if p then evaluate_par ev (t_sched t) (c_state c) ys f else evaluate_seq ev (c_state c) ys f)
        = Ret (all_some (map (result_at (c_state c)) ys), f')).
    { intros p t f Hp. destruct p; [apply evaluate_par_perm; auto; rewrite Hlen; auto|apply evaluate_seq_pure; auto]. }
    destruct (G p1 t1 (sm_objective (c_sampler c)) Hp1) as [f1 ->]. destruct (G p2 t2 (sm_objective (c_sampler c2)) Hp2) as [f2 ->].
    cbn [obind]. destruct (all_some _) as [pts|]; cbn [obind].
    - destruct (history_update _ _ _) as [h| |]; cbn [obind out_rel fst snd]; auto. split; auto.
      constructor; cbn; auto; try congruence. constructor; cbn; auto. exact I.
    - cbn [out_rel fst snd]. split; auto. constructor; cbn; auto; try congruence. constructor; cbn; auto; try congruence. exact I.
  Qed.

  Lemma next_internal_tick : forall t1 t2 inds (c : cmaes T F), t_tree t1 = t_tree t2 -> t_now t1 = t_now t2 ->
    next_internal t1 inds c = next_internal t2 inds c.
  Proof. intros t1 t2 inds c H1 H2. unfold next_internal. rewrite H1, H2. reflexivity. Qed.

  Lemma next_pure : forall o c p1 t1 p2 t2, wf o c -> t_fuel t1 = t_fuel t2 -> t_tree t1 = t_tree t2 -> t_now t1 = t_now t2 ->
    (p1 = true -> Permutation (t_sched t1) (seq 0 (pop o))) -> (p2 = true -> Permutation (t_sched t2) (seq 0 (pop o))) ->
    forall c2, alike any_state c c2 ->
    out_rel (fun r1 r2 => fst r1 = fst r2 /\ alike any_state (snd r1) (snd r2)) (next ev p1 t1 c) (next ev p2 t2 c2).
  Proof.
    intros o c p1 t1 p2 t2 Hw Hf Ht Hn Hp1 Hp2 c2 Ha. unfold next. eapply out_rel_bind; [eapply sample_pure; eauto|].
    intros [r1 d1] [r2 d2] [Hr Hd]. cbn [fst snd] in *. subst r2. destruct r1 as [inds|].
    - rewrite (next_internal_tick t1 t2 inds d1) by assumption. apply next_internal_alike. exact Hd.
    - cbn. split; auto. f_equal. eapply term_data_alike. exact Hd.
  Qed.

  (* whatever the schedule was: if it was an execution, next gives the same *)
  Lemma next_pure_any : forall o c tk r c', wf o c -> next ev true tk c = Ret (r, c') ->
    exists c2, next ev false tk c = Ret (r, c2) /\ alike any_state c2 c'.
  Proof.
    intros o c tk r c' Hw H. unfold next in *. oinv H. destruct a as [ri c1].
    assert (G : exists c3, cmaes_sample ev false tk c = Ret (ri, c3) /\ alike any_state c3 c1).
    { unfold cmaes_sample, sample in *.
      pose proof (resample_safe (dims o) (wf_dim _ _ Hw) True True (t_fuel tk) (pop o) (sm_constraints (c_sampler c)) (sm_max_resamples (c_sampler c)) (c_state c) 0 []
        (sm_rng (c_sampler c)) (wf_st _ _ Hw)) as Hs.
      rewrite (wf_sm_pop _ _ Hw), (wf_sm_dim _ _ Hw) in *. fold (pop o) in *.
      assert (Hm : wf_meets (dims o) True True (sm_constraints (c_sampler c))).
      { unfold wf_meets. destruct (sm_constraints (c_sampler c)); auto. intros. apply safe_True. }
      specialize (Hs Hm ltac:(simpl; lia) (Forall_nil _) (or_introl I)).
      destruct (resample _ _ _ _ _ _ _ _ _) as [[ys g]| |]; cbn [obind] in *; try discriminate.
      destruct Hs as [Hy Hlen]. cbn [fst] in Hy, Hlen.
      assert (Hy' : Forall (fun y : vec T => length y = length (st_mean (c_state c))) ys).
      { eapply Forall_impl; [|exact Hy]. intros y Hl. cbn in Hl. rewrite Hl. symmetry. apply (wf_st _ _ Hw). }
      destruct (evaluate_par ev (t_sched tk) (c_state c) ys (sm_objective (c_sampler c))) as [[rp fp]| |] eqn:Ep; cbn [obind] in Ho; try discriminate.
      apply evaluate_par_any in Ep; auto. subst rp.
      destruct (evaluate_seq_pure (c_state c) ys (sm_objective (c_sampler c)) Hy') as [f2 ->]. cbn [obind].
      destruct (all_some _) as [pts|]; cbn [obind] in *.
      - destruct (history_update _ _ _) as [h| |]; cbn [obind] in *; try discriminate. apply Ret_inj in Ho. inversion Ho; subst.
        eexists. split; [reflexivity|]. constructor; cbn; auto. constructor; cbn; auto; try congruence. exact I.
      - apply Ret_inj in Ho. inversion Ho; subst.
        eexists. split; [reflexivity|]. constructor; cbn; auto; try congruence. constructor; cbn; auto; try congruence. exact I. }
    destruct G as [c3 [G1 G2]]. rewrite G1. cbn [obind]. destruct ri as [inds|].
    - pose proof (next_internal_alike any_state tk inds c3 c1 G2) as Hx.
      destruct (out_rel_Ret_r _ _ _ _ Hx H) as [[r' c4] [X1 [X2 X3]]]. cbn [fst snd] in *. subst. eauto.
    - apply Ret_inj in H. inversion H; subst. exists c3. split; auto.
      rewrite (term_data_alike any_state c3 c' [InvalidFunctionValue] G2). reflexivity.
  Qed.
End Par.
