(* Sampling, next, run and the other public calls keep the shape invariant and do not panic. *)
From Coq Require Import List NArith ZArith Bool Arith Lia Permutation.
Require Import Verif.Base Verif.Num Verif.LinAlg Verif.Mode Verif.Weights Verif.Options Verif.Params Verif.Env
  Verif.State Verif.Sampling Verif.History Verif.Termination Verif.Plot Verif.Cmaes Verif.Lib
  Verif.NextInv Verif.Spec Verif.LogLemmas Verif.TraceLemmas Verif.BuildLemmas Verif.Sort Verif.PanicLemmas.
Import ListNotations.

Section SampleSafe.
  Context {T : Type} {NT : Num T} {LT : Libm T} {E : Env T}.
  Context {F : Type} (ev : F -> vec T -> outcome (T * F)).
  Context (n : nat) (Hn : 1 <= n).
  Context (pf nf : Prop).

  Definition wf_meets (c : option (constraints T)) : Prop :=
    match c with None => True | Some meets => forall x, length x = n -> safe pf nf (fun _ => True) (meets x) end.
  Context (Hev : forall f x, length x = n -> safe pf nf (fun _ => True) (ev f x)).

  Lemma draw_vec_length : forall dim g, length (fst (draw_vec (T := T) dim g)) = dim.
  Proof.
    induction dim as [|d IH]; intros g; simpl; auto. destruct (rng_normal g) as [z g1].
    specialize (IH g1). destruct (draw_vec d g1) as [v g2]. simpl in *. auto.
  Qed.
  Lemma draw_vecs_length : forall k dim g, length (fst (draw_vecs (T := T) k dim g)) = k /\
    Forall (fun z => length z = dim) (fst (draw_vecs (T := T) k dim g)).
  Proof.
    induction k as [|k IH]; intros dim g; simpl; auto. pose proof (draw_vec_length dim g) as Hd.
    destruct (draw_vec dim g) as [v g1]. specialize (IH dim g1). destruct (draw_vecs k dim g1) as [l g2].
    simpl in *. destruct IH. split; auto.
  Qed.

  Lemma to_point_safe : forall s y, wf_state n s -> length y = n ->
    safe False False (fun x => length x = n) (to_point y (st_mean s) (st_sigma s)).
  Proof.
    intros s y Hs Hy. unfold to_point. apply (safe_vadd False False n); [apply Hs|unfold vscale; rewrite map_length; auto].
  Qed.

  Lemma sample_steps_safe : forall k c s g, wf_state n s -> wf_meets c ->
    safe pf nf (fun r => Forall (fun y : vec T => length y = n) (fst r) /\ length (fst r) <= k /\ (c = None -> length (fst r) = k))
      (sample_steps k n c s g).
  Proof.
    intros k c s g Hs Hc. unfold sample_steps.
    pose proof (draw_vecs_length k n g) as [D1 D2]. destruct (draw_vecs k n g) as [zs g1]. simpl in D1, D2.
    eapply (safe_bind pf nf (fun r => Forall (fun y : vec T => length y = n) r /\ length r = k)).
    { eapply safe_impl; [eapply safe_omap; [exact D2|]|].
      - intros z Hz. eapply safe_mvmul; [apply (ws_transform _ _ Hs)|exact Hz].
      - simpl. intros r [R1 R2]. split; auto. lia. }
    intros ys [Y1 Y2].
    destruct c as [meets|].
    - eapply (safe_bind pf nf (fun r => Forall (fun y : vec T => length y = n) r /\ length r <= length ys)).
      + eapply safe_ofilter; [exact Y1|]. intros y Hy. simpl.
        eapply safe_bind; [eapply safe_weaken; [apply to_point_safe; eauto|intros x Hx; exact Hx]|].
        intros x Hx. apply Hc. exact Hx.
      + intros r [R1 R2]. simpl. repeat split; auto; [lia|discriminate].
    - eapply (safe_bind pf nf (fun r => r = ys)).
      + eapply safe_ofilter_all; [exact Y1|]. intros y Hy. reflexivity.
      + intros r ->. simpl. repeat split; auto. lia.
  Qed.

  (* enough fuel for the resampling loop *)
  Definition fuel_ok (c : option (constraints T)) (mx : option N) (i : N) (fuel : nat) : Prop :=
    match c, mx with
    | None, _ => 1 <= fuel
    | Some _, Some m => N.to_nat (m - i) + 1 <= fuel
    | Some _, None => False
    end.

  Lemma resample_safe : forall fuel lambda c mx s i (y : list (vec T)) g, wf_state n s -> wf_meets c ->
    length y <= lambda -> Forall (fun y : vec T => length y = n) y -> (nf \/ fuel_ok c mx i fuel \/ length y = lambda) ->
    safe pf nf (fun r => Forall (fun y : vec T => length y = n) (fst r) /\ length (fst r) = lambda)
      (resample fuel n lambda c mx s i y g).
  Proof.
    induction fuel as [|fuel IH]; intros lambda c mx s i y g Hs Hc Hl Hy Hf; cbn [resample];
      rewrite (proj2 (Nat.ltb_ge _ _) Hl);
      (destruct (lambda - length y =? 0) eqn:E0; [apply Nat.eqb_eq in E0; simpl; split; auto; lia|]);
      apply Nat.eqb_neq in E0.
    - destruct Hf as [Hf|[Hf|Hf]]; [exact Hf| |lia].
      destruct c; simpl in Hf; [destruct mx|]; simpl in Hf; try lia; contradiction.
    - set (c' := match mx with Some m => if (m <=? i)%N then None else c | None => c end).
      eapply safe_bind.
      + apply (sample_steps_safe (lambda - length y) c'); auto.
        unfold c'. destruct mx as [m|]; auto. destruct (m <=? i)%N; simpl; auto.
      + intros [new g'] [N1 [N2 N3]]. simpl in *. apply IH; auto.
        * rewrite app_length. lia.
        * apply Forall_app. auto.
        * destruct Hf as [Hf|[Hf|Hf]]; [auto| |lia]. rewrite app_length.
          destruct c as [meets|]; simpl in Hf.
          -- destruct mx as [m|]; [|contradiction]. unfold c' in N3. destruct (m <=? i)%N eqn:Em.
             ++ right. right. rewrite (N3 eq_refl). lia.
             ++ apply N.leb_gt in Em. right. left. simpl. lia.
          -- right. right. rewrite N3; [lia|]. unfold c'. destruct mx; auto. destruct (_ <=? _)%N; auto.
  Qed.

  Lemma evaluate_point_safe : forall s y f, wf_state n s -> length y = n ->
    safe pf nf (fun r => match fst r with Some q => wf_point n q | None => True end) (evaluate_point ev s y f).
  Proof.
    intros s y f Hs Hy. unfold evaluate_point.
    eapply safe_bind; [eapply safe_weaken; [apply to_point_safe; eauto|intros x Hx; exact Hx]|].
    intros x Hx. eapply safe_bind; [apply Hev; exact Hx|]. intros [v f'] _. simpl.
    destruct (nis_nan v) eqn:Ev; simpl; auto. repeat split; auto.
  Qed.

  Definition wf_result (k : nat) (r : option (list (point T))) : Prop :=
    match r with Some l => length l = k /\ Forall (wf_point n) l | None => True end.

  Lemma evaluate_seq_safe : forall s ys f, wf_state n s -> Forall (fun y : vec T => length y = n) ys ->
    safe pf nf (fun r => wf_result (length ys) (fst r)) (evaluate_seq ev s ys f).
  Proof.
    induction ys as [|y ys IH]; intros f Hs Hy; simpl; auto. inversion Hy; subst.
    eapply safe_bind; [apply evaluate_point_safe; auto|]. intros [[q|] f1] Hq; simpl in *; [|auto].
    eapply safe_bind; [apply IH; auto|]. intros [[l|] f2] Hl; simpl in *; auto. destruct Hl. split; auto.
  Qed.

  Definition wf_slot (r : option (option (point T))) : Prop :=
    match r with Some (Some q) => wf_point n q | _ => True end.

  Lemma set_slot_nth : forall {A} (l : list A) i a j, i < length l ->
    nth_error (firstn i l ++ [a] ++ skipn (S i) l) j = if Nat.eqb j i then Some a else nth_error l j.
  Proof.
    intros A l i a j Hi. destruct (Nat.eqb j i) eqn:E0.
    - apply Nat.eqb_eq in E0. subst. rewrite nth_error_app2; rewrite firstn_length; [|lia].
      replace (i - Nat.min i (length l)) with 0 by lia. reflexivity.
    - apply Nat.eqb_neq in E0. destruct (Nat.lt_ge_cases j i).
      + rewrite nth_error_app1 by (rewrite firstn_length; lia).
        clear -H Hi. revert i j H Hi. induction l as [|x l IH]; intros [|i] [|j] H Hi; simpl in *; auto; try lia.
        apply IH; lia.
      + rewrite nth_error_app2; rewrite firstn_length; [|lia]. replace (j - Nat.min i (length l)) with (S (j - i - 1)) by lia.
        simpl. clear -H Hi E0. revert i j H Hi E0. induction l as [|x l IH]; intros [|i] [|j] H Hi E0; simpl in *; auto; try lia.
        * rewrite Nat.sub_0_r. reflexivity.
        * apply IH; lia.
  Qed.
  Lemma set_slot_length : forall {A} (l : list A) i a, i < length l ->
    length (firstn i l ++ [a] ++ skipn (S i) l) = length l.
  Proof. intros. rewrite !app_length, firstn_length, skipn_length. simpl. lia. Qed.

  Lemma evaluate_sched_safe : forall s ys sched slots f, wf_state n s -> Forall (fun y : vec T => length y = n) ys ->
    length slots = length ys -> Forall wf_slot slots ->
    (nf \/ (NoDup sched /\ (forall i, i < length ys -> nth_error slots i = Some None <-> In i sched) /\
            (forall i, In i sched -> i < length ys))) ->
    safe pf nf (fun r => length (fst r) = length ys /\ Forall wf_slot (fst r) /\
                         (nf \/ forall i, nth_error (fst r) i <> Some None))
      (evaluate_sched ev s ys sched slots f).
  Proof.
    intros s ys sched. induction sched as [|i sched IH]; intros slots f Hs Hy Hl Hsl Hok; simpl.
    - repeat split; auto. destruct Hok as [Hok|[_ [Hok _]]]; auto. right. intros i Hi.
      assert (i < length ys). { rewrite <- Hl. apply nth_error_Some. congruence. }
      apply Hok in Hi; auto.
    - destruct (nth_error ys i) as [y|] eqn:Ey.
      2: { destruct Hok as [Hok|[_ [_ Hok]]]; [exact Hok|]. apply nth_error_None in Ey.
           assert (i < length ys) by (apply Hok; left; auto). lia. }
      assert (Hi : i < length ys) by (apply nth_error_Some; congruence).
      destruct (nth_error slots i) as [[r|]|] eqn:Es.
      + destruct Hok as [Hok|[_ [Hok _]]]; [exact Hok|].
        assert (nth_error slots i = Some None) by (apply Hok; simpl; auto). congruence.
      + assert (Hly : length y = n). { rewrite Forall_forall in Hy. apply Hy. eapply nth_error_In; eauto. }
        eapply safe_bind; [apply evaluate_point_safe; auto|]. intros [r f1] Hr.
        apply IH; auto.
        * rewrite <- Hl. apply (set_slot_length slots i (Some r)). lia.
        * apply (Forall_app wf_slot (firstn i slots) ([Some r] ++ skipn (S i) slots)).
          split; [|apply (Forall_app wf_slot [Some r] (skipn (S i) slots)); split].
          -- rewrite <- (firstn_skipn i slots) in Hsl. apply Forall_app in Hsl. tauto.
          -- repeat constructor. destruct r; auto.
          -- rewrite <- (firstn_skipn (S i) slots) in Hsl. apply Forall_app in Hsl. tauto.
        * destruct Hok as [Hok|[H1 [H2 H3]]]; auto. right. inversion H1; subst. split; auto. split.
          -- intros j Hj. rewrite (set_slot_nth slots i (Some r)) by lia. destruct (Nat.eqb j i) eqn:Eji.
             ++ apply Nat.eqb_eq in Eji. subst. split; [discriminate|]. intros; contradiction.
             ++ apply Nat.eqb_neq in Eji. rewrite H2 by assumption. simpl. split; [intros [?|?]; [congruence|auto]|auto].
          -- intros j Hj. apply H3. right. auto.
      + apply nth_error_None in Es. lia.
  Qed.

  Lemma collect_safe : forall slots, Forall wf_slot slots ->
    existsb (fun r : option (option (point T)) => match r with Some None => true | _ => false end) slots = false ->
    (nf \/ forall i, nth_error slots i <> Some None) ->
    safe pf nf (fun l => length l = length slots /\ Forall (wf_point n) l) (collect_slots slots).
  Proof.
    induction slots as [|r slots IH]; simpl; intros Hs He Hok; auto. inversion Hs; subst.
    destruct r as [[q|]|]; simpl in *; try discriminate.
    - eapply safe_bind; [apply IH; auto|].
      + destruct Hok as [Hok|Hok]; auto. right. intros i. apply (Hok (S i)).
      + intros l [L1 L2]. simpl. split; auto.
    - destruct Hok as [Hok|Hok]; auto. exfalso. apply (Hok 0). reflexivity.
  Qed.

  Lemma evaluate_par_safe : forall sched s ys f, wf_state n s -> Forall (fun y : vec T => length y = n) ys ->
    (nf \/ Permutation sched (seq 0 (length ys))) ->
    safe pf nf (fun r => wf_result (length ys) (fst r)) (evaluate_par ev sched s ys f).
  Proof.
    intros sched s ys f Hs Hy Hok. unfold evaluate_par. eapply safe_bind.
    - apply evaluate_sched_safe; auto.
      + apply repeat_length.
      + apply Forall_forall. intros x Hx. apply repeat_spec in Hx. subst. simpl. auto.
      + destruct Hok as [Hok|Hok]; auto. right. split; [|split].
        * symmetry in Hok. eapply Permutation_NoDup; [exact Hok|apply seq_NoDup].
        * intros i Hi. split.
          -- intros _. symmetry in Hok. eapply Permutation_in; [exact Hok|]. apply in_seq. lia.
          -- intros _. apply nth_error_repeat. exact Hi.
        * intros i Hi. eapply Permutation_in in Hi; [|exact Hok]. apply in_seq in Hi. lia.
    - intros [slots f'] [S1 [S2 S3]]. simpl in *.
      destruct (existsb _ slots) eqn:Ex; [simpl; auto|].
      eapply safe_bind; [apply collect_safe; auto|]. intros l [L1 L2]. simpl. split; auto. congruence.
  Qed.

  (* the schedule evaluates every point once *)
  Definition sched_ok (par : bool) (lambda : nat) (sched : list nat) : Prop :=
    par = true -> Permutation sched (seq 0 lambda).

  Lemma sample_safe : forall par tk s m (sm : sampler T F), wf_state n s -> sm_dim sm = n ->
    wf_meets (sm_constraints sm) ->
    (nf \/ (fuel_ok (sm_constraints sm) (sm_max_resamples sm) 0 (t_fuel tk) /\
            sched_ok par (N.to_nat (sm_population_size sm)) (t_sched tk))) ->
    safe pf nf (fun r => match fst r with
                         | Some inds => wf_inds n (N.to_nat (sm_population_size sm)) inds
                         | None => True end) (sample ev par tk s m sm).
  Proof.
    intros par tk s m sm Hs Hd Hc Hok. unfold sample. rewrite Hd. eapply safe_bind.
    - apply resample_safe; auto; [simpl; lia|]. destruct Hok as [Hok|[Hok _]]; auto.
    - intros [ys g] [Y1 Y2]. simpl in *.
      eapply (safe_bind pf nf (fun r => wf_result (length ys) (fst r))).
      + destruct par.
        * apply evaluate_par_safe; auto. destruct Hok as [Hok|[_ Hok]]; auto. right. rewrite Y2. apply Hok. reflexivity.
        * apply evaluate_seq_safe; auto.
      + intros [[pts|] f'] Hp; simpl in *; auto. destruct Hp as [P1 P2]. split.
        * rewrite sort_by_length. congruence.
        * eapply Permutation_Forall; [apply sort_by_perm|exact P2].
  Qed.
End SampleSafe.

(* No generation has a NaN median when the objective's values stay away from one of the infinities. *)
Section Calm.
  Context {T : Type} {NT : Num T} {LT : Libm T} {E : Env T}.
  Context {F : Type} (ev : F -> vec T -> outcome (T * F)).

  Definition valued (p : point T) : Prop :=
    nis_nan (pt_value p) = false /\ exists f f', ev f (pt_point p) = Ret (pt_value p, f').
  Lemma evaluate_point_valued : forall s y f p f', evaluate_point ev s y f = Ret (Some p, f') -> valued p.
  Proof.
    intros s y f p f' H. unfold evaluate_point in H. oinv H. oinv H. destruct a0 as [v f1].
    destruct (nis_nan v) eqn:N; inversion H; subst. unfold valued; simpl. split; eauto.
  Qed.
  Lemma evaluate_seq_valued : forall s ys f pts f', evaluate_seq ev s ys f = Ret (Some pts, f') -> Forall valued pts.
  Proof.
    induction ys as [|y ys IH]; intros f pts f' H; simpl in H.
    - inversion H; constructor.
    - oinv H. destruct a as [r f1]. destruct r as [p|]; [|discriminate].
      oinv H. destruct a as [r' f2]. destruct r' as [l|]; inversion H; subst.
      constructor; eauto using evaluate_point_valued.
  Qed.
  Definition valued_slot (r : option (option (point T))) : Prop := match r with Some (Some p) => valued p | _ => True end.
  Lemma evaluate_sched_valued : forall s ys sched slots f slots' f',
    evaluate_sched ev s ys sched slots f = Ret (slots', f') -> Forall valued_slot slots -> Forall valued_slot slots'.
  Proof.
    induction sched as [|i sched IH]; intros slots f slots' f' H Hs; simpl in H.
    - inversion H; subst; auto.
    - destruct (nth_error ys i) as [y|] eqn:Ey; [|discriminate].
      destruct (nth_error slots i) as [[|]|]; try discriminate.
      oinv H. destruct a as [r f1]. eapply IH; [exact H|].
      change (Some r :: match slots with [] => [] | _ :: l => skipn i l end)
        with ([Some r] ++ skipn (S i) slots).
      apply Forall_app. split; [apply Forall_firstn; auto|]. apply Forall_app. split; [|apply Forall_skipn; auto].
      constructor; auto. destruct r; simpl; auto. eapply evaluate_point_valued; eauto.
  Qed.
  Lemma eval_points_valued : forall par tk s ys f pts f',
    eval_points ev par tk s ys f = Ret (Some pts, f') -> Forall valued pts.
  Proof.
    intros [] tk s ys f pts f' H; unfold eval_points in H; [|eapply evaluate_seq_valued; eauto].
    unfold evaluate_par in H. oinv H. destruct a as [slots f1].
    destruct (existsb _ slots); [discriminate|].
    oinv H. inversion H; subst. apply collect_slots_Ret in Ho0. subst.
    apply evaluate_sched_valued in Ho.
    - rewrite Forall_map in Ho. exact Ho.
    - apply Forall_forall. intros x Hx. apply repeat_spec in Hx. subst. simpl. auto.
  Qed.

  (* the middle of two values of the objective is a number *)
  Definition mild_values : Prop := exists V : T -> Prop,
    (forall f x v f', ev f x = Ret (v, f') -> nis_nan v = false -> V v) /\
    (forall a b, V a -> V b -> nis_nan (ndiv (nadd a b) n2) = false).
  (* no generation has a NaN median *)
  Definition mild (lambda : nat) : Prop := Nat.odd lambda = true \/ mild_values.

  Lemma median_calm : forall (inds : list (point T)) v, Forall valued inds -> mild (length inds) -> get_median_value inds = Ret v ->
    nis_nan v = false.
  Proof.
    intros inds v Hi Hm H. unfold get_median_value in H. destruct Hm as [Hm|[V [V1 V2]]].
    - rewrite <- Nat.negb_even in Hm. destruct (Nat.even (length inds)); [discriminate|].
      oinv H. inversion H; subst. unfold index in Ho. destruct (nth_error inds _) eqn:En; [|discriminate].
      inversion Ho; subst. rewrite Forall_forall in Hi. apply Hi. eapply nth_error_In; eauto.
    - assert (G : forall i p, index inds i = Ret p -> V (pt_value p) /\ nis_nan (pt_value p) = false).
      { intros i p Hp. unfold index in Hp. destruct (nth_error inds i) eqn:En; [|discriminate]. inversion Hp; subst.
        rewrite Forall_forall in Hi. destruct (Hi p) as [N [f [f' He]]]; [eapply nth_error_In; eauto|]. split; eauto. }
      destruct (Nat.even (length inds)).
      + destruct (length inds / 2)%nat; [discriminate|]. oinv H. oinv H. inversion H; subst. apply V2; eapply G; eauto.
      + oinv H. inversion H; subst. eapply G; eauto.
  Qed.
  Lemma history_calm : forall m inds (h h' : history T), Forall valued inds -> mild (length inds) -> calm h ->
    history_update m inds h = Ret h' -> calm h'.
  Proof.
    intros m inds h h' Hi Hm Hc H. unfold history_update in H. oinv H. oinv H. inversion H; subst. unfold calm in *. simpl.
    unfold push_bounded. pose proof (median_calm _ _ Hi Hm Ho0).
    destruct (_ <? _)%N; [apply removelast_Forall|]; constructor; auto.
  Qed.
  Lemma next_calm : forall par tk (c c' : cmaes T F) r, mild (N.to_nat (sm_population_size (c_sampler c))) ->
    calm (c_history c) -> next ev par tk c = Ret (r, c') -> calm (c_history c').
  Proof.
    intros par tk c c' r Hm Hc H. apply next_inv in H.
    assert (G : forall inds sm h, sample ev par tk (c_state c) (p_mode (c_params c)) (c_sampler c) = Ret (Some inds, sm) ->
      history_update (p_mode (c_params c)) inds (c_history c) = Ret h -> calm h).
    { intros inds sm h Hs Hh. apply sample_Some in Hs. destruct Hs as [ys [g [f [pts [_ [Hl [He [Hf [Hi _]]]]]]]]].
      assert (Hp : Permutation pts inds) by (subst; apply sort_by_perm).
      eapply history_calm; [| |exact Hc|exact Hh].
      - eapply Permutation_Forall; [exact Hp|]. eapply eval_points_valued; eauto.
      - rewrite <- (Permutation_length Hp). apply Forall2_len in Hf. rewrite <- Hf, Hl. exact Hm. }
    inversion H; subst; simpl; auto.
    - eapply G; eauto.
    - eapply G; [eauto|apply H1].
  Qed.
End Calm.

Section NextSafe.
  Context {T : Type} {NT : Num T} {CL : CastLaws T} {LT : Libm T} {E : Env T}.
  Hypothesis Heig : eigen_shape (T := T).
  Context {F : Type} (ev : F -> vec T -> outcome (T * F)).

  Definition dims (o : options T) : nat := length (o_initial_mean o).
  Definition pop (o : options T) : nat := N.to_nat (o_population_size o).

  Record wf (o : options T) (c : cmaes T F) : Prop := {
    wf_dim : 1 <= dims o;
    wf_pop : 2 <= pop o;
    wf_par : exists seed, c_params c = params_of_options o seed;
    wf_sm_dim : sm_dim (c_sampler c) = dims o;
    wf_sm_con : sm_constraints (c_sampler c) = o_constraints o;
    wf_sm_max : sm_max_resamples (c_sampler c) = o_max_resamples o;
    wf_sm_pop : sm_population_size (c_sampler c) = o_population_size o;
    wf_st : wf_state (dims o) (c_state c);
    wf_hist : wf_history (c_history c);
    wf_plt : match c_plot c with None => True | Some p => wf_plot (dims o) p end
  }.

  Lemma params_wf : forall o seed, 2 <= pop o -> wf_params (dims o) (pop o) (params_of_options o seed).
  Proof.
    intros o seed Hp. assert (Hmu : N.to_nat (o_population_size o / 2) = pop o / 2).
    { unfold pop. rewrite N2Nat.inj_div. reflexivity. }
    assert (Hw : length (p_weights (params_of_options o seed)) = length (iw_weights (iw_new (T := T) (o_population_size o) (o_weights o)))).
    { simpl. unfold iw_finalize. destruct (iw_mu_eff_minus _); rewrite !map_length; reflexivity. }
    assert (Hh : pop o / 2 <= pop o) by (apply Nat.div_le_upper_bound; lia).
    assert (Hl : length (iw_weights (iw_new (T := T) (o_population_size o) (o_weights o))) = pop o / 2 \/
                 length (iw_weights (iw_new (T := T) (o_population_size o) (o_weights o))) = pop o).
    { unfold iw_new. destruct (o_weights o); cbn [iw_weights]; unfold one_to;
        rewrite ?map_length, ?seq_length, ?repeat_length; auto. }
    rewrite <- Hw in Hl. constructor.
    - reflexivity.
    - unfold pop. rewrite N2Nat.id. reflexivity.
    - exact Hmu.
    - destruct Hl as [-> | ->]; auto.
    - destruct Hl as [-> | ->]; auto.
  Qed.

  Lemma state_new_wf : forall m s, wf_state (length m) (state_new (T := T) m s).
  Proof.
    intros m s. constructor; simpl; unfold identity; try apply shape_mbuild; auto; unfold vzeros; apply repeat_length.
  Qed.

  Lemma new_wf : forall random_seed now (f : F) o c, cmaes_new random_seed now f o = Ret (inl c) -> wf o c.
  Proof.
    intros rs now f o c H. apply cmaes_new_inv in H. cbv zeta in H.
    destruct H as [Hv [H1 [H2 [H3 [H4 [_ [_ [_ [_ Hp]]]]]]]]].
    unfold validate in Hv. destruct (length (o_initial_mean o) =? 0) eqn:E1; [discriminate|].
    destruct (o_population_size o <? 2)%N eqn:E2; [discriminate|]. apply Nat.eqb_neq in E1. apply N.ltb_ge in E2.
    constructor; rewrite ?H1, ?H3; simpl; auto.
    - unfold dims. lia.
    - unfold pop. lia.
    - eauto.
    - apply state_new_wf.
    - rewrite H4. constructor.
    - destruct (o_plot_options o) as [po|]; [|rewrite Hp; auto]. destruct Hp as [p' [Hp ->]].
      unfold plot_add_point, plot_new in Hp. simpl in Hp. oinv Hp. inversion Hp; subst; clear Hp.
      rewrite H3 in Ho.
      assert (Hd : 1 <= length (o_initial_mean o)) by lia.
      pose proof (data_add_safe (length (o_initial_mean o)) Hd 2 (le_n 2) 0 _ (c_history c) (plot_data_new (length (o_initial_mean o))) 0
        (state_new_wf (o_initial_mean o) (o_initial_step_size o))) as Hs.
      assert (G : wf_plot_data (length (o_initial_mean o)) a /\ series_length 1 a).
      { rewrite Ho in Hs. apply Hs.
        - unfold wf_plot_data, plot_data_new. simpl. rewrite !repeat_length. auto.
        - unfold series_length, plot_data_new. simpl. repeat split; auto;
            apply Forall_forall; intros x Hx; apply repeat_spec in Hx; subst; auto. }
      split; simpl; [apply G|]. exists 0. apply G.
  Qed.

  Lemma add_plot_safe : forall o c, wf o c -> safe False False (wf o) (add_plot_point c).
  Proof.
    intros o c Hw. unfold add_plot_point. pose proof (wf_plt _ _ Hw) as Hp.
    destruct (c_plot c) as [p|]; [|simpl; auto].
    eapply safe_bind; [apply (plot_add_safe (dims o) (wf_dim _ _ Hw) 2 (le_n 2)); [apply Hw|exact Hp]|]. intros p' Hp'. simpl.
    destruct Hw. constructor; simpl; auto.
  Qed.
  Lemma clear_safe : forall o c, wf o c -> safe False False (wf o) (clear_plot c).
  Proof.
    intros o c Hw. unfold clear_plot. pose proof (wf_plt _ _ Hw) as Hp.
    destruct (c_plot c) as [p|]; [|simpl; auto].
    eapply safe_bind; [apply (plot_clear_safe (dims o) (wf_dim _ _ Hw) 2 (le_n 2)); exact Hp|]. intros p' Hp'. simpl.
    destruct Hw. constructor; simpl; auto.
  Qed.
  Lemma emit_wf : forall o c l, wf o c -> wf o (emit l c).
  Proof. intros o c l Hw. destruct Hw. constructor; simpl; auto. Qed.
  Lemma last_print_wf : forall o c k, wf o c -> wf o (set_last_print k c).
  Proof. intros o c k Hw. destruct Hw. constructor; simpl; auto. Qed.

  Lemma quiet_safe : forall o c op, wf o c -> quiet op -> safe False False (wf o) (step ev c op).
  Proof.
    intros o c op Hw Hq. destruct op; try contradiction; simpl.
    - apply add_plot_safe; auto.
    - apply clear_safe; auto.
    - apply emit_wf; auto.
    - apply emit_wf; auto.
    - unfold print_final_info. destruct (_ =? _)%N; repeat apply emit_wf; auto.
  Qed.

  Context (pf nf : Prop).

  Definition calls_ok (o : options T) : Prop :=
    (forall f x, length x = dims o -> safe pf nf (fun _ => True) (ev f x)) /\
    wf_meets (dims o) pf nf (o_constraints o).
  Definition tick_ok (o : options T) (par : bool) (tk : tick) : Prop :=
    fuel_ok (o_constraints o) (o_max_resamples o) 0 (t_fuel tk) /\ sched_ok par (pop o) (t_sched tk).

  Lemma next_internal_safe : forall o c tk inds, wf o c -> wf_inds (dims o) (pop o) inds ->
    (pf \/ medians_return \/ calm (c_history c)) ->
    safe pf False (fun r => wf o (snd r)) (next_internal tk inds c).
  Proof.
    intros o c tk inds Hw Hi Hcalm. destruct (wf_par _ _ Hw) as [seed Hseed].
    pose proof (params_wf o seed (wf_pop _ _ Hw)) as Hp. rewrite <- Hseed in Hp.
    unfold next_internal. eapply safe_bind.
    { eapply safe_weaken; [|intros x Hx; exact Hx].
      apply (state_update_safe Heig (dims o) (wf_dim _ _ Hw) (pop o) (wf_pop _ _ Hw)); auto. apply Hw. }
    intros [ok st] Hst. simpl in Hst.
    assert (Hw1 : wf o (mkCmaes (c_sampler c) (c_params c) st (c_history c) (c_plot c) (c_print_gap c)
                     (c_last_print c) (c_created c) (c_out c))).
    { destruct Hw. constructor; simpl; auto. }
    set (c1 := mkCmaes _ _ _ _ _ _ _ _ _) in *.
    destruct ok; cbn [negb]; [|simpl; exact Hw1].
    eapply (safe_bind pf False (fun c2 => wf o c2 /\ c_params c2 = c_params c /\ c_history c2 = c_history c)).
    { destruct (c_plot c1) as [p|] eqn:Ep; [|simpl; auto].
      destruct (_ || _); [|simpl; auto]. pose proof (add_plot_safe o c1 Hw1) as Ha.
      destruct (add_plot_point c1) as [c2| |] eqn:Ea; simpl in *; auto; try contradiction. split; auto.
      apply add_plot_point_core in Ea. split; apply Ea. }
    intros c2 [Hw2 [Hp2 Hh2]].
    set (c3 := match c_print_gap c2 with Some gap => _ | None => _ end).
    assert (Hw3 : wf o c3 /\ c_params c3 = c_params c /\ c_history c3 = c_history c).
    { unfold c3. destruct (c_print_gap c2); auto. destruct (_ <=? _)%N; [|destruct (_ <? _)%N]; auto.
      - split; [apply last_print_wf, emit_wf; auto|auto].
      - split; [apply emit_wf; auto|auto]. }
    destruct Hw3 as [Hw3 [Hp3 Hh3]].
    eapply safe_bind.
    { apply (check_termination_safe (dims o) (wf_dim _ _ Hw) (pop o) (wf_pop _ _ Hw)); try apply Hw3; auto; [rewrite Hp3; exact Hp|rewrite Hh3; exact Hcalm]. }
    intros reasons _. destruct reasons; simpl; exact Hw3.
  Qed.

  Lemma cmaes_sample_safe : forall o c par tk, wf o c -> calls_ok o -> (nf \/ tick_ok o par tk) ->
    safe pf nf (fun r => wf o (snd r) /\ match fst r with Some inds => wf_inds (dims o) (pop o) inds | None => True end)
      (cmaes_sample ev par tk c).
  Proof.
    intros o c par tk Hw [Hc1 Hc2] Hok. unfold cmaes_sample.
    pose proof (sample_safe ev (dims o) (wf_dim _ _ Hw) pf nf Hc1 par tk (c_state c) (p_mode (c_params c)) (c_sampler c)
      (wf_st _ _ Hw) (wf_sm_dim _ _ Hw)) as Hs.
    rewrite (wf_sm_con _ _ Hw), (wf_sm_max _ _ Hw), (wf_sm_pop _ _ Hw) in Hs. fold (pop o) in Hs.
    specialize (Hs Hc2 Hok).
    destruct (sample ev par tk (c_state c) (p_mode (c_params c)) (c_sampler c)) as [[r sm]| |] eqn:Es; simpl in *; auto.
    pose proof (sample_setup ev par tk _ _ _ _ _ Es) as [S1 [S2 [S3 S4]]].
    destruct r as [inds|]; simpl in *.
    - eapply safe_bind; [eapply safe_weaken; [apply (history_safe (dims o) (wf_dim _ _ Hw) (pop o) (wf_pop _ _ Hw)); [exact Hs|apply Hw]|intros h Hh; exact Hh]|].
      intros h Hh. simpl. split; auto. destruct Hw. constructor; simpl; auto; congruence.
    - split; auto. destruct Hw. constructor; simpl; auto; congruence.
  Qed.

  (* the medians examined by the stagnation check can be computed *)
  Definition settled (o : options T) (c : cmaes T F) : Prop :=
    pf \/ medians_return (T := T) \/ (mild ev (pop o) /\ calm (c_history c)).

  Lemma next_settled : forall o c par tk r c', wf o c -> settled o c -> next ev par tk c = Ret (r, c') -> settled o c'.
  Proof.
    intros o c par tk r c' Hw [Hs|[Hs|[H1 H2]]] H; [left; auto|right; left; auto|right; right]. split; auto.
    eapply next_calm; [|exact H2|exact H]. rewrite (wf_sm_pop _ _ Hw). exact H1.
  Qed.

  Lemma next_safe_wf : forall o c par tk, wf o c -> settled o c -> calls_ok o -> (nf \/ tick_ok o par tk) ->
    safe pf nf (fun r => wf o (snd r)) (next ev par tk c).
  Proof.
    intros o c par tk Hw Hset Hc Hok. unfold next.
    pose proof (cmaes_sample_safe o c par tk Hw Hc Hok) as Hs.
    destruct (cmaes_sample ev par tk c) as [[[inds|] c1]| |] eqn:Es; simpl in Hs |- *; try tauto.
    destruct Hs as [Hw1 Hi]. eapply safe_nf; [apply next_internal_safe; eauto|auto].
    destruct Hset as [Hset|[Hset|[H1 H2]]]; [left; auto|right; left; auto|right; right].
    unfold cmaes_sample in Es. oinv Es. destruct a as [[inds'|] sm]; [|discriminate]. oinv Es.
    inversion Es; subst. simpl. apply sample_Some in Ho. destruct Ho as [ys [g [f [pts [_ [Hl [He [Hf [Hi' _]]]]]]]]].
    assert (Hp : Permutation pts inds) by (subst; apply sort_by_perm).
    eapply history_calm; [| |exact H2|exact Ho0].
    - eapply Permutation_Forall; [exact Hp|]. eapply eval_points_valued; eauto.
    - rewrite <- (Permutation_length Hp). apply Forall2_len in Hf. rewrite <- Hf, Hl, (wf_sm_pop _ _ Hw). exact H1.
  Qed.
  Lemma next_safe : forall o c par tk, wf o c -> settled o c -> calls_ok o -> (nf \/ tick_ok o par tk) ->
    safe pf nf (fun r => wf o (snd r) /\ settled o (snd r)) (next ev par tk c).
  Proof.
    intros o c par tk Hw Hset Hc Hok. pose proof (next_safe_wf o c par tk Hw Hset Hc Hok) as Hs.
    destruct (next ev par tk c) as [[r c']| |] eqn:En; simpl in *; auto. split; [exact Hs|]. exact (next_settled o c par tk r c' Hw Hset En).
  Qed.
  Lemma quiet_settled : forall o c op, wf o c -> settled o c -> quiet op -> safe pf nf (fun c' => wf o c' /\ settled o c') (step ev c op).
  Proof.
    intros o c op Hw Hset Hq. pose proof (quiet_safe o c op Hw Hq) as Hs.
    destruct (step ev c op) as [c'| |] eqn:Es; simpl in *; try contradiction. split; auto.
    apply (quiet_core ev) in Es; auto. destruct Hset as [Hset|[Hset|[H1 H2]]]; [left; auto|right; left; auto|right; right].
    split; auto. unfold same_core in Es. decompose [and] Es. congruence.
  Qed.

  Lemma run_loop_safe : forall o par fuel env c, wf o c -> settled o c -> calls_ok o -> nf ->
    safe pf nf (fun r => wf o (snd r) /\ settled o (snd r)) (run_loop ev par fuel env c).
  Proof.
    intros o par fuel. induction fuel as [|fuel IH]; intros env c Hw Hset Hc Hnf; simpl; auto.
    eapply safe_bind; [apply next_safe; eauto|]. intros [[d|] c1] [Hw1 Hs1]; simpl in *; auto.
  Qed.
  Lemma run_safe : forall o par fuel env c, wf o c -> settled o c -> calls_ok o -> nf ->
    safe pf nf (fun r => wf o (snd r) /\ settled o (snd r)) (run ev par fuel env c).
  Proof.
    intros o par fuel env c Hw Hset Hc Hnf. unfold run. eapply safe_bind; [apply run_loop_safe; eauto|].
    intros [d c1] [Hw1 Hs1]. simpl in Hw1, Hs1. unfold run_internal.
    eapply (safe_bind pf nf (fun c' => wf o c' /\ settled o c')).
    - eapply (safe_bind pf nf (fun c' => wf o c' /\ settled o c')); [apply (quiet_settled o c1 OAddPlotPoint); simpl; auto|].
      intros c2 [Hw2 Hs2]. destruct (c_print_gap c2); [|simpl; auto].
      apply (quiet_settled o c2 (OPrintFinal _)); simpl; auto.
    - intros c2 Hw2. simpl. auto.
  Qed.
  Lemma steps_safe : forall o l c, wf o c -> settled o c -> calls_ok o -> nf ->
    safe pf nf (fun c' => wf o c' /\ settled o c') (steps ev c l).
  Proof.
    intros o l. induction l as [|op l IH]; intros c Hw Hset Hc Hnf; [simpl; auto|]. cbn [steps].
    eapply (safe_bind pf nf (fun c' => wf o c' /\ settled o c')); [|intros a [A1 A2]; auto].
    destruct op; try (apply quiet_settled; simpl; auto; fail); cbn [step].
    - eapply safe_bind; [apply next_safe; eauto|]. intros [r c1] H1. simpl in *. auto.
    - eapply safe_bind; [apply run_safe; eauto|]. intros [r c1] H1. simpl in *. auto.
  Qed.
End NextSafe.
Arguments wf {T NT LT E F} o c.

Section Reachable.
  Context {T : Type} {NT : Num T} {CL : CastLaws T} {LT : Libm T} {E : Env T}.
  Hypothesis Heig : eigen_shape (T := T).
  Context {F : Type} (ev : F -> vec T -> outcome (T * F)).

  Lemma safe_True : forall {A} (o : outcome A), safe True True (fun _ => True) o.
  Proof. intros A [a|p|]; simpl; auto. Qed.

  (* every optimiser that can be reached satisfies the invariant, whatever the objective does *)
  Lemma reaches_wf : forall o f c, reaches ev o f c -> wf o c.
  Proof.
    intros o f c [c0 [l [[rs [now H1]] H2]]].
    pose proof (steps_safe Heig ev True True o l c0 (new_wf rs now f o c0 H1) (or_introl I)) as H.
    rewrite H2 in H. simpl in H. apply H; auto. split; [intros; apply safe_True|].
    unfold wf_meets. destruct (o_constraints o); auto. intros. apply safe_True.
  Qed.
  Lemma next_wf : forall o par tk c r c', wf o c -> next ev par tk c = Ret (r, c') -> wf o c'.
  Proof.
    intros o par tk c r c' Hw H. pose proof (next_safe Heig ev True True o c par tk Hw (or_introl I)) as Hs.
    rewrite H in Hs. simpl in Hs. apply Hs; auto. split; [intros; apply safe_True|].
    unfold wf_meets. destruct (o_constraints o); auto. intros. apply safe_True.
  Qed.

  (* the medians examined by the stagnation check can be computed in every run *)
  Definition medians_ok (o : options T) : Prop := medians_return (T := T) \/ mild ev (pop o).
  Lemma reaches_settled : forall o f c, medians_ok o -> reaches ev o f c -> settled ev False o c.
  Proof.
    intros o f c [Hm|Hm] Hr; [right; left; auto|]. right. right. split; auto.
    destruct Hr as [c0 [l [[rs [now H1]] H2]]].
    assert (G : wf o c /\ calm (c_history c)); [|apply G].
    eapply (steps_invariant ev (fun c => wf o c /\ calm (c_history c))); [| | |exact H2].
    - intros a op a' [Ha Hb] Hq Hx. split.
      + pose proof (quiet_safe ev o a op Ha Hq) as Hs. rewrite Hx in Hs. exact Hs.
      + apply (quiet_core ev) in Hx; auto. unfold same_core in Hx. decompose [and] Hx. congruence.
    - intros par tk a r a' [Ha Hb] Hx. split; [eapply next_wf; eauto|]. eapply next_calm; [|exact Hb|exact Hx].
      rewrite (wf_sm_pop _ _ Ha). exact Hm.
    - split; [eapply new_wf; eauto|]. apply cmaes_new_inv in H1. cbv zeta in H1.
      destruct H1 as [_ [_ [_ [_ [H4 _]]]]]. rewrite H4. constructor.
  Qed.

  (* C28 *)
  Lemma next_no_panic : forall o f c par tk p, medians_ok o -> reaches ev o f c ->
    (forall g x, length x = dims o -> forall q, ev g x <> Panic q) ->
    (forall meets x, o_constraints o = Some meets -> length x = dims o -> forall q, meets x <> Panic q) ->
    next ev par tk c <> Panic p.
  Proof.
    intros o f c par tk p Hm Hr H1 H2 H. pose proof (reaches_settled o f c Hm Hr) as Hset. apply reaches_wf in Hr.
    pose proof (next_safe Heig ev False True o c par tk Hr Hset) as Hs. rewrite H in Hs. simpl in Hs. apply Hs; auto.
    split.
    - intros g x Hx. specialize (H1 g x Hx). destruct (ev g x); simpl; auto. eapply H1. reflexivity.
    - unfold wf_meets. destruct (o_constraints o) as [meets|]; auto. intros x Hx. specialize (H2 meets x eq_refl Hx).
      destruct (meets x); simpl; auto. eapply H2. reflexivity.
  Qed.

  Lemma steps_no_panic : forall o f c l p, medians_ok o -> reaches ev o f c ->
    (forall g x, length x = dims o -> forall q, ev g x <> Panic q) ->
    (forall meets x, o_constraints o = Some meets -> length x = dims o -> forall q, meets x <> Panic q) ->
    steps ev c l <> Panic p.
  Proof.
    intros o f c l p Hm Hr H1 H2 H. pose proof (reaches_settled o f c Hm Hr) as Hset. apply reaches_wf in Hr.
    pose proof (steps_safe Heig ev False True o l c Hr Hset) as Hs. rewrite H in Hs. simpl in Hs. apply Hs; auto.
    split.
    - intros g x Hx. specialize (H1 g x Hx). destruct (ev g x); simpl; auto. eapply H1. reflexivity.
    - unfold wf_meets. destruct (o_constraints o) as [meets|]; auto. intros x Hx. specialize (H2 meets x eq_refl Hx).
      destruct (meets x); simpl; auto. eapply H2. reflexivity.
  Qed.

  (* a call of next returns when resampling is limited (or there are no constraints) *)
  Lemma next_returns : forall o f c par tk, medians_ok o -> reaches ev o f c ->
    (forall g x, length x = dims o -> exists r, ev g x = Ret r) ->
    (forall meets x, o_constraints o = Some meets -> length x = dims o -> exists b, meets x = Ret b) ->
    tick_ok o par tk -> exists r c', next ev par tk c = Ret (r, c').
  Proof.
    intros o f c par tk Hm Hr H1 H2 Ht. pose proof (reaches_settled o f c Hm Hr) as Hset. apply reaches_wf in Hr.
    pose proof (next_safe Heig ev False False o c par tk Hr Hset) as Hs.
    assert (G : safe False False (fun r => wf o (snd r) /\ settled ev False o (snd r)) (next ev par tk c)).
    { apply Hs; auto. split.
      - intros g x Hx. destruct (H1 g x Hx) as [r ->]. simpl. auto.
      - unfold wf_meets. destruct (o_constraints o) as [meets|]; auto. intros x Hx.
        destruct (H2 meets x eq_refl Hx) as [b ->]. simpl. auto. }
    apply safe_ret in G. destruct G as [[r c'] [G _]]. eauto.
  Qed.

  (* C09 *)
  Lemma resample_forever : forall n, 1 <= n -> forall meets s, wf_state n s ->
    (forall x, length x = n -> meets x = Ret false) ->
    forall fuel lambda i g, 1 <= lambda -> resample fuel n lambda (Some meets) None s i [] g = NoFuel.
  Proof.
    intros n Hn meets s Hs Hf fuel. induction fuel as [|fuel IH]; intros lambda i g Hl; cbn [resample length Nat.ltb Nat.leb];
      (destruct (lambda - 0 =? 0) eqn:E0; [apply Nat.eqb_eq in E0; lia|]); auto.
    assert (Hsm : exists g', sample_steps (lambda - 0) n (Some meets) s g = Ret ([], g')).
    { unfold sample_steps. pose proof (draw_vecs_length (T := T) (lambda - 0) n g) as [D1 D2].
      destruct (draw_vecs (lambda - 0) n g) as [zs g1]. simpl in D1, D2. exists g1.
      assert (Hm : safe False False (fun r => Forall (fun y : vec T => length y = n) r /\ length r = length zs)
                     (omap (mvmul_c (cm_transform (st_cov s))) zs)).
      { eapply safe_omap; [exact D2|]. intros z Hz. eapply safe_mvmul; [apply (ws_transform _ _ Hs)|exact Hz]. }
      apply safe_ret in Hm. destruct Hm as [ys [-> [Y1 _]]]. simpl.
      assert (Hof : ofilter (ok_constraints (Some meets) s) ys = Ret []).
      { induction Y1 as [|y ys Hy _ IHy]; auto. cbn [ofilter ok_constraints].
        pose proof (to_point_safe n s y Hs Hy) as Hp. apply safe_ret in Hp. destruct Hp as [x [-> Hx]]. simpl.
        rewrite Hf by exact Hx. simpl in *. rewrite IHy. reflexivity. }
      simpl in Hof. rewrite Hof. reflexivity. }
    destruct Hsm as [g' ->]. simpl. apply IH. exact Hl.
  Qed.

  Lemma next_forever_wf : forall o c par tk meets, wf o c ->
    o_constraints o = Some meets -> o_max_resamples o = None ->
    (forall x, length x = dims o -> meets x = Ret false) ->
    next ev par tk c = NoFuel.
  Proof.
    intros o c par tk meets Hr Hc Hm Hf. unfold next, cmaes_sample, sample.
    rewrite (wf_sm_con _ _ Hr), (wf_sm_max _ _ Hr), (wf_sm_pop _ _ Hr), (wf_sm_dim _ _ Hr), Hc, Hm.
    rewrite resample_forever; auto; try apply Hr. pose proof (wf_pop _ _ Hr). unfold pop in *. lia.
  Qed.

  Lemma next_forever : forall o f c par tk meets, reaches ev o f c ->
    o_constraints o = Some meets -> o_max_resamples o = None ->
    (forall x, length x = dims o -> meets x = Ret false) ->
    next ev par tk c = NoFuel.
  Proof. intros o f c par tk meets Hr. apply reaches_wf in Hr. eapply next_forever_wf; eauto. Qed.
End Reachable.
