(* Lemmas about logged objectives, the random stream and the rounds of resampling. *)
From Coq Require Import List NArith ZArith Bool Arith Lia Permutation.
Require Import Verif.Base Verif.Num Verif.LinAlg Verif.Mode Verif.Weights Verif.Options Verif.Params Verif.Env
  Verif.State Verif.Sampling Verif.History Verif.Termination Verif.Plot Verif.Cmaes Verif.Lib Verif.NextInv
  Verif.Spec.
Import ListNotations.

Section Stream.
  Context {T : Type} {NT : Num T} {E : Env T}.

  Lemma rng_after_add : forall n m g, rng_after (n + m) g = rng_after m (rng_after n g).
  Proof. induction n as [|n IH]; simpl; intros; auto. Qed.

  Lemma normal_at_shift : forall n m g, normal_at (rng_after n g) m = normal_at g (n + m).
  Proof. intros. unfold normal_at. rewrite rng_after_add. reflexivity. Qed.

  Lemma draw_vec_spec : forall dim g,
    draw_vec dim g = (map (normal_at g) (seq 0 dim), rng_after dim g).
  Proof.
    induction dim as [|d IH]; intros g; simpl; auto.
    destruct (rng_normal g) as [z g1] eqn:E1. rewrite IH. simpl.
    f_equal. f_equal.
    - unfold normal_at. simpl. rewrite E1. reflexivity.
    - rewrite <- (seq_shift d 0), map_map. apply map_ext. intros n.
      change g1 with (snd (z, g1)). rewrite <- E1. unfold normal_at. simpl. reflexivity.
  Qed.

  Lemma map_seq_shift : forall {A} (f : nat -> A) a n, map f (seq a n) = map (fun i => f (a + i)) (seq 0 n).
  Proof.
    intros A f a n. revert a. induction n as [|n IH]; intros a; simpl; auto.
    f_equal; [f_equal; lia|]. rewrite IH. symmetry. rewrite <- seq_shift, map_map.
    apply map_ext. intros. f_equal. lia.
  Qed.

  Lemma normals_shift : forall dim g n k, normals dim (rng_after (n * dim) g) k = normals dim g (n + k).
  Proof.
    intros. unfold normals. rewrite map_seq_shift. symmetry. rewrite map_seq_shift.
    apply map_ext. intros i. rewrite normal_at_shift. f_equal. lia.
  Qed.

  Lemma draw_vecs_spec : forall n dim g,
    draw_vecs n dim g = (map (normals dim g) (seq 0 n), rng_after (n * dim) g).
  Proof.
    induction n as [|n IH]; intros dim g; simpl; auto.
    rewrite draw_vec_spec, IH. f_equal.
    - f_equal. rewrite <- seq_shift, map_map. apply map_ext. intros k.
      replace (rng_after dim g) with (rng_after (1 * dim) g) by (f_equal; lia).
      rewrite normals_shift. reflexivity.
    - rewrite rng_after_add. reflexivity.
  Qed.
End Stream.

Section Rounds.
  Context {T : Type} {NT : Num T} {LT : Libm T} {E : Env T}.

  Lemma filter_map_snd : forall {A} (l : list A) (bs : list bool) (f : A -> bool),
    Forall2 (fun a b => f a = b) l bs -> map fst (filter snd (combine l bs)) = filter f l.
  Proof.
    intros A l bs f H. induction H as [|a b l bs Hab _ IH]; simpl; auto.
    subst. destruct (f a); simpl; congruence.
  Qed.

  Lemma filter_map_comm : forall {A B} (f : A -> B) (p : B -> bool) l,
    filter p (map f l) = map f (filter (fun a => p (f a)) l).
  Proof. induction l as [|a l IH]; simpl; auto. destruct (p (f a)); simpl; congruence. Qed.

  Lemma to_point_Ret : forall (y mean : vec T) sigma x,
    to_point y mean sigma = Ret x -> x = map2 nadd mean (map (nmul sigma) y).
  Proof. intros. unfold to_point, vadd_c in H. apply check_Ret in H. tauto. Qed.

  (* the point belonging to a step *)
  Definition pt_of (s : state T) (y : vec T) : vec T := map2 nadd (st_mean s) (map (nmul (st_sigma s)) y).

  Definition okb (c : option (constraints T)) (s : state T) (y : vec T) : bool :=
    match c with Some meets => satisfies meets (pt_of s y) | None => true end.

  Lemma ok_constraints_okb : forall c s y b, ok_constraints c s y = Ret b -> okb c s y = b.
  Proof.
    intros [meets|] s y b H; simpl in *.
    - oinv H. apply to_point_Ret in Ho. subst. unfold satisfies, pt_of. rewrite H. reflexivity.
    - congruence.
  Qed.

  (* one round: the steps of the kept candidates *)
  Lemma sample_steps_spec : forall n dim c s g new g',
    sample_steps n dim c s g = Ret (new, g') ->
    let ys := map (fun k => map (fun row => dot row (normals dim g k)) (cm_transform (st_cov s))) (seq 0 n) in
    new = filter (okb c s) ys /\ g' = rng_after (n * dim) g.
  Proof.
    intros n dim c s g new g' H. unfold sample_steps in H. rewrite draw_vecs_spec in H.
    oinv H. oinv H. inversion H; subst; clear H. simpl.
    assert (a = map (fun k => map (fun row => dot row (normals dim g k)) (cm_transform (st_cov s))) (seq 0 n)).
    { apply omap_Ret in Ho. rewrite <- (map_map (normals dim g) (fun z => map (fun row => dot row z) (cm_transform (st_cov s)))).
      remember (map (normals dim g) (seq 0 n)) as zl. clear Heqzl Ho0.
      induction Ho as [|z y zs ys Hz _ IH]; auto. simpl. f_equal; auto.
      unfold mvmul_c in Hz. apply check_Ret in Hz. destruct Hz. subst. reflexivity. }
    subst a. split; auto.
    apply ofilter_Ret in Ho0. destruct Ho0 as [bs [H1 H2]]. subst. apply filter_map_snd.
    eapply Forall2_impl'; [|exact H1]. simpl. intros. apply ok_constraints_okb. assumption.
  Qed.

  (* which steps are kept in round k *)
  Definition okr (c : option (constraints T)) (mx : option N) (s : state T) (k : N) (y : vec T) : bool :=
    acceptance c mx k (pt_of s y).

  Lemma okb_okr : forall c mx s k y,
    okb (match mx with Some m => if (m <=? k)%N then None else c | None => c end) s y = okr c mx s k y.
  Proof.
    intros [meets|] [m|] s k y; unfold okr, acceptance; simpl; auto; destruct (m <=? k)%N; reflexivity.
  Qed.

  Definition step_at (s : state T) (dim : nat) (g : rng_t) (k : nat) : vec T :=
    map (fun row => dot row (normals dim g k)) (cm_transform (st_cov s)).

  Lemma step_at_shift : forall s dim g n k, step_at s dim (rng_after (n * dim) g) k = step_at s dim g (n + k).
  Proof. intros. unfold step_at. rewrite normals_shift. reflexivity. Qed.

  Lemma pt_of_step_at : forall s dim g k, pt_of s (step_at s dim g k) = transformed s (normals dim g k).
  Proof. reflexivity. Qed.

  (* The whole loop. cands are the candidate steps of each round. *)
  Lemma resample_spec : forall fuel dim lambda c mx s i y g ys g',
    resample fuel dim lambda c mx s i y g = Ret (ys, g') ->
    exists cands out,
      rounds (okr c mx s) lambda i (length y) cands out /\
      ys = y ++ out /\
      concat cands = map (step_at s dim g) (seq 0 (length (concat cands))) /\
      g' = rng_after (length (concat cands) * dim) g.
  Proof.
    induction fuel as [|fuel IH]; intros dim lambda c mx s i y g ys g' H; simpl in H;
      destruct (lambda <? length y) eqn:E1; try discriminate;
      destruct (lambda - length y =? 0) eqn:E2; try discriminate;
      apply Nat.ltb_ge in E1; first [apply Nat.eqb_eq in E2 | apply Nat.eqb_neq in E2].
    - inversion H; subst. exists [], []. replace (length ys) with lambda by lia.
      rewrite app_nil_r. simpl. repeat split; auto. constructor.
    - inversion H; subst. exists [], []. replace (length ys) with lambda by lia.
      rewrite app_nil_r. simpl. repeat split; auto. constructor.
    - oinv H. destruct a as [new g1]. apply sample_steps_spec in Ho. destruct Ho as [Hn Hg].
      assert (Hn' : new = filter (okr c mx s i) (map (step_at s dim g) (seq 0 (lambda - length y)))).
      { rewrite Hn. apply filter_ext. intros a. apply okb_okr. }
      clear Hn. subst g1. apply IH in H. destruct H as [cands [out [H1 [H2 [H3 H4]]]]].
      set (cand := map (step_at s dim g) (seq 0 (lambda - length y))) in *.
      assert (Lc : length cand = lambda - length y) by (unfold cand; rewrite map_length, seq_length; reflexivity).
      exists (cand :: cands), (new ++ out). repeat split.
      + subst new. constructor; try lia. rewrite app_length in H1. exact H1.
      + rewrite H2, app_assoc. reflexivity.
      + simpl. rewrite app_length, seq_app, map_app. f_equal.
        * rewrite Lc. reflexivity.
        * rewrite H3 at 1. rewrite (map_seq_shift (step_at s dim g)). simpl. apply map_ext. intros k.
          rewrite step_at_shift, Lc. reflexivity.
      + rewrite H4. simpl. rewrite app_length, Lc, Nat.mul_add_distr_r, rng_after_add. reflexivity.
  Qed.

  Lemma rounds_length : forall accept lambda k have cands (out : list (vec T)),
    rounds accept lambda k have cands out -> have + length out = lambda.
  Proof. induction 1; simpl; try lia. rewrite app_length. lia. Qed.

  (* the same rounds seen as points instead of steps *)
  Lemma rounds_map : forall (f : vec T -> vec T) accept accept' lambda k have cands out,
    (forall k y, accept k y = accept' k (f y)) ->
    rounds accept lambda k have cands out -> rounds accept' lambda k have (map (map f) cands) (map f out).
  Proof.
    intros f accept accept' lambda k have cands out Hf H. induction H as [k|k have cand rest out H1 H2 H3 IH]; simpl.
    - constructor.
    - rewrite map_app.
      replace (map f (filter (accept k) cand)) with (filter (accept' k) (map f cand)).
      + constructor; auto.
        * rewrite map_length. assumption.
        * rewrite filter_map_comm, map_length.
          rewrite (filter_ext (fun a => accept' k (f a)) (accept k)) by (intros; symmetry; apply Hf). exact IH.
      + rewrite filter_map_comm. f_equal. apply filter_ext. intros. symmetry. apply Hf.
  Qed.
End Rounds.

Section Log.
  Context {T : Type} {NT : Num T} {LT : Libm T} {E : Env T}.
  Context {F : Type} (ev : F -> vec T -> outcome (T * F)).

  Definition pt_entry (p : point T) : entry T := (pt_point p, pt_value p).

  Lemma evaluate_point_log : forall s y f r f',
    evaluate_point (log_ev ev) s y f = Ret (r, f') ->
    exists v, snd f' = snd f ++ [(pt_of s y, v)] /\
              match r with
              | Some p => nis_nan v = false /\ pt_entry p = (pt_of s y, v)
              | None => nis_nan v = true
              end.
  Proof.
    intros s y f r f' H. unfold evaluate_point in H. oinv H. oinv H. destruct a0 as [v f1].
    unfold log_ev in Ho0. oinv Ho0. destruct a0 as [v' f2]. inversion Ho0; subst; clear Ho0.
    apply to_point_Ret in Ho. exists v. subst a. inversion H; subst. simpl. split; auto.
    destruct (nis_nan v) eqn:N; auto.
  Qed.

  Lemma evaluate_seq_log : forall s ys f r f',
    evaluate_seq (log_ev ev) s ys f = Ret (r, f') ->
    exists new, snd f' = snd f ++ new /\
      match r with
      | Some pts => new = map pt_entry pts /\ map fst new = map (pt_of s) ys
                    /\ Forall (fun e => nis_nan (snd e) = false) new
      | None => exists pre x v, new = pre ++ [(x, v)] /\ nis_nan v = true
                  /\ Forall (fun e => nis_nan (snd e) = false) pre
                  /\ exists ys1 y ys2, ys = ys1 ++ y :: ys2 /\ map fst pre = map (pt_of s) ys1 /\ x = pt_of s y
      end.
  Proof.
    induction ys as [|y ys IH]; intros f r f' H; simpl in H.
    - inversion H; subst. exists []. rewrite app_nil_r. auto.
    - oinv H. destruct a as [r0 f1]. apply evaluate_point_log in Ho. destruct Ho as [v [Hl Hr]].
      destruct r0 as [p|].
      + oinv H. destruct a as [r1 f2]. apply IH in Ho. destruct Ho as [new [Hn Hr1]].
        destruct Hr as [Nv Hp].
        exists ((pt_of s y, v) :: new).
        inversion H; subst; clear H. split; [rewrite Hn, Hl, <- app_assoc; reflexivity|].
        destruct r1 as [l|].
        * destruct Hr1 as [H1 [H2 H3]]. subst. simpl. rewrite Hp, H2. repeat split; auto.
        * destruct Hr1 as [pre [x [v' [H1 [H2 [H3 [ys1 [y1 [ys2 [H4 [H5 H6]]]]]]]]]]]. subst.
          exists ((pt_of s y, v) :: pre), (pt_of s y1), v'. simpl. repeat split; auto.
          exists (y :: ys1), y1, ys2. simpl. rewrite H5. auto.
      + inversion H; subst; clear H. exists [(pt_of s y, v)]. split; auto.
        exists [], (pt_of s y), v. simpl. repeat split; auto.
        exists [], y, ys. auto.
  Qed.

  (* parallel evaluation *)
  Definition slot_entries (slots : list (option (option (point T)))) : list (entry T) :=
    flat_map (fun o => match o with Some (Some p) => [pt_entry p] | _ => [] end) slots.
  Definition failed (o : option (option (point T))) : bool := match o with Some None => true | _ => false end.

  Lemma nth_error_split3 : forall {A} (l : list A) i a,
    nth_error l i = Some a -> l = firstn i l ++ a :: skipn (S i) l.
  Proof.
    induction l as [|x l IH]; intros [|i] a H; simpl in *; try discriminate.
    - congruence.
    - f_equal. apply IH in H. exact H.
  Qed.

  Lemma evaluate_sched_log : forall s ys sched slots f slots' f',
    evaluate_sched (log_ev ev) s ys sched slots f = Ret (slots', f') ->
    exists new, snd f' = snd f ++ new /\
      (existsb failed slots' = false -> Permutation (slot_entries slots') (slot_entries slots ++ new)) /\
      (existsb failed slots' = true <->
         existsb failed slots = true \/ Exists (fun e => nis_nan (snd e) = true) new) /\
      Forall2 (fun i e => exists y, nth_error ys i = Some y /\ fst e = pt_of s y) sched new /\
      NoDup sched /\ Forall (fun i => nth_error slots i = Some None) sched.
  Proof.
    induction sched as [|i sched IH]; intros slots f slots' f' H; simpl in H.
    - inversion H; subst. exists []. rewrite !app_nil_r. repeat split; auto; try constructor.
      intros [H1|H1]; auto. inversion H1.
    - destruct (nth_error ys i) as [y|] eqn:Ey; [|discriminate].
      destruct (nth_error slots i) as [[|]|] eqn:Es; try discriminate.
      oinv H. destruct a as [r f1]. apply evaluate_point_log in Ho. destruct Ho as [v [Hl Hr]].
      change (Some r :: match slots with [] => [] | _ :: l => skipn i l end)
        with ([Some r] ++ skipn (S i) slots) in H.
      apply IH in H. destruct H as [new [Hn [Hp [He [Hf [Hd Hs]]]]]].
      exists ((pt_of s y, v) :: new). split; [rewrite Hn, Hl, <- app_assoc; reflexivity|].
      pose proof (nth_error_split3 _ _ _ Es) as Hsp.
      assert (Hi : length (firstn i slots) = i).
      { apply firstn_length_le. assert (nth_error slots i <> None) by congruence.
        apply nth_error_Some in H. lia. }
      assert (Hex : existsb failed (firstn i slots ++ [Some r] ++ skipn (S i) slots)
                    = existsb failed slots || nis_nan v).
      { rewrite Hsp at 3. rewrite !existsb_app. cbn [existsb].
        assert (Hfr : failed (Some r) = nis_nan v)
          by (destruct r; [destruct Hr as [Hr _]|]; simpl; congruence).
        rewrite Hfr.
        change (failed None) with false.
        destruct (existsb failed (firstn i slots)); destruct (nis_nan v); simpl;
          rewrite ?orb_true_r, ?orb_false_r; reflexivity. }
      repeat split.
      + intros Hno. specialize (Hp Hno). etransitivity; [exact Hp|].
        assert (nis_nan v = false).
        { destruct (nis_nan v) eqn:Nv; auto. exfalso.
          assert (existsb failed slots' = true); [|congruence]. apply He. left. rewrite Hex. apply orb_true_r. }
        destruct r as [p|]; [|congruence]. destruct Hr as [_ Hr].
        unfold slot_entries. rewrite Hsp at 3. rewrite !flat_map_app. simpl flat_map. rewrite Hr.
        rewrite <- !app_assoc. apply Permutation_app_head. simpl.
        apply Permutation_middle.
      + intros Ht. apply He in Ht. rewrite Hex in Ht. destruct Ht as [Ht|Ht].
        * apply orb_true_iff in Ht. destruct Ht; [left; assumption|right]. constructor. assumption.
        * right. apply Exists_cons_tl. assumption.
      + intros Ht. apply He. rewrite Hex. destruct Ht as [Ht|Ht].
        * left. rewrite Ht. reflexivity.
        * inversion Ht; subst; simpl in *.
          -- left. rewrite H0. apply orb_true_r.
          -- right. assumption.
      + constructor; auto. exists y. auto.
      + constructor; auto. intros Hin. rewrite Forall_forall in Hs. specialize (Hs _ Hin).
        rewrite nth_error_app2, Hi, Nat.sub_diag in Hs by lia. simpl in Hs. discriminate.
      + constructor; auto. rewrite Forall_forall in *. intros j Hj. specialize (Hs _ Hj).
        rewrite Hsp. destruct (Nat.lt_ge_cases j i).
        * rewrite nth_error_app1 in * by lia. assumption.
        * rewrite nth_error_app2 in * by lia. rewrite Hi in *.
          destruct (j - i) eqn:Ej; simpl in *; auto.
  Qed.

  Lemma slot_entries_collected : forall pts, slot_entries (map (fun p => Some (Some p)) pts) = map pt_entry pts.
  Proof. unfold slot_entries. induction pts; simpl; congruence. Qed.
  Lemma slot_entries_repeat : forall n, slot_entries (repeat None n) = [].
  Proof. unfold slot_entries. induction n; simpl; congruence. Qed.
  Lemma failed_repeat : forall n, existsb failed (repeat None n) = false.
  Proof. induction n; simpl; auto. Qed.

  Lemma evaluate_par_log : forall sched s ys f r f',
    evaluate_par (log_ev ev) sched s ys f = Ret (r, f') ->
    exists new, snd f' = snd f ++ new /\
      Forall2 (fun i e => exists y, nth_error ys i = Some y /\ fst e = pt_of s y) sched new /\
      NoDup sched /\
      match r with
      | Some pts => Permutation (map pt_entry pts) new /\ Forall (fun e => nis_nan (snd e) = false) new
                    /\ map pt_point pts = map (pt_of s) ys
      | None => Exists (fun e => nis_nan (snd e) = true) new
      end.
  Proof.
    intros sched s ys f r f' H.
    assert (Hpts : forall pts, r = Some pts -> map pt_point pts = map (pt_of s) ys).
    { intros pts ->. apply evaluate_par_Some in H. clear -H. induction H as [|y p ys pts Hyp _ IH]; simpl; auto.
      destruct Hyp as [_ [Hyp _]]. apply to_point_Ret in Hyp. rewrite Hyp, IH. reflexivity. }
    unfold evaluate_par in H. oinv H. destruct a as [slots f1].
    apply evaluate_sched_log in Ho. destruct Ho as [new [Hn [Hp [He [Hf [Hd _]]]]]].
    rewrite failed_repeat, slot_entries_repeat in *. simpl in Hp.
    change (fun r0 : option (option (point T)) => match r0 with Some None => true | _ => false end)
      with failed in H.
    destruct (existsb failed slots) eqn:Ex.
    - inversion H; subst. exists new. repeat split; auto.
      destruct He as [He _]. destruct (He eq_refl); [discriminate|assumption].
    - oinv H. inversion H; subst. exists new. repeat split; auto.
      + apply collect_slots_Ret in Ho. subst. rewrite slot_entries_collected in Hp. auto.
      + apply Forall_forall. intros e He'. destruct (nis_nan (snd e)) eqn:Ne; auto.
        assert (false = true) by (apply He; right; apply Exists_exists; eauto). discriminate.
  Qed.
End Log.
