(* The shape invariant and the proof that calls of next do not panic (C28), finish (C08) or not (C09). *)
From Coq Require Import List NArith ZArith Bool Arith Lia Permutation.
Require Import Verif.Base Verif.Num Verif.LinAlg Verif.Mode Verif.Weights Verif.Options Verif.Params Verif.Env
  Verif.State Verif.Sampling Verif.History Verif.Termination Verif.Plot Verif.Cmaes Verif.Lib
  Verif.NextInv Verif.Spec Verif.LogLemmas Verif.TraceLemmas Verif.BuildLemmas Verif.Sort.
Import ListNotations.

(* The outcome satisfies Q if it returns; pf, nf: may it panic, may it run out of fuel? *)
Definition safe {A} (pf nf : Prop) (Q : A -> Prop) (o : outcome A) : Prop :=
  match o with Ret a => Q a | Panic _ => pf | NoFuel => nf end.

Lemma safe_bind : forall {A B} pf nf (Q : A -> Prop) (R : B -> Prop) o k,
  safe pf nf Q o -> (forall a, Q a -> safe pf nf R (k a)) -> safe pf nf R (obind o k).
Proof. intros A B pf nf Q R [a|p|] k H1 H2; simpl in *; auto. Qed.
Lemma safe_weaken : forall {A} (pf nf : Prop) (Q R : A -> Prop) o,
  safe False False Q o -> (forall a, Q a -> R a) -> safe pf nf R o.
Proof. intros A pf nf Q R [a|p|] H1 H2; simpl in *; auto; contradiction. Qed.
Lemma safe_impl : forall {A} (pf nf : Prop) (Q R : A -> Prop) o,
  safe pf nf Q o -> (forall a, Q a -> R a) -> safe pf nf R o.
Proof. intros A pf nf Q R [a|p|] H1 H2; simpl in *; auto. Qed.
Lemma safe_nf : forall {A} (pf nf : Prop) (Q R : A -> Prop) o,
  safe pf False Q o -> (forall a, Q a -> R a) -> safe pf nf R o.
Proof. intros A pf nf Q R [a|p|] H1 H2; simpl in *; auto; contradiction. Qed.
Lemma safe_ret : forall {A} (Q : A -> Prop) o, safe False False Q o <-> exists a, o = Ret a /\ Q a.
Proof.
  intros A Q [a|p|]; simpl; split; try contradiction; eauto.
  - intros [b [H1 H2]]. inversion H1; subst; auto.
  - intros [b [H1 H2]]. discriminate.
  - intros [b [H1 H2]]. discriminate.
Qed.

Lemma safe_omap : forall {A B} pf nf (P : A -> Prop) (Q : B -> Prop) (f : A -> outcome B) l,
  Forall P l -> (forall a, P a -> safe pf nf Q (f a)) ->
  safe pf nf (fun r => Forall Q r /\ length r = length l) (omap f l).
Proof.
  induction l as [|a l IH]; simpl; intros Hl Hf; auto. inversion Hl; subst.
  apply (safe_bind pf nf Q); auto. intros b Hb.
  apply (safe_bind pf nf (fun r => Forall Q r /\ length r = length l)); auto.
  intros bs [H1' H2']. simpl. split; auto.
Qed.
Lemma safe_ofilter : forall {A} pf nf (P : A -> Prop) (f : A -> outcome bool) l,
  Forall P l -> (forall a, P a -> safe pf nf (fun _ => True) (f a)) ->
  safe pf nf (fun r => Forall P r /\ length r <= length l) (ofilter f l).
Proof.
  induction l as [|a l IH]; simpl; intros Hl Hf; auto. inversion Hl; subst.
  apply (safe_bind pf nf (fun _ => True)); auto. intros b _.
  apply (safe_bind pf nf (fun r => Forall P r /\ length r <= length l)); auto.
  intros bs [H1' H2']. simpl. destruct b; simpl; split; auto; lia.
Qed.
Lemma safe_ofilter_all : forall {A} pf nf (P : A -> Prop) (f : A -> outcome bool) l,
  Forall P l -> (forall a, P a -> f a = Ret true) -> safe pf nf (fun r => r = l) (ofilter f l).
Proof.
  induction l as [|a l IH]; simpl; intros Hl Hf; auto. inversion Hl; subst.
  rewrite Hf by assumption. simpl. apply (safe_bind pf nf (fun r => r = l)); auto. intros r ->. reflexivity.
Qed.
Lemma safe_oall : forall {A} pf nf (f : A -> outcome bool) l,
  (forall a, In a l -> safe pf nf (fun _ => True) (f a)) -> safe pf nf (fun _ => True) (oall f l).
Proof.
  induction l as [|a l IH]; simpl; intros Hf; auto.
  apply (safe_bind pf nf (fun _ => True)); auto. intros b _. destruct b; simpl; auto.
Qed.
Lemma safe_oany : forall {A} pf nf (f : A -> outcome bool) l,
  (forall a, In a l -> safe pf nf (fun _ => True) (f a)) -> safe pf nf (fun _ => True) (oany f l).
Proof.
  induction l as [|a l IH]; simpl; intros Hf; auto.
  apply (safe_bind pf nf (fun _ => True)); auto. intros b _. destruct b; simpl; auto.
Qed.
Lemma safe_index : forall {A} pf nf (P : A -> Prop) l i, Forall P l -> i < length l -> safe pf nf P (index l i).
Proof.
  intros A pf nf P l i H Hi. unfold index. destruct (nth_error l i) as [a|] eqn:E; simpl.
  - rewrite Forall_forall in H. apply H. eapply nth_error_In; eauto.
  - apply nth_error_None in E. lia.
Qed.
Lemma Forall_True : forall {A} (l : list A), Forall (fun _ => True) l.
Proof. intros. apply Forall_forall. auto. Qed.

Section Shapes.
  Context {T : Type} {NT : Num T}.

  Definition shape (r c : nat) (m : mat T) : Prop := length m = r /\ Forall (fun row => length row = c) m.

  Lemma shape_is_shape : forall r c m, shape r c m <-> is_shape r c m = true.
  Proof.
    intros r c m. unfold shape, is_shape, rows_have. rewrite andb_true_iff, Nat.eqb_eq, forallb_forall, Forall_forall.
    split; intros [H1 H2]; split; auto; intros x Hx; apply H2 in Hx; apply Nat.eqb_eq; auto.
  Qed.
  Lemma rows_have_shape : forall c (m : mat T), rows_have c m = true <-> Forall (fun row => length row = c) m.
  Proof.
    intros c m. unfold rows_have. rewrite forallb_forall, Forall_forall.
    split; intros H x Hx; apply H in Hx; apply Nat.eqb_eq; auto.
  Qed.
  Lemma shape_ncols : forall r c m, shape r c m -> 1 <= r -> ncols m = c.
  Proof. intros r c [|row m] [H1 H2] Hr; simpl in *; [lia|]. inversion H2; auto. Qed.
  Lemma shape_mbuild : forall r c f, shape r c (mbuild r c f).
  Proof.
    intros. unfold shape, mbuild. rewrite map_length, seq_length. split; auto.
    apply Forall_map, Forall_forall. intros i _. rewrite map_length, seq_length. reflexivity.
  Qed.
  Lemma shape_mscale : forall r c s m, shape r c m -> shape r c (mscale s m).
  Proof.
    intros r c s m [H1 H2]. unfold mscale, mmap, shape. rewrite map_length. split; auto.
    apply Forall_map. eapply Forall_impl; [|exact H2]. simpl. intros. rewrite map_length. auto.
  Qed.
  Lemma shape_mmap : forall r c f m, shape r c m -> shape r c (mmap f m).
  Proof.
    intros r c f m [H1 H2]. unfold mmap, shape. rewrite map_length. split; auto.
    apply Forall_map. eapply Forall_impl; [|exact H2]. simpl. intros. rewrite map_length. auto.
  Qed.
  Lemma shape_madd : forall r c a b, shape r c a -> shape r c b -> shape r c (madd a b).
  Proof.
    intros r c a b [H1 H2] [H3 H4]. unfold madd, shape. rewrite map2_length. split; [unfold mat, vec in *; rewrite H1, H3; apply Nat.min_id|].
    clear H1 H3. revert b H4. induction H2 as [|x a Hx Ha IH]; intros b H4; simpl; [constructor|].
    destruct H4 as [|y b Hy Hb]; constructor; auto. unfold vadd. rewrite map2_length. simpl in Hx, Hy. unfold vec in *. rewrite Hx, Hy. apply Nat.min_id.
  Qed.
  Lemma shape_outer : forall a b : vec T, shape (length a) (length b) (outer a b).
  Proof.
    intros. unfold shape, outer. rewrite map_length. split; auto. apply Forall_map, Forall_forall. intros. apply map_length.
  Qed.
  Lemma shape_transpose : forall n m, shape n n m -> 1 <= n -> shape n n (transpose m).
  Proof.
    intros n m H Hn. unfold transpose. rewrite (shape_ncols n n m H Hn). destruct H as [-> _]. apply shape_mbuild.
  Qed.
  Lemma shape_mmul : forall n a b, shape n n a -> shape n n b -> 1 <= n -> shape n n (mmul a b).
  Proof.
    intros n a b [H1 H2] H3 Hn. unfold mmul, shape. rewrite map_length. split; auto.
    apply Forall_map, Forall_forall. intros x _. rewrite map_length, seq_length. eapply shape_ncols; eauto.
  Qed.
  Lemma safe_madd : forall pf nf r c a b, 1 <= r -> shape r c a -> shape r c b -> safe pf nf (shape r c) (madd_c a b).
  Proof.
    intros pf nf r c a b Hr Ha Hb. unfold madd_c, check, same_shape.
    rewrite (shape_ncols r c a Ha Hr). pose proof Ha as [-> _].
    rewrite (proj1 (shape_is_shape r c b) Hb), (proj1 (shape_is_shape r c a) Ha). simpl. apply shape_madd; auto.
  Qed.
  Lemma safe_mmul : forall pf nf n a b, 1 <= n -> shape n n a -> shape n n b -> safe pf nf (shape n n) (mmul_c a b).
  Proof.
    intros pf nf n a b Hn Ha Hb. unfold mmul_c, check. pose proof Hb as [Hl _]. rewrite Hl.
    destruct Ha as [Ha1 Ha2]. rewrite (proj2 (rows_have_shape n a) Ha2). simpl. apply shape_mmul; auto. split; auto.
  Qed.
  Lemma safe_mvmul : forall pf nf r c m v, shape r c m -> length v = c ->
    safe pf nf (fun y => length y = r) (mvmul_c m v).
  Proof.
    intros pf nf r c m v [H1 H2] Hv. unfold mvmul_c, check. rewrite Hv, (proj2 (rows_have_shape c m) H2). simpl.
    unfold mvmul. rewrite map_length. auto.
  Qed.
  Lemma safe_vadd : forall pf nf n (a b : vec T), length a = n -> length b = n ->
    safe pf nf (fun y => length y = n) (vadd_c a b).
  Proof.
    intros pf nf n a b Ha Hb. unfold vadd_c, check. rewrite (proj2 (Nat.eqb_eq _ _)) by lia. simpl.
    unfold vadd. rewrite map2_length. lia.
  Qed.
  Lemma safe_vsum_from : forall pf nf n l (acc : vec T), length acc = n -> Forall (fun v => length v = n) l ->
    safe pf nf (fun y => length y = n) (vsum_from acc l).
  Proof.
    induction l as [|v l IH]; simpl; intros acc Ha Hl; auto. inversion Hl; subst.
    eapply safe_bind; [apply safe_vadd; eauto|]. simpl. intros a Hla. apply IH; auto.
  Qed.
  Lemma safe_vsum : forall pf nf n l, l <> [] -> Forall (fun v : vec T => length v = n) l ->
    safe pf nf (fun y => length y = n) (vsum_c l).
  Proof. intros pf nf n [|v l] H Hl; [congruence|]. inversion Hl; subst. apply safe_vsum_from; auto. Qed.
  Lemma safe_msum_from : forall pf nf r c l acc, 1 <= r -> shape r c acc -> Forall (shape r c) l ->
    safe pf nf (shape r c) (msum_from acc l).
  Proof.
    induction l as [|v l IH]; simpl; intros acc Hr Ha Hl; auto. inversion Hl; subst.
    eapply safe_bind; [apply safe_madd; eauto|]. simpl. intros a Hla. apply IH; auto.
  Qed.
  Lemma safe_msum : forall pf nf r c l, 1 <= r -> l <> [] -> Forall (shape r c) l -> safe pf nf (shape r c) (msum_c l).
  Proof. intros pf nf r c [|v l] Hr H Hl; [congruence|]. inversion Hl; subst. apply safe_msum_from; auto. Qed.
  Lemma safe_mget : forall pf nf r c m i j, shape r c m -> i < r -> j < c -> safe pf nf (fun _ => True) (mget_c m i j).
  Proof.
    intros pf nf r c m i j [H1 H2] Hi Hj. unfold mget_c.
    apply (safe_bind pf nf (fun row => length row = c)); [apply safe_index; [assumption|lia]|].
    intros row Hrow. apply safe_index; [apply Forall_True|lia].
  Qed.
  Lemma shape_fill_lower : forall n m, shape n n m -> shape n n (fill_lower m).
  Proof. intros n m [H _]. unfold fill_lower. rewrite H. apply shape_mbuild. Qed.
End Shapes.

(* the casts in check_tol_stagnation: 30% of a window is not more than the window *)
Class CastLaws (T : Type) {NT : Num T} := {
  cast_third : forall n, (n <= 20000)%N -> (nto_usize (nmul (nofN n) (nlit 3 10)) <= n)%N
}.

Section Safe.
  Context {T : Type} {NT : Num T} {CL : CastLaws T} {LT : Libm T} {E : Env T}.
  (* the eigen solver returns results of the right size *)
  Definition eigen_shape : Prop :=
    forall n m vecs vals, shape n n m -> eigen m = Some (vecs, vals) -> shape n n vecs /\ length vals = n.
  Hypothesis Heig : eigen_shape.

  Context (n : nat) (Hn : 1 <= n) (lambda : nat) (Hlam : 2 <= lambda).

  Record wf_state (s : state T) : Prop := {
    ws_mean : length (st_mean s) = n;
    ws_cov : shape n n (cm_cov (st_cov s));
    ws_vecs : shape n n (cm_eigenvectors (st_cov s));
    ws_sqrt : shape n n (cm_sqrt_eigenvalues (st_cov s));
    ws_inv : shape n n (cm_sqrt_inv (st_cov s));
    ws_transform : shape n n (cm_transform (st_cov s));
    ws_path_c : length (st_path_c s) = n;
    ws_path_sigma : length (st_path_sigma s) = n
  }.
  Record wf_params (p : params T) : Prop := {
    wp_dim : p_dim p = N.of_nat n;
    wp_lambda : p_lambda p = N.of_nat lambda;
    wp_mu : N.to_nat (p_mu p) = lambda / 2;
    wp_w1 : lambda / 2 <= length (p_weights p);
    wp_w2 : length (p_weights p) <= lambda
  }.
  Definition wf_point (q : point T) : Prop :=
    length (pt_point q) = n /\ length (pt_step q) = n /\ nis_nan (pt_value q) = false.
  Definition wf_inds (l : list (point T)) : Prop := length l = lambda /\ Forall wf_point l.
  Definition wf_history (h : history T) : Prop := Forall (fun x => nis_nan x = false) (h_best_values h).

  Lemma half_pos : 1 <= lambda / 2.
  Proof. apply Nat.div_le_lower_bound; lia. Qed.
  Lemma half_lt : lambda / 2 < lambda.
  Proof. apply Nat.div_lt; lia. Qed.

  (* ---- state update ---- *)
  Lemma calc_yw_safe : forall p inds, wf_params p -> wf_inds inds ->
    safe False False (fun v => length v = n) (calc_yw p inds).
  Proof.
    intros p inds Hp [Hl Hi]. unfold calc_yw, weighted_steps. destruct Hp as [_ _ Hmu W1 W2].
    pose proof half_pos. pose proof half_lt.
    set (sel := firstn (N.to_nat (p_mu p)) inds).
    assert (Hs : length sel = lambda / 2) by (unfold sel; rewrite firstn_length; lia).
    assert (Hf : Forall wf_point sel).
    { unfold sel. rewrite <- (firstn_skipn (N.to_nat (p_mu p)) inds) in Hi. apply Forall_app in Hi. tauto. }
    eapply safe_bind.
    - apply (safe_omap False False (fun ip => fst ip < length sel /\ wf_point (snd ip)) (fun v => length v = n)).
      + apply Forall_forall. intros [i q] Hin. pose proof (in_combine_l _ _ _ _ Hin) as H1.
        pose proof (in_combine_r _ _ _ _ Hin) as H2. apply in_seq in H1. split; [simpl; lia|].
        rewrite Forall_forall in Hf. auto.
      + intros [i q] [H1 H2]. simpl in *. eapply safe_bind; [apply safe_index; [apply Forall_True|lia]|].
        simpl. intros w _. unfold vscale_r. rewrite map_length. apply H2.
    - simpl. intros l [H1 H2]. apply safe_vsum; auto. rewrite combine_length, seq_length in H2.
      destruct l; [simpl in H2; lia|congruence].
  Qed.

  Lemma contributions_safe : forall p s inds, wf_params p -> wf_state s -> wf_inds inds ->
    safe False False (fun l => Forall (shape n n) l /\ l <> []) (contributions p (cm_sqrt_inv (st_cov s)) inds).
  Proof.
    intros p s inds Hp Hs [Hl Hi]. unfold contributions. destruct Hp as [_ _ Hmu W1 W2]. pose proof half_pos.
    eapply safe_impl.
    - apply (safe_omap False False (fun iw => fst iw < lambda) (shape n n)).
      + apply Forall_forall. intros [i w] Hin. apply in_combine_l in Hin. apply in_seq in Hin. simpl. lia.
      + intros [i w] Hlt. simpl in *. unfold map_weights.
        eapply (safe_bind _ _ (fun _ => True)).
        * destruct (nltb w n0); [|simpl; auto].
          eapply safe_bind; [apply safe_index; [exact Hi|lia]|]. intros q Hq.
          eapply safe_bind; [eapply safe_mvmul; [apply (ws_inv _ Hs)|apply Hq]|]. simpl. auto.
        * intros wc _. eapply safe_bind; [apply safe_index; [exact Hi|lia]|]. intros q [_ [Hq _]]. simpl.
          rewrite <- Hq at 2. replace n with (length (vscale wc (pt_step q))) by (unfold vscale; rewrite map_length; auto).
          apply shape_outer.
    - simpl. intros l [H1 H2]. split; auto. rewrite combine_length, seq_length in H2.
      destruct l; [simpl in H2; lia|congruence].
  Qed.

  Lemma rank_mu_parallel_safe : forall t l, Forall (shape n n) l ->
    safe False False (shape n n) (rank_mu_update_parallel n t l).
  Proof.
    induction t as [|k a IHa b IHb]; intros l Hl; simpl.
    - apply safe_msum_from; auto. apply shape_mbuild.
    - rewrite <- (firstn_skipn k l) in Hl. apply Forall_app in Hl. destruct Hl as [H1 H2].
      eapply safe_bind; [apply IHa; auto|]. intros x Hx. eapply safe_bind; [apply IHb; auto|]. intros y Hy.
      apply safe_madd; auto.
  Qed.

  Lemma set_cov_safe : forall c new upd, shape n n new ->
    shape n n (cm_eigenvectors c) -> shape n n (cm_sqrt_eigenvalues c) -> shape n n (cm_sqrt_inv c) ->
    shape n n (cm_transform c) ->
    safe False False (fun r => shape n n (cm_cov (snd r)) /\ shape n n (cm_eigenvectors (snd r)) /\
      shape n n (cm_sqrt_eigenvalues (snd r)) /\ shape n n (cm_sqrt_inv (snd r)) /\ shape n n (cm_transform (snd r)))
      (set_cov c new upd).
  Proof.
    intros c new upd H0 H1 H2 H3 H4. unfold set_cov. pose proof (shape_fill_lower n new H0) as Hf.
    destruct upd; [|simpl; auto]. unfold update_eigendecomposition. cbn [cm_cov cm_eigenvectors].
    destruct (eigen (fill_lower new)) as [[vecs vals]|] eqn:Ee; [|simpl; auto].
    destruct (Heig n _ _ _ Hf Ee) as [Hv Hl].
    destruct (existsb (fun x => nleb x n0) vals); [simpl; auto|].
    assert (Hv' : shape n n (normalize_columns vecs)).
    { unfold normalize_columns. rewrite (shape_ncols n n vecs Hv Hn). destruct Hv as [-> _]. apply shape_mbuild. }
    assert (Hd : shape n n (from_diagonal (map nsqrt vals))).
    { unfold from_diagonal. rewrite map_length, Hl. apply shape_mbuild. }
    eapply safe_bind; [apply safe_mmul; [exact Hn|exact Hv'|apply shape_mmap; exact Hd]|]. intros t Ht.
    eapply safe_bind; [apply safe_mmul; [exact Hn|exact Ht|apply shape_transpose; auto]|]. intros si Hsi.
    eapply safe_bind; [apply safe_mmul; [exact Hn|exact Hv'|exact Hd]|]. intros tr Htr. simpl. auto.
  Qed.

  Lemma state_update_safe : forall tree evals p inds s, wf_params p -> wf_inds inds -> wf_state s ->
    safe False False (fun r => wf_state (snd r)) (state_update tree evals p inds s).
  Proof.
    intros tree evals p inds s Hp Hi Hs. unfold state_update.
    eapply safe_bind; [apply calc_yw_safe; auto|]. intros yw Hyw.
    eapply safe_bind.
    { unfold calc_mean. apply (safe_vadd False False n); [apply Hs|unfold vscale; rewrite map_length; exact Hyw]. }
    intros mean Hmean. simpl in Hmean.
    eapply (safe_bind False False (fun v => length v = n)).
    { unfold calc_path_sigma. eapply safe_bind.
      - eapply safe_mvmul; [apply shape_mscale; apply (ws_inv _ Hs)|exact Hyw].
      - simpl. intros v Hv. apply safe_vadd; auto. unfold vscale. rewrite map_length. apply Hs. }
    intros ps Hps. eapply (safe_bind False False (fun v => length v = n)).
    { unfold calc_path_c. apply safe_vadd; unfold vscale; rewrite map_length; [apply Hs|exact Hyw]. }
    intros pc Hpc. eapply (safe_bind False False (shape n n)).
    { unfold calc_rank_mu. eapply safe_bind; [apply contributions_safe; auto|]. intros l [Hl1 Hl2].
      destruct (p_parallel_update p).
      - replace (N.to_nat (p_dim p)) with n by (rewrite (wp_dim _ Hp); lia). apply rank_mu_parallel_safe; auto.
      - apply safe_msum; auto. }
    intros rm Hrm. eapply (safe_bind False False (shape n n)).
    { unfold calc_cov. eapply (safe_bind False False (shape n n)).
      - apply safe_madd; auto; [apply shape_mscale; apply Hs|].
        rewrite <- Hpc. replace (length pc) with (length (vscale (p_c1 p) pc)) at 1 by (unfold vscale; apply map_length).
        apply shape_outer.
      - intros m Hm. apply safe_madd; auto. apply shape_mscale; auto. }
    intros cov Hcov. eapply safe_bind; [apply set_cov_safe; try apply Hs; exact Hcov|].
    intros [ok cm] [A1 [A2 [A3 [A4 A5]]]]. simpl in *. destruct ok; simpl; constructor; simpl; auto.
  Qed.

  (* ---- history ---- *)
  Lemma median_safe : forall inds, wf_inds inds -> safe False False (fun _ => True) (get_median_value inds).
  Proof.
    intros inds [Hl Hi]. unfold get_median_value. rewrite Hl. pose proof half_pos. pose proof half_lt.
    destruct (Nat.even lambda).
    - destruct (lambda / 2) as [|k] eqn:Ek; [lia|].
      eapply safe_bind; [apply safe_index; [exact Hi|lia]|]. intros a _.
      eapply safe_bind; [apply safe_index; [exact Hi|lia]|]. simpl. auto.
    - eapply safe_bind; [apply safe_index; [exact Hi|lia]|]. simpl. auto.
  Qed.

  Lemma removelast_Forall : forall {A} (P : A -> Prop) l, Forall P l -> Forall P (removelast l).
  Proof.
    intros A P l H. induction H as [|a l Ha Hl IH]; simpl; auto. destruct l; auto.
  Qed.

  Lemma history_safe : forall m inds h, wf_inds inds -> wf_history h ->
    safe False False wf_history (history_update m inds h).
  Proof.
    intros m inds h Hi Hh. unfold history_update.
    eapply safe_bind; [apply safe_index; [apply Hi|rewrite (proj1 Hi); lia]|]. intros b [_ [_ Hb]].
    eapply safe_bind; [apply median_safe; auto|]. intros md _. simpl. unfold wf_history. simpl.
    unfold push_bounded. destruct (_ <? _)%N; [apply removelast_Forall|]; constructor; auto.
  Qed.

  (* ---- termination ---- *)
  Lemma range_loop_Some : forall l (mn mx : T), Forall (fun x => nis_nan x = false) l -> exists r, range_loop mn mx l = Some r.
  Proof.
    induction l as [|x l IH]; simpl; intros mn mx H; eauto. inversion H; subst. rewrite H2. apply IH. assumption.
  Qed.
  Lemma range_Some : forall l : list T, l <> [] -> Forall (fun x => nis_nan x = false) l -> exists r, range l = Some r.
  Proof.
    intros [|x l] H Hl; [congruence|]. inversion Hl; subst. simpl.
    destruct (range_loop_Some l x x) as [[mn mx] ->]; eauto.
  Qed.
  Lemma range_safe : forall l : list T, l <> [] -> Forall (fun x => nis_nan x = false) l ->
    safe False False (fun _ => True) (unwrap (range l)).
  Proof. intros l H1 H2. destruct (range_Some l H1 H2) as [r ->]. simpl. auto. Qed.

  Lemma past_generations_pos : forall p : params T, (10 <= past_generations p)%N.
  Proof. intros. unfold past_generations. lia. Qed.

  Lemma check_tol_fun_safe : forall p h inds, wf_inds inds -> wf_history h ->
    safe False False (fun _ => True) (check_tol_fun p h inds).
  Proof.
    intros p h inds Hi Hh. unfold check_tol_fun.
    destruct (past_generations p <=? N.of_nat (length (h_best_values h)))%N eqn:E0; [|simpl; auto].
    apply N.leb_le in E0. pose proof (past_generations_pos p).
    eapply (safe_bind _ _ (fun _ => True)).
    { apply range_safe.
      - intros X. apply (f_equal (@length T)) in X. rewrite firstn_length in X. simpl in X. lia.
      - unfold wf_history in Hh. rewrite <- (firstn_skipn (N.to_nat (past_generations p)) (h_best_values h)) in Hh.
        apply Forall_app in Hh. tauto. }
    intros rh _. eapply (safe_bind _ _ (fun _ => True)).
    { destruct Hi as [Hl Hi]. apply range_safe.
      - intros X. apply (f_equal (@length T)) in X. rewrite map_length in X. simpl in X. lia.
      - apply Forall_map. eapply Forall_impl; [|exact Hi]. intros q [_ [_ Hq]]. exact Hq. }
    intros rc _. simpl. auto.
  Qed.

  (* the median of values that include NaN is computed without a panic *)
  Definition medians_return : Prop := forall l : list T, nan_median l <> None.
  (* no generation so far had a NaN median *)
  Definition calm (h : history T) : Prop := Forall (fun x => nis_nan x = false) (h_median_values h).
  Definition median_ok (pf : Prop) (values : list T) : Prop := pf \/ medians_return \/ Forall (fun x => nis_nan x = false) values.
  Lemma existsb_nan : forall l : list T, Forall (fun x => nis_nan x = false) l -> existsb nis_nan l = false.
  Proof. induction 1 as [|x l Hx _ IH]; simpl; auto. rewrite Hx. exact IH. Qed.
  Lemma median_ok_safe : forall pf values, median_ok pf values -> safe pf False (fun _ => True) (data_median values).
  Proof.
    intros pf values H. unfold data_median. destruct (existsb nis_nan values) eqn:Ee; [|simpl; auto].
    destruct H as [H|[H|H]]; [destruct (nan_median values); simpl; auto| |rewrite existsb_nan in Ee; [discriminate|exact H]].
    specialize (H values). destruct (nan_median values); simpl; auto. congruence.
  Qed.
  Lemma Forall_firstn : forall {A} (P : A -> Prop) k l, Forall P l -> Forall P (firstn k l).
  Proof. intros A P k l H. rewrite <- (firstn_skipn k l) in H. apply Forall_app in H. tauto. Qed.
  Lemma Forall_skipn : forall {A} (P : A -> Prop) k l, Forall P l -> Forall P (skipn k l).
  Proof. intros A P k l H. rewrite <- (firstn_skipn k l) in H. apply Forall_app in H. tauto. Qed.
  Lemma regress_safe : forall pf m g values, (g <= 20000)%N -> median_ok pf values -> safe pf False (fun _ => True) (did_values_regress m g values).
  Proof.
    intros pf m g values Hg Hv. unfold did_values_regress. rewrite (proj2 (N.ltb_ge _ _)) by (apply cast_third; exact Hg).
    eapply safe_bind; [apply median_ok_safe; destruct Hv as [Hv|[Hv|Hv]]; [left; auto|right; left; auto|right; right; apply Forall_skipn, Forall_firstn; auto]|].
    intros a _. eapply safe_bind; [apply median_ok_safe; destruct Hv as [Hv|[Hv|Hv]]; [left; auto|right; left; auto|right; right; apply Forall_firstn, Forall_firstn; auto]|].
    simpl. auto.
  Qed.

  Lemma check_termination_safe : forall pf p evals created now s h inds,
    wf_params p -> wf_state s -> wf_inds inds -> wf_history h -> (pf \/ medians_return \/ calm h) ->
    safe pf False (fun _ => True) (check_termination p evals created now s h inds).
  Proof.
    intros pf p evals created now s h inds Hp Hs Hi Hh Hc. unfold check_termination.
    assert (Hd : N.to_nat (p_dim p) = n) by (rewrite (wp_dim _ Hp); lia).
    eapply safe_bind; [eapply safe_weaken; [apply check_tol_fun_safe; auto|intros a Ha; exact Ha]|]. intros r5 _.
    eapply (safe_bind _ _ (fun _ => True)).
    { unfold check_tol_x. eapply safe_bind; [|simpl; auto]. apply safe_oall. intros i Hin. apply in_seq in Hin.
      eapply safe_bind; [eapply safe_mget; [apply (ws_cov _ Hs)|lia|lia]|]. simpl. auto. }
    intros tx _. eapply (safe_bind _ _ (fun _ => True)).
    { unfold check_no_effect_axis. rewrite (proj2 (N.eqb_neq _ _)) by (rewrite (wp_dim _ Hp); lia).
      assert (Hlt : N.to_nat (st_generation s mod p_dim p) < n).
      { rewrite (wp_dim _ Hp). assert (st_generation s mod N.of_nat n < N.of_nat n)%N by (apply N.mod_lt; lia). lia. }
      eapply safe_bind; [eapply safe_mget; [apply (ws_sqrt _ Hs)|lia|lia]|]. intros d _.
      rewrite (shape_ncols n n _ (ws_vecs _ Hs) Hn). rewrite (proj2 (Nat.leb_gt _ _)) by lia.
      eapply safe_bind; [|simpl; auto]. apply (safe_vadd _ _ n); [apply Hs|].
      unfold vscale, column. rewrite !map_length. apply (ws_vecs _ Hs). }
    intros nea _. eapply (safe_bind _ _ (fun _ => True)).
    { unfold check_no_effect_coord. apply safe_oany. intros i Hin. apply in_seq in Hin.
      eapply safe_bind; [apply safe_index; [apply Forall_True|rewrite (ws_mean _ Hs); lia]|]. intros m _.
      eapply safe_bind; [eapply safe_mget; [apply (ws_cov _ Hs)|lia|lia]|]. simpl. auto. }
    intros nec _. eapply (safe_bind _ _ (fun _ => True)).
    { unfold check_tol_stagnation. destruct (tol_stagnation_generations _ _) as [g|] eqn:Eg; [|simpl; auto].
      assert (Hg : (g <= 20000)%N).
      { unfold tol_stagnation_generations in Eg. destruct (_ <? _)%N; inversion Eg. unfold max_history_length. lia. }
      destruct (_ && _); [|simpl; auto]. eapply safe_bind; [apply regress_safe; auto; right; right; exact Hh|]. intros [|] _; [|simpl; auto].
      apply regress_safe; auto. }
    intros ts _. eapply (safe_bind _ _ (fun _ => True)).
    { unfold check_tol_x_up. eapply (safe_bind _ _ (fun _ => True)); [|simpl; auto].
      unfold max_by. destruct (diagonal (cm_sqrt_eigenvalues (st_cov s))) eqn:Ed; [|simpl; auto].
      apply (f_equal (@length T)) in Ed. rewrite diagonal_length, (proj1 (ws_sqrt _ Hs)) in Ed. simpl in Ed. lia. }
    intros txu _. simpl. auto.
  Qed.

  (* ---- plot ---- *)
  Definition wf_plot_data (d : plot_data T) : Prop :=
    length (pd_mean d) = n /\ length (pd_sqrt_eigenvalues d) = n /\ length (pd_coord_scales d) = n.
  (* every series has k entries *)
  Definition series_length (k : nat) (d : plot_data T) : Prop :=
    length (pd_function_evals d) = k /\ length (pd_best d) = k /\ length (pd_median d) = k /\
    length (pd_sigma d) = k /\ length (pd_axis_ratio d) = k /\
    Forall (fun l => length l = k) (pd_mean d) /\ Forall (fun l => length l = k) (pd_sqrt_eigenvalues d) /\
    Forall (fun l => length l = k) (pd_coord_scales d).

  Lemma push_each_safe : forall k hs (xs : list T), length xs = length hs -> Forall (fun l => length l = k) hs ->
    safe False False (fun r => length r = length hs /\ Forall (fun l => length l = S k) r) (push_each hs xs).
  Proof.
    induction hs as [|h hs IH]; intros [|x xs] Hl Hf; simpl in *; try discriminate; auto.
    inversion Hf; subst. injection Hl as Hl. eapply safe_bind; [apply IH; auto|]. intros r [H1 H2']. simpl. split; [congruence|].
    constructor; auto. rewrite app_length. simpl. lia.
  Qed.

  Lemma data_add_safe : forall evals s h d k, wf_state s -> wf_plot_data d -> series_length k d ->
    safe False False (fun d' => wf_plot_data d' /\ series_length (S k) d') (data_add_point evals s h d).
  Proof.
    intros evals s h d k Hs [D1 [D2 D3]] [S1 [S2 [S3 [S4 [S5 [S6 [S7 S8]]]]]]]. unfold data_add_point.
    eapply safe_bind; [apply (push_each_safe k); [rewrite (ws_mean _ Hs); auto|exact S6]|]. intros r1 [A1 A2].
    eapply safe_bind; [apply (push_each_safe k); [|exact S7]|].
    { rewrite map_length, sort_by_len, diagonal_length, (proj1 (ws_sqrt _ Hs)). auto. }
    intros r2 [B1 B2]. eapply safe_bind; [apply (push_each_safe k); [|exact S8]|].
    { rewrite map_length, diagonal_length, (proj1 (ws_cov _ Hs)). auto. }
    intros r3 [C1 C2]. simpl. unfold wf_plot_data, series_length. simpl. rewrite !app_length. simpl.
    repeat split; auto; lia.
  Qed.

  Definition wf_plot (p : plot T) : Prop :=
    wf_plot_data (pl_data p) /\ exists k, series_length (S k) (pl_data p).

  Lemma plot_add_safe : forall evals s h p, wf_state s -> wf_plot p ->
    safe False False wf_plot (plot_add_point evals s h p).
  Proof.
    intros evals s h p Hs [H1 [k H2]]. unfold plot_add_point.
    assert (Hw : wf_plot p) by (split; eauto).
    destruct (match pl_last_generation p with Some g => _ | None => _ end); [simpl; auto|].
    eapply safe_bind; [apply (data_add_safe evals s h _ (S k)); auto|]. intros d [D1 D2]. simpl. split; simpl; eauto.
  Qed.

  Lemma clear_vec_safe : forall {A} (l : list A), length l <> 0 ->
    safe False False (fun r => length r = 1) (clear_vec l).
  Proof. intros A [|x l] H; simpl in *; auto. Qed.

  Lemma plot_clear_safe : forall p, wf_plot p -> safe False False wf_plot (plot_clear p).
  Proof.
    intros p [[D1 [D2 D3]] [k [S1 [S2 [S3 [S4 [S5 [S6 [S7 S8]]]]]]]]]. unfold plot_clear, data_clear.
    eapply safe_bind; [|intros d Hd; simpl; exact Hd].
    eapply safe_bind; [apply clear_vec_safe; lia|]. intros r1 R1.
    eapply safe_bind; [apply clear_vec_safe; lia|]. intros r2 R2.
    eapply safe_bind; [apply clear_vec_safe; lia|]. intros r3 R3.
    eapply safe_bind; [apply clear_vec_safe; lia|]. intros r4 R4.
    eapply safe_bind; [apply clear_vec_safe; lia|]. intros r5 R5.
    assert (Hm : forall l : list (list T), Forall (fun l => length l = S k) l ->
      safe False False (fun r => Forall (fun l => length l = 1) r /\ length r = length l) (omap clear_vec l)).
    { intros l Hl. eapply safe_omap; [exact Hl|]. intros a Ha. apply clear_vec_safe. simpl in Ha. rewrite Ha. discriminate. }
    eapply safe_bind; [apply Hm; exact S6|]. intros r6 [R6 R6'].
    eapply safe_bind; [apply Hm; exact S8|]. intros r7 [R7 R7'].
    eapply safe_bind; [apply Hm; exact S7|]. intros r8 [R8 R8'].
    simpl. split; [unfold wf_plot_data; simpl; repeat split; congruence|].
    exists 0. unfold series_length. simpl. repeat split; auto.
  Qed.
End Safe.
