(* What one update of the state does: the parts of state_update, the covariance matrix, the decomposition. *)
From Coq Require Import List NArith ZArith Bool Arith Lia.
Require Import Verif.Base Verif.Num Verif.LinAlg Verif.Mode Verif.Weights Verif.Options Verif.Params Verif.Env
  Verif.State Verif.Sampling Verif.History Verif.Termination Verif.Plot Verif.Cmaes Verif.Lib Verif.NextInv
  Verif.Spec Verif.LogLemmas Verif.TraceLemmas Verif.BuildLemmas Verif.SamplingLemmas Verif.PanicLemmas Verif.NextSafe.
Import ListNotations.

Section StateLemmas.
  Context {T : Type} {NT : Num T} {LT : Libm T} {E : Env T}.

  Record updated (tree : rtree) (evals : N) (p : params T) (inds : list (point T)) (s : state T)
    (ok : bool) (s' : state T) (yw : vec T) (rank_mu cov : mat T) : Prop := {
    up_yw : calc_yw p inds = Ret yw;
    up_mean : calc_mean p s yw = Ret (st_mean s');
    up_ps : calc_path_sigma p s yw = Ret (st_path_sigma s');
    up_pc : calc_path_c p s (calc_hs p (st_generation s) (st_path_sigma s')) yw = Ret (st_path_c s');
    up_sigma : st_sigma s' = calc_sigma p s (st_path_sigma s');
    up_rank : calc_rank_mu p tree s inds = Ret rank_mu;
    up_cov : calc_cov p s (calc_hs p (st_generation s) (st_path_sigma s')) (st_path_c s') rank_mu = Ret cov;
    up_set : set_cov (st_cov s) cov (do_eigen_update p s evals) = Ret (ok, st_cov s');
    up_gen : st_generation s' = (if ok then st_generation s + 1 else st_generation s)%N;
    up_last : st_last_eigen s' = if ok && do_eigen_update p s evals then evals else st_last_eigen s
  }.

  Lemma state_update_inv : forall tree evals p inds s ok s',
    state_update tree evals p inds s = Ret (ok, s') -> exists yw rank_mu cov, updated tree evals p inds s ok s' yw rank_mu cov.
  Proof.
    intros tree evals p inds s ok s' H. unfold state_update in H.
    oinv H. oinv H. oinv H. oinv H. oinv H. oinv H. oinv H. destruct a5 as [ok' cm].
    exists a, a3, a4. destruct ok'; inversion H; subst; constructor; cbn; auto.
  Qed.

  (* ---- C38 ---- *)
  Definition symmetric_mat (n : nat) (m : mat T) : Prop :=
    forall i j, i < n -> j < n -> mnth m i j = mnth m j i.

  Lemma mnth_mbuild : forall r c f i j, i < r -> j < c -> mnth (mbuild r c f) i j = f i j.
  Proof.
    intros r c f i j Hi Hj. unfold mnth, mbuild.
    rewrite (nth_indep _ [] (map (fun j => f 0 j) (seq 0 c))) by (rewrite map_length, seq_length; exact Hi).
    rewrite (map_nth (fun i => map (fun j => f i j) (seq 0 c))). rewrite seq_nth by exact Hi. simpl.
    rewrite (nth_indep _ n0 (f i 0)) by (rewrite map_length, seq_length; exact Hj).
    rewrite (map_nth (fun j => f i j)). rewrite seq_nth by exact Hj. reflexivity.
  Qed.

  Lemma fill_lower_symmetric : forall m, symmetric_mat (length m) (fill_lower m).
  Proof.
    intros m i j Hi Hj. unfold fill_lower. rewrite !mnth_mbuild by auto.
    destruct (j <? i) eqn:E1, (i <? j) eqn:E2; auto.
    - apply Nat.ltb_lt in E1, E2. lia.
    - apply Nat.ltb_ge in E1, E2. assert (i = j) by lia. subst. reflexivity.
  Qed.

  Lemma identity_symmetric : forall n, symmetric_mat n (identity n).
  Proof.
    intros n i j Hi Hj. unfold identity. rewrite !mnth_mbuild by auto. rewrite Nat.eqb_sym. reflexivity.
  Qed.

  Lemma update_eigen_cov : forall c ok c', update_eigendecomposition c = Ret (ok, c') -> cm_cov c' = cm_cov c.
  Proof.
    intros c ok c' H. unfold update_eigendecomposition in H. destruct (eigen (cm_cov c)) as [[vecs vals]|].
    - destruct (existsb _ vals); [inversion H; reflexivity|]. oinv H. oinv H. oinv H. inversion H; reflexivity.
    - inversion H; reflexivity.
  Qed.

  Lemma set_cov_cov : forall c m b ok c', set_cov c m b = Ret (ok, c') -> cm_cov c' = fill_lower m.
  Proof.
    intros c m b ok c' H. unfold set_cov in H. destruct b.
    - apply update_eigen_cov in H. exact H.
    - inversion H; reflexivity.
  Qed.

  Lemma state_update_symmetric : forall tree evals p inds s ok s',
    state_update tree evals p inds s = Ret (ok, s') ->
    symmetric_mat (length (cm_cov (st_cov s'))) (cm_cov (st_cov s')).
  Proof.
    intros tree evals p inds s ok s' H. apply state_update_inv in H. destruct H as [yw [rm [cov H]]].
    pose proof (up_set _ _ _ _ _ _ _ _ _ _ H) as Hs. apply set_cov_cov in Hs. rewrite Hs.
    unfold fill_lower at 1. unfold mbuild. rewrite map_length, seq_length. apply fill_lower_symmetric.
  Qed.

  (* ---- C41 ---- *)
  (* the decomposition in use *)
  Definition same_decomposition (a b : state T) : Prop :=
    cm_eigenvectors (st_cov a) = cm_eigenvectors (st_cov b) /\
    cm_sqrt_eigenvalues (st_cov a) = cm_sqrt_eigenvalues (st_cov b) /\
    cm_sqrt_inv (st_cov a) = cm_sqrt_inv (st_cov b) /\
    cm_transform (st_cov a) = cm_transform (st_cov b).
  (* a decomposition computed from the present covariance matrix *)
  Definition fresh_decomposition (s : state T) : Prop :=
    exists vecs vals, eigen (cm_cov (st_cov s)) = Some (vecs, vals) /\
      existsb (fun x => nleb x n0) vals = false /\
      cm_eigenvectors (st_cov s) = normalize_columns vecs /\
      cm_sqrt_eigenvalues (st_cov s) = from_diagonal (map nsqrt vals) /\
      mmul_c (normalize_columns vecs) (from_diagonal (map nsqrt vals)) = Ret (cm_transform (st_cov s)) /\
      exists t, mmul_c (normalize_columns vecs)
                  (mmap (fun d => if ngtb d n0 then ndiv n1 d else d) (from_diagonal (map nsqrt vals))) = Ret t /\
                mmul_c t (transpose (normalize_columns vecs)) = Ret (cm_sqrt_inv (st_cov s)).

  Lemma state_update_decomposition : forall tree evals p inds s ok s',
    state_update tree evals p inds s = Ret (ok, s') ->
    if ok then
      if (st_last_eigen s + evals_per_eigen_update p <=? evals)%N
      then fresh_decomposition s' /\ st_last_eigen s' = evals
      else same_decomposition s' s /\ st_last_eigen s' = st_last_eigen s
    else (st_last_eigen s + evals_per_eigen_update p <= evals)%N /\ same_decomposition s' s /\
         st_last_eigen s' = st_last_eigen s.
  Proof.
    intros tree evals p inds s ok s' H. apply state_update_inv in H. destruct H as [yw [rm [cov H]]].
    pose proof (up_set _ _ _ _ _ _ _ _ _ _ H) as Hs. pose proof (up_last _ _ _ _ _ _ _ _ _ _ H) as Hl.
    clear H. unfold do_eigen_update in *.
    unfold set_cov in Hs. destruct (st_last_eigen s + evals_per_eigen_update p <=? evals)%N eqn:Ed.
    - unfold update_eigendecomposition in Hs. cbn [cm_cov cm_eigenvectors cm_sqrt_eigenvalues cm_sqrt_inv cm_transform] in Hs.
      destruct (eigen (fill_lower cov)) as [[vecs vals]|] eqn:Ee.
      + destruct (existsb _ vals) eqn:Ex.
        * inversion Hs; subst ok; clear Hs. apply N.leb_le in Ed. split; auto. split; auto.
          unfold same_decomposition. rewrite <- H1. cbn. auto.
        * oinv Hs. oinv Hs. oinv Hs. inversion Hs; subst ok; clear Hs. split; auto.
          unfold fresh_decomposition. rewrite <- H1. cbn. exists vecs, vals. repeat (split; [assumption||reflexivity|]).
          exists a. auto.
      + inversion Hs; subst ok; clear Hs. apply N.leb_le in Ed. split; auto. split; auto.
        unfold same_decomposition. rewrite <- H1. cbn. auto.
    - inversion Hs; subst ok; clear Hs. split; auto. unfold same_decomposition. rewrite <- H1. cbn. auto.
  Qed.

  (* The evaluation count at the latest refresh, from the results of the calls alone: every call without NaN
     adds lambda evaluations; a refresh is due when at least k evaluations passed since the last one and then
     happens unless PosDefCov is reported. *)
  Fixpoint last_refresh (lambda k evals last : N) (h : list (call T)) : N :=
    match h with
    | [] => last
    | x :: h' =>
        if reports InvalidFunctionValue (k_result x) then last_refresh lambda k evals last h'
        else
          let evals := (evals + lambda)%N in
          last_refresh lambda k evals
            (if negb (reports PosDefCov (k_result x)) && (last + k <=? evals)%N then evals else last) h'
    end.
  (* evaluations counted in a history *)
  Definition evals_of (lambda : N) (h : list (call T)) : N := (lambda * N.of_nat (length (filter valid h)))%N.

  Lemma last_refresh_snoc : forall lambda k h evals last x,
    last_refresh lambda k evals last (h ++ [x]) =
    let l := last_refresh lambda k evals last h in
    let e := (evals + evals_of lambda h)%N in
    if reports InvalidFunctionValue (k_result x) then l
    else if negb (reports PosDefCov (k_result x)) && (l + k <=? e + lambda)%N then (e + lambda)%N else l.
  Proof.
    intros lambda k h. induction h as [|y h IH]; intros evals last x; cbn [app last_refresh].
    - unfold evals_of. simpl. rewrite N.mul_0_r, N.add_0_r. reflexivity.
    - unfold evals_of. cbn [filter].
      assert (Hv : valid y = negb (reports InvalidFunctionValue (k_result y))) by reflexivity. rewrite Hv.
      destruct (reports InvalidFunctionValue (k_result y)) eqn:Ey; cbn [negb]; rewrite IH; cbv zeta; unfold evals_of.
      + reflexivity.
      + cbn [length]. rewrite Nat2N.inj_succ, N.mul_succ_r.
        replace (evals + lambda + lambda * N.of_nat (length (filter valid h)))%N
          with (evals + (lambda * N.of_nat (length (filter valid h)) + lambda))%N by lia. reflexivity.
  Qed.

  Context {F : Type} (ev : F -> vec T -> outcome (T * F)).

  Lemma evals_of_snoc : forall lambda h x,
    evals_of lambda (h ++ [x]) = (evals_of lambda h + if reports InvalidFunctionValue (k_result x) then 0 else lambda)%N.
  Proof.
    intros. unfold evals_of. rewrite filter_app, app_length. simpl. unfold valid at 2.
    destruct (reports InvalidFunctionValue (k_result x)); simpl; lia.
  Qed.


  (* an invariant of everything but plot and printing *)
  Lemma used_core_invariant : forall (P : list (call T) -> cmaes T (F * list (entry T)) -> Prop) o f seed,
    (forall h c c', same_core c' c -> P h c -> P h c') ->
    (forall now c0, validate o = None -> c_state c0 = state_new (o_initial_mean o) (o_initial_step_size o) ->
       c_history c0 = history_new -> c_params c0 = params_of_options o seed ->
       c_sampler c0 = sampler_new (length (o_initial_mean o)) (o_constraints o) (o_max_resamples o)
                              (o_population_size o) (f, []) seed -> c_created c0 = now -> P [] c0) ->
    (forall h c par tk r new c', used ev o f seed h c -> next (log_ev ev) par tk c = Ret (r, c') ->
       calls c' = calls c ++ new -> P h c -> P (h ++ [mkCall r new]) c') ->
    forall h c, used ev o f seed h c -> P h c.
  Proof.
    intros P o f seed Hc H0 Hn. apply used_invariant.
    - intros rs now c0 H1 H2. apply cmaes_new_inv in H1. cbv zeta in H1. rewrite <- H2 in H1.
      destruct H1 as [A1 [A2 [A3 [A4 [A5 [_ [_ [A6 _]]]]]]]]. eapply H0; eauto.
    - intros h c op c' _ Hq Hs IH. apply quiet_core in Hs; [|exact Hq]. eapply Hc; eauto.
    - exact Hn.
  Qed.

  Lemma used_evals : forall o f seed h c, used ev o f seed h c ->
    function_evals c = evals_of (o_population_size o) h /\
    generation c = N.of_nat (length (filter (fun x => valid x && negb (reports PosDefCov (k_result x))) h)).
  Proof.
    intros o f seed. apply used_core_invariant.
    - intros h c c' [H1 [_ [H2 _]]]. unfold function_evals, generation. rewrite H1, H2. auto.
    - intros now c0 _ Hs _ _ Hsm _. unfold function_evals, generation, evals_of. rewrite Hs, Hsm. simpl.
      rewrite N.mul_0_r. auto.
    - intros h c par tk r new c' Hu Hnx _ [IH1 IH2]. apply next_counters in Hnx. destruct Hnx as [H1 H2].
      apply used_setup in Hu. destruct Hu as [_ [_ [_ [_ [_ Hp]]]]].
      rewrite evals_of_snoc, H1, H2, IH1, IH2, Hp. cbn [k_result]. split; [reflexivity|].
      rewrite filter_app, app_length, Nat2N.inj_add. f_equal. cbn [filter]. unfold valid. cbn [k_result].
      destruct (reports InvalidFunctionValue r), (reports PosDefCov r); reflexivity.
  Qed.

  Lemma used_last_refresh : forall o f seed h c, used ev o f seed h c ->
    st_last_eigen (c_state c)
    = last_refresh (o_population_size o) (evals_per_eigen_update (params_of_options o seed)) 0 0 h.
  Proof.
    intros o f seed. apply used_core_invariant.
    - intros h c c' [_ [_ [H _]]]. rewrite H. auto.
    - intros now c0 _ Hs _ _ _ _. rewrite Hs. reflexivity.
    - intros h c par tk r new c' Hu Hnx _ IH. pose proof (used_evals _ _ _ _ _ Hu) as [He _].
      pose proof (used_setup _ _ _ _ _ _ Hu) as [Hp [_ [_ [_ [_ Hl]]]]].
      pose proof (next_counters _ _ _ _ _ _ Hnx) as [Hc _]. rewrite last_refresh_snoc. cbv zeta. cbn [k_result].
      rewrite <- IH, N.add_0_l, <- He. clear IH.
      apply next_outcome in Hnx. destruct Hnx as [[_ [-> [_ ->]]]|[inds [ok [_ [R [_ [Hs H]]]]]]].
      + reflexivity.
      + rewrite R in *. rewrite Hl in Hc. rewrite <- Hc. apply state_update_decomposition in Hs. rewrite Hp in Hs.
        destruct H as [[-> [-> _]]|[-> [-> _]]]; cbn [negb andb].
        * apply Hs.
        * destruct (_ <=? _)%N; apply Hs.
  Qed.

  (* one call *)
  Lemma next_refresh : forall o f seed h c par tk r c', used ev o f seed h c ->
    next (log_ev ev) par tk c = Ret (r, c') ->
    let k := evals_per_eigen_update (params_of_options o seed) in
    let due := (last_refresh (o_population_size o) k 0 0 h + k <=? function_evals c')%N in
    if reports InvalidFunctionValue r then c_state c' = c_state c
    else if reports PosDefCov r then due = true /\ same_decomposition (c_state c') (c_state c)
    else if due then fresh_decomposition (c_state c') else same_decomposition (c_state c') (c_state c).
  Proof.
    intros o f seed h c par tk r c' Hu Hn k due. unfold due, k.
    rewrite <- (used_last_refresh _ _ _ _ _ Hu). pose proof (used_setup _ _ _ _ _ _ Hu) as [Hp _].
    apply next_outcome in Hn. destruct Hn as [[_ [-> [_ ->]]]|[inds [ok [_ [R [_ [Hs H]]]]]]].
    - reflexivity.
    - rewrite R. apply state_update_decomposition in Hs. rewrite Hp in Hs. destruct H as [[-> [-> _]]|[-> [-> _]]].
      + destruct Hs as [H1 [H2 _]]. split; [apply N.leb_le; exact H1|exact H2].
      + destruct (_ <=? _)%N; tauto.
  Qed.

  (* a call that completes its generation *)
  Definition completed (x : call T) : bool := valid x && negb (reports PosDefCov (k_result x)).

  (* the number of generations between refreshes *)
  Definition refresh_period (lambda k : N) : N := N.max 1 ((k + lambda - 1) / lambda).

  Lemma traced_app : forall c0 h1 c1 h2 c2, traced ev c0 h1 c1 -> traced ev c1 h2 c2 -> traced ev c0 (h1 ++ h2) c2.
  Proof.
    intros c0 h1 c1 h2 c2 H1 H2. induction H2.
    - rewrite app_nil_r. exact H1.
    - eapply Tr_quiet; eauto.
    - rewrite app_assoc. eapply Tr_next; eauto.
  Qed.
  Lemma used_app : forall o f seed h1 c1 h2 c2, used ev o f seed h1 c1 -> traced ev c1 h2 c2 -> used ev o f seed (h1 ++ h2) c2.
  Proof.
    intros o f seed h1 c1 h2 c2 [rs [now [c0 [H1 [H2 H3]]]]] H. exists rs, now, c0. repeat split; auto.
    eapply traced_app; eauto.
  Qed.

  Lemma evals_of_completed : forall lambda h, Forall (fun x => completed x = true) h ->
    evals_of lambda h = (lambda * N.of_nat (length h))%N.
  Proof.
    intros lambda h H. unfold evals_of. do 3 f_equal. induction H as [|x h Hx _ IH]; simpl; auto.
    unfold completed in Hx. apply andb_true_iff in Hx. destruct Hx as [-> _]. simpl. rewrite IH. reflexivity.
  Qed.

  Lemma evals_of_app : forall lambda h1 h2, evals_of lambda (h1 ++ h2) = (evals_of lambda h1 + evals_of lambda h2)%N.
  Proof. intros. unfold evals_of. rewrite filter_app, app_length. lia. Qed.

  Lemma period_less : forall lambda k m, (0 < lambda)%N -> (0 < m)%N ->
    (lambda * m < k <-> m < refresh_period lambda k)%N.
  Proof.
    intros lambda k m Hl Hm. unfold refresh_period.
    pose proof (N.mul_div_le (k + lambda - 1) lambda) as H1. pose proof (N.mul_succ_div_gt (k + lambda - 1) lambda) as H2.
    set (q := ((k + lambda - 1) / lambda)%N) in *. split; intros H.
    - assert (m < q)%N; [|lia]. apply N.nle_gt. intros Hq. nia.
    - assert (m < q)%N by lia. nia.
  Qed.

  Lemma no_refresh_yet : forall o f seed h1 c1 h2 c2,
    let k := evals_per_eigen_update (params_of_options o seed) in
    let lambda := o_population_size o in
    (0 < lambda)%N -> used ev o f seed h1 c1 -> last_refresh lambda k 0 0 h1 = function_evals c1 ->
    traced ev c1 h2 c2 -> Forall (fun x => completed x = true) h2 ->
    (N.of_nat (length h2) < refresh_period lambda k)%N ->
    same_decomposition (c_state c2) (c_state c1) /\ last_refresh lambda k 0 0 (h1 ++ h2) = function_evals c1 /\
    function_evals c2 = (function_evals c1 + lambda * N.of_nat (length h2))%N.
  Proof.
    intros o f seed h1 c1 h2 c2 k lambda Hl Hu Hr Ht. induction Ht as [|h c op c' Ht IH Hop Hs|h c par tk r new c' Ht IH Hnx Hc]; intros Hf Hp.
    - rewrite app_nil_r. simpl. unfold same_decomposition. repeat split; auto. lia.
    - destruct (IH Hf Hp) as [A [B C]]. apply quiet_core in Hs; [|exact Hop]. destruct Hs as [S1 [_ [S2 _]]].
      unfold function_evals in *. rewrite S1, S2. auto.
    - apply Forall_app in Hf. destruct Hf as [Hf Hx]. rewrite app_length in Hp. cbn [length] in Hp.
      destruct IH as [A [B C]]; [exact Hf|lia|].
      pose proof (used_app _ _ _ _ _ _ _ Hu Ht) as Hu'. pose proof (next_refresh _ _ _ _ _ _ _ _ _ Hu' Hnx) as Hd.
      pose proof (next_counters _ _ _ _ _ _ Hnx) as [Hcn _].
      pose proof (used_setup _ _ _ _ _ _ Hu') as [_ [_ [_ [_ [_ Hpop]]]]].
      inversion Hx as [|? ? Hx' _]; subst. unfold completed, valid in Hx'. cbn [k_result] in Hx'.
      apply andb_true_iff in Hx'. destruct Hx' as [X1 X2]. apply negb_true_iff in X1, X2.
      rewrite X1, X2 in Hd. rewrite X1, Hpop, C in Hcn. cbv zeta in Hd. fold k lambda in Hd.
      assert (Hev : function_evals c' = (function_evals c1 + lambda * N.of_nat (length (h ++ [mkCall r new])))%N).
      { rewrite Hcn. rewrite app_length. cbn [length]. fold lambda. lia. }
      assert (Hnd : (last_refresh lambda k 0 0 (h1 ++ h) + k <=? function_evals c')%N = false).
      { rewrite B, Hev. apply N.leb_gt. rewrite app_length. cbn [length]. apply N.add_lt_mono_l.
        apply period_less; auto; lia. }
      rewrite Hnd in Hd. split; [|split; [|exact Hev]].
      + unfold same_decomposition in *. intuition congruence.
      + rewrite app_assoc, last_refresh_snoc. cbv zeta. cbn [k_result]. rewrite X1, X2. cbn [negb andb].
        pose proof (used_evals _ _ _ _ _ Hu') as [Hev' _]. fold lambda in Hev'. rewrite N.add_0_l, <- Hev'.
        assert (Hcc : (function_evals c + lambda)%N = function_evals c') by (rewrite Hcn, C; fold lambda; lia).
        rewrite Hcc, Hnd. exact B.
  Qed.

  Lemma refresh_now : forall o f seed h1 c1 h2 c2 par tk r c',
    let k := evals_per_eigen_update (params_of_options o seed) in
    let lambda := o_population_size o in
    (0 < lambda)%N -> used ev o f seed h1 c1 -> last_refresh lambda k 0 0 h1 = function_evals c1 ->
    traced ev c1 h2 c2 -> Forall (fun x => completed x = true) h2 ->
    (N.of_nat (length h2) + 1 = refresh_period lambda k)%N ->
    next (log_ev ev) par tk c2 = Ret (r, c') ->
    reports InvalidFunctionValue r = false -> reports PosDefCov r = false ->
    fresh_decomposition (c_state c') /\ function_evals c' = (function_evals c1 + lambda * refresh_period lambda k)%N.
  Proof.
    intros o f seed h1 c1 h2 c2 par tk r c' k lambda Hl Hu Hr Ht Hf Hp Hnx X1 X2.
    destruct (no_refresh_yet _ _ _ _ _ _ _ Hl Hu Hr Ht Hf) as [A [B C]]; [fold k lambda; lia|].
    pose proof (used_app _ _ _ _ _ _ _ Hu Ht) as Hu'. pose proof (next_refresh _ _ _ _ _ _ _ _ _ Hu' Hnx) as Hd.
    pose proof (next_counters _ _ _ _ _ _ Hnx) as [Hcn _].
    pose proof (used_setup _ _ _ _ _ _ Hu') as [_ [_ [_ [_ [_ Hpop]]]]].
    rewrite X1, X2 in Hd. rewrite X1, Hpop, C in Hcn. cbv zeta in Hd. fold k lambda in Hd, Hcn, B.
    assert (Hev : function_evals c' = (function_evals c1 + lambda * refresh_period lambda k)%N) by (rewrite Hcn, <- Hp; lia).
    split; [|exact Hev].
    assert (Hdue : (last_refresh lambda k 0 0 (h1 ++ h2) + k <=? function_evals c')%N = true).
    { rewrite B, Hev. apply N.leb_le. apply N.add_le_mono_l. apply N.nlt_ge. intros Hlt.
      assert (Hpos : (0 < refresh_period lambda k)%N) by (unfold refresh_period; lia).
      apply (proj1 (period_less _ _ _ Hl Hpos)) in Hlt. lia. }
    rewrite Hdue in Hd. exact Hd.
  Qed.
End StateLemmas.
