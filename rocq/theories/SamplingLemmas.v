(* Proofs about sampling (C04, C07, C08, C10, C11). *)
From Coq Require Import List NArith ZArith Bool Arith Lia Permutation Sorted.
Require Import Verif.Base Verif.Num Verif.LinAlg Verif.Mode Verif.Weights Verif.Options Verif.Params Verif.Env
  Verif.State Verif.Sampling Verif.History Verif.Termination Verif.Plot Verif.Cmaes Verif.Lib Verif.Order Verif.Sort
  Verif.NextInv Verif.Spec Verif.LogLemmas Verif.TraceLemmas Verif.BuildLemmas.
Import ListNotations.

Section Used.
  Context {T : Type} {NT : Num T} {LT : Libm T} {E : Env T}.
  Context {F : Type} (ev : F -> vec T -> outcome (T * F)).

  Lemma used_setup : forall o f seed h c, used ev o f seed h c ->
    c_params c = params_of_options o seed /\ c_print_gap c = o_print_gap_evals o /\
    sm_dim (c_sampler c) = length (o_initial_mean o) /\ sm_constraints (c_sampler c) = o_constraints o /\
    sm_max_resamples (c_sampler c) = o_max_resamples o /\
    sm_population_size (c_sampler c) = o_population_size o.
  Proof.
    intros o f seed h c [rs [now [c0 [H1 [H2 H3]]]]]. apply cmaes_new_inv in H1. apply traced_setup in H3.
    cbv zeta in H1. rewrite <- H2 in H1. destruct H1 as [_ [A1 [A2 [_ [_ [A3 _]]]]]].
    destruct H3 as [B1 [_ [B2 [B3 [B4 [B5 B6]]]]]]. rewrite A1 in *. simpl in *.
    repeat split; congruence.
  Qed.

  Lemma used_quiet : forall o f seed h c op c',
    used ev o f seed h c -> quiet op -> step (log_ev ev) c op = Ret c' -> used ev o f seed h c'.
  Proof.
    intros o f seed h c op c' [rs [now [c0 [H1 [H2 H3]]]]] Hq Hs. exists rs, now, c0. repeat split; auto.
    eapply Tr_quiet; eauto.
  Qed.
  Lemma used_next : forall o f seed h c par tk r new c',
    used ev o f seed h c -> next (log_ev ev) par tk c = Ret (r, c') -> calls c' = calls c ++ new ->
    used ev o f seed (h ++ [mkCall r new]) c'.
  Proof.
    intros o f seed h c par tk r new c' [rs [now [c0 [H1 [H2 H3]]]]] Hn Hc. exists rs, now, c0. repeat split; auto.
    eapply Tr_next; eauto.
  Qed.

  (* invariants of used optimisers *)
  Lemma used_invariant : forall (P : list (call T) -> cmaes T (F * list (entry T)) -> Prop) o f seed,
    (forall random_seed now c0, cmaes_new random_seed now (f, []) o = Ret (inl c0) ->
       seed = match o_seed o with Some s => s | None => random_seed end -> P [] c0) ->
    (forall h c op c', used ev o f seed h c -> quiet op -> step (log_ev ev) c op = Ret c' -> P h c -> P h c') ->
    (forall h c par tk r new c', used ev o f seed h c -> next (log_ev ev) par tk c = Ret (r, c') ->
       calls c' = calls c ++ new -> P h c -> P (h ++ [mkCall r new]) c') ->
    forall h c, used ev o f seed h c -> P h c.
  Proof.
    intros P o f seed H0 Hq Hn h c [rs [now [c0 [H1 [H2 H3]]]]].
    assert (G : used ev o f seed h c /\ P h c); [|tauto].
    induction H3 as [|h c op c' Ht [IH1 IH2] Hop Hs|h c par tk r new c' Ht [IH1 IH2] Hnx Hc].
    - split; [|eapply H0; eauto]. exists rs, now, c0. repeat split; auto. constructor.
    - split; [eapply used_quiet; eauto|eapply Hq; eauto].
    - split; [eapply used_next; eauto|eapply Hn; eauto].
  Qed.

  (* every way of using a built optimiser is covered *)
  Lemma steps_used : forall o f random_seed now c0 l c,
    cmaes_new random_seed now (f, []) o = Ret (inl c0) -> steps (log_ev ev) c0 l = Ret c ->
    exists h, used ev o f (match o_seed o with Some s => s | None => random_seed end) h c.
  Proof.
    intros o f rs now c0 l c H1 H2.
    destruct (steps_traced ev l c0 [] c0 c) as [h Hh]; [constructor|exact H2|].
    exists h. exists rs, now, c0. repeat split; auto.
  Qed.
End Used.

Section Stream.
  Context {T : Type} {NT : Num T} {LT : Libm T} {E : Env T}.
  Context {F : Type} (ev : F -> vec T -> outcome (T * F)).

  Lemma rounds_stream : forall accept lambda k have cands (out : list (vec T)) (g : nat -> vec T) a,
    rounds accept lambda k have cands out ->
    concat cands = map g (seq a (length (concat cands))) ->
    exists ks, out = map g ks /\ StronglySorted lt ks /\ Forall (fun i => a <= i < a + length (concat cands)) ks.
  Proof.
    intros accept lambda k have cands out g a H. revert a.
    induction H as [k|k have cand rest out H1 H2 H3 IH]; intros a Hc.
    - exists []. repeat split; constructor.
    - simpl concat in *. rewrite app_length in Hc |- *. rewrite seq_app, map_app in Hc.
      apply app_inj_len in Hc; [|rewrite map_length, seq_length; reflexivity].
      destruct Hc as [Hc1 Hc2]. apply IH in Hc2. destruct Hc2 as [ks [K1 [K2 K3]]].
      exists (filter (fun i => accept k (g i)) (seq a (length cand)) ++ ks). repeat split.
      + rewrite map_app, <- K1. f_equal. rewrite Hc1 at 1. rewrite filter_map_comm. reflexivity.
      + assert (S1 : StronglySorted lt (filter (fun i => accept k (g i)) (seq a (length cand)))).
        { clear. generalize (length cand) as n. intros n. revert a. induction n as [|n IH]; intros a; simpl; [constructor|].
          destruct (accept k (g a)); auto. constructor; auto. apply Forall_forall. intros x Hx. apply filter_In in Hx.
          destruct Hx as [Hx _]. apply in_seq in Hx. lia. }
        assert (S2 : Forall (fun i => a <= i < a + length cand) (filter (fun i => accept k (g i)) (seq a (length cand)))).
        { apply Forall_forall. intros x Hx. apply filter_In in Hx. destruct Hx as [Hx _]. apply in_seq in Hx. lia. }
        revert S1 S2. generalize (filter (fun i => accept k (g i)) (seq a (length cand))) as l.
        induction l as [|x l IHl]; intros S1 S2; simpl; auto. inversion S1; subst. inversion S2; subst.
        constructor; auto. apply Forall_app. split; auto.
        eapply Forall_impl; [|exact K3]. simpl. lia.
      + apply Forall_app. split.
        * apply Forall_forall. intros x Hx. apply filter_In in Hx. destruct Hx as [Hx _]. apply in_seq in Hx. lia.
        * eapply Forall_impl; [|exact K3]. simpl. lia.
  Qed.

  (* the first n vectors when everything is accepted at once *)
  Lemma rounds_all : forall accept lambda k have cands (out : list (vec T)),
    (forall j x, (k <= j)%N -> accept j x = true) ->
    rounds accept lambda k have cands out -> out = concat cands /\ length cands <= 1.
  Proof.
    intros accept lambda k have cands out Ha H. destruct H as [k|k have cand rest out H1 H2 H3].
    - auto.
    - assert (Hf : filter (accept k) cand = cand).
      { clear -Ha. induction cand as [|x l IH]; simpl; auto. rewrite Ha by lia. congruence. }
      rewrite Hf in *. replace (have + length cand) with lambda in H3 by lia.
      inversion H3; subst; simpl; [rewrite !app_nil_r; auto|lia].
  Qed.

  Lemma rounds_accepted : forall accept lambda k have cands (out : list (vec T)),
    rounds accept lambda k have cands out -> Forall (fun x => exists j, (k <= j)%N /\ accept j x = true) out.
  Proof.
    intros accept lambda k have cands out H. induction H as [k|k have cand rest out H1 H2 H3 IH]; [constructor|].
    apply Forall_app. split.
    - apply Forall_forall. intros x Hx. apply filter_In in Hx. destruct Hx. exists k. split; auto. lia.
    - eapply Forall_impl; [|exact IH]. simpl. intros x [j [J1 J2]]. exists j. split; auto. lia.
  Qed.

  (* at most m + 1 rounds *)
  Lemma rounds_bound : forall meets m lambda k have cands (out : list (vec T)),
    rounds (acceptance (Some meets) (Some m)) lambda k have cands out -> (k <= m)%N ->
    (N.of_nat (length cands) + k <= m + 1)%N.
  Proof.
    intros meets m lambda k have cands out H. induction H as [k|k have cand rest out H1 H2 H3 IH]; intros Hk; simpl length.
    - simpl. lia.
    - destruct (N.eq_dec k m) as [->|Hne].
      + assert (Hf : filter (acceptance (Some meets) (Some m) m) cand = cand).
        { clear. unfold acceptance. rewrite (proj2 (N.leb_le m m)) by lia.
          induction cand as [|x l IHl]; simpl; auto. congruence. }
        rewrite Hf in H3. replace (have + length cand) with lambda in H3 by lia.
        inversion H3; subst; cbn [length]; lia.
      + assert (k + 1 <= m)%N by lia. specialize (IH H). lia.
  Qed.

  (* only the candidates of round m can be kept without satisfying the constraints *)
  Lemma rounds_last : forall meets m lambda k have cands (out : list (vec T)),
    rounds (acceptance (Some meets) (Some m)) lambda k have cands out ->
    forall x, In x out -> (k <= m)%N -> meets x = Ret true \/ In x (nth (N.to_nat (m - k)) cands []).
  Proof.
    intros meets m lambda k have cands out H. induction H as [k|k have cand rest out H1 H2 H3 IH]; intros x Hx Hk.
    - destruct Hx.
    - apply in_app_or in Hx. destruct Hx as [Hx|Hx].
      + apply filter_In in Hx. destruct Hx as [Hx Ha]. unfold acceptance in Ha.
        destruct (m <=? k)%N eqn:Em.
        * apply N.leb_le in Em. right. replace (m - k)%N with 0%N by lia. exact Hx.
        * left. unfold satisfies in Ha. destruct (meets x) as [[]| |]; congruence.
      + destruct (N.eq_dec k m) as [->|Hne].
        * exfalso. assert (Hf : filter (acceptance (Some meets) (Some m) m) cand = cand).
          { clear. unfold acceptance. rewrite (proj2 (N.leb_le m m)) by lia.
            induction cand as [|y l IHl]; simpl; auto. congruence. }
          rewrite Hf in H3. replace (have + length cand) with lambda in H3 by lia.
          inversion H3; subst; [destruct Hx|lia].
        * destruct (IH x Hx) as [G|G]; [lia|auto|]. right.
          replace (N.to_nat (m - k)) with (S (N.to_nat (m - (k + 1)))) by lia. exact G.
  Qed.

  (* the generator of an optimiser has drawn d blocks of random numbers *)
  Definition drawn (o : options T) (seed : N) (d : nat) (c : cmaes T (F * list (entry T))) : Prop :=
    sm_rng (c_sampler c) = rng_after (d * length (o_initial_mean o)) (rng_seed seed).

  Lemma quiet_sampler : forall {F'} (ev' : F' -> vec T -> outcome (T * F')) c o c',
    quiet o -> step ev' c o = Ret c' -> c_sampler c' = c_sampler c.
  Proof. intros F' ev' c o c' Hq Hs. apply quiet_core in Hs; auto. apply Hs. Qed.

  Lemma used_drawn : forall o f seed h c, used ev o f seed h c -> exists d, drawn o seed d c.
  Proof.
    intros o f seed. apply (used_invariant ev (fun h c => exists d, drawn o seed d c)).
    - intros rs now c0 H1 H2. apply cmaes_new_inv in H1. cbv zeta in H1. rewrite <- H2 in H1.
      exists 0. unfold drawn. destruct H1 as [_ [-> _]]. reflexivity.
    - intros h c op c' _ Hq Hs [d Hd]. exists d. unfold drawn in *. rewrite (quiet_sampler _ _ _ _ Hq Hs). exact Hd.
    - intros h c par tk r new c' Hu Hn _ [d Hd]. apply next_log in Hn.
      destruct Hn as [cands [out [new' [_ [_ [Hr _]]]]]].
      apply used_setup in Hu. destruct Hu as [_ [_ [Hdim _]]].
      exists (d + length (concat cands)). unfold drawn in *. rewrite Hr, Hd, Hdim, <- rng_after_add. f_equal. lia.
  Qed.

  Lemma next_points : forall o f seed h c par tk r c' d,
    used ev o f seed h c -> drawn o seed d c -> next (log_ev ev) par tk c = Ret (r, c') ->
    exists d' ks new,
      drawn o seed d' c' /\ calls c' = calls c ++ new /\
      StronglySorted lt ks /\ Forall (fun k => d <= k < d') ks /\
      length ks = N.to_nat (o_population_size o) /\
      let points := map (fun k => transformed (c_state c) (normals (length (o_initial_mean o)) (rng_seed seed) k)) ks in
      if reports InvalidFunctionValue r
      then exists rest all, Permutation all points /\ (par = false -> all = points) /\ all = map fst new ++ rest
      else Permutation points (map fst new) /\ (par = false -> points = map fst new).
  Proof.
    intros o f seed h c par tk r c' d Hu Hd Hn. apply next_log in Hn.
    destruct Hn as [cands [out [new [R1 [R2 [R3 [R4 R5]]]]]]].
    apply used_setup in Hu. destruct Hu as [_ [_ [Hdim [Hc [Hm Hp]]]]].
    cbv zeta in R1. pose proof (rounds_length _ _ _ _ _ _ R1) as Hlen.
    pose proof (rounds_stream _ _ _ _ _ _ _ _ R1 R2) as [ks [K1 [K2 K3]]].
    exists (d + length (concat cands)), (map (fun k => d + k) ks), new.
    assert (Hpts : map (fun k => transformed (c_state c) (normals (length (o_initial_mean o)) (rng_seed seed) k))
                       (map (fun k => d + k) ks) = out).
    { rewrite K1, map_map. apply map_ext. intros k. cbn beta. rewrite Hdim. unfold drawn in Hd. rewrite Hd.
      rewrite normals_shift. reflexivity. }
    split; [unfold drawn in *; rewrite R3, Hd, Hdim, <- rng_after_add; f_equal; lia|].
    split; [exact R4|]. split.
    { clear -K2. induction K2; simpl; constructor; auto. rewrite Forall_map. eapply Forall_impl; [|eassumption].
      simpl. lia. }
    split. { rewrite Forall_map. eapply Forall_impl; [|exact K3]. simpl. lia. }
    split. { rewrite map_length. rewrite <- Hp. rewrite K1, map_length in Hlen. lia. }
    cbv zeta. rewrite Hpts. destruct (reports InvalidFunctionValue r).
    - destruct R5 as [_ [[rest [all [A1 [A2 A3]]]] _]]. exists rest, all. auto.
    - destruct R5 as [_ [pts [P1 [[P2 P3] _]]]]. subst out. split.
      + apply Permutation_map. exact P2.
      + intros Hpar. rewrite (P3 Hpar). reflexivity.
  Qed.

  (* without constraints, or with max_resamples = 0, the points are the next population_size vectors *)
  Lemma next_points_unconstrained : forall o f seed h c par tk r c' d,
    (o_constraints o = None \/ o_max_resamples o = Some 0%N) ->
    used ev o f seed h c -> drawn o seed d c -> next (log_ev ev) par tk c = Ret (r, c') ->
    let lambda := N.to_nat (o_population_size o) in
    exists new,
      drawn o seed (d + lambda) c' /\ calls c' = calls c ++ new /\
      let points := map (fun k => transformed (c_state c) (normals (length (o_initial_mean o)) (rng_seed seed) k))
                        (seq d lambda) in
      if reports InvalidFunctionValue r
      then exists rest all, Permutation all points /\ (par = false -> all = points) /\ all = map fst new ++ rest
      else Permutation points (map fst new) /\ (par = false -> points = map fst new).
  Proof.
    intros o f seed h c par tk r c' d Hoff Hu Hd Hn lambda. apply next_log in Hn.
    destruct Hn as [cands [out [new [R1 [R2 [R3 [R4 R5]]]]]]].
    apply used_setup in Hu. destruct Hu as [_ [_ [Hdim [Hc [Hm Hp]]]]].
    cbv zeta in R1. pose proof (rounds_length _ _ _ _ _ _ R1) as Hlen.
    assert (Hall : out = concat cands).
    { eapply rounds_all; [|exact R1]. intros j x _. rewrite Hc, Hm.
      unfold acceptance. destruct Hoff as [-> | ->]; auto. destruct (o_constraints o); auto. rewrite (proj2 (N.leb_le 0 j)) by lia. reflexivity. }
    assert (Hl : length (concat cands) = lambda).
    { subst out. rewrite Hp in Hlen. unfold lambda. lia. }
    exists new. split; [|split; [exact R4|]].
    { unfold drawn in *. rewrite R3, Hd, Hdim, <- rng_after_add. f_equal. lia. }
    cbv zeta.
    assert (Hpts : map (fun k => transformed (c_state c) (normals (length (o_initial_mean o)) (rng_seed seed) k))
                       (seq d lambda) = out).
    { rewrite Hall, R2, Hl, (map_seq_shift _ d). apply map_ext. intros k. cbn beta. rewrite Hdim. unfold drawn in Hd.
      rewrite Hd, normals_shift. reflexivity. }
    rewrite Hpts. destruct (reports InvalidFunctionValue r).
    - destruct R5 as [_ [[rest [all [A1 [A2 A3]]]] _]]. exists rest, all. auto.
    - destruct R5 as [_ [pts [P1 [[P2 P3] _]]]]. rewrite <- P1. split.
      + apply Permutation_map. exact P2.
      + intros Hpar. rewrite (P3 Hpar). reflexivity.
  Qed.

  (* the rounds of one generation *)
  Lemma next_rounds : forall o f seed h c par tk r c',
    used ev o f seed h c -> next (log_ev ev) par tk c = Ret (r, c') ->
    exists cands out new,
      rounds (acceptance (o_constraints o) (o_max_resamples o)) (N.to_nat (o_population_size o)) 0 0 cands out /\
      calls c' = calls c ++ new /\
      if reports InvalidFunctionValue r
      then exists rest all, Permutation all out /\ (par = false -> all = out) /\ all = map fst new ++ rest
      else Permutation out (map fst new) /\ (par = false -> out = map fst new).
  Proof.
    intros o f seed h c par tk r c' Hu Hn. apply next_log in Hn.
    destruct Hn as [cands [out [new [R1 [R2 [R3 [R4 R5]]]]]]].
    apply used_setup in Hu. destruct Hu as [_ [_ [Hdim [Hc [Hm Hp]]]]]. cbv zeta in R1.
    rewrite Hc, Hm, Hp in R1. exists cands, out, new. split; [exact R1|]. split; [exact R4|].
    destruct (reports InvalidFunctionValue r).
    - destruct R5 as [_ [[rest [all [A1 [A2 A3]]]] _]]. exists rest, all. auto.
    - destruct R5 as [_ [pts [P1 [[P2 P3] _]]]]. subst out. split.
      + apply Permutation_map. exact P2.
      + intros Hpar. rewrite (P3 Hpar). reflexivity.
  Qed.

  Lemma used_calls : forall o f seed h c, used ev o f seed h c -> calls c = concat (map k_evals h).
  Proof.
    intros o f seed. apply used_invariant.
    - intros rs now c0 H1 H2. apply cmaes_new_inv in H1. destruct H1 as [_ [H1 _]]. unfold calls, into_objective_function.
      rewrite H1. reflexivity.
    - intros h c op c' _ Hq Hs IH. unfold calls, into_objective_function in *. rewrite (quiet_sampler _ _ _ _ Hq Hs). exact IH.
    - intros h c par tk r new c' _ _ Hc IH. rewrite Hc, IH, map_app, concat_app. simpl. rewrite app_nil_r. reflexivity.
  Qed.

  Lemma constraints_hold : forall o f seed h c meets,
    o_constraints o = Some meets -> o_max_resamples o = None ->
    used ev o f seed h c -> Forall (fun e => meets (fst e) = Ret true) (calls c).
  Proof.
    intros o f seed h c meets Hc Hm. revert h c. apply used_invariant.
    - intros rs now c0 H1 H2. apply cmaes_new_inv in H1. destruct H1 as [_ [H1 _]]. unfold calls, into_objective_function.
      rewrite H1. constructor.
    - intros h c op c' _ Hq Hs IH. unfold calls, into_objective_function in *. rewrite (quiet_sampler _ _ _ _ Hq Hs). exact IH.
    - intros h c par tk r new c' Hu Hn Hcl IH. rewrite Hcl. apply Forall_app. split; auto.
      destruct (next_rounds _ _ _ _ _ _ _ _ _ Hu Hn) as [cands [out [new' [R1 [R2 R3]]]]].
      assert (new' = new) by (rewrite Hcl in R2; apply app_inv_head in R2; auto). subst new'.
      apply rounds_accepted in R1. rewrite Hc, Hm in R1. simpl in R1.
      assert (G : Forall (fun x => meets x = Ret true) out).
      { eapply Forall_impl; [|exact R1]. simpl. intros x [_ [_ Hx]]. unfold satisfies in Hx. destruct (meets x); congruence. }
      assert (G' : Forall (fun x => meets x = Ret true) (map fst new)).
      { destruct (reports InvalidFunctionValue r).
        - destruct R3 as [rest [all [A1 [_ A2]]]]. symmetry in A1. eapply Permutation_Forall in G; [|exact A1].
          rewrite A2 in G. apply Forall_app in G. tauto.
        - destruct R3 as [A1 _]. eapply Permutation_Forall in G; eauto. }
      rewrite Forall_map in G'. exact G'.
  Qed.
End Stream.

(* ---- Bounds ---- *)
Section Bounds.
  Context {T : Type} {NT : Num T}.

  Definition in_box_at (lower upper x : vec T) (i : nat) : Prop :=
    exists xi l u, nth_error x i = Some xi /\ nth_error lower i = Some l /\ nth_error upper i = Some u /\
      nleb l xi = true /\ nleb xi u = true.

  (* the first bound that is needed but missing *)
  Definition missing_at (lower upper x : vec T) (i : nat) : Prop :=
    nth_error lower i = None \/
    (exists xi l, nth_error x i = Some xi /\ nth_error lower i = Some l /\ nleb l xi = true) /\ nth_error upper i = None.

  Definition meets_at (lower upper x : vec T) (i : nat) : outcome bool :=
    xi <- index x i ;; lo <- index lower i ;;
    if ngeb xi lo then (hi <- index upper i ;; Ret (nleb xi hi)) else Ret false.

  Lemma bounds_meets_oall : forall lower upper x,
    bounds_meets lower upper x = oall (meets_at lower upper x) (seq 0 (length x)).
  Proof. reflexivity. Qed.

  Lemma meets_at_true : forall lower upper x i,
    meets_at lower upper x i = Ret true <-> in_box_at lower upper x i.
  Proof.
    intros lower upper x i. unfold meets_at, in_box_at, index, ngeb. split.
    - intros H. destruct (nth_error x i) as [xi|] eqn:Ex; [|discriminate].
      destruct (nth_error lower i) as [l|] eqn:El; [|discriminate]. simpl in H.
      destruct (nleb l xi) eqn:Hl; [|discriminate].
      destruct (nth_error upper i) as [u|] eqn:Eu; [|discriminate]. simpl in H. injection H as H.
      exists xi, l, u. auto.
    - intros [xi [l [u [-> [-> [-> [H1 H2]]]]]]]. simpl. rewrite H1. simpl. rewrite H2. reflexivity.
  Qed.

  Lemma meets_at_panic : forall lower upper x i p, i < length x ->
    meets_at lower upper x i = Panic p <-> missing_at lower upper x i /\ p = PIndex.
  Proof.
    intros lower upper x i p Hi. unfold meets_at, missing_at, index, ngeb.
    destruct (nth_error x i) as [xi|] eqn:Ex; [|apply nth_error_None in Ex; lia]. simpl.
    destruct (nth_error lower i) as [l|] eqn:El; simpl.
    - destruct (nleb l xi) eqn:Hl; simpl.
      + destruct (nth_error upper i) as [u|] eqn:Eu; simpl; split.
        * discriminate.
        * intros [[H|[_ H]] _]; discriminate.
        * intros H. inversion H. split; auto. right. split; auto. exists xi, l. auto.
        * intros [_ ->]. reflexivity.
      + split; [discriminate|]. intros [[H|[[xi' [l' [H1 [H2 H3]]]] _]] _]; [discriminate|]. inversion H1; inversion H2; subst. congruence.
    - split.
      + intros H. inversion H. auto.
      + intros [_ ->]. reflexivity.
  Qed.

  Lemma meets_at_no_fuel : forall lower upper x i, meets_at lower upper x i <> NoFuel.
  Proof.
    intros. unfold meets_at, index. destruct (nth_error x i); simpl; try discriminate.
    destruct (nth_error lower i); simpl; try discriminate. destruct (ngeb _ _); try discriminate.
    destruct (nth_error upper i); simpl; discriminate.
  Qed.

  Lemma bounds_true : forall lower upper x,
    bounds_meets lower upper x = Ret true <-> (forall i, i < length x -> in_box_at lower upper x i).
  Proof.
    intros. rewrite bounds_meets_oall, oall_true. split; intros H i Hi.
    - apply meets_at_true. apply H. apply in_seq. lia.
    - apply meets_at_true. apply H. apply in_seq in Hi. lia.
  Qed.

  Lemma bounds_panic : forall lower upper x p,
    bounds_meets lower upper x = Panic p <->
    p = PIndex /\ exists i, i < length x /\ (forall j, j < i -> in_box_at lower upper x j) /\ missing_at lower upper x i.
  Proof.
    intros lower upper x p. rewrite bounds_meets_oall.
    assert (G : forall n a, a + n <= length x -> 
      oall (meets_at lower upper x) (seq a n) = Panic p <->
      p = PIndex /\ exists i, a <= i < a + n /\ (forall j, a <= j < i -> in_box_at lower upper x j) /\ missing_at lower upper x i).
    { induction n as [|n IH]; intros a Ha; simpl.
      - split; [discriminate|]. intros [_ [i [Hi _]]]. lia.
      - destruct (meets_at lower upper x a) as [b|q|] eqn:Em; simpl.
        + destruct b.
          * rewrite IH by lia. apply meets_at_true in Em. split; intros [Hp [i [H1 [H2 H3]]]]; split; auto; exists i.
            -- split; [lia|]. split; auto. intros j Hj. destruct (Nat.eq_dec j a) as [->|]; auto. apply H2. lia.
            -- assert (i <> a).
               { intros ->. apply meets_at_true in Em.
                 pose proof (proj2 (meets_at_panic lower upper x a p ltac:(lia)) (conj H3 Hp)). congruence. }
               split; [lia|]. split; auto. intros j Hj. apply H2. lia.
          * split; [discriminate|]. intros [Hp [i [H1 [H2 H3]]]]. exfalso.
            destruct (Nat.eq_dec i a) as [->|Hne].
            -- pose proof (proj2 (meets_at_panic lower upper x a p ltac:(lia)) (conj H3 Hp)). congruence.
            -- assert (Hin : in_box_at lower upper x a) by (apply H2; lia). apply meets_at_true in Hin. congruence.
        + pose proof (proj1 (meets_at_panic lower upper x a q ltac:(lia)) Em) as [Hm Hq]. split.
          * intros H. inversion H; subst. split; auto. exists a. split; [lia|]. split; auto. intros; lia.
          * intros [Hp _]. congruence.
        + exfalso. eapply meets_at_no_fuel; eauto. }
    rewrite G by lia. split; intros [Hp [i [H1 [H2 H3]]]]; split; auto; exists i; (split; [lia|]); split; auto;
      intros j Hj; apply H2; lia.
  Qed.

  Lemma bounds_total : forall lower upper x,
    length x <= length lower -> length x <= length upper ->
    exists b, bounds_meets lower upper x = Ret b.
  Proof.
    intros lower upper x H1 H2. rewrite bounds_meets_oall. apply oall_ok. intros i Hi. apply in_seq in Hi.
    unfold meets_at. destruct (index_ok x i) as [xi ->]; [lia|]. simpl.
    destruct (index_ok lower i) as [l ->]; [lia|]. simpl. destruct (ngeb xi l); eauto.
    destruct (index_ok upper i) as [u ->]; [lia|]. simpl. eauto.
  Qed.
End Bounds.

(* ---- ranking ---- *)
Section Ranking.
  Context {T : Type} {NT : Num T} {OL : OrdLaws T} {LT : Libm T} {E : Env T}.
  Context {F : Type} (ev : F -> vec T -> outcome (T * F)).

  Lemma sample_ranked : forall par tk s m (sm : sampler T (F * list (entry T))) inds sm',
    sample (log_ev ev) par tk s m sm = Ret (Some inds, sm') ->
    exists pts new,
      snd (sm_objective sm') = snd (sm_objective sm) ++ new /\
      Permutation (map pt_entry pts) new /\ (par = false -> map pt_entry pts = new) /\
      Permutation pts inds /\ ranked m pt_value inds /\
      (forall y, nis_nan y = false -> filter (ties m pt_value y) inds = filter (ties m pt_value y) pts).
  Proof.
    intros par tk s m sm inds sm' H. apply sample_log in H.
    destruct H as [cands [out [new [_ [_ [_ [H4 [pts [_ [[P2 P3] [P4 P5]]]]]]]]]]].
    exists pts, new. subst inds. repeat (split; [assumption|]). split; [apply sort_by_perm|]. split.
    - apply sort_ranked. assumption.
    - intros y Hy. apply sort_ties; assumption.
  Qed.
End Ranking.
