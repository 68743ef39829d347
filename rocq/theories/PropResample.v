(* C09, continued: when exactly unlimited resampling comes to an end. *)
From Coq Require Import List NArith ZArith Bool Arith Lia Permutation Sorted.
From Flocq Require Import IEEE754.BinarySingleNaN.
Require Import Verif.Lib Verif.Base Verif.Num Verif.F64 Verif.LinAlg Verif.Mode Verif.Weights Verif.Options
  Verif.Params Verif.Env Verif.State Verif.Sampling Verif.History Verif.Termination Verif.Plot Verif.Cmaes
  Verif.NextInv Verif.Spec Verif.LogLemmas Verif.TraceLemmas Verif.BuildLemmas Verif.SamplingLemmas
  Verif.PanicLemmas Verif.NextSafe Verif.TermLemmas Verif.CalmLemmas Verif.Toy Verif.ToyLemmas.
Import ListNotations.
Open Scope nat_scope.

Section Loop.
  Context {T : Type} {NT : Num T} {LT : Libm T} {E : Env T}.
  Context (n : nat) (Hn : 1 <= n) (meets : constraints T) (s : state T) (Hs : wf_state n s).
  Context (Hm : forall x, length x = n -> exists b, meets x = Ret b).

  (* how many of the next m points of the stream satisfy the constraints *)
  Let good (g : rng_t) (m : nat) : nat := length (filter (fun k => satisfies meets (transformed s (normals n g k))) (seq 0 m)).

  Lemma good_add : forall g a b, good g (a + b) = good g a + good (rng_after (a * n) g) b.
  Proof.
    intros g a b. unfold good. rewrite seq_app, filter_app, app_length. f_equal. cbn [plus]. clear.
    assert (G : forall b a0, length (filter (fun k => satisfies meets (transformed s (normals n g k))) (seq (a + a0) b)) =
      length (filter (fun k => satisfies meets (transformed s (normals n (rng_after (a * n) g) k))) (seq a0 b))).
    { clear b. induction b as [|b IH]; intros a0; [reflexivity|]. cbn [seq filter]. rewrite normals_shift. specialize (IH (S a0)). rewrite Nat.add_succ_r in IH.
      destruct (satisfies meets (transformed s (normals n g (a + a0)))); cbn [length]; rewrite IH; reflexivity. }
    rewrite <- (G b 0), Nat.add_0_r. reflexivity.
  Qed.
  Lemma good_le : forall g m, good g m <= m.
  Proof.
    intros g m. unfold good. rewrite <- (seq_length m 0) at 2. induction (seq 0 m) as [|k l IH]; cbn [filter length]; [lia|].
    destruct (satisfies _ _); cbn [length]; lia.
  Qed.
  Lemma good_mono : forall g a b, a <= b -> good g a <= good g b.
  Proof. intros g a b H. replace b with (a + (b - a)) by lia. rewrite good_add. lia. Qed.

  (* one round *)
  Lemma round_total : forall k g, exists new, sample_steps k n (Some meets) s g = Ret (new, rng_after (k * n) g) /\ length new = good g k /\ Forall (fun y : vec T => length y = n) new.
  Proof.
    intros k g. assert (Hw : wf_meets n False False (Some meets)) by (intros x Hx; destruct (Hm x Hx) as [b ->]; exact I).
    pose proof (sample_steps_safe n Hn False False k (Some meets) s g Hs Hw) as Q. apply safe_ret in Q. destruct Q as [[new g'] [Q [Q1 _]]].
    pose proof (sample_steps_spec _ _ _ _ _ _ _ Q) as [-> ->]. eexists. split; [exact Q|]. split; [|exact Q1].
    rewrite filter_map_comm, map_length. reflexivity.
  Qed.

  (* it ends once enough good points are within reach *)
  Lemma resample_ends : forall fuel lambda i (y : list (vec T)) g, length y <= lambda -> Forall (fun y : vec T => length y = n) y -> lambda <= length y + good g fuel ->
    exists ys g', resample fuel n lambda (Some meets) None s i y g = Ret (ys, g') /\ length ys = lambda /\ Forall (fun y : vec T => length y = n) ys.
  Proof.
    induction fuel as [|fuel IH]; intros lambda i y g Hl Hy Hg; cbn [resample]; rewrite (proj2 (Nat.ltb_ge _ _) Hl).
    - cbn in Hg. assert (lambda - length y = 0) as -> by lia. exists y, g. split; [reflexivity|]. split; [lia|exact Hy].
    - destruct (Nat.eqb_spec (lambda - length y) 0) as [E0|E0]; [exists y, g; split; [reflexivity|]; split; [lia|exact Hy]|].
      set (k := lambda - length y) in *. destruct (round_total k g) as [new [-> [L1 L2]]]. cbn [obind]. pose proof (good_le g k).
      apply IH; [rewrite app_length; lia|apply Forall_app; auto|]. rewrite app_length, L1.
      assert (good g (S fuel) <= good g (k + fuel)) by (apply good_mono; lia). rewrite good_add in H0. lia.
  Qed.

  (* it returns only if there are enough good points *)
  Lemma resample_needs : forall fuel lambda g ys g', resample fuel n lambda (Some meets) None s 0 [] g = Ret (ys, g') -> exists m, lambda <= good g m.
  Proof.
    intros fuel lambda g ys g' H. pose proof (resample_length _ _ _ _ _ _ _ _ _ _ _ H) as Hl. apply resample_spec in H. destruct H as [cands [out [H1 [H2 [H3 _]]]]]. cbn [app] in H2. subst out.
    pose proof (rounds_accepted _ _ _ _ _ _ H1) as Ha. destruct (rounds_stream _ _ _ _ _ _ _ 0 H1 H3) as [ks [K1 [K2 K3]]].
    exists (length (concat cands)). unfold good. rewrite <- Hl, K1, map_length. apply NoDup_incl_length.
    - clear - K2. induction K2 as [|k ks K2 IH Hk]; constructor; auto. intros C. rewrite Forall_forall in Hk. specialize (Hk k C). lia.
    - intros k Hk. apply filter_In. rewrite Forall_forall in K3. specialize (K3 k Hk). split; [apply in_seq; lia|].
      rewrite Forall_forall in Ha. destruct (Ha (step_at s n g k)) as [j [_ Q]]; [rewrite K1; apply in_map; exact Hk|]. exact Q.
  Qed.

  Lemma resample_endless : forall fuel lambda g, (forall m, good g m < lambda) -> resample fuel n lambda (Some meets) None s 0 [] g = NoFuel.
  Proof.
    intros fuel lambda g H. assert (Hw : wf_meets n False True (Some meets)) by (intros x Hx; destruct (Hm x Hx) as [b ->]; exact I).
    pose proof (resample_safe n Hn False True fuel lambda (Some meets) None s 0 [] g Hs Hw ltac:(cbn; lia) (Forall_nil _) (or_introl I)) as Q.
    destruct (resample fuel n lambda (Some meets) None s 0 [] g) as [[ys g']| |] eqn:Er; [|contradiction|reflexivity].
    apply resample_needs in Er. destruct Er as [m Er]. specialize (H m). lia.
  Qed.
End Loop.

(* how many of the m points that come next satisfy the constraints: d blocks of normal numbers have been used *)
Definition satisfying {E : Env f64} (o : options f64) (seed : N) (d : nat) (s : state f64) (meets : constraints f64) (m : nat) : nat :=
  length (filter (fun k => satisfies meets (transformed s (normals (length (o_initial_mean o)) (rng_seed seed) k))) (seq d m)).

Section Endless.
  Context (LT : Libm f64) (E : Env f64) (F : Type) (ev : F -> vec f64 -> outcome (f64 * F)).

  Lemma satisfying_stream : forall o seed d s meets m (c : cmaes f64 (F * list (entry f64))), drawn o seed d c ->
    satisfying o seed d s meets m = length (filter (fun k => satisfies meets (transformed s (normals (length (o_initial_mean o)) (sm_rng (c_sampler c)) k))) (seq 0 m)).
  Proof.
    intros o seed d s meets m c Hd. unfold satisfying. unfold drawn in Hd. rewrite Hd.
    assert (G : forall m a, length (filter (fun k => satisfies meets (transformed s (normals (length (o_initial_mean o)) (rng_seed seed) k))) (seq (d + a) m)) =
      length (filter (fun k => satisfies meets (transformed s (normals (length (o_initial_mean o)) (rng_after (d * length (o_initial_mean o)) (rng_seed seed)) k))) (seq a m))).
    { clear m. induction m as [|m IH]; intros a; [reflexivity|]. cbn [seq filter]. rewrite normals_shift. specialize (IH (S a)). rewrite Nat.add_succ_r in IH.
      destruct (satisfies meets (transformed s (normals _ _ (d + a)))); cbn [length]; rewrite IH; reflexivity. }
    rewrite <- (G m 0), Nat.add_0_r. reflexivity.
  Qed.

  (* As long as fewer than population_size of the points to come satisfy the constraints, however many there are, next
     does not return, whatever the objective. *)
  Theorem C09_too_few : forall o f seed h c d meets,
    eigen_shape (T := f64) -> used ev o f seed h c -> drawn o seed d c ->
    o_constraints o = Some meets -> o_max_resamples o = None ->
    (forall x, length x = length (o_initial_mean o) -> exists b, meets x = Ret b) ->
    (forall m, satisfying o seed d (c_state c) meets m < N.to_nat (o_population_size o)) ->
    forall ev' par tk, next ev' par tk c = NoFuel.
  Proof.
    intros o f seed h c d meets He Hu Hd Hc Hm Ht Hg ev' par tk. pose proof (used_reaches ev o f seed h c Hu) as Hr. apply (reaches_wf He) in Hr.
    unfold next, cmaes_sample, sample. rewrite (wf_sm_con _ _ Hr), (wf_sm_max _ _ Hr), (wf_sm_pop _ _ Hr), (wf_sm_dim _ _ Hr), Hc, Hm.
    rewrite (resample_endless (dims o) (wf_dim _ _ Hr) meets (c_state c) (wf_st _ _ Hr) Ht); [reflexivity|]. intros m. specialize (Hg m). rewrite (satisfying_stream _ _ _ _ _ _ _ Hd) in Hg. exact Hg.
  Qed.

  (* Once population_size of the next m points do, m rounds are enough and next returns. *)
  Theorem C09_enough : forall o f seed h c d meets m par tk,
    eigen_shape (T := f64) -> used ev o f seed h c -> drawn o seed d c ->
    o_constraints o = Some meets -> o_max_resamples o = None ->
    (forall x, length x = length (o_initial_mean o) -> exists b, meets x = Ret b) ->
    (forall g x, length x = length (o_initial_mean o) -> exists r, ev g x = Ret r) ->
    N.to_nat (o_population_size o) <= satisfying o seed d (c_state c) meets m ->
    m <= t_fuel tk -> (par = true -> Permutation (t_sched tk) (seq 0 (N.to_nat (o_population_size o)))) ->
    next (log_ev ev) par tk c <> NoFuel /\
    (medians_known ev (o_population_size o) -> exists r c', next (log_ev ev) par tk c = Ret (r, c')).
  Proof.
    intros o f seed h c d meets m par tk He Hu Hd Hc Hm Ht Hev Hg Hf Hp. pose proof (used_reaches ev o f seed h c Hu) as Hr. pose proof (reaches_wf He _ _ _ _ Hr) as Hw.
    rewrite (satisfying_stream _ _ _ _ _ _ _ Hd) in Hg.
    assert (Hev' : forall pf nf g x, length x = dims o -> safe pf nf (fun _ => True) (log_ev ev g x)).
    { intros pf nf g x Hx. unfold log_ev. destruct (Hev (fst g) x Hx) as [[v g'] ->]. exact I. }
    assert (Hg' : N.to_nat (o_population_size o) <= length (filter (fun k => satisfies meets (transformed (c_state c) (normals (dims o) (sm_rng (c_sampler c)) k))) (seq 0 (t_fuel tk)))).
    { apply Nat.le_trans with (1 := Hg). exact (good_mono (dims o) (wf_dim _ _ Hw) meets (c_state c) (sm_rng (c_sampler c)) m (t_fuel tk) Hf). }
    destruct (resample_ends (dims o) (wf_dim _ _ Hw) meets (c_state c) (wf_st _ _ Hw) Ht (t_fuel tk) (N.to_nat (o_population_size o)) 0 [] (sm_rng (c_sampler c)) ltac:(cbn; lia) (Forall_nil _) Hg') as [ys [g' [Er [Ly Fy]]]].
    assert (Es : exists r sm, sample (log_ev ev) par tk (c_state c) (p_mode (c_params c)) (c_sampler c) = Ret (r, sm)).
    { unfold sample. rewrite (wf_sm_con _ _ Hw), (wf_sm_max _ _ Hw), (wf_sm_pop _ _ Hw), (wf_sm_dim _ _ Hw), Hc, Hm, Er. cbn [obind].
      assert (Q : exists a, (if par then evaluate_par (log_ev ev) (t_sched tk) (c_state c) ys (sm_objective (c_sampler c)) else evaluate_seq (log_ev ev) (c_state c) ys (sm_objective (c_sampler c))) = Ret a).
      { destruct par.
        - pose proof (evaluate_par_safe (log_ev ev) (dims o) (wf_dim _ _ Hw) False False (Hev' False False) (t_sched tk) (c_state c) ys (sm_objective (c_sampler c)) (wf_st _ _ Hw) Fy ltac:(right; rewrite Ly; apply Hp; reflexivity)) as Q. apply safe_ret in Q. destruct Q as [a [Q _]]. eauto.
        - pose proof (evaluate_seq_safe (log_ev ev) (dims o) False False (Hev' False False) (c_state c) ys (sm_objective (c_sampler c)) (wf_st _ _ Hw) Fy) as Q. apply safe_ret in Q. destruct Q as [a [Q _]]. eauto. }
      destruct Q as [[q f'] ->]. cbn [obind]. destruct q; eauto. }
    assert (HcT : forall pf nf, calls_ok (log_ev ev) pf nf o).
    { intros pf nf. split; [apply Hev'|]. unfold wf_meets. rewrite Hc. intros x Hx. destruct (Ht x Hx) as [b ->]. exact I. }
    assert (N1 : next (log_ev ev) par tk c <> NoFuel).
    { intros C. destruct Es as [r [sm Es]]. pose proof (cmaes_sample_safe (log_ev ev) True True o c par tk Hw (HcT True True) (or_introl I)) as Q.
      unfold next in C. destruct (cmaes_sample (log_ev ev) par tk c) as [[[inds|] c1]| |] eqn:Ec; cbn [obind] in C; try discriminate C.
      - destruct Q as [Q1 Q2]. cbn [fst snd] in Q1, Q2. pose proof (next_internal_safe He True o c1 tk inds Q1 Q2 (or_introl I)) as Q3. rewrite C in Q3. exact Q3.
      - unfold cmaes_sample in Ec. rewrite Es in Ec. cbn [obind] in Ec. destruct r as [inds|]; [|discriminate Ec].
        pose proof (sample_safe (log_ev ev) (dims o) (wf_dim _ _ Hw) True True (Hev' True True) par tk (c_state c) (p_mode (c_params c)) (c_sampler c) (wf_st _ _ Hw) (wf_sm_dim _ _ Hw)) as Q4.
        rewrite (wf_sm_con _ _ Hw), (wf_sm_pop _ _ Hw) in Q4. specialize (Q4 (proj2 (HcT True True)) (or_introl I)). rewrite Es in Q4. cbn [safe fst] in Q4.
        pose proof (history_safe (dims o) (wf_dim _ _ Hw) (pop o) (wf_pop _ _ Hw) (p_mode (c_params c)) inds (c_history c) Q4 (wf_hist _ _ Hw)) as Q5. apply safe_ret in Q5. destruct Q5 as [hh [Q5 _]]. rewrite Q5 in Ec. discriminate Ec. }
    split; [exact N1|]. intros Hk.
    pose proof (next_no_panic He (log_ev ev) o (f, []) c par tk) as Np.
    destruct (next (log_ev ev) par tk c) as [[r c']|p|] eqn:En; [eauto| |contradiction]. exfalso. apply (Np p); auto.
    - apply medians_known_ok. apply medians_known_log. exact Hk.
    - intros g x Hx q. pose proof (Hev' False False g x Hx) as Q. destruct (log_ev ev g x); try discriminate. contradiction.
    - intros meets' x Hc' Hx q. rewrite Hc in Hc'. assert (meets' = meets) by congruence. subst meets'. destruct (Ht x Hx) as [b ->]. discriminate.
  Qed.
End Endless.
Print Assumptions C09_too_few.
Print Assumptions C09_enough.

Lemma bounds_total : forall (l u : f64) x, length x = 2 -> exists b, bounds_meets (repeat l 2) (repeat u 2) x = Ret b.
Proof.
  intros l u [|a [|b [|]]] H; try discriminate H. unfold bounds_meets. cbn.
  repeat (match goal with |- context [if ?b then _ else _] => destruct b; cbn end); eauto.
Qed.

(* the box of PropSampling.v, after one call: 4 of the next 20 points are inside *)
Definition c09_options : options f64 :=
  apply_setters (toy_options 2) [SConstraints (bounds_meets (repeat (lit 14 10) 2) (repeat (lit 2 1) 2)); SMaxResamples None].
Example C09_enough_case : exists h c meets, used toy_sphere c09_options tt 7%N h c /\ length h = 1 /\
  drawn c09_options 7%N 11 c /\ o_constraints c09_options = Some meets /\ o_max_resamples c09_options = None /\
  (forall x, length x = length (o_initial_mean c09_options) -> exists b, meets x = Ret b) /\
  N.to_nat (o_population_size c09_options) <= satisfying c09_options 7%N 11 (c_state c) meets 20 /\
  satisfying c09_options 7%N 11 (c_state c) meets 20 < 20.
Proof.
  destruct (toy_test_ex toy_sphere c09_options 1 (fun _ c => N.eqb (sm_rng (c_sampler c)) 29 &&
    Nat.leb 4 (satisfying c09_options 7%N 11 (c_state c) (bounds_meets (repeat (lit 14 10) 2) (repeat (lit 2 1) 2)) 20) &&
    Nat.ltb (satisfying c09_options 7%N 11 (c_state c) (bounds_meets (repeat (lit 14 10) 2) (repeat (lit 2 1) 2)) 20) 20)) as [h [c [H1 [H2 H3]]]].
  - vm_compute. reflexivity.
  - apply andb_true_iff in H3. destruct H3 as [H3 H5]. apply andb_true_iff in H3. destruct H3 as [H3 H4]. apply N.eqb_eq in H3. apply Nat.leb_le in H4. apply Nat.ltb_lt in H5.
    exists h, c, (bounds_meets (repeat (lit 14 10) 2) (repeat (lit 2 1) 2)).
    split; [exact H1|]. split; [exact H2|]. split; [exact H3|]. split; [reflexivity|]. split; [reflexivity|]. split; [intros x Hx; apply bounds_total; exact Hx|]. auto.
Qed.

(* a box which has points, but none that this generator ever reaches from the initial state *)
Definition c09_far : options f64 :=
  apply_setters (toy_options 2) [SConstraints (bounds_meets (repeat (lit 10 1) 2) (repeat (lit 20 1) 2)); SMaxResamples None].
Lemma toy_after_N : forall n (g : N), rng_after (T := f64) n g = (g + N.of_nat n)%N.
Proof. induction n as [|n IH]; intros g; [cbn; lia|]. cbn [rng_after rng_normal toy_env snd]. rewrite IH. lia. Qed.
Lemma toy_period : forall g k, normals (T := f64) 2 g k = normals 2 g (k mod 11).
Proof.
  intros g k. rewrite (Nat.div_mod_eq k 11) at 1. rewrite Nat.add_comm. induction (k / 11) as [|q IH]; [rewrite Nat.mul_0_r, Nat.add_0_r; reflexivity|].
  rewrite <- IH. set (b := k mod 11 + 11 * q). replace (k mod 11 + 11 * S q) with (11 + b) by lia. clearbody b.
  unfold normals. cbn [seq map]. unfold normal_at. rewrite !toy_after_N. cbn [rng_normal toy_env fst].
  assert (G : forall i j : N, (i = j + 2 * 11)%N -> (i mod 11 = j mod 11)%N) by (intros i j ->; apply N.mod_add; lia).
  f_equal; [|f_equal]; f_equal; f_equal; apply G; lia.
Qed.
Example C09_too_few_case : exists h c meets, used toy_sphere c09_far tt 7%N h c /\ drawn c09_far 7%N 0 c /\
  o_constraints c09_far = Some meets /\ o_max_resamples c09_far = None /\
  (exists x, length x = length (o_initial_mean c09_far) /\ meets x = Ret true) /\
  (forall x, length x = length (o_initial_mean c09_far) -> exists b, meets x = Ret b) /\
  (forall m, satisfying c09_far 7%N 0 (c_state c) meets m < N.to_nat (o_population_size c09_far)).
Proof.
  destruct (toy_test_ex toy_sphere c09_far 0 (fun _ c => N.eqb (sm_rng (c_sampler c)) 7 &&
    forallb (fun k => negb (satisfies (bounds_meets (repeat (lit 10 1) 2) (repeat (lit 20 1) 2)) (transformed (c_state c) (normals 2 (rng_seed (Env := toy_env) 7) k)))) (seq 0 11))) as [h [c [H1 [H2 H3]]]].
  - vm_compute. reflexivity.
  - apply andb_true_iff in H3. destruct H3 as [H3 H4]. apply N.eqb_eq in H3.
    exists h, c, (bounds_meets (repeat (lit 10 1) 2) (repeat (lit 20 1) 2)).
    split; [exact H1|]. split; [exact H3|]. split; [reflexivity|]. split; [reflexivity|].
    split; [exists (repeat (lit 15 1) 2); split; [reflexivity|vm_compute; reflexivity]|]. split; [intros x Hx; apply bounds_total; exact Hx|].
    intros m. unfold satisfying. change (length (o_initial_mean c09_far)) with 2. change (N.to_nat (o_population_size c09_far)) with 4.
    rewrite forallb_forall in H4. match goal with |- length ?l < 4 => assert (l = []) as -> end; [|cbn; lia].
    induction (seq 0 m) as [|k l IH]; [reflexivity|]. cbn [filter]. rewrite toy_period. specialize (H4 (k mod 11)). rewrite negb_true_iff in H4. rewrite H4; [exact IH|].
    apply in_seq. pose proof (Nat.mod_upper_bound k 11). lia.
Qed.
