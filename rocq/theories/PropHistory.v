(* C05, C06, C12 to C17: counters, NaN, best individuals, value histories. *)
From Coq Require Import List NArith ZArith Bool Arith Lia Permutation Sorted Reals.
From Flocq Require Import IEEE754.BinarySingleNaN.
Require Import Verif.Base Verif.Num Verif.F64 Verif.XReal Verif.LinAlg Verif.Mode Verif.Weights Verif.Options
  Verif.Params Verif.Env Verif.State Verif.Sampling Verif.History Verif.Termination Verif.Plot Verif.Cmaes
  Verif.Order Verif.Sort Verif.NextInv Verif.Spec Verif.LogLemmas Verif.TraceLemmas Verif.BuildLemmas
  Verif.SamplingLemmas Verif.StateLemmas Verif.HistoryLemmas Verif.MedianLemmas Verif.PropSampling Verif.Toy Verif.ToyLemmas.
Import ListNotations.
Open Scope nat_scope.

(* ---- C05 ---- *)
Theorem C05_counters : forall (T : Type) (NT : Num T) (LT : Libm T) (E : Env T) (F : Type)
    (ev : F -> vec T -> outcome (T * F)) o f seed h c,
  used ev o f seed h c ->
  function_evals c = (o_population_size o *
    N.of_nat (length (filter (fun x => negb (reports InvalidFunctionValue (k_result x))) h)))%N /\
  generation c = N.of_nat (length (filter (fun x => negb (reports InvalidFunctionValue (k_result x)) &&
                                                   negb (reports PosDefCov (k_result x))) h)).
Proof. intros T NT LT E F ev o f seed h c Hu. exact (used_evals ev o f seed h c Hu). Qed.
Print Assumptions C05_counters.

Theorem C05_monotone : forall (T : Type) (NT : Num T) (LT : Libm T) (E : Env T) (F : Type)
    (ev : F -> vec T -> outcome (T * F)) c1 h c2,
  traced ev c1 h c2 -> (function_evals c1 <= function_evals c2)%N /\ (generation c1 <= generation c2)%N.
Proof.
  intros T NT LT E F ev c1 h c2 H. induction H as [|h c o c' Ht IH Hq Hs|h c par tk r new c' Ht IH Hn Hc].
  - split; apply N.le_refl.
  - apply quiet_core in Hs; auto. destruct Hs as [S1 [_ [S2 _]]]. unfold function_evals, generation in *.
    rewrite S1, S2. exact IH.
  - apply next_counters in Hn. destruct Hn as [-> ->]. destruct IH as [I1 I2].
    split; eapply N.le_trans; eauto; apply N.le_add_r.
Qed.
Print Assumptions C05_monotone.

(* an objective that returns NaN in the half space x_0 < 5/4 *)
Definition toy_nan (_ : unit) (x : vec f64) : outcome (f64 * unit) :=
  Ret (match x with a :: _ => if nltb a (lit 5 4) then B754_nan else a | [] => n0 end, tt).
Example C05_case : exists h c, used toy_nan (toy_options 2) tt 7%N h c /\
  map (fun x => reports InvalidFunctionValue (k_result x)) h = [false; true; true; false] /\
  function_evals c = 8%N /\ generation c = 2%N.
Proof.
  destruct (toy_test_ex toy_nan (toy_options 2) 4 (fun rs c =>
    forallb (fun p => Bool.eqb (fst p) (snd p)) (combine (map (reports InvalidFunctionValue) rs) [false; true; true; false])
    && N.eqb (function_evals c) 8 && N.eqb (generation c) 2)%bool) as [h [c [H1 [H2 H3]]]].
  - vm_compute. reflexivity.
  - exists h, c. split; [exact H1|]. rewrite map_map in H3. apply andb_true_iff in H3. destruct H3 as [H3 H5].
    apply andb_true_iff in H3. destruct H3 as [H3 H4]. apply N.eqb_eq in H4, H5. split; auto.
    do 5 (destruct h as [|? h]; try discriminate). cbn in H3. rewrite ?andb_true_iff in H3.
    destruct H3 as [E1 [E2 [E3 [E4 _]]]]. apply Bool.eqb_prop in E1, E2, E3, E4. cbn [map]. congruence.
Qed.

(* ---- C06 ---- *)
Lemma call_lengths : forall (T : Type) (NT : Num T) (LT : Libm T) (E : Env T) (F : Type)
    (ev : F -> vec T -> outcome (T * F)) o f seed h c, used ev o f seed h c ->
  Forall (fun x => reports InvalidFunctionValue (k_result x) = false -> length (k_evals x) = N.to_nat (o_population_size o)) h.
Proof.
  intros T NT LT E F ev o f seed. apply used_core_invariant; auto.
  intros h c par tk r new c' Hu Hn Hc IH. apply Forall_app. split; [exact IH|]. constructor; [|constructor].
  cbn [k_result k_evals]. intros R. destruct (C04_count _ _ _ _ _ _ _ _ _ _ _ _ _ _ _ Hu Hn) as [new' [Hc' H]].
  rewrite R in H. assert (new' = new) by (rewrite Hc in Hc'; apply app_inv_head in Hc'; auto). subst. exact H.
Qed.

(* the evaluations not counted are those of the generations with a NaN *)
Theorem C06_exact : forall (T : Type) (NT : Num T) (LT : Libm T) (E : Env T) (F : Type)
    (ev : F -> vec T -> outcome (T * F)) o f seed h c,
  used ev o f seed h c ->
  N.of_nat (length (calls c)) = (function_evals c +
    N.of_nat (length (concat (map k_evals (filter (fun x => reports InvalidFunctionValue (k_result x)) h)))))%N.
Proof.
  intros T NT LT E F ev o f seed h c Hu. pose proof (call_lengths _ _ _ _ _ _ _ _ _ _ _ Hu) as Hl.
  destruct (C05_counters _ _ _ _ _ _ _ _ _ _ _ Hu) as [-> _]. rewrite (used_calls _ _ _ _ _ _ Hu). clear Hu c.
  induction Hl as [|x h Hx _ IH]; simpl.
  - rewrite N.mul_0_r. reflexivity.
  - rewrite app_length, Nat2N.inj_add, IH. destruct (reports InvalidFunctionValue (k_result x)); simpl.
    + rewrite app_length, Nat2N.inj_add. lia.
    + rewrite Hx by reflexivity. lia.
Qed.
Print Assumptions C06_exact.

Theorem C06_without_nan : forall (T : Type) (NT : Num T) (LT : Libm T) (E : Env T) (F : Type)
    (ev : F -> vec T -> outcome (T * F)) o f seed h c,
  used ev o f seed h c -> Forall (fun x => reports InvalidFunctionValue (k_result x) = false) h ->
  function_evals c = N.of_nat (length (calls c)).
Proof.
  intros T NT LT E F ev o f seed h c Hu Hv. rewrite (C06_exact _ _ _ _ _ _ _ _ _ _ _ Hu).
  assert (Hf : filter (fun x : call T => reports InvalidFunctionValue (k_result x)) h = []).
  { clear Hu. induction Hv as [|x h Hx _ IH]; simpl; auto. rewrite Hx. exact IH. }
  rewrite Hf. simpl. lia.
Qed.
Print Assumptions C06_without_nan.

(* the documented meaning fails after a NaN *)
Theorem C06_refuted : exists o h c, used toy_nan o tt 7%N h c /\ function_evals c <> N.of_nat (length (calls c)).
Proof.
  destruct (toy_test_ex toy_nan (toy_options 2) 2
    (fun _ c => negb (N.eqb (function_evals c) (N.of_nat (length (calls c)))))) as [h [c [H1 [_ H2]]]].
  - vm_compute. reflexivity.
  - exists (toy_options 2), h, c. split; [exact H1|]. apply negb_true_iff in H2. apply N.eqb_neq in H2. exact H2.
Qed.
Print Assumptions C06_refuted.

(* ---- C12 ---- *)
Definition same_but_sampler {T : Type} {E : Env T} {F : Type} (a b : cmaes T F) : Prop :=
  c_state a = c_state b /\ c_history a = c_history b /\ c_params a = c_params b /\ c_plot a = c_plot b /\
  c_print_gap a = c_print_gap b /\ c_last_print a = c_last_print b /\ c_created a = c_created b /\ c_out a = c_out b.

Theorem C12_nan : forall (LT : Libm f64) (E : Env f64) (F : Type)
    (ev : F -> vec f64 -> outcome (f64 * F)) par tk (c c' : cmaes f64 (F * list (entry f64))) r,
  next (log_ev ev) par tk c = Ret (r, c') ->
  exists new, calls c' = calls c ++ new /\
  ((exists e, In e new /\ snd e = B754_nan) <-> reports InvalidFunctionValue r = true) /\
  (reports InvalidFunctionValue r = true ->
     r = Some (mkTermData (current_best_individual c) (overall_best_individual c) (mean c) [InvalidFunctionValue]) /\
     same_but_sampler c' c /\ function_evals c' = function_evals c /\
     (par = false -> exists pre x, new = pre ++ [(x, B754_nan)] /\ Forall (fun e => snd e <> B754_nan) pre)).
Proof.
  intros LT E F ev par tk c c' r H. pose proof (next_counters _ _ _ _ _ _ H) as [Hct _]. apply next_log in H.
  destruct H as [cands [out [new [_ [_ [_ [Hc H]]]]]]]. exists new. split; [exact Hc|].
  assert (Hn : forall v : f64, nis_nan v = true <-> v = B754_nan).
  { intros v. change (nis_nan v) with (is_nan v). destruct v; simpl; split; intros X; try discriminate; auto. }
  destruct (reports InvalidFunctionValue r).
  - destruct H as [H1 [_ [H3 [H4 H5]]]]. split; [split; auto; intros _|].
    + apply Exists_exists in H1. destruct H1 as [e [I1 I2]]. exists e. split; auto. apply Hn. exact I2.
    + intros _. split; [rewrite H4, H5; reflexivity|]. split; [rewrite H5; unfold same_but_sampler; cbn; tauto|].
      split; [rewrite Hct; lia|]. intros Hp. destruct (H3 Hp) as [pre [x [v [P1 [P2 P3]]]]].
      apply Hn in P2. subst v. exists pre, x. split; auto. eapply Forall_impl; [|exact P3].
      intros e He Hx. apply Hn in Hx. discriminate (eq_trans (eq_sym He) Hx).
  - destruct H as [H1 _]. split; [|discriminate]. split; [|discriminate]. intros [e [I1 I2]].
    rewrite Forall_forall in H1. specialize (H1 _ I1). apply Hn in I2. discriminate (eq_trans (eq_sym H1) I2).
Qed.
Print Assumptions C12_nan.
Example C12_case : exists h c, used toy_nan (toy_options 2) tt 7%N h c /\
  existsb (fun e => nis_nan (snd e)) (calls c) = true.
Proof.
  destruct (toy_test_ex toy_nan (toy_options 2) 2 (fun _ c => existsb (fun e => nis_nan (snd e)) (calls c))) as [h [c [H1 [_ H2]]]].
  - vm_compute. reflexivity.
  - eauto.
Qed.

(* ---- C13 ---- *)
Theorem C13_current_best : forall (LT : Libm f64) (E : Env f64) (F : Type)
    (ev : F -> vec f64 -> outcome (f64 * F)) o f seed h c par tk r c',
  used ev o f seed h c -> next (log_ev ev) par tk c = Ret (r, c') -> reports InvalidFunctionValue r = false ->
  exists new l1 x v l2, calls c' = calls c ++ new /\
    Permutation (l1 ++ (x, v) :: l2) new /\ (par = false -> l1 ++ (x, v) :: l2 = new) /\
    current_best_individual c' = Some (mkIndividual x v) /\
    Forall (fun e => is_better (o_mode o) v (snd e) = true) l1 /\
    Forall (fun e => is_better (o_mode o) (snd e) v = false) l2.
Proof.
  intros LT E F ev o f seed h c par tk r c' Hu Hn R. pose proof (next_log _ _ _ _ _ _ Hn) as [_ [_ [new [_ [_ [_ [Hc _]]]]]]].
  pose proof (used_setup _ _ _ _ _ _ Hu) as [Hp _].
  destruct (next_best _ _ _ _ _ _ _ Hn Hc R) as [_ [l [b [v [P1 [P2 [[l1 [l2 [Hl [B1 B2]]]] [_ [_ [_ [A3 _]]]]]]]]]]].
  rewrite Hp in *. destruct b as [x w]. exists new, l1, x, w, l2. subst l. repeat split; auto.
Qed.
Print Assumptions C13_current_best.

(* ---- C14 ---- *)
Theorem C14_overall_best : forall (LT : Libm f64) (E : Env f64) (F : Type)
    (ev : F -> vec f64 -> outcome (f64 * F)) o f seed h c,
  used ev o f seed h c ->
  (overall_best_individual c = None <-> generations h = []) /\
  forall i, overall_best_individual c = Some i ->
  exists pre g post, generations h = pre ++ g :: post /\
    In (i_point i, i_value i) g /\
    Forall (Forall (fun e => is_better (o_mode o) (i_value i) (snd e) = true)) pre /\
    Forall (Forall (fun e => is_better (o_mode o) (snd e) (i_value i) = false)) (g :: post).
Proof.
  intros LT E F ev o f seed h c Hu. destruct (used_recorded _ _ _ _ _ _ Hu) as [B [M H]].
  pose proof (rc_overall _ _ _ _ _ H) as Ho. unfold overall_best_individual. destruct (generations h) as [|g gs].
  - rewrite Ho. split; [tauto|]. discriminate.
  - destruct Ho as [i [-> Hi]]. split; [split; discriminate|]. intros j Hj. inversion Hj; subst. exact Hi.
Qed.
Print Assumptions C14_overall_best.

Theorem C14_never_worse : forall (LT : Libm f64) (E : Env f64) (F : Type)
    (ev : F -> vec f64 -> outcome (f64 * F)) o f seed h c h2 c2 i,
  used ev o f seed h c -> traced ev c h2 c2 -> overall_best_individual c = Some i ->
  exists j, overall_best_individual c2 = Some j /\ is_better (o_mode o) (i_value i) (i_value j) = false /\
    (is_better (o_mode o) (i_value j) (i_value i) = false -> j = i).
Proof.
  intros LT E F ev o f seed h c h2 c2 i Hu Ht Hi. induction Ht as [|h2 c2 op c3 Ht IH Hq Hs|h2 c2 par tk r new c3 Ht IH Hn Hc].
  - exists i. split; [exact Hi|]. split; [apply better_irrefl|auto].
  - apply quiet_core in Hs; auto. destruct Hs as [_ [_ [_ [S2 _]]]]. unfold overall_best_individual in *. rewrite S2. exact IH.
  - destruct IH as [j [Hj [J1 J2]]]. pose proof (used_app _ _ _ _ _ _ _ _ Hu Ht) as Hu2.
    destruct (reports InvalidFunctionValue r) eqn:R.
    + exists j. apply next_outcome in Hn. destruct Hn as [[_ [_ [_ ->]]]|[inds [ok [_ [R' _]]]]]; [auto|congruence].
    + destruct (next_best _ _ _ _ _ _ _ Hn Hc R) as [Nn [l [b [v [P1 [_ [Fb [_ [_ [_ [_ [A4 _]]]]]]]]]]]].
      pose proof (used_setup _ _ _ _ _ _ Hu2) as [Hp _].
      unfold overall_best_individual in *. rewrite A4, Hj. cbn [update_overall_best i_value]. rewrite Hp. cbn [p_mode params_of_options].
      destruct (is_better (o_mode o) (snd b) (i_value j)) eqn:Eb.
      * eexists. split; [reflexivity|]. cbn [i_value].
        assert (Nj : nis_nan (i_value j) = false).
        { destruct (nis_nan (i_value j)) eqn:N; auto. rewrite (better_nan_r _ _ _ N) in Eb. discriminate. }
        assert (Hbi : is_better (o_mode o) (snd b) (i_value i) = true).
        { destruct (is_better (o_mode o) (i_value j) (i_value i)) eqn:Ej.
          - eapply better_trans; eauto.
          - rewrite <- (J2 eq_refl). exact Eb. }
        split; [apply better_asym; exact Hbi|]. intros Hf. rewrite Hf in Hbi. discriminate.
      * exists j. auto.
Qed.
Print Assumptions C14_never_worse.

(* ---- C15 ---- *)
Theorem C15_termination_data : forall (T : Type) (NT : Num T) (LT : Libm T) (E : Env T) (F : Type)
    (ev : F -> vec T -> outcome (T * F)) par tk c d c',
  next ev par tk c = Ret (Some d, c') ->
  td_current_best d = current_best_individual c' /\ td_overall_best d = overall_best_individual c' /\
  td_final_mean d = mean c'.
Proof.
  intros T NT LT E F ev par tk c d c' H. apply next_outcome in H.
  destruct H as [[_ [_ [H _]]]|[inds [ok [_ [_ [_ [_ [[_ [_ [H _]]]|[_ [_ [reasons [_ H]]]]]]]]]]]].
  - inversion H; subst. cbn. auto.
  - inversion H; subst. cbn. auto.
  - destruct reasons; inversion H; subst. cbn. auto.
Qed.
Print Assumptions C15_termination_data.

(* the best individuals are missing exactly while no generation without NaN was evaluated *)
Theorem C15_present : forall (LT : Libm f64) (E : Env f64) (F : Type)
    (ev : F -> vec f64 -> outcome (f64 * F)) o f seed h c par tk d c' new,
  used ev o f seed h c -> next (log_ev ev) par tk c = Ret (Some d, c') -> calls c' = calls c ++ new ->
  let h' := h ++ [mkCall (Some d) new] in
  (td_current_best d = None <-> Forall (fun x => reports InvalidFunctionValue (k_result x) = true) h') /\
  (td_overall_best d = None <-> Forall (fun x => reports InvalidFunctionValue (k_result x) = true) h').
Proof.
  intros LT E F ev o f seed h c par tk d c' new Hu Hn Hc h'.
  pose proof (used_next _ _ _ _ _ _ _ _ _ _ _ Hu Hn Hc) as Hu'. fold h' in Hu'.
  destruct (C15_termination_data _ _ _ _ _ _ _ _ _ _ _ Hn) as [-> [-> _]].
  destruct (used_recorded _ _ _ _ _ _ Hu') as [B [M H]].
  assert (Hg : generations h' = [] <-> Forall (fun x => reports InvalidFunctionValue (k_result x) = true) h').
  { clear. unfold generations. induction h' as [|x h' IH]; simpl; [split; auto|]. unfold valid at 1.
    destruct (reports InvalidFunctionValue (k_result x)) eqn:R; simpl.
    - rewrite IH. split; intros H; [constructor; auto|inversion H; auto].
    - split; [discriminate|]. intros H. inversion H; subst. congruence. }
  rewrite <- Hg. unfold current_best_individual, overall_best_individual.
  rewrite (rc_current _ _ _ _ _ H). pose proof (rc_overall _ _ _ _ _ H) as Ho. pose proof (rc_best _ _ _ _ _ H) as Hb.
  destruct (generations h') as [|g gs].
  - inversion Hb; subst. rewrite Ho. simpl. tauto.
  - destruct Ho as [i [-> _]]. inversion Hb as [|? b ? B' _ _]; subst. split.
    + split; [|discriminate]. destruct (rev (b :: B')) eqn:Er; [|discriminate].
      apply (f_equal (@length _)) in Er. rewrite rev_length in Er. discriminate.
    + split; discriminate.
Qed.
Print Assumptions C15_present.

(* ---- C16 ---- *)
(* B and M: the best entries and medians of all generations, oldest first *)
Theorem C16_histories : forall (LT : Libm f64) (E : Env f64) (F : Type)
    (ev : F -> vec f64 -> outcome (f64 * F)) o f seed h c,
  used ev o f seed h c ->
  exists B M, Forall2 (generation_best (o_mode o)) (generations h) B /\
    Forall2 (generation_median (o_mode o)) (generations h) M /\
    h_best_values (c_history c) = firstn (N.to_nat 20000) (rev (map snd B)) /\
    h_median_values (c_history c) = firstn (N.to_nat 20000) (rev M) /\
    N.of_nat (length (h_best_values (c_history c))) = N.min 20000 (N.of_nat (length (generations h))) /\
    N.of_nat (length (h_median_values (c_history c))) = N.min 20000 (N.of_nat (length (generations h))).
Proof.
  intros LT E F ev o f seed h c Hu. destruct (used_recorded _ _ _ _ _ _ Hu) as [B [M H]].
  exists B, M. destruct H as [_ H1 H2 H3 H4 _ _ _ _]. change max_history_length with 20000%N in *.
  assert (L1 : length B = length (generations h)) by (symmetry; eapply Lib.Forall2_len; exact H1).
  assert (L2 : length M = length (generations h)) by (symmetry; eapply Lib.Forall2_len; exact H2).
  split; [exact H1|]. split; [exact H2|]. split; [exact H3|]. split; [exact H4|]. rewrite H3, H4.
  assert (X : forall (l : list f64) n, length l = n ->
    N.of_nat (length (firstn (N.to_nat 20000) l)) = N.min 20000 (N.of_nat n)).
  { intros l n <-. rewrite firstn_length, Nat2N.inj_min, N2Nat.id. reflexivity. }
  split; apply X; rewrite rev_length; [rewrite map_length|]; assumption.
Qed.
Print Assumptions C16_histories.

(* ---- C17 ---- *)
Theorem C17_medians : forall (LT : Libm f64) (E : Env f64) (F : Type)
    (ev : F -> vec f64 -> outcome (f64 * F)) o f seed h c,
  used ev o f seed h c ->
  exists M, Forall2 (generation_median (o_mode o)) (generations h) M /\
    h_first_median (c_history c) = hd_error M /\
    (M = [] -> h_best_median (c_history c) = None) /\
    (M <> [] -> exists v, h_best_median (c_history c) = Some v /\ best_median_of (o_mode o) M v).
Proof.
  intros LT E F ev o f seed h c Hu. destruct (used_recorded _ _ _ _ _ _ Hu) as [B [M H]]. exists M.
  destruct H as [_ _ H2 _ _ _ _ H3 H4]. split; [exact H2|]. split; [exact H3|]. split; [intros ->; exact H4|].
  destruct M; [congruence|]. auto.
Qed.
Print Assumptions C17_medians.


(* the median of a generation has half of the values on either side: always for an odd number of values, and for an even
   number if the sum of the two middle values does not overflow (half of it is then finite). Missing: an even number of
   values with overflow, for which it is false (C17_median_overflow_refuted). *)
Theorem C17_median_halves_partial : forall m (g : list (entry f64)) v,
  generation_median m g v -> g <> [] -> Forall (fun e => snd e <> B754_nan) g ->
  (Nat.even (length g) = true -> is_finite v = true) ->
  length g <= 2 * length (filter (fun e => negb (is_better m v (snd e))) g) /\
  length g <= 2 * length (filter (fun e => negb (is_better m (snd e) v)) g).
Proof.
  intros m g v [s [Hp [Hs ->]]] Hg Hn Hf.
  assert (Hl : length s = length g) by (apply Permutation_length in Hp; rewrite map_length in Hp; exact Hp).
  assert (Hne : s <> []) by (intros ->; destruct g; [congruence|discriminate]).
  assert (Hns : Forall (fun x => nis_nan x = false) s).
  { eapply Permutation_Forall; [apply Permutation_sym; exact Hp|]. apply Forall_map. eapply Forall_impl; [|exact Hn].
    intros [x w] He. change (is_nan w = false). change (w <> B754_nan) in He. destruct w; auto. exfalso; apply He; reflexivity. }
  destruct (middle_halves m s Hne Hns Hs) as [H1 H2].
  { intros Hev. rewrite <- Hl in Hf. specialize (Hf Hev). unfold middle in Hf. rewrite Hev in Hf.
    match goal with |- context [f64_add ?a ?b] => change (is_finite (f64_div (f64_add a b) n2) = true) in Hf; destruct (f64_add a b) end; try reflexivity; vm_compute in Hf; discriminate Hf. }
  assert (Hcount : forall P : f64 -> bool, length (filter (fun e : entry f64 => P (snd e)) g) = length (filter P s)).
  { intros P. assert (X : length (filter P (map snd g)) = length (filter P s)).
    { apply Permutation_sym in Hp. clear -Hp. induction Hp; simpl; auto; repeat match goal with |- context [P ?a] => destruct (P a) end; simpl; congruence. }
    rewrite <- X. clear. induction g as [|e g IH]; simpl; auto. destruct (P (snd e)); simpl; congruence. }
  rewrite (Hcount (fun x => negb (is_better m (middle s) x))), (Hcount (fun x => negb (is_better m x (middle s)))).
  rewrite <- Hl. clear -H1 H2.
  assert (Hall : forall (P : f64 -> bool) l, Forall (fun x => P x = false) l -> length (filter (fun x => negb (P x)) l) = length l).
  { intros P l H. induction H as [|x l Hx _ IH]; simpl; auto. rewrite Hx. simpl. congruence. }
  assert (Hle : forall (P : f64 -> bool) (a b : list f64), length (filter P a) <= length (filter P (a ++ b)) /\
                                              length (filter P b) <= length (filter P (a ++ b))).
  { intros P a b. rewrite filter_app, app_length. lia. }
  pose proof (Nat.div_mod_eq (length s) 2). pose proof (Nat.div_mod_eq (length s + 1) 2).
  pose proof (Nat.mod_upper_bound (length s) 2). pose proof (Nat.mod_upper_bound (length s + 1) 2).
  split.
  - apply Hall in H1. rewrite firstn_length in H1.
    destruct (Hle (fun x => negb (is_better m (middle s) x)) (firstn ((length s + 1) / 2) s) (skipn ((length s + 1) / 2) s)) as [X _].
    rewrite firstn_skipn in X. lia.
  - apply (Hall (fun x => is_better m x (middle s))) in H2. rewrite skipn_length in H2.
    destruct (Hle (fun x => negb (is_better m x (middle s))) (firstn (length s / 2) s) (skipn (length s / 2) s)) as [_ X].
    rewrite firstn_skipn in X. lia.
Qed.
Print Assumptions C17_median_halves_partial.

(* when the sum overflows it is not so: the median of these two finite values is infinite, no value reaches it *)
Theorem C17_median_overflow_refuted : exists (g : list (entry f64)) v,
  generation_median Minimize g v /\ g <> [] /\ Forall (fun e => is_finite (snd e) = true) g /\ is_finite v = false /\
  Forall (fun e => is_better Minimize (snd e) v = true) g.
Proof.
  set (big := @B754_finite 53 1024 false 9007199254740991 971 eq_refl : f64). exists [([], big); ([], big)], (middle [big; big]).
  assert (R : is_better Minimize big big = false) by (vm_compute; reflexivity).
  split; [exists [big; big]; split; [apply Permutation_refl|]; split; [|reflexivity]; repeat constructor; exact R|].
  split; [discriminate|]. split; [repeat constructor|]. split; [vm_compute; reflexivity|].
  assert (Q : is_better Minimize big (middle [big; big]) = true) by (vm_compute; reflexivity). repeat constructor; exact Q.
Qed.
Print Assumptions C17_median_overflow_refuted.

(* a history with two generations and distinct medians *)
Example C13_C17_case : exists h c, used toy_sphere (toy_options 2) tt 7%N h c /\ length (generations h) = 3 /\
  exists a b i, h_first_median (c_history c) = Some a /\ h_best_median (c_history c) = Some b /\ nltb b a = true /\
    overall_best_individual c = Some i /\ length (h_best_values (c_history c)) = 3.
Proof.
  destruct (toy_test_ex toy_sphere (toy_options 2) 3 (fun rs c =>
    forallb (fun r => negb (reports InvalidFunctionValue r)) rs &&
    match h_first_median (c_history c), h_best_median (c_history c), overall_best_individual c with
    | Some a, Some b, Some _ => nltb b a | _, _, _ => false end &&
    Nat.eqb (length (h_best_values (c_history c))) 3)%bool) as [h [c [H1 [H2 H3]]]].
  - vm_compute. reflexivity.
  - exists h, c. apply andb_true_iff in H3. destruct H3 as [H3 H5]. apply andb_true_iff in H3. destruct H3 as [H3 H4].
    apply Nat.eqb_eq in H5. split; [exact H1|]. split.
    + unfold generations. rewrite map_length. rewrite <- H2. clear -H3. induction h as [|x h IH]; simpl in *; auto.
      apply andb_true_iff in H3. destruct H3 as [H3 H4]. unfold valid at 1. rewrite H3. simpl. rewrite IH; auto.
    + destruct (h_first_median (c_history c)) as [a|]; [|discriminate].
      destruct (h_best_median (c_history c)) as [b|]; [|discriminate].
      destruct (overall_best_individual c) as [i|]; [|discriminate]. exists a, b, i. auto.
Qed.
