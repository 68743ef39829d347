(* C04, C07, C08, C10, C11: sampling. *)
From Coq Require Import List NArith ZArith Bool Arith Lia Permutation Sorted Reals.
From Flocq Require Import IEEE754.BinarySingleNaN.
Require Import Verif.Base Verif.Num Verif.F64 Verif.XReal Verif.LinAlg Verif.Mode Verif.Weights Verif.Options
  Verif.Params Verif.Env Verif.State Verif.Sampling Verif.History Verif.Termination Verif.Plot Verif.Cmaes
  Verif.Order Verif.Sort Verif.NextInv Verif.Spec Verif.LogLemmas Verif.TraceLemmas Verif.SamplingLemmas
  Verif.RelLemmas Verif.PanicLemmas Verif.NextSafe Verif.CastLemmas Verif.Toy Verif.ToyLemmas Verif.CalmLemmas.
Import ListNotations.
Open Scope nat_scope.

(* Many statements are about an objective that keeps a record of its calls. This loses nothing: whatever can
   be done with an optimiser can be done with the recording objective, with the same results, and is then one
   of the histories of Spec.used. *)
Theorem recording_covers_all_uses : forall (T : Type) (NT : Num T) (LT : Libm T) (E : Env T) (F : Type)
    (ev : F -> vec T -> outcome (T * F)) o f c,
  reaches ev o f c -> exists seed h d, used ev o f seed h d /\ unlog d c.
Proof.
  intros T NT LT E F ev o f c H. apply reaches_logged in H. destruct H as [rs [now [c0 [l [d [H1 [H2 H3]]]]]]].
  destruct (steps_used ev o f rs now c0 l d H1 H2) as [h Hh]. eauto.
Qed.
Print Assumptions recording_covers_all_uses.
Theorem recording_changes_nothing : forall (T : Type) (NT : Num T) (LT : Libm T) (E : Env T) (F : Type)
    (ev : F -> vec T -> outcome (T * F)) par tk d c,
  unlog d c ->
  out_rel (fun r1 r2 => fst r1 = fst r2 /\ unlog (snd r1) (snd r2)) (next (log_ev ev) par tk d) (next ev par tk c).
Proof. intros. apply next_unlog. assumption. Qed.
Print Assumptions recording_changes_nothing.

(* C04. The random numbers are consumed in blocks of one vector; `drawn o seed d c`: d blocks so far. The
   points of a generation belong to population_size different blocks with increasing numbers k, none of which
   was used before; each point is mean + sigma * transform * z for the mean, sigma and transform before the
   call. Without NaN all of them are evaluated, once each (in this order when sequential); with NaN only some. *)
Theorem C04_points : forall (T : Type) (NT : Num T) (LT : Libm T) (E : Env T) (F : Type)
    (ev : F -> vec T -> outcome (T * F)) o f seed h c,
  used ev o f seed h c ->
  exists d, drawn o seed d c /\
  forall par tk r c', next (log_ev ev) par tk c = Ret (r, c') ->
  exists d' ks new,
    drawn o seed d' c' /\ calls c' = calls c ++ new /\
    StronglySorted lt ks /\ Forall (fun k => d <= k < d') ks /\
    length ks = N.to_nat (o_population_size o) /\
    let points := map (fun k => transformed (c_state c) (normals (length (o_initial_mean o)) (rng_seed seed) k)) ks in
    if reports InvalidFunctionValue r
    then exists rest all, Permutation all points /\ (par = false -> all = points) /\ all = map fst new ++ rest
    else Permutation points (map fst new) /\ (par = false -> points = map fst new).
Proof.
  intros T NT LT E F ev o f seed h c Hu. destruct (used_drawn _ _ _ _ _ _ Hu) as [d Hd]. exists d. split; auto.
  intros par tk r c' Hn. eapply next_points; eauto.
Qed.
Print Assumptions C04_points.

(* the number of evaluations *)
Theorem C04_count : forall (T : Type) (NT : Num T) (LT : Libm T) (E : Env T) (F : Type)
    (ev : F -> vec T -> outcome (T * F)) o f seed h c par tk r c',
  used ev o f seed h c -> next (log_ev ev) par tk c = Ret (r, c') ->
  exists new, calls c' = calls c ++ new /\
    if reports InvalidFunctionValue r then length new <= N.to_nat (o_population_size o)
    else length new = N.to_nat (o_population_size o).
Proof.
  intros T NT LT E F ev o f seed h c par tk r c' Hu Hn. destruct (used_drawn _ _ _ _ _ _ Hu) as [d Hd].
  destruct (next_points _ _ _ _ _ _ _ _ _ _ _ Hu Hd Hn) as [d' [ks [new [_ [H1 [_ [_ [H2 H3]]]]]]]].
  exists new. split; auto. cbv zeta in H3. destruct (reports InvalidFunctionValue r).
  - destruct H3 as [rest [all [A1 [_ A2]]]]. apply Permutation_length in A1. rewrite map_length in A1.
    rewrite A2, app_length, map_length in A1. rewrite <- H2, <- A1. apply Nat.le_add_r.
  - destruct H3 as [A1 _]. apply Permutation_length in A1. rewrite !map_length in A1. rewrite <- H2, A1. reflexivity.
Qed.
Print Assumptions C04_count.

Example C04_case : exists h c, used toy_sphere (toy_options 2) tt 7%N h c /\ length h = 3 /\
  exists r c', next (log_ev toy_sphere) false toy_tick c = Ret (r, c').
Proof.
  destruct (toy_test_ex toy_sphere (toy_options 2) 3
    (fun _ c => is_ret (next (log_ev toy_sphere) false toy_tick c))) as [h [c [H1 [H2 H3]]]].
  - vm_compute. reflexivity.
  - exists h, c. split; [exact H1|]. split; [exact H2|]. apply is_ret_ex in H3. destruct H3 as [[r c'] H3]. eauto.
Qed.

(* C07 *)
Theorem C07_constraints_hold : forall (T : Type) (NT : Num T) (LT : Libm T) (E : Env T) (F : Type)
    (ev : F -> vec T -> outcome (T * F)) o f seed h c meets,
  o_constraints o = Some meets -> o_max_resamples o = None -> used ev o f seed h c ->
  Forall (fun e => meets (fst e) = Ret true) (calls c).
Proof. intros until meets. apply constraints_hold. Qed.
Print Assumptions C07_constraints_hold.

(* a box that rejects some of the candidates: more random numbers are drawn than needed for 4 points *)
Definition box_options : options f64 :=
  apply_setters (toy_options 2)
    [SConstraints (bounds_meets (repeat (lit 14 10) 2) (repeat (lit 2 1) 2)); SMaxResamples None].
Example C07_case : exists h c meets, used toy_sphere box_options tt 7%N h c /\ length h = 1 /\
  o_constraints box_options = Some meets /\ o_max_resamples box_options = None /\
  length (calls c) = 4 /\ sm_rng (c_sampler c) = 29%N.
Proof.
  destruct (toy_test_ex toy_sphere box_options 1
    (fun _ c => Nat.eqb (length (calls c)) 4 && N.eqb (sm_rng (c_sampler c)) 29)) as [h [c [H1 [H2 H3]]]].
  - vm_compute. reflexivity.
  - apply andb_true_iff in H3. destruct H3 as [H3 H4]. apply Nat.eqb_eq in H3. apply N.eqb_eq in H4.
    exists h, c, (bounds_meets (repeat (lit 14 10) 2) (repeat (lit 2 1) 2)).
    split; [exact H1|]. split; [exact H2|]. split; [reflexivity|]. split; [reflexivity|]. auto.
Qed.

(* ---- C08 ---- *)
Theorem C08_limited_resampling : forall (T : Type) (NT : Num T) (LT : Libm T) (E : Env T) (F : Type)
    (ev : F -> vec T -> outcome (T * F)) o f seed h c par tk r c' meets m,
  o_constraints o = Some meets -> o_max_resamples o = Some m ->
  used ev o f seed h c -> next (log_ev ev) par tk c = Ret (r, c') ->
  exists cands out new,
    rounds (acceptance (Some meets) (Some m)) (N.to_nat (o_population_size o)) 0 0 cands out /\
    (N.of_nat (length cands) <= m + 1)%N /\
    (forall x, In x out -> meets x = Ret true \/ In x (nth (N.to_nat m) cands [])) /\
    calls c' = calls c ++ new /\
    if reports InvalidFunctionValue r
    then exists rest all, Permutation all out /\ (par = false -> all = out) /\ all = map fst new ++ rest
    else Permutation out (map fst new) /\ (par = false -> out = map fst new).
Proof.
  intros T NT LT E F ev o f seed h c par tk r c' meets m Hc Hm Hu Hn.
  destruct (next_rounds _ _ _ _ _ _ _ _ _ _ Hu Hn) as [cands [out [new [R1 [R2 R3]]]]].
  rewrite Hc, Hm in R1. exists cands, out, new. split; auto. split.
  - pose proof (rounds_bound _ _ _ _ _ _ _ R1). lia.
  - split; auto. intros x Hx. pose proof (rounds_last _ _ _ _ _ _ _ R1 x Hx) as H.
    rewrite N.sub_0_r in H. apply H. lia.
Qed.
Print Assumptions C08_limited_resampling.

(* it always finishes: m + 1 rounds are enough, for every constraint that returns; and the call returns, unless
   the median of medians that include NaN panics (see C28) *)
Theorem C08_finishes : forall (LT : Libm f64) (E : Env f64) (F : Type)
    (ev : F -> vec f64 -> outcome (f64 * F)) o f c par tk meets m,
  eigen_shape (T := f64) ->
  o_constraints o = Some meets -> o_max_resamples o = Some m ->
  reaches ev o f c ->
  (forall g x, length x = length (o_initial_mean o) -> exists r, ev g x = Ret r) ->
  (forall x, length x = length (o_initial_mean o) -> exists b, meets x = Ret b) ->
  N.to_nat m + 1 <= t_fuel tk ->
  (par = true -> Permutation (t_sched tk) (seq 0 (N.to_nat (o_population_size o)))) ->
  next ev par tk c <> NoFuel /\
  (medians_known ev (o_population_size o) -> exists r c', next ev par tk c = Ret (r, c')).
Proof.
  intros LT E F ev o f c par tk meets m He Hc Hm Hr H1 H2 H3 H4.
  assert (Ht : tick_ok o par tk) by (split; [|exact H4]; unfold fuel_ok; rewrite Hc, Hm, N.sub_0_r; exact H3).
  assert (Hm2 : forall meets' x, o_constraints o = Some meets' -> length x = dims o -> exists b, meets' x = Ret b).
  { intros meets' x Hc' Hx. rewrite Hc in Hc'. inversion Hc'; subst. apply H2. exact Hx. }
  split.
  - intros H. pose proof (next_safe_wf He ev True False o c par tk (reaches_wf He ev o f c Hr) (or_introl I)) as Hs. rewrite H in Hs.
    apply Hs; [|right; exact Ht]. split.
    + intros g x Hx. destruct (H1 g x Hx) as [r ->]. exact I.
    + unfold wf_meets. rewrite Hc. intros x Hx. destruct (H2 x Hx) as [b ->]. exact I.
  - intros Hk. apply (next_returns He ev o f c par tk (medians_known_ok ev o Hk) Hr H1); auto.
Qed.
Print Assumptions C08_finishes.

(* max_resamples = 0 (or no constraints): the next population_size vectors of the stream are used *)
Theorem C08_zero_switches_off : forall (T : Type) (NT : Num T) (LT : Libm T) (E : Env T) (F : Type)
    (ev : F -> vec T -> outcome (T * F)) o f seed h c par tk r c' d,
  (o_constraints o = None \/ o_max_resamples o = Some 0%N) ->
  used ev o f seed h c -> drawn o seed d c -> next (log_ev ev) par tk c = Ret (r, c') ->
  let lambda := N.to_nat (o_population_size o) in
  exists new,
    drawn o seed (d + lambda) c' /\ calls c' = calls c ++ new /\
    let points := map (fun k => transformed (c_state c) (normals (length (o_initial_mean o)) (rng_seed seed) k))
                      (seq d lambda) in
    if reports InvalidFunctionValue r
    then exists rest all, Permutation all points /\ (par = false -> all = points) /\ all = map fst new ++ rest
    else Permutation points (map fst new) /\ (par = false -> points = map fst new).
Proof. intros until d. apply next_points_unconstrained. Qed.
Print Assumptions C08_zero_switches_off.

(* unsatisfiable constraints, two resampling rounds: returns, with 4 evaluations after 3 rounds *)
Definition never_options (m : N) : options f64 :=
  apply_setters (toy_options 2) [SConstraints (fun _ => Ret false); SMaxResamples (Some m)].
Example C08_case : exists h c, used toy_sphere (never_options 2) tt 7%N h c /\ length h = 1 /\
  length (calls c) = 4 /\ sm_rng (c_sampler c) = (7 + 2 * 4 * 3)%N.
Proof.
  destruct (toy_test_ex toy_sphere (never_options 2) 1
    (fun _ c => Nat.eqb (length (calls c)) 4 && N.eqb (sm_rng (c_sampler c)) (7 + 2 * 4 * 3))) as [h [c [H1 [H2 H3]]]].
  - vm_compute. reflexivity.
  - apply andb_true_iff in H3. destruct H3 as [H3 H4]. apply Nat.eqb_eq in H3. apply N.eqb_eq in H4. eauto 10.
Qed.
(* ---- C10 ---- *)
(* comparison of binary64 numbers as extended reals; false for NaN *)
Definition le64 (a b : f64) : Prop :=
  match f2x a, f2x b with
  | XNaN, _ | _, XNaN => False
  | XInf true, _ => True
  | _, XInf false => True
  | XFin x, XFin y => (x <= y)%R
  | _, _ => False
  end.
Lemma le64_nleb : forall a b : f64, nleb a b = true <-> le64 a b.
Proof.
  intros a b. rewrite f2x_leb. unfold le64, x_leb.
  destruct (f2x a) as [|[]|x], (f2x b) as [|[]|y]; simpl; try tauto; try (split; [discriminate|tauto]).
  rewrite orb_true_iff, Rltb_true, Reqb_true. unfold Rle. tauto.
Qed.
Theorem C10_bounds : forall lower upper x : vec f64,
  bounds_meets lower upper x = Ret true <->
  forall i, i < length x -> exists xi l u,
    nth_error x i = Some xi /\ nth_error lower i = Some l /\ nth_error upper i = Some u /\ le64 l xi /\ le64 xi u.
Proof.
  intros. rewrite bounds_true. unfold in_box_at.
  split; intros H i Hi; destruct (H i Hi) as [xi [l [u [H1 [H2 [H3 [H4 H5]]]]]]]; exists xi, l, u;
    rewrite !le64_nleb in *; auto.
Qed.
Print Assumptions C10_bounds.
Theorem C10_nan_rejected : forall lower upper x : vec f64, In B754_nan x -> bounds_meets lower upper x <> Ret true.
Proof.
  intros lower upper x Hx H. apply In_nth_error in Hx. destruct Hx as [i Hi].
  rewrite C10_bounds in H. destruct (H i) as [xi [l [u [H1 [_ [_ [H4 _]]]]]]].
  - apply nth_error_Some. intros Hn. pose proof (eq_trans (eq_sym Hi) Hn). discriminate.
  - pose proof (eq_trans (eq_sym Hi) H1) as H2. inversion H2; subst. unfold le64 in H4. destruct (f2x l) as [|[]|]; exact H4.
Qed.
Print Assumptions C10_nan_rejected.
Theorem C10_total : forall lower upper x : vec f64,
  length x <= length lower -> length x <= length upper -> exists b, bounds_meets lower upper x = Ret b.
Proof. intros. apply bounds_total; assumption. Qed.
Print Assumptions C10_total.
(* the only other outcome: a missing bound is needed, all earlier coordinates being inside *)
Theorem C10_panics : forall (lower upper x : vec f64) p,
  bounds_meets lower upper x = Panic p <->
  p = PIndex /\ exists i, i < length x /\ (forall j, j < i -> in_box_at lower upper x j) /\ missing_at lower upper x i.
Proof. intros. apply bounds_panic. Qed.
Print Assumptions C10_panics.
Example C10_case : bounds_meets [n0; n0] [n1; n1] [lit 1 2; n1] = Ret true /\
  bounds_meets [n0; n0] [n1; n1] [lit 1 2; n2] = Ret false /\
  bounds_meets [n0] [n1] [lit 1 2; n2] = Panic PIndex /\ bounds_meets [n0] [n1] [n2 : f64; n2] = Ret false.
Proof. repeat split; vm_compute; reflexivity. Qed.

(* ---- C11 ---- *)
(* The individuals of a generation (the list used for the update and the best values): a permutation of the
   evaluated points, ranked best first, equal values in evaluation order. *)
Theorem C11_ranked : forall (LT : Libm f64) (E : Env f64) (F : Type) (ev : F -> vec f64 -> outcome (f64 * F))
    par tk s m (sm : sampler f64 (F * list (entry f64))) inds sm',
  sample (log_ev ev) par tk s m sm = Ret (Some inds, sm') ->
  exists pts new,
    snd (sm_objective sm') = snd (sm_objective sm) ++ new /\
    Permutation (map pt_entry pts) new /\ (par = false -> map pt_entry pts = new) /\
    Permutation pts inds /\
    StronglySorted (fun a b => is_better m (pt_value b) (pt_value a) = false) inds /\
    (forall y, nis_nan y = false ->
       filter (fun a => negb (is_better m (pt_value a) y) && negb (is_better m y (pt_value a))) inds
       = filter (fun a => negb (is_better m (pt_value a) y) && negb (is_better m y (pt_value a))) pts).
Proof. intros LT E F ev par tk s m sm inds sm' H. exact (sample_ranked ev par tk s m sm inds sm' H). Qed.
Print Assumptions C11_ranked.
(* is_better is the numeric order *)
Theorem C11_better : forall (m : mode) (a b : f64),
  is_better m a b = true <->
  match m with Minimize => le64 a b /\ ~ le64 b a | Maximize => le64 b a /\ ~ le64 a b end.
Proof.
  assert (G : forall a b : f64, nltb a b = true <-> le64 a b /\ ~ le64 b a).
  { intros a b. rewrite f2x_ltb. unfold le64, x_ltb.
    destruct (f2x a) as [|[]|x], (f2x b) as [|[]|y]; simpl; try tauto; try (split; [discriminate|tauto]).
    rewrite Rltb_true. split.
    - intros H. split; [left; exact H|]. apply Rlt_not_le. exact H.
    - intros [_ H]. apply Rnot_le_lt. exact H. }
  intros m a b. destruct m; apply G.
Qed.
Print Assumptions C11_better.
Example C11_case : exists c sm inds, toy_built (toy_options 2) = Ret c /\
  sample (log_ev toy_sphere) false toy_tick (c_state c) Minimize (c_sampler c) = Ret (Some inds, sm).
Proof.
  assert (H : (match toy_built (toy_options 2) with
               | Ret c => match sample (log_ev toy_sphere) false toy_tick (c_state c) Minimize (c_sampler c) with
                          | Ret (Some _, _) => true | _ => false end
               | _ => false end) = true) by (vm_compute; reflexivity).
  destruct (toy_built (toy_options 2)) as [c| |]; try discriminate.
  exists c. destruct (sample _ _ _ _ _ _) as [[[inds|] sm]| |]; try discriminate. eauto.
Qed.
