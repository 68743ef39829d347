(* Negating all values in binary64 and exchanging maximisation with minimisation changes no decision. *)
From Coq Require Import List NArith ZArith Bool Reals Lra Lia Arith Permutation Sorted.
From Flocq Require Import Core.
From Flocq Require Import IEEE754.BinarySingleNaN.
Require Import Verif.Base Verif.Num Verif.F64 Verif.XReal Verif.LinAlg Verif.Mode Verif.Weights Verif.Options Verif.Params Verif.Env
  Verif.State Verif.Sampling Verif.History Verif.Termination Verif.Lib Verif.Order Verif.Sort Verif.TraceLemmas Verif.RelLemmas
  Verif.PanicLemmas Verif.XRound Verif.SimLemmas.
Import ListNotations.
Open Scope nat_scope.

(* b is -a, up to the sign of zero *)
Definition neg (a b : f64) : Prop := f2x b = x_neg (f2x a).

Lemma neg_nneg : forall a : f64, neg a (nneg a).
Proof. intros a. apply f2x_neg. Qed.
Lemma neg_sym : forall a b, neg a b -> neg b a.
Proof. unfold neg. intros a b H. rewrite H, x_neg_neg. reflexivity. Qed.
Lemma neg_ltb : forall a1 a2 b1 b2 : f64, neg a1 a2 -> neg b1 b2 -> nltb a2 b2 = nltb b1 a1.
Proof. intros a1 a2 b1 b2 Ha Hb. rewrite !f2x_ltb, Ha, Hb. apply x_neg_ltb. Qed.
Lemma neg_eqb : forall a1 a2 b1 b2 : f64, neg a1 a2 -> neg b1 b2 -> neqb a2 b2 = neqb a1 b1.
Proof. intros a1 a2 b1 b2 Ha Hb. rewrite !f2x_eqb, Ha, Hb. apply x_neg_eqb. Qed.
Lemma neg_nan : forall a b : f64, neg a b -> nis_nan a = nis_nan b.
Proof. intros a b H. rewrite !f2x_nan, H, x_neg_nan. reflexivity. Qed.
Lemma neg_cmp : forall a1 a2 b1 b2 : f64, neg a1 a2 -> neg b1 b2 -> sort_cmp Maximize a1 b1 = sort_cmp Minimize a2 b2.
Proof.
  intros a1 a2 b1 b2 Ha Hb. unfold sort_cmp, partial_cmp, npartial_cmp.
  rewrite (neg_ltb _ _ _ _ Ha Hb), (neg_ltb _ _ _ _ Hb Ha), (neg_eqb _ _ _ _ Ha Hb), !ol_eq.
  destruct (nis_nan a1), (nis_nan b1), (nltb a1 b1), (nltb b1 a1); reflexivity.
Qed.
Lemma neg_better : forall a1 a2 b1 b2 : f64, neg a1 a2 -> neg b1 b2 -> is_better Maximize a1 b1 = is_better Minimize a2 b2.
Proof. intros a1 a2 b1 b2 Ha Hb. unfold is_better, ngtb. symmetry. apply neg_ltb; auto. Qed.
Lemma neg_add : forall a1 a2 b1 b2 : f64, neg a1 a2 -> neg b1 b2 -> neg (nadd a1 b1) (nadd a2 b2).
Proof. unfold neg. intros a1 a2 b1 b2 Ha Hb. rewrite !f2x_add, Ha, Hb, x_neg_add. apply xround_neg. Qed.
Lemma neg_half : forall a1 a2 : f64, neg a1 a2 -> neg (ndiv a1 n2) (ndiv a2 n2).
Proof. unfold neg. intros a1 a2 Ha. rewrite !f2x_half, Ha, x_neg_half. apply xround_neg. Qed.
Lemma neg_abs_sub : forall a1 a2 b1 b2 : f64, neg a1 a2 -> neg b1 b2 -> f2x (nabs (nsub a1 b1)) = f2x (nabs (nsub a2 b2)).
Proof.
  unfold neg. intros a1 a2 b1 b2 Ha Hb. rewrite !f2x_abs, !f2x_sub, Ha, Hb. unfold x_sub. rewrite x_neg_add.
  change (x_add (f2x a1) (x_neg (f2x b1))) with (x_sub (f2x a1) (f2x b1)). rewrite xround_neg, x_neg_abs. reflexivity.
Qed.
Lemma neg_choose : forall a1 a2 b1 b2 : f64, neg a1 a2 -> neg b1 b2 -> neg (choose_best Maximize a1 b1) (choose_best Minimize a2 b2).
Proof.
  intros a1 a2 b1 b2 Ha Hb. unfold choose_best, nmin, nmax. rewrite (neg_nan _ _ Ha), (neg_nan _ _ Hb), (neg_ltb _ _ _ _ Ha Hb).
  destruct (nis_nan a2); auto. destruct (nis_nan b2); auto. destruct (nltb b1 a1); auto.
Qed.

(* utils::range *)
Lemma range_loop_neg : forall l1 l2, Forall2 neg l1 l2 -> forall mn1 mx1 mn2 mx2 : f64, neg mn1 mx2 -> neg mx1 mn2 ->
  match range_loop mn1 mx1 l1, range_loop mn2 mx2 l2 with
  | Some (a, b), Some (c, d) => neg a d /\ neg b c
  | None, None => True
  | _, _ => False
  end.
Proof.
  induction 1 as [|x1 x2 l1 l2 Hx H IH]; intros mn1 mx1 mn2 mx2 H1 H2; cbn [range_loop]; auto.
  rewrite (neg_nan _ _ Hx). destruct (nis_nan x2); auto.
  pose proof (partial_cmp_Lt x1 mn1) as L1. pose proof (partial_cmp_Gt x2 mx2) as L2. rewrite (neg_ltb _ _ _ _ H1 Hx) in L2.
  pose proof (partial_cmp_Gt x1 mx1) as G1. pose proof (partial_cmp_Lt x2 mn2) as G2. rewrite (neg_ltb _ _ _ _ Hx H2) in G2.
  apply IH.
  - destruct (nltb x1 mn1).
    + rewrite (proj2 L1 eq_refl), (proj2 L2 eq_refl). exact Hx.
    + destruct (partial_cmp x1 mn1), (partial_cmp x2 mx2); auto; exfalso;
        try (discriminate (proj1 L1 eq_refl)); try (discriminate (proj1 L2 eq_refl)).
  - destruct (nltb mx1 x1).
    + rewrite (proj2 G1 eq_refl), (proj2 G2 eq_refl). exact Hx.
    + destruct (partial_cmp x1 mx1), (partial_cmp x2 mn2); auto; exfalso;
        try (discriminate (proj1 G1 eq_refl)); try (discriminate (proj1 G2 eq_refl)).
Qed.
Lemma range_neg : forall l1 l2, Forall2 neg l1 l2 -> opt_rel (fun a b => f2x a = f2x b) (range l1) (range l2).
Proof.
  intros l1 l2 H. destruct H as [|x1 x2 l1 l2 Hx H]; cbn [range opt_rel]; auto.
  pose proof (range_loop_neg _ _ H x1 x1 x2 x2 Hx Hx) as G.
  destruct (range_loop x1 x1 l1) as [[a b]|], (range_loop x2 x2 l2) as [[c d]|]; cbn [opt_rel]; try contradiction; auto.
  destruct G as [Ha Hb]. rewrite !f2x_sub. unfold neg in *. rewrite Ha, Hb. unfold x_sub. rewrite x_neg_neg, x_add_comm. reflexivity.
Qed.

(* two sorted arrangements of the same numbers are equal *)
Lemma sorted_unique : forall {A} (R : A -> A -> Prop) (l1 l2 : list A),
  (forall a b, In a l1 -> In b l1 -> R a b -> R b a -> a = b) ->
  StronglySorted R l1 -> StronglySorted R l2 -> Permutation l1 l2 -> l1 = l2.
Proof.
  intros A R l1. induction l1 as [|x l1 IH]; intros l2 Ha H1 H2 Hp.
  - apply Permutation_nil in Hp. auto.
  - destruct l2 as [|y l2]; [apply Permutation_sym, Permutation_nil in Hp; discriminate|].
    assert (x = y).
    { apply StronglySorted_inv in H1. apply StronglySorted_inv in H2. destruct H1 as [_ H1], H2 as [_ H2].
      rewrite Forall_forall in H1, H2.
      assert (Hx : In x (y :: l2)) by (eapply Permutation_in; [exact Hp|left; auto]).
      assert (Hy : In y (x :: l1)) by (eapply Permutation_in; [apply Permutation_sym; exact Hp|left; auto]).
      destruct Hx as [Hx|Hx]; [auto|]. destruct Hy as [Hy|Hy]; [auto|].
      apply Ha; [left; auto|right; auto|apply H1; auto|apply H2; auto]. }
    subst y. f_equal. apply IH.
    + intros a b Hi Hj. apply Ha; right; auto.
    + apply StronglySorted_inv in H1. apply H1.
    + apply StronglySorted_inv in H2. apply H2.
    + eapply Permutation_cons_inv. exact Hp.
Qed.
Lemma sorted_app : forall {A} (R : A -> A -> Prop) (l1 l2 : list A), StronglySorted R l1 -> StronglySorted R l2 ->
  Forall (fun a => Forall (R a) l2) l1 -> StronglySorted R (l1 ++ l2).
Proof.
  intros A R l1 l2 H1 H2 H. induction H1 as [|x l1 H1 IH Hx]; cbn; auto. apply Forall_inv in H as Hh. apply Forall_inv_tail in H.
  constructor; auto. apply Forall_app. split; auto.
Qed.
Lemma sorted_rev : forall {A} (R : A -> A -> Prop) (l : list A), StronglySorted R l -> StronglySorted (fun a b => R b a) (rev l).
Proof.
  intros A R l H. induction H as [|x l H IH Hx]; cbn; [constructor|]. apply sorted_app; auto.
  - repeat constructor.
  - apply Forall_rev. eapply Forall_impl; [|exact Hx]. intros a Ha. constructor; auto.
Qed.
Lemma sorted_map : forall {A B} (f : A -> B) (R : B -> B -> Prop) (l : list A),
  StronglySorted (fun a b => R (f a) (f b)) l -> StronglySorted R (map f l).
Proof.
  intros A B f R l H. induction H as [|x l H IH Hx]; cbn; constructor; auto. apply Forall_map. exact Hx.
Qed.

Definition sorted_values (l : list f64) : list f64 := sort_by (fun a b => partial_cmp a b) l.
Definition xle (a b : xreal) : Prop := x_ltb b a = false.
Lemma sorted_values_le : forall l : list f64, Forall (fun x => nis_nan x = false) l -> StronglySorted xle (map f2x (sorted_values l)).
Proof.
  intros l H. apply sorted_map. pose proof (sort_ranked Minimize (fun x : f64 => x) l H) as G.
  unfold ranked in G. unfold sorted_values, xle.
  assert (Hr : forall s : list f64, StronglySorted (fun a b => is_better Minimize b a = false) s ->
    StronglySorted (fun a b : f64 => x_ltb (f2x b) (f2x a) = false) s).
  { induction 1 as [|x s Hs IH Hx]; constructor; auto. eapply Forall_impl; [|exact Hx]. intros a Ha. rewrite <- f2x_ltb. exact Ha. }
  apply Hr. exact G.
Qed.
Lemma xle_antisym : forall a b, x_is_nan a = false -> x_is_nan b = false -> xle a b -> xle b a -> a = b.
Proof.
  unfold xle. intros [|[]|r] [|[]|s] Ha Hb H1 H2; cbn in *; try discriminate; auto. rcmp. f_equal. lra.
Qed.

Lemma sorted_neg : forall l1 l2 : list f64, Forall2 neg l1 l2 -> Forall (fun x => nis_nan x = false) l1 ->
  map f2x (sorted_values l2) = map (fun a => x_neg (f2x a)) (rev (sorted_values l1)).
Proof.
  intros l1 l2 H N1.
  assert (N2 : Forall (fun x : f64 => nis_nan x = false) l2).
  { clear -H N1. induction H as [|a b l1 l2 Hab H IH]; constructor; apply Forall_inv in N1 as Ha; apply Forall_inv_tail in N1; auto.
    rewrite <- (neg_nan _ _ Hab). exact Ha. }
  apply (sorted_unique xle).
  - intros a b Ha Hb. apply xle_antisym.
    + apply in_map_iff in Ha. destruct Ha as [x [<- Hx]]. rewrite <- f2x_nan. rewrite Forall_forall in N2. apply N2.
      eapply Permutation_in; [apply Permutation_sym, sort_by_perm|exact Hx].
    + apply in_map_iff in Hb. destruct Hb as [x [<- Hx]]. rewrite <- f2x_nan. rewrite Forall_forall in N2. apply N2.
      eapply Permutation_in; [apply Permutation_sym, sort_by_perm|exact Hx].
  - apply sorted_values_le. exact N2.
  - rewrite <- map_map. apply sorted_map.
    pose proof (sorted_rev _ _ (sorted_values_le l1 N1)) as G. rewrite <- map_rev in G.
    revert G. generalize (map f2x (rev (sorted_values l1))). intros l G. induction G as [|x l G IH Hx]; constructor; auto.
    eapply Forall_impl; [|exact Hx]. unfold xle. intros a Ha. cbn. rewrite x_neg_ltb. exact Ha.
  - assert (E : map f2x l2 = map (fun a => x_neg (f2x a)) l1).
    { clear -H. induction H as [|a b l1 l2 Hab H IH]; cbn; auto. rewrite IH. f_equal. exact Hab. }
    apply perm_trans with (map f2x l2); [apply Permutation_map, Permutation_sym, sort_by_perm|]. rewrite E.
    apply Permutation_map. apply perm_trans with (sorted_values l1); [apply sort_by_perm|apply Permutation_rev].
Qed.

Lemma nth_neg : forall l1 l2 : list f64, Forall2 neg l1 l2 -> Forall (fun x => nis_nan x = false) l1 ->
  forall i, i < length l1 -> neg (nth (length l1 - 1 - i) (sorted_values l1) n0) (nth i (sorted_values l2) n0).
Proof.
  intros l1 l2 H N1 i Hi. pose proof (sorted_neg _ _ H N1) as E.
  assert (L1 : length (sorted_values l1) = length l1) by apply sort_by_length.
  assert (L2 : length (sorted_values l2) = length l1) by (unfold sorted_values; rewrite sort_by_length; symmetry; eapply Forall2_length'; exact H).
  unfold neg.
  assert (E2 : nth i (map f2x (sorted_values l2)) (f2x n0) = f2x (nth i (sorted_values l2) n0)) by apply map_nth.
  rewrite <- E2, E.
  rewrite (nth_indep _ (f2x n0) (x_neg (f2x n0))) by (rewrite map_length, rev_length, L1; exact Hi).
  rewrite (map_nth (fun a : f64 => x_neg (f2x a))), rev_nth by (rewrite L1; exact Hi). rewrite L1.
  replace (length l1 - S i) with (length l1 - 1 - i) by lia. reflexivity.
Qed.

Lemma median_neg : forall l1 l2 : list f64, Forall2 neg l1 l2 -> Forall (fun x => nis_nan x = false) l1 -> neg (median l1) (median l2).
Proof.
  intros l1 l2 H N1. pose proof (nth_neg _ _ H N1) as G. pose proof (Forall2_length' _ _ _ H) as L.
  destruct l1 as [|x l1]; destruct l2 as [|y l2]; try discriminate.
  - unfold neg. reflexivity.
  - unfold median. rewrite <- L. fold (sorted_values (x :: l1)) (sorted_values (y :: l2)).
    set (n := length (x :: l1)) in *. assert (Hn : 1 <= n) by (unfold n; cbn; lia). clearbody n.
    destruct (Nat.even n) eqn:Ev.
    + apply neg_half. apply Nat.even_spec in Ev. destruct Ev as [k Ek].
      assert (Ed : n / 2 = k) by (rewrite Ek, Nat.mul_comm; apply Nat.div_mul; lia). rewrite Ed.
      pose proof (G (k - 1) ltac:(lia)) as G1. pose proof (G k ltac:(lia)) as G2.
      replace (n - 1 - (k - 1)) with k in G1 by lia. replace (n - 1 - k) with (k - 1) in G2 by lia.
      pose proof (neg_add _ _ _ _ G1 G2) as G3. unfold neg in *. rewrite G3. f_equal. rewrite !f2x_add. rewrite x_add_comm. reflexivity.
    + assert (Eo : Nat.odd n = true) by (rewrite <- Nat.negb_even, Ev; reflexivity). apply Nat.odd_spec in Eo. destruct Eo as [k Ek].
      assert (Ed : n / 2 = k) by (rewrite Ek; symmetry; apply (Nat.div_unique (2 * k + 1) 2 k 1); lia).
      rewrite Ed. pose proof (G k ltac:(lia)) as G1. replace (n - 1 - k) with k in G1 by lia. exact G1.
Qed.

(* the medians are numbers *)
Definition negn (a b : f64) : Prop := neg a b /\ number a.

(* negating all values negates the library's median also if there are NaNs among them *)
Definition odd_median {E : Env f64} : Prop := forall l1 l2, Forall2 neg l1 l2 -> opt_rel neg (nan_median l1) (nan_median l2).

Lemma data_median_neg : forall {E : Env f64} l1 l2, Forall2 neg l1 l2 -> odd_median \/ Forall (fun x => nis_nan x = false) l1 ->
  out_rel neg (data_median l1) (data_median l2).
Proof.
  intros E l1 l2 H Ho. unfold data_median.
  assert (Q : existsb nis_nan l2 = existsb nis_nan l1).
  { clear Ho. induction H as [|a b l1 l2 Hab H IH]; auto. cbn [existsb]. rewrite IH, (neg_nan _ _ Hab). reflexivity. }
  rewrite Q. destruct (existsb nis_nan l1) eqn:N.
  - destruct Ho as [Ho|Ho]; [|apply existsb_nan in Ho; congruence]. specialize (Ho _ _ H).
    destruct (nan_median l1), (nan_median l2); cbn in *; auto; contradiction.
  - cbn. apply median_neg; auto. clear -N. induction l1 as [|a l1 IH]; constructor; cbn [existsb] in N; apply orb_false_iff in N; [apply N|apply IH, N].
Qed.
Lemma regress_neg : forall {E : Env f64} gens l1 l2, Forall2 neg l1 l2 -> odd_median \/ Forall (fun x => nis_nan x = false) l1 ->
  did_values_regress Maximize gens l1 = did_values_regress Minimize gens l2.
Proof.
  intros E gens l1 l2 H Ho. unfold did_values_regress. destruct (_ <? _)%N; auto.
  assert (G : forall n k, odd_median \/ Forall (fun x : f64 => nis_nan x = false) (skipn k (firstn n l1))).
  { intros n k. destruct Ho as [Ho|Ho]; [left; exact Ho|right]. apply Forall_skipn, Forall_firstn. exact Ho. }
  match goal with |- obind (data_median ?a) _ = obind (data_median ?b) _ => assert (Ha : out_rel neg (data_median a) (data_median b)) by (apply data_median_neg; [apply Forall2_skipn, Forall2_firstn; exact H|apply G]) end.
  destruct (data_median (skipn _ _)) as [a|pa|] eqn:Ea, (data_median (skipn _ (firstn _ l2))) as [b|pb|] eqn:Eb; cbn [out_rel obind] in *; try contradiction; try congruence.
  match goal with |- obind (data_median (firstn ?n (firstn ?k ?l))) _ = obind (data_median ?b) _ =>
    assert (Hb : out_rel neg (data_median (firstn n (firstn k l))) (data_median b)) by
      (apply data_median_neg; [apply Forall2_firstn, Forall2_firstn; exact H|rewrite firstn_firstn; apply (G _ 0)]) end.
  destruct (data_median (firstn _ _)) as [c|pc|] eqn:Ec, (data_median (firstn _ (firstn _ l2))) as [d|pd|] eqn:Ed; cbn [out_rel obind] in *; try contradiction; try congruence.
  apply f_equal. apply neg_better; assumption.
Qed.

(* same termination parameters, with the target negated *)
Definition neg_target (t1 t2 : term_params f64) : Prop :=
  opt_rel neg (tp_fun_target t1) (tp_fun_target t2) /\
  tp_max_function_evals t1 = tp_max_function_evals t2 /\ tp_max_generations t1 = tp_max_generations t2 /\
  tp_max_time t1 = tp_max_time t2 /\ tp_tol_fun t1 = tp_tol_fun t2 /\ tp_tol_fun_rel t1 = tp_tol_fun_rel t2 /\
  tp_tol_fun_hist t1 = tp_tol_fun_hist t2 /\ tp_tol_x t1 = tp_tol_x t2 /\ tp_tol_stagnation t1 = tp_tol_stagnation t2 /\
  tp_tol_x_up t1 = tp_tol_x_up t2 /\ tp_tol_condition_cov t1 = tp_tol_condition_cov t2.

Lemma opt_rel_bind_unwrap : forall {A B} (R : A -> A -> Prop) (x y : option A) (k1 k2 : A -> outcome B), opt_rel R x y ->
  (forall a b, R a b -> k1 a = k2 b) -> obind (unwrap x) k1 = obind (unwrap y) k2.
Proof. intros A B R [a|] [b|] k1 k2 H Hk; cbn in *; try contradiction; auto. Qed.

Section Check.
  Context {LT : Libm f64} {E : Env f64}.
  Variable Rv : f64 -> f64 -> Prop.
  Hypothesis HRv : forall a b, Rv a b -> neg a b.

  (* the parts that do not use the history of medians *)
  Lemma check_neg_parts : forall (Rm : f64 -> f64 -> Prop) p1 p2 evals created now (s : state f64) h1 h2 i1 i2,
    (forall a b, Rm a b -> neg a b) ->
    params_rel Maximize Minimize neg_target p1 p2 -> hist_rel Rv Rm h1 h2 -> Forall2 (pt_rel Rv) i1 i2 ->
    check_fun_target p1 i1 = check_fun_target p2 i2 /\ check_tol_fun p1 h1 i1 = check_tol_fun p2 h2 i2 /\
    check_max_evals p1 evals = check_max_evals p2 evals /\ check_max_generations p1 s = check_max_generations p2 s /\
    check_max_time p1 created now = check_max_time p2 created now /\ check_tol_x p1 s = check_tol_x p2 s /\
    check_condition_cov p1 s = check_condition_cov p2 s /\ check_no_effect_axis p1 s = check_no_effect_axis p2 s /\
    check_no_effect_coord p1 s = check_no_effect_coord p2 s /\ check_tol_x_up p1 s = check_tol_x_up p2 s.
  Proof.
    intros Rm p1 p2 evals created now s h1 h2 i1 i2 HRm [M1 M2 Hs Ht] Hh Hi.
    destruct Ht as [T1 [T2 [T3 [T4 [T5 [T6 [T7 [T8 [T9 [T10 T11]]]]]]]]]].
    assert (Ed : p_dim p1 = p_dim p2) by (rewrite Hs; reflexivity). assert (El : p_lambda p1 = p_lambda p2) by (rewrite Hs; reflexivity).
    assert (Ei : p_initial_sigma p1 = p_initial_sigma p2) by (rewrite Hs; reflexivity). clear Hs.
    assert (A1 : check_fun_target p1 i1 = check_fun_target p2 i2).
    { unfold check_fun_target. rewrite M1, M2.
      destruct (tp_fun_target (p_term p1)) as [t1|], (tp_fun_target (p_term p2)) as [t2|]; cbn [opt_rel] in T1; try contradiction; auto.
      clear -Hi T1 HRv. induction Hi as [|a b i1 i2 Hab Hi IH]; cbn [existsb]; auto. rewrite IH. f_equal. apply neg_better; auto. apply HRv, Hab. }
    assert (B1 : Forall2 neg (h_best_values h1) (h_best_values h2)).
    { pose proof (hr_best _ _ _ _ Hh) as H. clear -H HRv. induction H as [|a b l1 l2 [Hab _] H IH]; constructor; auto. }
    assert (B2 : Forall2 neg (map pt_value i1) (map pt_value i2)).
    { clear -Hi HRv. induction Hi as [|a b i1 i2 Hab Hi IH]; cbn; constructor; auto. apply HRv, Hab. }
    assert (A2 : check_tol_fun p1 h1 i1 = check_tol_fun p2 h2 i2).
    { unfold check_tol_fun, past_generations. rewrite Ed, El, T5, T6, T7, (Forall2_length' _ _ _ B1).
      destruct (_ <=? _)%N; auto.
      eapply opt_rel_bind_unwrap; [apply range_neg, Forall2_firstn; exact B1|]. intros r1 r2 Hr.
      eapply opt_rel_bind_unwrap; [apply range_neg; exact B2|]. intros q1 q2 Hq.
      rewrite !f2x_ltb, Hr, Hq.
      pose proof (hr_first _ _ _ _ Hh) as F1. pose proof (hr_bestmed _ _ _ _ Hh) as F2.
      destruct (h_first_median h1) as [x1|], (h_first_median h2) as [x2|]; cbn [opt_rel] in F1; try contradiction; auto.
      destruct (h_best_median h1) as [y1|], (h_best_median h2) as [y2|]; cbn [opt_rel] in F2; try contradiction; auto.
      cbv zeta. rewrite !f2x_ltb, Hr, Hq, !f2x_mul, (neg_abs_sub _ _ _ _ (HRm _ _ F1) (HRm _ _ F2)). reflexivity. }
    split; [exact A1|]. split; [exact A2|].
    unfold check_max_evals, check_max_generations, check_max_time, check_tol_x, check_condition_cov, check_no_effect_axis,
      check_no_effect_coord, check_tol_x_up.
    rewrite T2, T3, T4, T8, T10, T11, Ed, Ei. repeat split; reflexivity.
  Qed.

  Lemma check_neg_almost : forall p1 p2 evals created now (s : state f64) h1 h2 i1 i2 r1 r2,
    params_rel Maximize Minimize neg_target p1 p2 -> hist_rel Rv neg h1 h2 -> Forall2 (pt_rel Rv) i1 i2 ->
    check_termination p1 evals created now s h1 i1 = Ret r1 -> check_termination p2 evals created now s h2 i2 = Ret r2 ->
    forall x, x <> TolStagnation -> (In x r1 <-> In x r2).
  Proof.
    intros p1 p2 evals created now s h1 h2 i1 i2 r1 r2 Hp Hh Hi H1 H2 x Hx.
    destruct (check_neg_parts neg p1 p2 evals created now s h1 h2 i1 i2 (fun a b H => H) Hp Hh Hi)
      as [E1 [E2 [E3 [E4 [E5 [E6 [E7 [E8 [E9 E10]]]]]]]]].
    apply check_termination_inv in H1. apply check_termination_inv in H2.
    destruct H1 as [l5 [tx [nea [nec [ts [txu [A1 [A2 [A3 [A4 [A5 [A6 ->]]]]]]]]]]]].
    destruct H2 as [l5' [tx' [nea' [nec' [ts' [txu' [B1 [B2 [B3 [B4 [B5 [B6 ->]]]]]]]]]]]].
    rewrite E2 in A1. rewrite E6 in A2. rewrite E8 in A3. rewrite E9 in A4. rewrite E10 in A6.
    assert (l5' = l5) by congruence. assert (tx' = tx) by congruence. assert (nea' = nea) by congruence.
    assert (nec' = nec) by congruence. assert (txu' = txu) by congruence. subst. rewrite E1, E3, E4, E5, E7.
    rewrite !in_app_iff.
    assert (G : forall b, ~ In x (push_if b TolStagnation)) by (intros [|]; cbn; intuition congruence).
    pose proof (G ts). pose proof (G ts'). tauto.
  Qed.

  Lemma check_neg : forall (Rm : f64 -> f64 -> Prop) p1 p2 evals created now (s : state f64) h1 h2 i1 i2,
    (forall a b, Rm a b -> neg a b) -> odd_median \/ (forall a b, Rm a b -> number a) ->
    params_rel Maximize Minimize neg_target p1 p2 -> hist_rel Rv Rm h1 h2 -> Forall2 (pt_rel Rv) i1 i2 ->
    check_termination p1 evals created now s h1 i1 = check_termination p2 evals created now s h2 i2.
  Proof.
    intros Rm p1 p2 evals created now s h1 h2 i1 i2 HRm Ho Hp Hh Hi.
    destruct (check_neg_parts Rm p1 p2 evals created now s h1 h2 i1 i2 HRm Hp Hh Hi)
      as [E1 [E2 [E3 [E4 [E5 [E6 [E7 [E8 [E9 E10]]]]]]]]].
    assert (A3 : check_tol_stagnation p1 s h1 = check_tol_stagnation p2 s h2).
    { destruct Hp as [M1 M2 _ Ht]. destruct Ht as [_ [_ [_ [_ [_ [_ [_ [_ [T9 _]]]]]]]]].
      unfold check_tol_stagnation. rewrite T9, M1, M2, (Forall2_length' _ _ _ (hr_best _ _ _ _ Hh)), (Forall2_length' _ _ _ (hr_median _ _ _ _ Hh)).
      destruct (tol_stagnation_generations _ _) as [g|]; auto. destruct (_ && _); auto.
      rewrite (regress_neg g (h_best_values h1) (h_best_values h2)).
      - pose proof (hr_median _ _ _ _ Hh) as H.
        rewrite (regress_neg g (h_median_values h1) (h_median_values h2)); [reflexivity| |].
        + clear -H HRm. induction H as [|a b l1 l2 Hab H IH]; constructor; auto.
        + destruct Ho as [Ho|Ho]; [left; exact Ho|right]. clear -H Ho. induction H as [|a b l1 l2 Hab H IH]; constructor; auto. exact (Ho _ _ Hab).
      - pose proof (hr_best _ _ _ _ Hh) as H. clear -H HRv. induction H as [|a b l1 l2 [Hab Hn] H IH]; constructor; auto.
      - right. pose proof (hr_best _ _ _ _ Hh) as H. clear -H. induction H as [|a b l1 l2 [Hab Hn] H IH]; constructor; auto. }
    unfold check_termination. rewrite E1, E2, E3, E4, E5, E6, E7, E8, E9, E10, A3. reflexivity.
  Qed.
End Check.
