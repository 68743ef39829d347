(* When no generation has a NaN median. *)
From Coq Require Import List NArith ZArith Bool Arith Lia Permutation.
From Coq Require Import Reals.
From Flocq Require Import IEEE754.BinarySingleNaN.
Require Import Verif.Base Verif.Num Verif.F64 Verif.XReal Verif.LinAlg Verif.Mode Verif.Weights Verif.Options Verif.Params Verif.Env
  Verif.State Verif.Sampling Verif.History Verif.Termination Verif.Plot Verif.Cmaes Verif.Lib Verif.Order
  Verif.NextInv Verif.Spec Verif.PanicLemmas Verif.NextSafe Verif.TermLemmas Verif.XRound.
Import ListNotations.
Open Scope nat_scope.

Lemma tame_middle : forall s (a b : f64), nis_nan a = false -> nis_nan b = false -> a <> B754_infinity s -> b <> B754_infinity s ->
  nis_nan (ndiv (nadd a b) n2) = false.
Proof.
  intros s a b Ha Hb Ta Tb. rewrite f2x_nan in *. rewrite f2x_half, xround_nan, f2x_add.
  assert (Hadd : x_is_nan (x_add (f2x a) (f2x b)) = false).
  { assert (Hi : forall (v : f64) t, f2x v = XInf t -> v <> B754_infinity s -> t = negb s).
    { intros [t|t| |t m e B] u Hv Hs; cbn in Hv; inversion Hv; subst. destruct s, u; cbn; congruence. }
    destruct (f2x a) as [|t|r] eqn:E1; [discriminate| |]; destruct (f2x b) as [|u|r'] eqn:E2; try discriminate; try reflexivity.
    rewrite (Hi a t E1 Ta), (Hi b u E2 Tb). cbn. rewrite eqb_reflx. reflexivity. }
  rewrite <- xround_nan in Hadd. destruct (xround _) as [|t|r]; [discriminate| |]; cbn; [destruct (Rltb _ _); reflexivity|].
  assert (H2 : Reqb 2 0 = false) by (apply Reqb_false; apply Rgt_not_eq; apply Rlt_0_2). rewrite H2. reflexivity.
Qed.

(* one of the two infinities is never returned *)
Definition one_sided {F : Type} (ev : F -> vec f64 -> outcome (f64 * F)) : Prop :=
  exists s, forall g x v g', ev g x = Ret (v, g') -> v <> B754_infinity s.
(* one of: the median of values that include NaN is computed without a panic (the library's business); every
   generation has an odd number of values, so that its median is one of them; one infinity is never returned, so
   that the mean of two values is not NaN *)
Definition medians_known {E : Env f64} {F : Type} (ev : F -> vec f64 -> outcome (f64 * F)) (population : N) : Prop :=
  (forall l : list f64, nan_median l <> None) \/ N.odd population = true \/ one_sided ev.

Lemma odd_nat : forall n, N.odd n = true -> Nat.odd (N.to_nat n) = true.
Proof.
  intros n H. apply N.odd_spec in H. destruct H as [k ->]. apply Nat.odd_spec. exists (N.to_nat k). lia.
Qed.
Lemma one_sided_mild : forall {F : Type} (ev : F -> vec f64 -> outcome (f64 * F)), one_sided ev -> mild_values ev.
Proof.
  intros F ev [s H]. exists (fun v => nis_nan v = false /\ v <> B754_infinity s). split.
  - intros f x v f' Hv Hn. split; [exact Hn|]. eapply H. exact Hv.
  - intros a b [A1 A2] [B1 B2]. eapply tame_middle; eauto.
Qed.
Lemma medians_known_ok : forall {E : Env f64} {F : Type} (ev : F -> vec f64 -> outcome (f64 * F)) (o : options f64),
  medians_known ev (o_population_size o) -> medians_ok ev o.
Proof.
  intros E F ev o [H|[H|H]]; [left; exact H|right; left; apply odd_nat; exact H|right; right; apply one_sided_mild; exact H].
Qed.
Lemma medians_known_log : forall {E : Env f64} {F : Type} (ev : F -> vec f64 -> outcome (f64 * F)) n,
  medians_known ev n -> medians_known (log_ev ev) n.
Proof.
  intros E F ev n [H|[H|[s H]]]; [left; exact H|right; left; exact H|right; right]. exists s. intros [g l] x v g' Hv.
  unfold log_ev in Hv. cbn [fst snd] in Hv. destruct (ev g x) as [[w g1]| |] eqn:Ee; cbn [obind] in Hv; try discriminate.
  apply Ret_inj in Hv. apply (f_equal fst) in Hv. cbn [fst] in Hv. subst w. eapply H. exact Ee.
Qed.
