(* Turning computed runs of the toy environment into the histories of Spec.v. *)
From Coq Require Import List NArith ZArith Bool Lia Permutation.
Require Import Verif.Base Verif.Num Verif.F64 Verif.LinAlg Verif.Mode Verif.Weights Verif.Options Verif.Params
  Verif.Env Verif.State Verif.Sampling Verif.History Verif.Termination Verif.Plot Verif.Cmaes Verif.Lib Verif.NextInv
  Verif.Spec Verif.LogLemmas Verif.TraceLemmas Verif.BuildLemmas Verif.SamplingLemmas Verif.PanicLemmas Verif.NextSafe Verif.Toy.
Import ListNotations.

Definition toy_seed (o : options f64) : N := match o_seed o with Some s => s | None => 0%N end.

Lemma nexts_used : forall ev o n c h rs c',
  used ev o tt (toy_seed o) h c -> nexts (log_ev ev) (repeat (false, toy_tick) n) c = Ret (rs, c') ->
  exists h', used ev o tt (toy_seed o) (h ++ h') c' /\ length h' = n /\ map k_result h' = rs.
Proof.
  intros ev o n. induction n as [|n IH]; intros c h rs c' Hu H; simpl in H.
  - inversion H; subst. exists []. rewrite app_nil_r. auto.
  - oinv H. destruct a as [r c1]. oinv H. destruct a as [rs' c2]. inversion H; subst.
    destruct (next_log _ _ _ _ _ _ Ho) as [cands [out [new [_ [_ [_ [Hc _]]]]]]].
    pose proof (used_next _ _ _ _ _ _ _ _ _ _ _ Hu Ho Hc) as Hu'.
    destruct (IH _ _ _ _ Hu' Ho0) as [h' [H1 [H2 H3]]].
    exists (mkCall r new :: h'). rewrite <- app_assoc in H1. simpl in *. subst. auto.
Qed.

(* a computed run is a history of use *)
Lemma toy_used : forall ev o n rs c, toy_after ev o n = Ret (rs, c) ->
  exists h, used ev o tt (toy_seed o) h c /\ length h = n /\ map k_result h = rs.
Proof.
  intros ev o n rs c H. unfold toy_after, toy_built in H.
  destruct (cmaes_new 0 0 (tt, []) o) as [[c0|e]| |] eqn:E0; simpl in H; try discriminate. destruct (nexts_used ev o n c0 [] rs c) as [h' [H1 [H2 H3]]]; auto.
  - exists 0%N, 0%N, c0. repeat split; auto. constructor.
  - exists h'. auto.
Qed.

Lemma toy_used_ex : forall ev o n, is_ret (toy_after ev o n) = true ->
  exists h c, used ev o tt (toy_seed o) h c /\ length h = n.
Proof.
  intros ev o n H. apply is_ret_ex in H. destruct H as [[rs c] H]. apply toy_used in H. destruct H as [h [H1 [H2 _]]]. eauto.
Qed.

(* the same with a boolean test of the results and the final optimiser *)
Definition toy_test ev o n (P : list (option (term_data f64)) -> cmaes f64 (unit * list (entry f64)) -> bool) : bool :=
  match toy_after ev o n with Ret (rs, c) => P rs c | _ => false end.
Lemma toy_test_ex : forall ev o n P, toy_test ev o n P = true ->
  exists h c, used ev o tt (toy_seed o) h c /\ length h = n /\ P (map k_result h) c = true.
Proof.
  intros ev o n P H. unfold toy_test in H. destruct (toy_after ev o n) as [[rs c]| |] eqn:E; try discriminate.
  apply toy_used in E. destruct E as [h [H1 [H2 H3]]]. exists h, c. subst. auto.
Qed.

Lemma toy_eigen_shape : eigen_shape (T := f64).
Proof.
  intros n m vecs vals H He. cbn [eigen toy_env] in He. inversion He; subst. destruct H as [H _]. split.
  - rewrite H. apply shape_mbuild.
  - unfold diagonal. rewrite map_length, seq_length. exact H.
Qed.

(* a computed run is a way of reaching an optimiser *)
Lemma toy_reaches : forall (ev : unit -> vec f64 -> outcome (f64 * unit)) o n
    (P : list (option (term_data f64)) -> cmaes f64 unit -> bool),
  match (b <- cmaes_new 0 0 tt o ;; match b with inl c => nexts ev (repeat (false, toy_tick) n) c | inr _ => Panic PUnwrap end) with
  | Ret (rs, c) => P rs c
  | _ => false
  end = true ->
  exists rs c, reaches ev o tt c /\ length rs = n /\ P rs c = true.
Proof.
  intros ev o n P H. destruct (cmaes_new 0 0 tt o) as [[c0|e]| |] eqn:E0; simpl in H; try discriminate.
  destruct (nexts ev (repeat (false, toy_tick) n) c0) as [[rs c]| |] eqn:E1; try discriminate.
  exists rs, c. assert (G : forall n c0 rs c, nexts ev (repeat (false, toy_tick) n) c0 = Ret (rs, c) ->
    length rs = n /\ steps ev c0 (repeat (ONext false toy_tick) n) = Ret c).
  { clear. induction n as [|n IH]; intros c0 rs c E1; simpl in E1.
    - inversion E1; subst. auto.
    - oinv E1. destruct a as [r c1]. oinv E1. destruct a as [rs' c2]. inversion E1; subst.
      apply IH in Ho0. destruct Ho0 as [H1 H2]. simpl. rewrite Ho. simpl. auto. }
  destruct (G _ _ _ _ E1) as [G1 G2]. split; auto. exists c0, (repeat (ONext false toy_tick) n). split; auto.
  exists 0%N, 0%N. exact E0.
Qed.
