(* A concrete environment in exact arithmetic for the examples. *)
From Coq Require Import List NArith ZArith Bool Arith Lia Reals Lra.
Require Import Verif.Base Verif.Num Verif.XReal Verif.LinAlg Verif.Mode Verif.Weights Verif.Options Verif.Params Verif.Env
  Verif.State Verif.Sampling Verif.History Verif.Termination Verif.Plot Verif.Cmaes Verif.Lib
  Verif.NextInv Verif.Spec Verif.LogLemmas Verif.BuildLemmas Verif.PanicLemmas Verif.NextSafe Verif.CastLemmas Verif.Session Verif.Order.
Import ListNotations.
Open Scope nat_scope.

(* normal numbers -2, -1, 0, 1, 2, -2, ...; the solver is exact on diagonal matrices *)
#[export] Instance xtoy_env : Env xreal := {|
  rng_t := N;
  rng_seed := fun s => s;
  rng_normal := fun g => (XFin (IZR (Z.of_N (g mod 5) - 2)), (g + 1)%N);
  eigen := fun m => Some (identity (length m), diagonal m);
  nan_median := fun _ => Some XNaN
|}.
Lemma xtoy_eigen_shape : eigen_shape (T := xreal).
Proof.
  intros n m vecs vals H He. cbn [eigen xtoy_env] in He. inversion He; subst. destruct H as [H _]. split.
  - rewrite H. apply shape_mbuild.
  - unfold diagonal. rewrite map_length, seq_length. exact H.
Qed.
Definition xtoy_tick (tree : rtree) : tick := mkTick 0 tree [] 50.
Definition xtoy_sphere (_ : unit) (x : vec xreal) : outcome (xreal * unit) := Ret (norm2 x, tt).
Definition xtoy_options (m : vec xreal) : options xreal :=
  apply_setters (options_new m (XFin (1/2))) [SPopulationSize 4; SSeed 7].
Lemma xtoy_valid : forall m, m <> [] -> validate (xtoy_options m) = None.
Proof.
  intros m H. unfold validate. cbn [xtoy_options apply_setters fold_left apply_setter options_new o_initial_mean o_population_size o_initial_step_size o_cm].
  destruct m; [congruence|]. cbn [length Nat.eqb N.ltb N.compare Pos.compare Pos.compare_cont]. unfold is_initial_step_size_valid.
  cbn. unfold Reqb, Rltb, x_leb. cbn. unfold Reqb, Rltb.
  repeat (match goal with |- context [Req_EM_T ?a ?b] => destruct (Req_EM_T a b); [lra|] | |- context [Rlt_dec ?a ?b] => destruct (Rlt_dec a b); try lra end); reflexivity.
Qed.

(* sessions without parallel evaluation return *)
Lemma calls_return : forall {E : Env xreal} {F} (ev : F -> vec xreal -> outcome (xreal * F)) rs now f o tks,
  eigen_shape (T := xreal) -> medians_return (T := xreal) -> validate o = None ->
  (forall g x, exists r, ev g x = Ret r) ->
  (forall meets x, o_constraints o = Some meets -> length x = dims o -> exists b, meets x = Ret b) ->
  Forall (fun tk => fuel_ok (o_constraints o) (o_max_resamples o) 0 (t_fuel tk)) tks ->
  exists l c, session ev rs now f o (map (ONext false) tks) = Ret (inl (l, c)) /\ length l = length tks.
Proof.
  intros E F ev rs now f o tks He Hmed Hv H1 H2 Ht. unfold session. pose proof (cmaes_new_outcome rs now f o) as Hn. rewrite Hv in Hn.
  destruct Hn as [c Hn]. rewrite Hn. cbn [obind].
  assert (Hr : wf o c) by (eapply new_wf; eauto). clear Hn.
  assert (G : exists l c', transcript ev c (map (ONext false) tks) = Ret (l, c') /\ length l = length tks).
  { revert c Hr. induction Ht as [|tk tks Htk Ht IH]; intros c Hr; cbn [map transcript]; [exists [], c; auto|].
    pose proof (next_safe_wf He ev False False o c false tk Hr (or_intror (or_introl Hmed))) as Hs.
    assert (G : safe False False (fun r => wf o (snd r)) (next ev false tk c)).
    { apply Hs.
      - split.
        + intros g x _. destruct (H1 g x) as [r ->]. exact I.
        + unfold wf_meets. destruct (o_constraints o) as [meets|]; auto. intros x Hx.
          destruct (H2 meets x eq_refl Hx) as [b ->]. exact I.
      - right. split; [exact Htk|discriminate]. }
    apply safe_ret in G. destruct G as [[r c1] [G1 G2]]. rewrite G1. cbn [obind snd] in *. destruct (IH c1 G2) as [l [c' [I1 I2]]].
    rewrite I1. cbn. exists (r :: l), c'. cbn. auto. }
  destruct G as [l [c' [G1 G2]]]. rewrite G1. cbn. eauto.
Qed.
