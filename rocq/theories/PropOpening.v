(* C79: the lines an optimiser prints first. *)
From Coq Require Import String Ascii List NArith ZArith Bool Lia Arith.
From Flocq Require Import IEEE754.BinarySingleNaN.
Require Import Verif.Lib Verif.Base Verif.Num Verif.F64 Verif.LinAlg Verif.Mode Verif.Weights Verif.Options Verif.Params Verif.Env
  Verif.State Verif.Sampling Verif.History Verif.Termination Verif.Plot Verif.Cmaes Verif.Restart Verif.Spec Verif.BuildLemmas Verif.TraceLemmas
  Verif.Format Verif.FormatSpec Verif.FormatLemmas Verif.Report Verif.ReportSpec Verif.ReportLemmas Verif.Toy Verif.ToyLemmas Verif.PropRun Verif.PropReport.
Import ListNotations.
Open Scope string_scope.

(* "aCMA-ES with dimension=10, lambda=12, seed=42" *)
Definition heading (line name : string) (dimension lambda seed : N) : Prop :=
  exists d l s, pieces "=" line = [name ++ " with dimension"; d ++ ", lambda"; l ++ ", seed"; s] /\
    read_n d = Some dimension /\ read_n l = Some lambda /\ read_n s = Some seed.
(* the titles of the columns of a progress line, in the order of its cells (C69) *)
Definition titles : list string := ["Gen #"; "f evals"; "Best function value"; "Axis Ratio"; "Sigma"; "Min std"; "Max std"].
Definition all_dashes (s : string) : Prop := forall n, n < String.length s -> String.get n s = Some "-"%char.
(* the variant: active CMA-ES has negative weights *)
Definition variant (w : weights_setting) : string := match w with WNegative => "aCMA-ES" | _ => "CMA-ES" end.

Lemma dashes : forall n, all_dashes (repeat_char "-" n).
Proof. intros n. unfold all_dashes. induction n as [|n IH]; cbn [repeat_char String.length]; intros i Hi; [lia|]. destruct i as [|i]; [reflexivity|]. cbn [String.get]. apply IH. lia. Qed.

Section Opening.
  Context {L : Libm f64} {E : Env f64} {F : Type} (ev : F -> vec f64 -> outcome (f64 * F)).

  Theorem C79_opening : forall o f c, reaches ev o f c -> exists first second third seed,
    initial_lines c = [first; second; third] /\
    heading first (variant (o_weights o)) (N.of_nat (List.length (o_initial_mean o))) (o_population_size o) seed /\
    (forall s, o_seed o = Some s -> seed = s) /\ seed = p_seed (c_params c) /\
    Forall2 is_word titles (cells second) /\
    all_dashes third /\ String.length third = String.length second.
  Proof.
    intros o f c Hr. apply reaches_setup in Hr. destruct Hr as [rs [now [c0 [B S0]]]]. destruct S0 as [Ep _]. apply cmaes_new_inv in B. cbv zeta in B. destruct B as [_ [_ [C2 _]]].
    rewrite C2 in Ep. set (sd := match o_seed o with Some s => s | None => rs end) in *.
    eexists. eexists. eexists. exists sd. split; [unfold initial_lines; reflexivity|]. rewrite Ep. cbn [params_of_options p_dim p_lambda p_seed p_weights_setting]. split; [|split; [|split; [reflexivity|split; [|split]]]].
    - exists (dec_n (N.of_nat (List.length (o_initial_mean o)))), (dec_n (o_population_size o)), (dec_n sd). split; [|repeat split; apply read_dec_n].
      fold (dec_n (N.of_nat (List.length (o_initial_mean o)))) (dec_n (o_population_size o)) (dec_n sd).
      pose proof (fun n => dec_n_without "=" n eq_refl) as W. generalize (W (N.of_nat (List.length (o_initial_mean o)))) (W (o_population_size o)) (W sd).
      generalize (dec_n (N.of_nat (List.length (o_initial_mean o)))) (dec_n (o_population_size o)) (dec_n sd). intros d l s Wd Wl Ws.
      match goal with |- pieces _ ?x = _ => replace x with ((variant (o_weights o) ++ " with dimension") ++ String "=" ((d ++ ", lambda") ++ String "=" ((l ++ ", seed") ++ String "=" s))) end.
      + rewrite pieces_app by (destruct (o_weights o); reflexivity). rewrite pieces_app by (apply without_app; [exact Wd|reflexivity]).
        rewrite pieces_app by (apply without_app; [exact Wl|reflexivity]). rewrite pieces_none by exact Ws. reflexivity.
      + rewrite !app_ass. destruct (o_weights o); cbn [variant String.append]; reflexivity.
    - intros s Hs. unfold sd. rewrite Hs. reflexivity.
    - repeat constructor; eexists; split; reflexivity.
    - apply dashes.
    - reflexivity.
  Qed.
End Opening.
Print Assumptions C79_opening.

(* the lines of the example optimiser *)
Example C79_case : exists c : cmaes (E := toy_env) f64 unit, reaches toy_sphere (toy_options 2) tt c /\
  initial_lines c = ["aCMA-ES with dimension=2, lambda=4, seed=7";
    " Gen #  | f evals | Best function value | Axis Ratio |   Sigma    |  Min std   |  Max std  ";
    "-------------------------------------------------------------------------------------------"].
Proof.
  destruct (toy_reaches toy_sphere (toy_options 2) 1 (fun _ c => text_is (initial_lines c) ["aCMA-ES with dimension=2, lambda=4, seed=7";
    " Gen #  | f evals | Best function value | Axis Ratio |   Sigma    |  Min std   |  Max std  ";
    "-------------------------------------------------------------------------------------------"])) as [rs [c [H1 [_ H2]]]]; [vm_compute; reflexivity|].
  exists c. split; [exact H1|]. unfold text_is in H2. destruct (list_eq_dec _ _ _) as [Eq|]; [exact Eq|discriminate H2].
Qed.
