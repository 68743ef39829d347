(* C44 to C48: plotting and printing. *)
From Coq Require Import List NArith ZArith Bool Arith Lia Sorting.Sorted.
Require Import Verif.Base Verif.Num Verif.F64 Verif.LinAlg Verif.Mode Verif.Weights Verif.Options
  Verif.Params Verif.Env Verif.State Verif.Sampling Verif.History Verif.Termination Verif.Plot Verif.Cmaes Verif.Lib
  Verif.NextInv Verif.Spec Verif.LogLemmas Verif.TraceLemmas Verif.BuildLemmas Verif.PanicLemmas Verif.NextSafe
  Verif.CastLemmas Verif.TermLemmas Verif.Toy Verif.ToyLemmas Verif.PlotLemmas.
Import ListNotations.
Open Scope nat_scope.

Section Plotting.
  Context {T : Type} {NT : Num T} {CL : CastLaws T} {LT : Libm T} {E : Env T}.
  Hypothesis Heig : eigen_shape (T := T).
  Context {F : Type} (ev : F -> vec T -> outcome (T * F)).

  (* C44. The plot of any optimiser consists of complete recorded moments (so all series have the same length):
     at least one, each one a moment the optimiser really was in, in the order of strictly increasing
     generation numbers and never decreasing evaluation counts. *)
  Theorem C44_plot : forall o f c, reaches ev o f c ->
    match o_plot_options o with
    | None => c_plot c = None
    | Some po => exists p l, c_plot c = Some p /\ pl_options p = po /\
        describes (dims o) (pl_data p) (map snd l) /\
        plot_len p = length l /\ 1 <= length l /\ series_length (length l) (pl_data p) /\
        StronglySorted N.lt (map fst l) /\ StronglySorted N.le (pd_function_evals (pl_data p)) /\
        Forall (moment_of ev o f c) l
    end.
  Proof.
    intros o f c H. destruct (plot_inv_reaches Heig ev _ _ _ H) as [_ X]. destruct (c_plot c) as [p|].
    - destruct X as [l [R1 R2 R3 R4 R5 [l' [m [El _]]] R7]]. rewrite R7. exists p, l.
      pose proof (describes_length _ _ _ R1) as [D1 _]. rewrite map_length in D1.
      split; [reflexivity|]. split; [reflexivity|]. split; [exact R1|]. split.
      { unfold plot_len. rewrite (ds_evals _ _ _ R1), !map_length. reflexivity. }
      split; [rewrite El, app_length; cbn [length]; lia|]. split; [exact D1|]. split; [exact R2|]. split; [|exact R4].
      rewrite (ds_evals _ _ _ R1), map_map. exact R3.
    - rewrite X. reflexivity.
  Qed.

  (* C45. What a call of next does to the plot, when the sum of the last recorded evaluation count and
     min_gap_evals fits into 64 bits. Missing: larger gaps, for which the claim is false (C45_refuted). *)
  Theorem C45_records_partial : forall o f c p par tk r c' es e, reaches ev o f c -> c_plot c = Some p ->
    next ev par tk c = Ret (r, c') ->
    pd_function_evals (pl_data p) = es ++ [e] ->
    (e + po_min_gap_evals (pl_options p) < 2 ^ 64)%N ->
    exists p' l, c_plot c' = Some p' /\ describes (dims o) (pl_data p) l /\
      ((reports InvalidFunctionValue r = false /\ reports PosDefCov r = false /\
        (generation c' = 1 \/ e + po_min_gap_evals (pl_options p) <= function_evals c')%N /\
        describes (dims o) (pl_data p') (l ++ [shot_of c']))
       \/
       (~ (reports InvalidFunctionValue r = false /\ reports PosDefCov r = false /\
           (generation c' = 1 \/ e + po_min_gap_evals (pl_options p) <= function_evals c')%N) /\
        p' = p)).
  Proof.
    intros o f c p par tk r c' es e Hr Hp Hn He Hov.
    destruct (reaches_plot Heig ev _ _ _ _ Hr Hp) as [l Hl].
    destruct (next_recorded Heig ev _ _ _ _ _ _ _ _ _ Hr Hp Hl Hn) as [p' [H1 H2]].
    exists p', (map snd l). split; [exact H1|]. split; [apply (rd_data _ _ _ _ _ _ Hl)|].
    assert (Hd : next_data_point_evals p = (e + po_min_gap_evals (pl_options p))%N).
    { destruct (rd_last _ _ _ _ _ _ Hl) as [l' [m [-> [_ L]]]]. unfold next_data_point_evals. rewrite L.
      pose proof (ds_evals _ _ _ (rd_data _ _ _ _ _ _ Hl)) as D. rewrite He, !map_app in D. cbn [map] in D.
      apply app_inj_tail in D. destruct D as [_ <-]. apply N.mod_small. exact Hov. }
    rewrite Hd in H2. pose proof (next_counters _ _ _ _ _ _ Hn) as [_ Hg].
    destruct (reports InvalidFunctionValue r); cbn [negb andb] in H2.
    { right. split; [intros [X _]; discriminate X|apply H2]. }
    destruct (reports PosDefCov r); cbn [negb andb] in H2.
    { right. split; [intros [_ [X _]]; discriminate X|apply H2]. }
    cbn [orb] in Hg.
    destruct (generation c' <=? 1)%N eqn:E1; cbn [orb] in H2.
    - left. apply N.leb_le in E1. split; [reflexivity|]. split; [reflexivity|]. split; [left; lia|].
      pose proof (rd_data _ _ _ _ _ _ H2) as D. rewrite map_app in D. exact D.
    - apply N.leb_gt in E1. destruct (e + po_min_gap_evals (pl_options p) <=? function_evals c')%N eqn:E2.
      + left. apply N.leb_le in E2. split; [reflexivity|]. split; [reflexivity|]. split; [right; exact E2|].
        pose proof (rd_data _ _ _ _ _ _ H2) as D. rewrite map_app in D. exact D.
      + right. apply N.leb_gt in E2. split; [|apply H2]. intros [_ [_ [X|X]]]; lia.
  Qed.

  (* C46. Clearing the plot of any optimiser returns, keeps exactly the last recorded moment, and changes
     nothing else. *)
  Theorem C46_clear : forall o f c p, reaches ev o f c -> c_plot c = Some p ->
    exists c' p' l x, step ev c OClearPlot = Ret c' /\ c_plot c' = Some p' /\
      describes (dims o) (pl_data p) (l ++ [x]) /\ describes (dims o) (pl_data p') [x] /\
      plot_len p' = 1 /\ same_core c' c /\ c_out c' = c_out c /\ c_last_print c' = c_last_print c /\
      pl_options p' = pl_options p.
  Proof.
    intros o f c p Hr Hp. destruct (reaches_plot Heig ev _ _ _ _ Hr Hp) as [l Hl].
    destruct (rd_last _ _ _ _ _ _ Hl) as [l' [m [-> _]]].
    destruct (plot_clear_recorded ev _ _ _ _ _ _ Hl) as [p' [H1 [H2 _]]].
    exists (mkCmaes (c_sampler c) (c_params c) (c_state c) (c_history c) (Some p') (c_print_gap c)
                    (c_last_print c) (c_created c) (c_out c)), p', (map snd l'), (snd m).
    cbn [step]. unfold clear_plot. rewrite Hp, H1. cbn [obind].
    pose proof (rd_data _ _ _ _ _ _ Hl) as D1. rewrite map_app in D1. pose proof (rd_data _ _ _ _ _ _ H2) as D2.
    split; [reflexivity|]. split; [reflexivity|]. split; [exact D1|]. split; [exact D2|]. split.
    { unfold plot_len. rewrite (ds_evals _ _ _ D2). reflexivity. }
    split; [unfold same_core; cbn; tauto|]. split; [reflexivity|]. split; [reflexivity|].
    pose proof (rd_options _ _ _ _ _ _ Hl) as O1. pose proof (rd_options _ _ _ _ _ _ H2) as O2. congruence.
  Qed.

  (* a history in which no call reported PosDefCov *)
  Inductive calm (c0 : cmaes T F) : cmaes T F -> Prop :=
  | Ca_start : calm c0 c0
  | Ca_quiet : forall c op c', calm c0 c -> quiet op -> step ev c op = Ret c' -> calm c0 c'
  | Ca_next : forall c par tk r c', calm c0 c -> next ev par tk c = Ret (r, c') -> reports PosDefCov r = false -> calm c0 c'.

  Lemma calm_reaches : forall o f c0 c, built o f c0 -> calm c0 c -> reaches ev o f c.
  Proof.
    intros o f c0 c Hb H. induction H as [|c op c' H IH _ Hs|c par tk r c' H IH Hn _].
    - exists c0, []. auto.
    - eapply reaches_step; eauto.
    - eapply reaches_step; [exact IH|]. eapply next_step; exact Hn.
  Qed.
  Lemma run_loop_calm : forall par fuel env c0 c d c', calm c0 c -> run_loop ev par fuel env c = Ret (d, c') ->
    ~ In PosDefCov (td_reasons d) -> calm c0 c'.
  Proof.
    intros par fuel. induction fuel as [|fuel IH]; intros env c0 c d c' Hc H Hd; cbn [run_loop] in H; [discriminate H|].
    oinv H. destruct a as [r c1]. destruct r as [d1|].
    - apply Ret_inj in H. pose proof (f_equal fst H) as H1. pose proof (f_equal snd H) as H2. cbn [fst snd] in H1, H2. subst d1 c1.
      eapply Ca_next; [exact Hc|exact Ho|]. destruct (reports PosDefCov (Some d)) eqn:Er; auto. exfalso. apply Hd.
      apply reports_true in Er. destruct Er as [d' [X Y]]. congruence.
    - eapply IH; [|exact H|exact Hd]. eapply Ca_next; [exact Hc|exact Ho|reflexivity].
  Qed.

  Lemma calm_recorded : forall o f c0 c, built o f c0 -> calm c0 c -> o_plot_options o <> None ->
    exists p l m, c_plot c = Some p /\ recorded ev o f c p (l ++ [m]) /\ (fst m = generation c -> snd m = shot_of c).
  Proof.
    intros o f c0 c Hb H Hpo. pose proof (calm_reaches _ _ _ _ Hb H) as Hr0.
    induction H as [|c op c' H IH Hq Hs|c par tk r c' H IH Hn Hpd].
    - apply (built_recorded Heig ev) in Hb. destruct (o_plot_options o); [|congruence]. destruct Hb as [q [H1 H2]].
      exists q, [], (generation c0, shot_of c0). auto.
    - assert (Hr : reaches ev o f c) by (eapply calm_reaches; eauto).
      destruct (IH Hr) as [q [l [m [Hp [Hl Hf]]]]].
      pose proof (quiet_core _ _ _ _ Hq Hs) as [K1 [_ [K3 [K4 _]]]].
      assert (Ksh : shot_of c' = shot_of c) by (unfold shot_of, function_evals; rewrite K1, K3, K4; reflexivity).
      assert (Kg : generation c' = generation c) by (unfold generation; rewrite K3; reflexivity).
      destruct (quiet_recorded Heig ev _ _ _ _ _ _ _ Hr Hp Hl Hq Hs) as [p' [Q1 Q2]]. exists p'.
      destruct op; try contradiction; try (exists l, m; rewrite Ksh, Kg; destruct Q2 as [-> Q2]; auto; fail).
      + destruct Q2 as [[_ [-> Q2]]|[_ Q2]].
        * exists l, m. rewrite Ksh, Kg. auto.
        * exists (l ++ [m]), (generation c, shot_of c). auto.
      + destruct (Q2 l m eq_refl) as [Q3 _]. exists [], m. rewrite Ksh, Kg. auto.
    - assert (Hr : reaches ev o f c) by (eapply calm_reaches; eauto).
      destruct (IH Hr) as [q [l [m [Hp [Hl Hf]]]]].
      destruct (next_recorded Heig ev _ _ _ _ _ _ _ _ _ Hr Hp Hl Hn) as [p' [H1 H2]]. exists p'.
      pose proof (next_counters _ _ _ _ _ _ Hn) as [Hv Hg].
      match type of H2 with if ?b then _ else _ => destruct b eqn:Eb end.
      + exists (l ++ [m]), (generation c', shot_of c'). auto.
      + exists l, m. destruct H2 as [-> H2]. split; [auto|]. split; [exact H2|]. intros Hm.
        pose proof (rd_le _ _ _ _ _ _ Hl) as L. apply Forall_app in L. destruct L as [_ L].
        inversion L as [|y z [L1 _] _]; subst.
        destruct (reports InvalidFunctionValue r) eqn:Ei; rewrite Hpd in Hg; cbn [orb] in Hg, Hv; [|lia].
        apply next_outcome in Hn. destruct Hn as [[_ [_ [_ X]]]|[inds [ok [_ [X _]]]]]; [|congruence].
        rewrite Hf by lia. unfold shot_of. replace (function_evals c') with (function_evals c) by lia.
        rewrite X. reflexivity.
  Qed.

  (* C47. If no call reported PosDefCov (before run or in it), the last point of the plot after run is the state
     that run ended in. *)
  Theorem C47_final_plotted : forall o f c0 c par fuel env d c', built o f c0 -> calm c0 c ->
    run ev par fuel env c = Ret (d, c') -> ~ In PosDefCov (td_reasons d) -> o_plot_options o <> None ->
    exists p l, c_plot c' = Some p /\ describes (dims o) (pl_data p) (l ++ [shot_of c']).
  Proof.
    intros o f c0 c par fuel env d c' Hb Hc Hrun Hd Hpo. unfold run in Hrun. oinv Hrun. destruct a as [d1 c1]. oinv Hrun.
    apply Ret_inj in Hrun. pose proof (f_equal fst Hrun) as H1. pose proof (f_equal snd Hrun) as H2. cbn [fst snd] in H1, H2.
    subst d1 a. clear Hrun. pose proof (run_loop_calm _ _ _ _ _ _ _ Hc Ho Hd) as Hc1.
    destruct (calm_recorded _ _ _ _ Hb Hc1 Hpo) as [p [l [m [Hp [Hl Hf]]]]].
    pose proof (calm_reaches _ _ _ _ Hb Hc1) as Hr.
    unfold run_internal in Ho0. oinv Ho0. rename a into c2.
    assert (Hs : step ev c1 OAddPlotPoint = Ret c2) by exact Ho1.
    pose proof (quiet_core ev c1 OAddPlotPoint c2 I Hs) as [K1 [_ [K3 [K4 [_ K5]]]]].
    destruct (quiet_recorded Heig ev _ _ _ OAddPlotPoint _ _ _ Hr Hp Hl I Hs) as [p' [Q1 Q2]].
    assert (Hc' : c_plot c' = c_plot c2 /\ c_sampler c' = c_sampler c2 /\ c_state c' = c_state c2 /\ c_history c' = c_history c2).
    { apply Ret_inj in Ho0. subst c'. destruct (c_print_gap c2); auto. unfold print_final_info.
      destruct (function_evals c2 =? c_last_print c2)%N; auto. }
    destruct Hc' as [E1 [E2 [E3 E4]]]. exists p'. rewrite E1, Q1.
    assert (Ks : shot_of c' = shot_of c1) by (unfold shot_of, function_evals; rewrite E2, E3, E4, K1, K3, K4; reflexivity).
    rewrite Ks. destruct Q2 as [[Q2 [-> Q3]]|[_ Q3]].
    - exists (map snd l). split; [reflexivity|]. rewrite <- Hf.
      + pose proof (rd_data _ _ _ _ _ _ Hl) as D. rewrite map_app in D. exact D.
      + destruct (rd_last _ _ _ _ _ _ Hl) as [l' [m' [El [L1 _]]]]. apply app_inj_tail in El. destruct El as [_ <-]. congruence.
    - exists (map snd (l ++ [m])). split; [reflexivity|].
      pose proof (rd_data _ _ _ _ _ _ Q3) as D. rewrite map_app in D. exact D.
  Qed.
End Plotting.

(* ---- printing ---- *)

(* what happened to an optimiser, as far as printing is concerned: a completed generation, or one of the three
   printing methods called (by the user or by run), each with the generation and evaluation counters *)
Inductive event :=
| EGeneration (g e : N)
| EInitial
| EInfo (g e : N)
| EFinal (reasons : list reason) (g e : N).

(* The lines these produce, oldest first. gap is the argument of enable_printing; aligned is the evaluation count
   of the last generation printed because of the gap (0 before the first). *)
Fixpoint lines (gap : option N) (aligned : N) (l : list event) : list line :=
  match l with
  | [] => []
  | EInitial :: l' => LInitial :: lines gap aligned l'
  | EInfo g e :: l' => LInfo g e :: lines gap aligned l'
  | EFinal rs g e :: l' =>
      (if (e =? aligned)%N then [LFinal rs] else [LInfo g e; LFinal rs]) ++ lines gap aligned l'
  | EGeneration g e :: l' =>
      match gap with
      | None => lines gap aligned l'
      | Some k =>
          if (aligned + k <=? e)%N then LInfo g e :: lines gap e l'
          else if (g <=? 3)%N then LInfo g e :: lines gap aligned l'
          else lines gap aligned l'
      end
  end.

Section Printing.
  Context {T : Type} {NT : Num T} {CL : CastLaws T} {LT : Libm T} {E : Env T}.
  Context {F : Type} (ev : F -> vec T -> outcome (T * F)).

  (* `watched c0 l c`: c0 was used in some way that led to c, and l is what happened *)
  Inductive watched (c0 : cmaes T F) : list event -> cmaes T F -> Prop :=
  | Wa_start : watched c0 [] c0
  | Wa_plot : forall l c op c', watched c0 l c -> op = OAddPlotPoint \/ op = OClearPlot -> step ev c op = Ret c' ->
      watched c0 l c'
  | Wa_initial : forall l c c', watched c0 l c -> step ev c OPrintInitial = Ret c' -> watched c0 (l ++ [EInitial]) c'
  | Wa_info : forall l c c', watched c0 l c -> step ev c OPrintInfo = Ret c' ->
      watched c0 (l ++ [EInfo (generation c) (function_evals c)]) c'
  | Wa_final : forall l c rs c', watched c0 l c -> step ev c (OPrintFinal rs) = Ret c' ->
      watched c0 (l ++ [EFinal rs (generation c) (function_evals c)]) c'
  | Wa_next : forall l c par tk r c', watched c0 l c -> next ev par tk c = Ret (r, c') ->
      watched c0 (l ++ (if reports InvalidFunctionValue r || reports PosDefCov r then []
                        else [EGeneration (generation c') (function_evals c')])) c'.

  (* the gap-aligned evaluation count after these events *)
  Fixpoint aligned_after (gap : option N) (aligned : N) (l : list event) : N :=
    match l with
    | [] => aligned
    | EGeneration g e :: l' =>
        match gap with
        | None => aligned_after gap aligned l'
        | Some k => if (aligned + k <=? e)%N then aligned_after gap e l' else aligned_after gap aligned l'
        end
    | _ :: l' => aligned_after gap aligned l'
    end.
  Lemma lines_app : forall gap l1 l2 a, lines gap a (l1 ++ l2) = lines gap a l1 ++ lines gap (aligned_after gap a l1) l2.
  Proof.
    intros gap. induction l1 as [|[g e| |g e|rs g e] l1 IH]; intros l2 a; cbn [app lines aligned_after]; auto.
    - destruct gap as [k|]; auto. destruct (a + k <=? e)%N; [cbn [app]; rewrite IH; reflexivity|].
      destruct (g <=? 3)%N; rewrite IH; reflexivity.
    - rewrite IH. reflexivity.
    - rewrite IH. reflexivity.
    - rewrite IH, app_assoc. reflexivity.
  Qed.
  Lemma aligned_app : forall gap l1 l2 a, aligned_after gap a (l1 ++ l2) = aligned_after gap (aligned_after gap a l1) l2.
  Proof.
    intros gap. induction l1 as [|[g e| |g e|rs g e] l1 IH]; intros l2 a; cbn [app aligned_after]; auto.
    destruct gap as [k|]; auto. destruct (a + k <=? e)%N; apply IH.
  Qed.

  Definition opening (gap : option N) : list line := match gap with Some _ => [LInitial] | None => [] end.
  Lemma print_inv : forall o f c0 l c, built o f c0 -> watched c0 l c ->
    match o_print_gap_evals o with Some k => (k < 2 ^ 64)%N | None => True end -> (function_evals c < 2 ^ 63)%N ->
    c_print_gap c = o_print_gap_evals o /\
    c_last_print c = aligned_after (o_print_gap_evals o) 0 l /\ (c_last_print c <= function_evals c)%N /\
    match o_print_gap_evals o with Some k => c_last_print c = 0%N \/ (k <= c_last_print c)%N | None => True end /\
    c_out c = rev (opening (o_print_gap_evals o) ++ lines (o_print_gap_evals o) 0 l).
  Proof.
    intros o f c0 l c Hb H Hk. set (gap := o_print_gap_evals o) in *.
    assert (Hquiet : forall c op c', quiet op -> step ev c op = Ret c' ->
      function_evals c' = function_evals c /\ generation c' = generation c /\ c_print_gap c' = c_print_gap c /\
      c_last_print c' = c_last_print c).
    { intros c1 op c2 Hq Hs. pose proof (quiet_core _ _ _ _ Hq Hs) as [K1 [_ [K3 [_ [_ K6]]]]].
      unfold function_evals, generation. rewrite K1, K3, K6. repeat split.
      destruct op; try contradiction; cbn [step] in Hs.
      - apply add_plot_point_core in Hs. apply Hs.
      - unfold clear_plot in Hs. destruct (c_plot c1); [oinv Hs|]; apply Ret_inj in Hs; subst c2; reflexivity.
      - apply Ret_inj in Hs. subst c2. reflexivity.
      - apply Ret_inj in Hs. subst c2. reflexivity.
      - apply Ret_inj in Hs. subst c2. unfold print_final_info. destruct (function_evals c1 =? c_last_print c1)%N; reflexivity. }
    induction H as [|l c op c' H IH Hop Hs|l c c' H IH Hs|l c c' H IH Hs|l c rs c' H IH Hs|l c par tk r c' H IH Hn];
      intros Hev.
    - destruct Hb as [rs [now Hb]]. apply cmaes_new_inv in Hb. cbv zeta in Hb.
      destruct Hb as [_ [_ [_ [_ [_ [S1 [S2 [_ [S3 _]]]]]]]]]. unfold gap. rewrite S1, S2, S3.
      cbn [aligned_after lines]. rewrite app_nil_r. destruct (o_print_gap_evals o); cbn [opening rev app]; repeat split; auto; lia.
    - destruct (Hquiet c op c') as [K1 [_ [K3 K4]]]; [destruct Hop as [-> | ->]; exact I|exact Hs|].
      rewrite K1 in Hev |- *. rewrite K3, K4. destruct (IH Hev) as [I1 [I2 [I3 [I4 I5]]]].
      split; [exact I1|]. split; [exact I2|]. split; [exact I3|]. split; [exact I4|]. rewrite <- I5.
      destruct Hop as [-> | ->]; cbn [step] in Hs.
      + apply add_plot_point_core in Hs. apply Hs.
      + unfold clear_plot in Hs. destruct (c_plot c); [oinv Hs|]; apply Ret_inj in Hs; subst c'; reflexivity.
    - destruct (Hquiet c OPrintInitial c' I Hs) as [K1 [_ [K3 K4]]].
      rewrite K1 in Hev |- *. rewrite K3, K4. destruct (IH Hev) as [I1 [I2 [I3 [I4 I5]]]].
      rewrite aligned_app, lines_app, app_assoc, rev_app_distr, <- I2, <- I5. cbn [aligned_after lines rev app].
      repeat split; auto. cbn [step] in Hs. apply Ret_inj in Hs. subst c'. reflexivity.
    - destruct (Hquiet c OPrintInfo c' I Hs) as [K1 [_ [K3 K4]]].
      rewrite K1 in Hev |- *. rewrite K3, K4. destruct (IH Hev) as [I1 [I2 [I3 [I4 I5]]]].
      rewrite aligned_app, lines_app, app_assoc, rev_app_distr, <- I2, <- I5. cbn [aligned_after lines rev app].
      repeat split; auto. cbn [step] in Hs. apply Ret_inj in Hs. subst c'. reflexivity.
    - destruct (Hquiet c (OPrintFinal rs) c' I Hs) as [K1 [_ [K3 K4]]].
      rewrite K1 in Hev |- *. rewrite K3, K4. destruct (IH Hev) as [I1 [I2 [I3 [I4 I5]]]].
      rewrite aligned_app, lines_app, app_assoc, rev_app_distr, <- I2, <- I5. cbn [aligned_after lines].
      split; [exact I1|]. split; [reflexivity|]. split; [exact I3|]. split; [exact I4|].
      cbn [step] in Hs. apply Ret_inj in Hs. subst c'. unfold print_final_info.
      destruct (function_evals c =? c_last_print c)%N; reflexivity.
    - pose proof (next_counters _ _ _ _ _ _ Hn) as [Hv Hg].
      assert (Hev0 : (function_evals c < 2 ^ 63)%N) by lia. destruct (IH Hev0) as [I1 [I2 [I3 [I4 I5]]]].
      assert (Kg : c_print_gap c' = c_print_gap c) by (apply next_setup in Hn; unfold same_setup in Hn; tauto).
      apply next_outcome in Hn. destruct Hn as [[_ [H9 [_ X]]]|[inds [ok [_ [H9 [_ [_ X]]]]]]]; rewrite H9 in *; cbn [orb].
      { rewrite app_nil_r. rewrite X. cbn [c_print_gap c_last_print c_out set_sampler]. rewrite <- X.
        repeat split; auto. lia. }
      destruct X as [[_ [H8 [_ [_ [X1 X2]]]]]|[_ [H8 [reasons [X _]]]]]; rewrite H8 in *.
      { rewrite app_nil_r, X1, X2, Kg. repeat split; auto. lia. }
      cbn [orb] in *. pose proof (nd_print _ _ _ _ _ X) as Y. rewrite I1 in Y. unfold printed in Y.
      rewrite Kg, aligned_app, lines_app, app_assoc, rev_app_distr, <- I2, <- I5. cbn [aligned_after lines].
      pose proof (f_equal fst Y) as Y1. pose proof (f_equal snd Y) as Y2. cbn [fst snd] in Y1, Y2. clear Y.
      split; [exact I1|]. destruct gap as [k|].
      + assert (Hw : wrapping_add (c_last_print c) k = (c_last_print c + k)%N).
        { unfold wrapping_add. apply N.mod_small. change 18446744073709551616%N with (2 ^ 64)%N.
          change (2 ^ 64)%N with (2 ^ 63 + 2 ^ 63)%N in Hk |- *. lia. }
        rewrite Hw in Y1, Y2. destruct (c_last_print c + k <=? function_evals c')%N eqn:E1.
        * apply N.leb_le in E1. cbn [fst snd] in Y1, Y2. rewrite Y1, Y2. cbn [rev app]. repeat split; auto; lia.
        * assert (E2 : (generation c' <? 4)%N = (generation c' <=? 3)%N).
          { destruct (N.ltb_spec (generation c') 4); destruct (N.leb_spec (generation c') 3); auto; lia. }
          rewrite E2 in Y1, Y2. destruct (generation c' <=? 3)%N; cbn [fst snd] in Y1, Y2; rewrite Y1, Y2; cbn [rev app];
            repeat split; auto; lia.
      + cbn [fst snd] in Y1, Y2. rewrite Y1, Y2. cbn [rev app]. repeat split; auto. lia.
  Qed.

  (* C48. The whole output of an optimiser, whatever was done with it: the opening block if printing is enabled,
     then the lines specified above. (gap is a usize; fewer than 2^63 evaluations.) *)
  Theorem C48_output : forall o f c0 l c, built o f c0 -> watched c0 l c ->
    match o_print_gap_evals o with Some k => (k < 2 ^ 64)%N | None => True end -> (function_evals c < 2 ^ 63)%N ->
    rev (c_out c) = opening (o_print_gap_evals o) ++ lines (o_print_gap_evals o) 0 l.
  Proof.
    intros o f c0 l c Hb Hw Hk He. destruct (print_inv _ _ _ _ _ Hb Hw Hk He) as [_ [_ [_ [_ ->]]]]. apply rev_involutive.
  Qed.

  (* every way of using an optimiser is covered *)
  Theorem C48_covers : forall c0 ops c, steps ev c0 ops = Ret c -> exists l, watched c0 l c.
  Proof.
    intros c0 ops c H.
    revert H. apply (steps_invariant ev (fun c => exists l, watched c0 l c)); [| |exists []; constructor].
    - intros c1 op c2 [l Hl] Hq Hs. destruct op; try contradiction.
      + exists l. apply (Wa_plot c0 l c1 OAddPlotPoint); auto.
      + exists l. apply (Wa_plot c0 l c1 OClearPlot); auto.
      + eexists. eapply Wa_initial; eauto.
      + eexists. eapply Wa_info; eauto.
      + eexists. eapply Wa_final; eauto.
    - intros par tk c1 r c2 [l Hl] Hn. eexists. eapply Wa_next; eauto.
  Qed.

  Definition is_generation (e : event) : Prop := match e with EGeneration _ _ => True | _ => False end.
  Lemma watched_loop : forall c0 par fuel env l c d c', watched c0 l c -> run_loop ev par fuel env c = Ret (d, c') ->
    exists gens, Forall is_generation gens /\ watched c0 (l ++ gens) c'.
  Proof.
    intros c0 par fuel. induction fuel as [|fuel IH]; intros env l c d c' Hw H; cbn [run_loop] in H; [discriminate H|].
    oinv H. destruct a as [r c1]. pose proof (Wa_next _ _ _ _ _ _ _ Hw Ho) as Hw1.
    match type of Hw1 with watched _ (_ ++ ?g) _ => set (gs := g) in * end.
    assert (Hg : Forall is_generation gs).
    { unfold gs. destruct (reports InvalidFunctionValue r || reports PosDefCov r); repeat constructor. }
    destruct r as [d1|].
    - apply Ret_inj in H. pose proof (f_equal snd H) as H2. cbn [snd] in H2. subst c1. eauto.
    - destruct (IH _ _ _ _ _ Hw1 H) as [g2 [G1 G2]]. exists (gs ++ g2). split; [apply Forall_app; auto|].
      rewrite app_assoc. exact G2.
  Qed.

  (* run prints its generations like next does, then calls print_final_info (only with printing enabled) *)
  Theorem C48_run : forall o f c0 l c par fuel env d c', built o f c0 -> watched c0 l c ->
    run ev par fuel env c = Ret (d, c') ->
    exists gens, Forall is_generation gens /\
      watched c0 (l ++ gens ++ match o_print_gap_evals o with
                               | Some _ => [EFinal (td_reasons d) (generation c') (function_evals c')]
                               | None => []
                               end) c'.
  Proof.
    intros o f c0 l c par fuel env d c' Hb Hw H. unfold run in H. oinv H. destruct a as [d1 c1]. oinv H.
    apply Ret_inj in H. pose proof (f_equal fst H) as H1. pose proof (f_equal snd H) as H2. cbn [fst snd] in H1, H2.
    subst d1 a. clear H. destruct (watched_loop _ _ _ _ _ _ _ _ Hw Ho) as [gens [G1 G2]]. exists gens. split; [exact G1|].
    unfold run_internal in Ho0. oinv Ho0. rename a into c2.
    assert (Hw2 : watched c0 (l ++ gens) c2) by (eapply Wa_plot; [exact G2|left; reflexivity|exact Ho1]).
    assert (Hgap : c_print_gap c2 = o_print_gap_evals o).
    { clear -Hb Hw2. induction Hw2 as [|l0 c op c' H IH Hop Hs|l0 c c' H IH Hs|l0 c c' H IH Hs|l0 c rs c' H IH Hs|l0 c par tk r c' H IH Hn].
      - destruct Hb as [rs [now Hb]]. apply cmaes_new_inv in Hb. cbv zeta in Hb. apply Hb.
      - assert (Hq : quiet op) by (destruct Hop as [-> | ->]; exact I). destruct (quiet_core _ _ _ _ Hq Hs) as [_ [_ [_ [_ [_ K]]]]]. congruence.
      - destruct (quiet_core _ _ OPrintInitial _ I Hs) as [_ [_ [_ [_ [_ K]]]]]. congruence.
      - destruct (quiet_core _ _ OPrintInfo _ I Hs) as [_ [_ [_ [_ [_ K]]]]]. congruence.
      - destruct (quiet_core _ _ (OPrintFinal rs) _ I Hs) as [_ [_ [_ [_ [_ K]]]]]. congruence.
      - apply next_setup in Hn. unfold same_setup in Hn. rewrite <- IH. tauto. }
    apply Ret_inj in Ho0. subst c'. rewrite Hgap. destruct (o_print_gap_evals o).
    - assert (Hs : step ev c2 (OPrintFinal (td_reasons d)) = Ret (print_final_info (td_reasons d) c2)) by reflexivity.
      pose proof (Wa_final _ _ _ _ _ Hw2 Hs) as Hw3.
      pose proof (quiet_core _ _ (OPrintFinal (td_reasons d)) _ I Hs) as [K1 [_ [K3 _]]].
      unfold generation, function_evals. rewrite K1, K3. rewrite app_assoc. exact Hw3.
    - rewrite app_nil_r. exact Hw2.
  Qed.
End Printing.

(* ---- concrete cases ---- *)
Section Tests.
  Context {T : Type} {NT : Num T} {LT : Libm T} {E : Env T} {F : Type} (ev : F -> vec T -> outcome (T * F)).
  Definition after (f : F) (o : options T) (ops : list op) : outcome (cmaes T F) :=
    b <- cmaes_new 0 0 f o ;; match b with inl c => steps ev c ops | inr _ => Panic PUnwrap end.
  Lemma after_reaches : forall f o ops c, after f o ops = Ret c -> exists c0, built o f c0 /\ steps ev c0 ops = Ret c.
  Proof.
    intros f o ops c H. unfold after in H. destruct (cmaes_new 0 0 f o) as [[c0|e]| |] eqn:E0; cbn [obind] in H;
      [|discriminate H|discriminate H|discriminate H]. exists c0. split; [exists 0%N, 0%N; exact E0|exact H].
  Qed.
  Definition holds {A} (r : outcome A) (P : A -> bool) : bool := match r with Ret a => P a | _ => false end.
  Lemma holds_ex : forall {A} (r : outcome A) P, holds r P = true -> exists a, r = Ret a /\ P a = true.
  Proof. intros A [a| |] P H; [eauto|discriminate H|discriminate H]. Qed.
End Tests.
Definition listN_eqb (a b : list N) : bool := if list_eq_dec N.eq_dec a b then true else false.
Lemma listN_eqb_eq : forall a b, listN_eqb a b = true -> a = b.
Proof. intros a b. unfold listN_eqb. destruct (list_eq_dec N.eq_dec a b); [auto|discriminate]. Qed.
Definition line_eq_dec : forall a b : line, {a = b} + {a <> b}.
Proof. decide equality; try apply N.eq_dec. apply (list_eq_dec reason_eq_dec). Defined.
Definition lines_eqb (a b : list line) : bool := if list_eq_dec line_eq_dec a b then true else false.
Lemma lines_eqb_eq : forall a b, lines_eqb a b = true -> a = b.
Proof. intros a b. unfold lines_eqb. destruct (list_eq_dec line_eq_dec a b); [auto|discriminate]. Qed.

Definition plot_evals {F} (c : cmaes f64 F) : list N := match c_plot c with Some p => pd_function_evals (pl_data p) | None => [] end.

(* population 4, gap 5: recorded at the start, after generation 1, after 3 and (by hand) after 4 *)
Definition c44_options : options f64 := apply_setters (toy_options 2) [SEnablePlot (mkPlotOptions 5 false)].
Definition c44_ops : list op :=
  [ONext false toy_tick; ONext false toy_tick; OAddPlotPoint; OAddPlotPoint; ONext false toy_tick; ONext false toy_tick].
Example C44_case : eigen_shape (T := f64) /\
  exists c p, reaches toy_sphere c44_options tt c /\ c_plot c = Some p /\ pd_function_evals (pl_data p) = [0; 4; 8; 16]%N.
Proof.
  split; [exact toy_eigen_shape|].
  destruct (holds_ex (after toy_sphere tt c44_options c44_ops) (fun c => listN_eqb (plot_evals c) [0; 4; 8; 16]%N)) as [c [H1 H2]].
  { vm_compute. reflexivity. }
  apply after_reaches in H1. destruct H1 as [c0 [H0 H1]]. apply listN_eqb_eq in H2. unfold plot_evals in H2.
  destruct (c_plot c) as [p|] eqn:Ep; [|discriminate H2]. exists c, p. split; [exists c0, c44_ops; auto|]. auto.
Qed.

(* the same with gap 2^64 - 1: the sum wraps around, and generation 2 is recorded 4 evaluations after generation 1 *)
Definition c45_options : options f64 := apply_setters (toy_options 2) [SEnablePlot (mkPlotOptions 18446744073709551615 false)].
Theorem C45_refuted : exists (c : cmaes f64 unit) p r c' p' es e, reaches toy_sphere c45_options tt c /\ c_plot c = Some p /\
  next toy_sphere false toy_tick c = Ret (r, c') /\ r = None /\ pd_function_evals (pl_data p) = es ++ [e] /\
  generation c' = 2%N /\ (function_evals c' < e + po_min_gap_evals (pl_options p))%N /\
  c_plot c' = Some p' /\ plot_len p' = S (plot_len p).
Proof.
  destruct (holds_ex (after toy_sphere tt c45_options [ONext false toy_tick])
    (fun c => listN_eqb (plot_evals c) [0; 4]%N
              && match c_plot c with Some p => (po_min_gap_evals (pl_options p) =? 18446744073709551615)%N | None => false end
              && holds (next toy_sphere false toy_tick c)
                  (fun rc => match fst rc with None => true | Some _ => false end && (generation (snd rc) =? 2)%N
                             && (function_evals (snd rc) =? 8)%N && listN_eqb (plot_evals (snd rc)) [0; 4; 8]%N)))
    as [c [H1 H2]].
  { vm_compute. reflexivity. }
  apply after_reaches in H1. destruct H1 as [c0 [H0 H1]].
  apply andb_prop in H2. destruct H2 as [H2 H4]. apply andb_prop in H2. destruct H2 as [H2 H3].
  apply listN_eqb_eq in H2. unfold plot_evals in H2. destruct (c_plot c) as [p|] eqn:Ep; [|discriminate H2]. apply N.eqb_eq in H3.
  apply holds_ex in H4. destruct H4 as [[r c'] [H4 H5]]. cbn [fst snd] in H5.
  apply andb_prop in H5. destruct H5 as [H5 H6]. apply andb_prop in H5. destruct H5 as [H5 H7].
  apply andb_prop in H5. destruct H5 as [H5 H8]. apply N.eqb_eq in H7. apply N.eqb_eq in H8.
  apply listN_eqb_eq in H6. unfold plot_evals in H6. destruct (c_plot c') as [p'|] eqn:Ep'; [|discriminate H6].
  exists c, p, r, c', p', [0%N], 4%N. split; [exists c0, [ONext false toy_tick]; auto|]. split; [exact Ep|]. split; [exact H4|].
  split; [destruct r; [discriminate H5|reflexivity]|]. split; [exact H2|]. split; [exact H8|].
  split; [rewrite H7, H3; reflexivity|]. split; [exact Ep'|]. unfold plot_len. rewrite H2, H6. reflexivity.
Qed.
Example C45_case : exists (c : cmaes f64 unit) p r c', reaches toy_sphere c44_options tt c /\ c_plot c = Some p /\
  next toy_sphere false toy_tick c = Ret (r, c') /\ pd_function_evals (pl_data p) = [0; 4]%N /\
  (4 + po_min_gap_evals (pl_options p) < 2 ^ 64)%N.
Proof.
  destruct (holds_ex (after toy_sphere tt c44_options [ONext false toy_tick])
    (fun c => listN_eqb (plot_evals c) [0; 4]%N
              && match c_plot c with Some p => (po_min_gap_evals (pl_options p) =? 5)%N | None => false end
              && holds (next toy_sphere false toy_tick c) (fun _ => true)))
    as [c [H1 H2]].
  { vm_compute. reflexivity. }
  apply after_reaches in H1. destruct H1 as [c0 [H0 H1]].
  apply andb_prop in H2. destruct H2 as [H2 H4]. apply andb_prop in H2. destruct H2 as [H2 H3].
  apply listN_eqb_eq in H2. unfold plot_evals in H2. destruct (c_plot c) as [p|] eqn:Ep; [|discriminate H2]. apply N.eqb_eq in H3.
  apply holds_ex in H4. destruct H4 as [[r c'] [H4 _]]. exists c, p, r, c'.
  split; [exists c0, [ONext false toy_tick]; auto|]. split; [exact Ep|]. split; [exact H4|]. split; [exact H2|].
  rewrite H3. reflexivity.
Qed.

(* a run of two generations: the last point (8 evaluations) is its final state *)
Definition c47_options : options f64 := apply_setters c45_options [SMaxGenerations 2].
Example C47_case : exists (c0 : cmaes f64 unit) d c', built c47_options tt c0 /\ calm toy_sphere c0 c0 /\
  run toy_sphere false 5 toy_env_of c0 = Ret (d, c') /\ td_reasons d = [MaxGenerations] /\ plot_evals c' = [0; 4; 8]%N.
Proof.
  destruct (holds_ex (after toy_sphere tt c47_options [])
    (fun c => holds (run toy_sphere false 5 toy_env_of c)
       (fun dc => listN_eqb (plot_evals (snd dc)) [0; 4; 8]%N && lines_eqb [LFinal (td_reasons (fst dc))] [LFinal [MaxGenerations]])))
    as [c [H1 H2]].
  { vm_compute. reflexivity. }
  apply after_reaches in H1. destruct H1 as [c0 [H0 H1]]. cbn [steps] in H1. apply Ret_inj in H1. subst c0.
  apply holds_ex in H2. destruct H2 as [[d c'] [H2 H3]]. cbn [fst snd] in H3. apply andb_prop in H3. destruct H3 as [H3 H4].
  exists c, d, c'. split; [exact H0|]. split; [constructor|]. split; [exact H2|].
  apply lines_eqb_eq in H4. apply listN_eqb_eq in H3. split; [|exact H3]. congruence.
Qed.

(* a run with printing: two generations printed (both among the first three), and the second one again by
   print_final_info although it was printed this generation already *)
Definition c48_options : options f64 := apply_setters (toy_options 2) [SEnablePrinting 1000; SMaxGenerations 2].
Theorem C48_refuted : exists (c0 : cmaes f64 unit) d c', built c48_options tt c0 /\
  run toy_sphere false 5 toy_env_of c0 = Ret (d, c') /\
  rev (c_out c') = [LInitial; LInfo 1 4; LInfo 2 8; LInfo 2 8; LFinal [MaxGenerations]].
Proof.
  destruct (holds_ex (after toy_sphere tt c48_options [])
    (fun c => holds (run toy_sphere false 5 toy_env_of c)
       (fun dc => lines_eqb (rev (c_out (snd dc))) [LInitial; LInfo 1 4; LInfo 2 8; LInfo 2 8; LFinal [MaxGenerations]])))
    as [c [H1 H2]].
  { vm_compute. reflexivity. }
  apply after_reaches in H1. destruct H1 as [c0 [H0 H1]]. cbn [steps] in H1. apply Ret_inj in H1. subst c0.
  apply holds_ex in H2. destruct H2 as [[d c'] [H2 H3]]. cbn [snd] in H3. apply lines_eqb_eq in H3.
  exists c, d, c'. auto.
Qed.
(* gap 6: every second generation after the first three is printed *)
Definition c48_options2 : options f64 := apply_setters (toy_options 2) [SEnablePrinting 6; SMaxGenerations 7].
Example C48_case : exists (c0 : cmaes f64 unit) d c', built c48_options2 tt c0 /\
  run toy_sphere false 9 toy_env_of c0 = Ret (d, c') /\
  rev (c_out c') = [LInitial; LInfo 1 4; LInfo 2 8; LInfo 3 12; LInfo 4 16; LInfo 6 24; LInfo 7 28; LFinal [MaxGenerations]].
Proof.
  destruct (holds_ex (after toy_sphere tt c48_options2 [])
    (fun c => holds (run toy_sphere false 9 toy_env_of c)
       (fun dc => lines_eqb (rev (c_out (snd dc))) [LInitial; LInfo 1 4; LInfo 2 8; LInfo 3 12; LInfo 4 16; LInfo 6 24; LInfo 7 28; LFinal [MaxGenerations]])))
    as [c [H1 H2]].
  { vm_compute. reflexivity. }
  apply after_reaches in H1. destruct H1 as [c0 [H0 H1]]. cbn [steps] in H1. apply Ret_inj in H1. subst c0.
  apply holds_ex in H2. destruct H2 as [[d c'] [H2 H3]]. cbn [snd] in H3. apply lines_eqb_eq in H3.
  exists c, d, c'. auto.
Qed.

(* ---- the run that ends with PosDefCov ---- *)
(* as toy_env, but the eigendecomposition never converges (which the code treats as not positive definite) *)
Definition failing_env : Env f64 := {|
  rng_t := N;
  rng_seed := fun s => s;
  rng_normal := fun g => (nth (N.to_nat (g mod 11)) toy_normals n0, (g + 1)%N);
  eigen := fun m => None;
  nan_median := fun _ => Some nnan
|}.
Section Failing.
  #[local] Existing Instance failing_env.
  Definition c47_last_mean (c : cmaes f64 unit) : option (list f64) :=
    match c_plot c with Some p => Some (map (fun l => last l n0) (pd_mean (pl_data p))) | None => None end.
  (* the last plotted mean is not the final mean *)
  Theorem C47_refuted : eigen_shape (T := f64) /\
    exists (c0 : cmaes f64 unit) d c' m, built c44_options tt c0 /\ run toy_sphere false 9 toy_env_of c0 = Ret (d, c') /\
      td_reasons d = [PosDefCov] /\ c47_last_mean c' = Some m /\
      existsb (fun i => negb (neqb (nth i m n0) (nth i (mean c') n0))) (seq 0 2) = true.
  Proof.
    split; [intros n m vecs vals _ H; discriminate H|].
    destruct (holds_ex (after toy_sphere tt c44_options [])
      (fun c => holds (run toy_sphere false 9 toy_env_of c)
         (fun dc => lines_eqb [LFinal (td_reasons (fst dc))] [LFinal [PosDefCov]] &&
            match c47_last_mean (snd dc) with
            | Some m => existsb (fun i => negb (neqb (nth i m n0) (nth i (mean (snd dc)) n0))) (seq 0 2)
            | None => false end)))
      as [c [H1 H2]].
    { vm_compute. reflexivity. }
    apply after_reaches in H1. destruct H1 as [c0 [H0 H1]]. cbn [steps] in H1. apply Ret_inj in H1. subst c0.
    apply holds_ex in H2. destruct H2 as [[d c'] [H2 H3]]. cbn [fst snd] in H3. apply andb_prop in H3. destruct H3 as [H3 H4].
    apply lines_eqb_eq in H3. destruct (c47_last_mean c') as [m|] eqn:Em; [|discriminate H4].
    exists c, d, c', m. split; [exact H0|]. split; [exact H2|]. split; [congruence|]. split; [exact Em|exact H4].
  Qed.
End Failing.

Print Assumptions C44_plot.
Print Assumptions C45_records_partial.
Print Assumptions C45_refuted.
Print Assumptions C46_clear.
Print Assumptions C47_final_plotted.
Print Assumptions C47_refuted.
Print Assumptions C48_output.
Print Assumptions C48_covers.
Print Assumptions C48_run.
Print Assumptions C48_refuted.
