(* Sessions: an optimiser is built and a list of public calls is made. Vocabulary for comparing two sessions,
   and the simulation argument shared by the comparisons. *)
From Coq Require Import List NArith ZArith Bool Arith Lia Permutation.
Require Import Verif.Base Verif.Num Verif.LinAlg Verif.Mode Verif.Weights Verif.Options Verif.Params Verif.Env
  Verif.State Verif.Sampling Verif.History Verif.Termination Verif.Plot Verif.Cmaes Verif.Lib
  Verif.NextInv Verif.Spec Verif.LogLemmas Verif.TraceLemmas Verif.BuildLemmas Verif.Sort Verif.PanicLemmas Verif.NextSafe
  Verif.RelLemmas Verif.TermLemmas.
Import ListNotations.

Section Session.
  Context {T : Type} {NT : Num T} {LT : Libm T} {E : Env T}.
  Context {F : Type} (ev : F -> vec T -> outcome (T * F)).

  (* the results of the calls of next and run, in order, and the optimiser afterwards *)
  Fixpoint transcript (c : cmaes T F) (l : list op) : outcome (list (option (term_data T)) * cmaes T F) :=
    match l with
    | [] => Ret ([], c)
    | ONext par tk :: l' =>
        ' (r, c) <- next ev par tk c ;;
        ' (rs, c) <- transcript c l' ;;
        Ret (r :: rs, c)
    | ORun par fuel env :: l' =>
        ' (d, c) <- run ev par fuel env c ;;
        ' (rs, c) <- transcript c l' ;;
        Ret (Some d :: rs, c)
    | o :: l' => c <- step ev c o ;; transcript c l'
    end.

  (* building and then calling *)
  Definition session (random_seed now : N) (f : F) (o : options T) (l : list op)
    : outcome ((list (option (term_data T)) * cmaes T F) + invalid_options) :=
    b <- cmaes_new random_seed now f o ;;
    match b with
    | inr e => Ret (inr e)
    | inl c => r <- transcript c l ;; Ret (inl r)
    end.

  Lemma transcript_steps : forall l c rs c', transcript c l = Ret (rs, c') -> steps ev c l = Ret c'.
  Proof.
    induction l as [|o l IH]; intros c rs c' H; cbn [transcript steps] in *; [inversion H; auto|].
    destruct o; cbn [step]; try (oinv H; cbn [step] in Ho; rewrite Ho; cbn [obind]; eapply IH; eauto; fail).
    - oinv H. destruct a as [r c1]. oinv H. destruct a as [rs' c2]. inversion H; subst. rewrite Ho. cbn [obind]. eauto.
    - oinv H. destruct a as [r c1]. oinv H. destruct a as [rs' c2]. inversion H; subst. rewrite Ho. cbn [obind]. eauto.
  Qed.
End Session.

(* both sessions fail to build in the same way, or both are built and are related *)
Definition sess_rel {A B} (R : A -> B -> Prop) (x : A + invalid_options) (y : B + invalid_options) : Prop :=
  match x, y with
  | inl a, inl b => R a b
  | inr e, inr e' => e = e'
  | _, _ => False
  end.

(* The two lists make the same calls of next and run, up to Rt on what is chosen per call; the other calls are
   arbitrary on both sides. runs = False: no calls of run. *)
Inductive matching (runs : Prop) (Rt : bool -> tick -> bool -> tick -> Prop) : list op -> list op -> Prop :=
| M_nil : matching runs Rt [] []
| M_next : forall p1 t1 p2 t2 l1 l2, Rt p1 t1 p2 t2 -> matching runs Rt l1 l2 ->
    matching runs Rt (ONext p1 t1 :: l1) (ONext p2 t2 :: l2)
| M_run : forall p1 p2 fuel e1 e2 l1 l2, runs -> (forall k, Rt p1 (e1 k) p2 (e2 k)) -> matching runs Rt l1 l2 ->
    matching runs Rt (ORun p1 fuel e1 :: l1) (ORun p2 fuel e2 :: l2)
| M_left : forall o l1 l2, quiet o -> matching runs Rt l1 l2 -> matching runs Rt (o :: l1) l2
| M_right : forall o l1 l2, quiet o -> matching runs Rt l1 l2 -> matching runs Rt l1 (o :: l2).

Lemma matching_refl : forall (Rt : bool -> tick -> bool -> tick -> Prop) l, (forall p t, Rt p t p t) -> matching True Rt l l.
Proof.
  intros Rt l H. induction l as [|o l IH]; [constructor|].
  destruct o; try (apply M_left; [exact I|]; apply M_right; [exact I|]; exact IH).
  - apply M_next; auto.
  - apply M_run; auto.
Qed.
Lemma matching_refl_next : forall (Rt : bool -> tick -> bool -> tick -> Prop) l, (forall p t, Rt p t p t) ->
  Forall (fun o => match o with ORun _ _ _ => False | _ => True end) l -> matching False Rt l l.
Proof.
  intros Rt l H Hl. induction Hl as [|o l Ho Hl IH]; [constructor|].
  destruct o; try contradiction; try (apply M_left; [exact I|]; apply M_right; [exact I|]; exact IH).
  apply M_next; auto.
Qed.

(* calls of next and run *)
Definition loud (o : op) : bool := match o with ONext _ _ | ORun _ _ _ => true | _ => false end.
Lemma loud_quiet : forall o, loud o = false -> quiet o.
Proof. intros []; simpl; auto; discriminate. Qed.

Definition same_call (p1 : bool) (t1 : tick) (p2 : bool) (t2 : tick) : Prop := p1 = p2 /\ t1 = t2.
Lemma loud_matching : forall l1 l2, filter loud l1 = filter loud l2 -> matching True same_call l1 l2.
Proof.
  assert (R : forall l2, filter loud l2 = [] -> matching True same_call [] l2).
  { induction l2 as [|o l2 IH]; intros H; [constructor|]. simpl in H. destruct (loud o) eqn:El; [discriminate|].
    apply M_right; auto. apply loud_quiet. auto. }
  assert (G : forall l1 l2 o l, filter loud l2 = o :: l ->
    (forall l2', filter loud l2' = l -> matching True same_call l1 l2') -> loud o = true -> matching True same_call (o :: l1) l2).
  { induction l2 as [|o' l2 IH]; intros o l H Hm Ho; [discriminate|]. simpl in H. destruct (loud o') eqn:El.
    - injection H as -> Hl. destruct o; try discriminate; constructor; try split; auto.
    - apply M_right; [apply loud_quiet; auto|]. eapply IH; eauto. }
  induction l1 as [|o l1 IH]; intros l2 H; [apply R; auto|].
  simpl in H. destruct (loud o) eqn:El; [|apply M_left; [apply loud_quiet; auto|auto]].
  symmetry in H. eapply G; eauto.
Qed.

Section Simulation.
  Context {T1 T2 : Type} {N1 : Num T1} {L1 : Libm T1} {E1 : Env T1} {N2 : Num T2} {L2 : Libm T2} {E2 : Env T2}.
  Context {F1 F2 : Type} (ev1 : F1 -> vec T1 -> outcome (T1 * F1)) (ev2 : F2 -> vec T2 -> outcome (T2 * F2)).
  Context (Rc : cmaes T1 F1 -> cmaes T2 F2 -> Prop) (Rr : option (term_data T1) -> option (term_data T2) -> Prop).
  Context (free : Prop) (runs : Prop) (Rt : bool -> tick -> bool -> tick -> Prop).
  Hypothesis Hleft : forall c1 c2 o, Rc c1 c2 -> quiet o -> exists c1', step ev1 c1 o = Ret c1' /\ Rc c1' c2.
  Hypothesis Hright : forall c1 c2 o, Rc c1 c2 -> quiet o -> exists c2', step ev2 c2 o = Ret c2' /\ Rc c1 c2'.
  Hypothesis Hnext : forall p1 t1 p2 t2 c1 c2, Rt p1 t1 p2 t2 -> Rc c1 c2 ->
    out_relp free (fun a b => Rr (fst a) (fst b) /\ Rc (snd a) (snd b)) (next ev1 p1 t1 c1) (next ev2 p2 t2 c2).
  Hypothesis Hruns : runs -> forall a b, Rr a b -> (a = None <-> b = None).

  Lemma finish_left : forall d c1 c2, Rc c1 c2 -> exists c1', run_internal d c1 = Ret c1' /\ Rc c1' c2.
  Proof.
    intros d c1 c2 H. unfold run_internal. destruct (Hleft c1 c2 OAddPlotPoint H I) as [a [A1 A2]].
    cbn [step] in A1. rewrite A1. cbn [obind]. destruct (c_print_gap a); [|eauto].
    destruct (Hleft a c2 (OPrintFinal (td_reasons d)) A2 I) as [b [B1 B2]]. cbn [step] in B1. inversion B1; subst. eauto.
  Qed.
  Lemma finish_right : forall d c1 c2, Rc c1 c2 -> exists c2', run_internal d c2 = Ret c2' /\ Rc c1 c2'.
  Proof.
    intros d c1 c2 H. unfold run_internal. destruct (Hright c1 c2 OAddPlotPoint H I) as [a [A1 A2]].
    cbn [step] in A1. rewrite A1. cbn [obind]. destruct (c_print_gap a); [|eauto].
    destruct (Hright c1 a (OPrintFinal (td_reasons d)) A2 I) as [b [B1 B2]]. cbn [step] in B1. inversion B1; subst. eauto.
  Qed.

  Lemma run_sim : forall p1 p2 fuel e1 e2 c1 c2, runs -> (forall k, Rt p1 (e1 k) p2 (e2 k)) -> Rc c1 c2 ->
    out_relp free (fun a b => Rr (Some (fst a)) (Some (fst b)) /\ Rc (snd a) (snd b)) (run ev1 p1 fuel e1 c1) (run ev2 p2 fuel e2 c2).
  Proof.
    intros p1 p2 fuel e1 e2 c1 c2 Hr Ht H. unfold run.
    eapply (out_relp_bind free (fun a b => Rr (Some (fst a)) (Some (fst b)) /\ Rc (snd a) (snd b))).
    - revert e1 e2 c1 c2 Ht H. induction fuel as [|fuel IH]; intros e1 e2 c1 c2 Ht H; cbn [run_loop]; [exact I|].
      eapply (out_relp_bind free); [apply (Hnext _ _ _ _ _ _ (Ht 0) H)|]. intros [r1 d1] [r2 d2] [X1 X2]. cbn [fst snd] in *.
      pose proof (Hruns Hr _ _ X1) as Hn. destruct r1 as [a|], r2 as [b|].
      + cbn [out_relp fst snd]. auto.
      + destruct Hn as [_ Hn]. discriminate (Hn eq_refl).
      + destruct Hn as [Hn _]. discriminate (Hn eq_refl).
      + apply IH; [intros k; apply (Ht (S k))|exact X2].
    - intros [d1 a] [d2 b] [X1 X2]. cbn [fst snd] in *. destruct (finish_left d1 a b X2) as [a' [A1 A2]].
      destruct (finish_right d2 a' b A2) as [b' [B1 B2]]. rewrite A1, B1. cbn. auto.
  Qed.

  Lemma transcript_sim : forall l1 l2, matching runs Rt l1 l2 -> forall c1 c2, Rc c1 c2 ->
    out_relp free (fun a b => Forall2 Rr (fst a) (fst b) /\ Rc (snd a) (snd b)) (transcript ev1 c1 l1) (transcript ev2 c2 l2).
  Proof.
    induction 1 as [|p1 t1 p2 t2 l1 l2 Ht Hm IH|p1 p2 fuel e1 e2 l1 l2 Hr Ht Hm IH|o l1 l2 Hq Hm IH|o l1 l2 Hq Hm IH]; intros c1 c2 H.
    - cbn. auto.
    - cbn [transcript]. eapply (out_relp_bind free); [apply (Hnext _ _ _ _ _ _ Ht H)|]. intros [r1 d1] [r2 d2] [X1 X2]. cbn [fst snd] in *.
      eapply (out_relp_bind free); [apply IH; exact X2|]. intros [s1 d3] [s2 d4] [X3 X4]. cbn in *. auto.
    - cbn [transcript]. eapply (out_relp_bind free); [apply (run_sim _ _ fuel _ _ _ _ Hr Ht H)|]. intros [r1 d1] [r2 d2] [X1 X2]. cbn [fst snd] in *.
      eapply (out_relp_bind free); [apply IH; exact X2|]. intros [s1 d3] [s2 d4] [X3 X4]. cbn in *. auto.
    - destruct (Hleft c1 c2 o H Hq) as [c1' [S1 S2]].
      assert (He : transcript ev1 c1 (o :: l1) = transcript ev1 c1' l1).
      { destruct o; try contradiction; cbn [transcript]; rewrite S1; reflexivity. }
      rewrite He. apply IH. exact S2.
    - destruct (Hright c1 c2 o H Hq) as [c2' [S1 S2]].
      assert (He : transcript ev2 c2 (o :: l2) = transcript ev2 c2' l2).
      { destruct o; try contradiction; cbn [transcript]; rewrite S1; reflexivity. }
      rewrite He. apply IH. exact S2.
  Qed.

  Lemma session_simp : forall rs1 rs2 n1 n2 f1 f2 o1 o2 l1 l2, matching runs Rt l1 l2 ->
    out_rel (sess_rel Rc) (cmaes_new rs1 n1 f1 o1) (cmaes_new rs2 n2 f2 o2) ->
    out_relp free (sess_rel (fun a b => Forall2 Rr (fst a) (fst b) /\ Rc (snd a) (snd b)))
      (session ev1 rs1 n1 f1 o1 l1) (session ev2 rs2 n2 f2 o2 l2).
  Proof.
    intros rs1 rs2 n1 n2 f1 f2 o1 o2 l1 l2 Hm Hb. unfold session. eapply (out_relp_bind free); [apply out_relp_of; exact Hb|].
    intros [c1|e1'] [c2|e2'] H; simpl in H; try contradiction; [|exact H].
    eapply (out_relp_bind free); [apply transcript_sim; eauto|]. intros a b X. exact X.
  Qed.
End Simulation.
Lemma session_sim : forall {T1 T2 : Type} {N1 : Num T1} {L1 : Libm T1} {E1 : Env T1} {N2 : Num T2} {L2 : Libm T2} {E2 : Env T2}
  {F1 F2 : Type} (ev1 : F1 -> vec T1 -> outcome (T1 * F1)) (ev2 : F2 -> vec T2 -> outcome (T2 * F2))
  (Rc : cmaes T1 F1 -> cmaes T2 F2 -> Prop) (Rr : option (term_data T1) -> option (term_data T2) -> Prop)
  (runs : Prop) (Rt : bool -> tick -> bool -> tick -> Prop),
  (forall c1 c2 o, Rc c1 c2 -> quiet o -> exists c1', step ev1 c1 o = Ret c1' /\ Rc c1' c2) ->
  (forall c1 c2 o, Rc c1 c2 -> quiet o -> exists c2', step ev2 c2 o = Ret c2' /\ Rc c1 c2') ->
  (forall p1 t1 p2 t2 c1 c2, Rt p1 t1 p2 t2 -> Rc c1 c2 ->
    out_rel (fun a b => Rr (fst a) (fst b) /\ Rc (snd a) (snd b)) (next ev1 p1 t1 c1) (next ev2 p2 t2 c2)) ->
  (runs -> forall a b, Rr a b -> (a = None <-> b = None)) ->
  forall rs1 rs2 n1 n2 f1 f2 o1 o2 l1 l2, matching runs Rt l1 l2 ->
    out_rel (sess_rel Rc) (cmaes_new rs1 n1 f1 o1) (cmaes_new rs2 n2 f2 o2) ->
    out_rel (sess_rel (fun a b => Forall2 Rr (fst a) (fst b) /\ Rc (snd a) (snd b)))
      (session ev1 rs1 n1 f1 o1 l1) (session ev2 rs2 n2 f2 o2 l2).
Proof.
  intros. apply out_relp_False. eapply session_simp; eauto. intros. apply out_relp_of. auto.
Qed.

(* ---- what a well-formed optimiser does after sampling, apart from plotting and printing ---- *)
Section Core.
  Context {T : Type} {NT : Num T} {CL : CastLaws T} {LT : Libm T} {E : Env T}.
  Hypothesis Heig : eigen_shape (T := T).
  Context {F : Type} (ev : F -> vec T -> outcome (T * F)).

  Definition reply (c : cmaes T F) (reasons : list reason) : option (term_data T) :=
    match reasons with [] => None | _ => Some (get_termination_data c reasons) end.

  (* c' is the optimiser after the update of the state, plotting and printing *)
  Record core_done (tk : tick) (inds : list (point T)) (c c' : cmaes T F) (ok : bool) : Prop := {
    cd_sampler : c_sampler c' = c_sampler c;
    cd_params : c_params c' = c_params c;
    cd_history : c_history c' = c_history c;
    cd_created : c_created c' = c_created c;
    cd_state : state_update (t_tree tk) (function_evals c) (c_params c) inds (c_state c) = Ret (ok, c_state c')
  }.
  Definition core_check (tk : tick) (inds : list (point T)) (c c' : cmaes T F) (ok : bool) : outcome (list reason) :=
    if ok then check_termination (c_params c) (function_evals c) (c_created c) (t_now tk) (c_state c') (c_history c) inds
    else Ret [PosDefCov].

  Lemma next_internal_core : forall o c tk inds, wf o c -> wf_inds (dims o) (pop o) inds ->
    exists c' ok, next_internal tk inds c = (reasons <- core_check tk inds c c' ok ;; Ret (reply c' reasons, c')) /\
      wf o c' /\ core_done tk inds c c' ok.
  Proof.
    intros o c tk inds Hw Hi. destruct (wf_par _ _ Hw) as [seed Hseed].
    pose proof (params_wf o seed (wf_pop _ _ Hw)) as Hp. rewrite <- Hseed in Hp.
    pose proof (state_update_safe Heig (dims o) (wf_dim _ _ Hw) (pop o) (wf_pop _ _ Hw) (t_tree tk) (function_evals c)
      (c_params c) inds (c_state c) Hp Hi (wf_st _ _ Hw)) as Hs.
    apply safe_ret in Hs. destruct Hs as [[ok st] [Ho Hst]]. cbn [snd] in Hst.
    set (c1 := mkCmaes (c_sampler c) (c_params c) st (c_history c) (c_plot c) (c_print_gap c)
                     (c_last_print c) (c_created c) (c_out c)).
    assert (Hw1 : wf o c1) by (destruct Hw; constructor; simpl; auto).
    assert (H0 : next_internal tk inds c = (if negb ok then Ret (reply c1 [PosDefCov], c1) else
      c2 <- (match c_plot c1 with Some p => if ((generation c1 <=? 1) || (next_data_point_evals p <=? function_evals c1))%N then add_plot_point c1 else Ret c1
             | None => Ret c1 end) ;;
      let c3 := match c_print_gap c2 with
                | None => c2
                | Some gap => if (wrapping_add (c_last_print c2) gap <=? function_evals c2)%N
                              then set_last_print (function_evals c2) (print_info c2)
                              else if (generation c2 <? 4)%N then print_info c2 else c2
                end in
      reasons <- check_termination (c_params c3) (function_evals c3) (c_created c3) (t_now tk) (c_state c3) (c_history c3) inds ;;
      Ret (reply c3 reasons, c3))).
    { unfold next_internal. rewrite Ho. cbn [obind]. fold c1. destruct ok; cbn [negb]; [|reflexivity].
      match goal with |- obind ?x _ = obind ?y _ => change y with x; destruct x as [c2| |]; cbn [obind]; try reflexivity end.
      match goal with |- obind ?x _ = obind ?y _ => change y with x; destruct x as [[|]| |]; cbn [obind]; reflexivity end. }
    rewrite H0. clear H0.
    destruct ok; cbn [negb].
    2: { exists c1, false. split; [reflexivity|]. split; [exact Hw1|]. constructor; auto. }
    assert (A : exists c2, (match c_plot c1 with Some p => if ((generation c1 <=? 1) || (next_data_point_evals p <=? function_evals c1))%N then add_plot_point c1 else Ret c1
             | None => Ret c1 end) = Ret c2 /\ wf o c2 /\ c_sampler c2 = c_sampler c /\ c_params c2 = c_params c /\ c_state c2 = st
             /\ c_history c2 = c_history c /\ c_created c2 = c_created c).
    { destruct (c_plot c1); [|exists c1; cbn; tauto]. destruct (_ || _)%bool; [|exists c1; cbn; tauto].
      pose proof (add_plot_safe o c1 Hw1) as Ha. apply safe_ret in Ha. destruct Ha as [c2 [Ha Hw2]]. exists c2. split; [exact Ha|].
      split; [exact Hw2|]. apply add_plot_point_core in Ha. destruct Ha as [[A1 [A2 [A3 [A4 [A5 _]]]]] _]. rewrite A1, A2, A3, A4, A5. repeat split. }
    destruct A as [c2 [-> [Hw2 [P1 [P2 [P3 [P4 P7]]]]]]]. cbn [obind].
    cbv zeta. match goal with |- context [check_termination (c_params ?x) _ _ _ _ _ inds] => set (c3 := x) end.
    assert (Q : wf o c3 /\ c_sampler c3 = c_sampler c2 /\ c_params c3 = c_params c2 /\ c_state c3 = c_state c2
                 /\ c_history c3 = c_history c2 /\ c_created c3 = c_created c2).
    { unfold c3. destruct (c_print_gap c2) eqn:Eg; [|tauto].
      destruct (_ <=? _)%N; [|destruct (_ <? _)%N]; cbn [set_last_print print_info emit c_sampler c_params c_state c_history c_created]; (split; [|tauto]); auto.
      - apply last_print_wf, emit_wf; auto.
      - apply emit_wf; auto. }
    clearbody c3. destruct Q as [Hw3 [Q1 [Q2 [Q3 [Q4 Q7]]]]].
    assert (Fe : function_evals c3 = function_evals c) by (unfold function_evals; congruence).
    exists c3, true. unfold core_check. rewrite Q2, P2, Fe, Q7, P7, Q4, P4. split; [reflexivity|]. split; [exact Hw3|].
    constructor; try congruence.
  Qed.
  Lemma core_check_returns : forall o c tk inds c' ok, wf o c -> wf_inds (dims o) (pop o) inds -> wf o c' ->
    (medians_return (T := T) \/ calm (c_history c)) -> exists reasons, core_check tk inds c c' ok = Ret reasons.
  Proof.
    intros o c tk inds c' ok Hw Hi Hw' Hm. unfold core_check. destruct ok; [|eauto]. destruct (wf_par _ _ Hw) as [seed Hseed].
    pose proof (params_wf o seed (wf_pop _ _ Hw)) as Hp. rewrite <- Hseed in Hp.
    pose proof (check_termination_safe (dims o) (wf_dim _ _ Hw) (pop o) (wf_pop _ _ Hw) False (c_params c) (function_evals c) (c_created c) (t_now tk)
      (c_state c') (c_history c) inds Hp (wf_st _ _ Hw') Hi (wf_hist _ _ Hw) (or_intror Hm)) as Hs.
    apply safe_ret in Hs. destruct Hs as [l [-> _]]. eauto.
  Qed.

  Lemma quiet_step : forall o c op, wf o c -> quiet op -> exists c', step ev c op = Ret c' /\ wf o c' /\ same_core c' c.
  Proof.
    intros o c op Hw Hq. pose proof (quiet_safe ev o c op Hw Hq) as Hs. apply safe_ret in Hs.
    destruct Hs as [c' [H1 H2]]. exists c'. split; auto. split; auto. eapply quiet_core; eauto.
  Qed.

  Lemma safe_any : forall o, calls_ok ev True True o.
  Proof.
    intros o. split; [intros; apply safe_True|]. unfold wf_meets. destruct (o_constraints o); auto. intros. apply safe_True.
  Qed.
  Lemma sampled_wf : forall o par tk c inds c', wf o c -> cmaes_sample ev par tk c = Ret (inds, c') ->
    wf o c' /\ match inds with Some l => wf_inds (dims o) (pop o) l | None => True end.
  Proof.
    intros o par tk c inds c' Hw H. pose proof (cmaes_sample_safe ev True True o c par tk Hw (safe_any o) (or_introl I)) as Hs.
    rewrite H in Hs. exact Hs.
  Qed.
End Core.
