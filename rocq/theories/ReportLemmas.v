(* Lemmas about the text of the reports. *)
From Coq Require Import List NArith ZArith Bool Arith Lia Reals Lra String Ascii.
From Flocq Require Import Core BinarySingleNaN.
Require Import Verif.Base Verif.Num Verif.F64 Verif.LinAlg Verif.Mode Verif.Weights Verif.Options
  Verif.Params Verif.Env Verif.State Verif.Sampling Verif.History Verif.Termination Verif.Plot Verif.Cmaes Verif.Restart Verif.Lib
  Verif.Format Verif.FormatSpec Verif.FormatLemmas Verif.Report Verif.ReportSpec.
Import ListNotations.
Open Scope string_scope.

Definition without (c : ascii) (s : string) : Prop := all_chars (no_char c) s = true.

Lemma without_app : forall c a b, without c a -> without c b -> without c (a ++ b).
Proof. intros c a b H1 H2. unfold without in *. rewrite all_app, H1, H2. reflexivity. Qed.
Lemma pieces_none : forall c s, without c s -> pieces c s = [s].
Proof.
  unfold without. intros c s. induction s as [|a s IH]; intros H; [reflexivity|]. cbn [all_chars] in H. apply andb_true_iff in H. destruct H as [H1 H2].
  cbn [pieces]. unfold no_char in H1. destruct (Ascii.eqb a c); [discriminate H1|]. rewrite IH by exact H2. reflexivity.
Qed.
Lemma pieces_app : forall c a b, without c a -> pieces c (a ++ String c b) = a :: pieces c b.
Proof.
  unfold without. intros c a b. induction a as [|x a IH]; intros H; cbn [String.append pieces]; [rewrite Ascii.eqb_refl; reflexivity|].
  cbn [all_chars] in H. apply andb_true_iff in H. destruct H as [H1 H2].
  unfold no_char in H1. destruct (Ascii.eqb x c); [discriminate H1|]. rewrite IH by exact H2. reflexivity.
Qed.

(* numbers *)
Lemma dec_n_without : forall c n, is_digit c = false -> without c (dec_n n).
Proof. intros c n H. apply digits_no; [exact H|]. apply (nu_digits _ _ (dec_numeral _ (N2Z.is_nonneg n))). Qed.
Lemma read_dec_n : forall n, read_n (dec_n n) = Some n.
Proof.
  intros n. unfold read_n, dec_n. pose proof (read_pad_dec 0 (Z.of_N n) "" (N2Z.is_nonneg n) eq_refl) as H.
  unfold pad_left in H. cbn [repeat_char minus String.append] in H. rewrite app_nil in H. rewrite H. cbn [option_map]. rewrite N2Z.id. reflexivity.
Qed.

(* the characters of a printed number *)
Definition number_char (c : ascii) : bool := is_digit c || existsb (Ascii.eqb c) [" "; "-"; "."; "e"; "+"; "N"; "a"; "i"; "n"; "f"]%char.
Lemma digits_number : forall s, all_chars is_digit s = true -> all_chars number_char s = true.
Proof. apply all_impl. intros c H. unfold number_char. rewrite H. reflexivity. Qed.
Lemma dec_number : forall q, (0 <= q)%Z -> all_chars number_char (dec q) = true.
Proof. intros q H. apply digits_number, (nu_digits _ _ (dec_numeral _ H)). Qed.
Lemma pad_number : forall w s, all_chars number_char s = true -> all_chars number_char (pad_left w s) = true.
Proof. intros w s H. unfold pad_left. rewrite all_app, all_repeat by reflexivity. exact H. Qed.
Lemma format_num_chars : forall x w t, format_num x w = Ret t -> all_chars number_char t = true.
Proof.
  intros x w t H. destruct x as [s|s| |s m e He].
  - unfold format_num in H. replace (if nleb n0 (B754_zero s : f64) then " " else "-") with " " in H by (destruct s; reflexivity). cbv zeta in H.
    replace (format_exp (nabs (B754_zero s : f64)) (N.max w 8 - 7)) with (("0." ++ repeat_char "0" (N.to_nat (N.max w 8 - 7))) ++ String "e" "0") in H.
    2:{ rewrite app_ass. reflexivity. }
    rewrite split_one in H.
    + cbn [nth_error unwrap obind] in H. change (parse_i32 "0") with (Some 0%Z) in H. cbn [unwrap obind] in H.
      apply (f_equal (fun o => match o with Ret a => a | _ => t end)) in H. rewrite <- H. rewrite !all_app, (all_repeat number_char "0") by reflexivity. reflexivity.
    + rewrite all_app, all_repeat by reflexivity. reflexivity.
    + reflexivity.
  - apply (f_equal (fun o => match o with Ret a => a | _ => t end)) in H. cbn [format_num] in H. rewrite <- H. apply pad_number. destruct s; reflexivity.
  - apply (f_equal (fun o => match o with Ret a => a | _ => t end)) in H. cbn [format_num] in H. rewrite <- H. apply pad_number. reflexivity.
  - destruct (format_finite s m e He w) as [d [k [S1 S2]]]. rewrite S2 in H.
    apply (f_equal (fun o => match o with Ret a => a | _ => t end)) in H. rewrite <- H.
    destruct (first_point d w (sw_digits _ _ _ _ S1)) as [c [u [Ed [D1 [D2 D3]]]]]. unfold number_text. rewrite !all_app.
    replace (all_chars number_char (sign_text (B754_finite s m e He))) with true by (unfold sign_text; destruct (nleb n0 _); reflexivity).
    rewrite Ed. cbn [point_after_first all_chars]. rewrite (digits_number u D2). unfold number_char at 1. rewrite D1.
    unfold format_sign3. rewrite !all_app, (all_repeat number_char "0") by reflexivity. rewrite dec_number by lia. destruct (k <? 0)%Z; reflexivity.
Qed.
Lemma number_without : forall c t, number_char c = false -> all_chars number_char t = true -> without c t.
Proof.
  intros c t H. apply all_impl. intros a Ha. unfold no_char. destruct (Ascii.eqb a c) eqn:E; [|reflexivity].
  apply Ascii.eqb_eq in E. congruence.
Qed.

(* the lists of reasons *)
Lemma every_second_join : forall names, (forall n, In n names -> without "`" n) ->
  forall a b, without "`" a -> without "`" b -> quoted (a ++ join ", " (map quote names) ++ b) = names.
Proof.
  unfold quoted. intros names. induction names as [|n names IH]; intros Hn a b Ha Hb.
  - cbn [map join String.append]. rewrite pieces_none by (apply without_app; assumption). reflexivity.
  - assert (Wn : without "`" n) by (apply Hn; left; reflexivity).
    assert (K : forall tail, pieces "`" (a ++ quote n ++ tail) = a :: n :: pieces "`" tail).
    { intros tail. unfold quote. replace (a ++ ("`" ++ n ++ "`") ++ tail) with (a ++ String "`" (n ++ String "`" tail)).
      2:{ cbn [String.append]. rewrite app_ass. reflexivity. }
      rewrite pieces_app by exact Ha. rewrite pieces_app by exact Wn. reflexivity. }
    destruct names as [|m names].
    + cbn [map join]. rewrite K. rewrite pieces_none by exact Hb. reflexivity.
    + change (join ", " (map quote (n :: m :: names))) with (quote n ++ ", " ++ join ", " (map quote (m :: names))).
      rewrite !app_ass. rewrite K. cbn [every_second]. f_equal.
      rewrite <- (IH (fun x Hx => Hn x (or_intror Hx)) ", " b eq_refl Hb) at 2. rewrite ?app_ass. reflexivity.
Qed.
Lemma reason_name_plain : forall r, without "`" (reason_name r) /\ without "=" (reason_name r) /\ without " " (reason_name r) /\ read_reason (reason_name r) = Some r.
Proof. intros r. destruct r; repeat split; reflexivity. Qed.
Lemma restart_reason_plain : forall r, without "`" (restart_reason_name r) /\ without " " (restart_reason_name r) /\ read_restart_reason (restart_reason_name r) = Some r.
Proof. intros r. destruct r; repeat split; reflexivity. Qed.

Lemma reasons_read : forall l a b, without "`" a -> without "`" b -> map read_reason (quoted (a ++ reasons_str l ++ b)) = map Some l.
Proof.
  intros l a b Ha Hb. unfold reasons_str. rewrite <- (map_map reason_name quote).
  rewrite every_second_join; [|intros n Hn; apply in_map_iff in Hn; destruct Hn as [r [<- _]]; apply reason_name_plain|exact Ha|exact Hb].
  rewrite map_map. apply map_ext. intros r. apply reason_name_plain.
Qed.
Lemma join_without : forall c sep l, without c sep -> (forall s, In s l -> without c s) -> without c (join sep l).
Proof.
  intros c sep l Hs. induction l as [|s l IH]; intros H; [reflexivity|]. destruct l as [|s' l]; [apply H; left; reflexivity|].
  change (join sep (s :: s' :: l)) with (s ++ sep ++ join sep (s' :: l)). apply without_app; [apply H; left; reflexivity|].
  apply without_app; [exact Hs|]. apply IH. intros x Hx. apply H. right. exact Hx.
Qed.
Lemma reasons_without : forall l, without "=" (reasons_str l).
Proof.
  intros l. apply join_without; [reflexivity|]. intros s Hs. apply in_map_iff in Hs. destruct Hs as [r [<- _]].
  destruct r; reflexivity.
Qed.

(* the line of the parameters of a run *)
Lemma parameters_read : forall run (p : params f64), exists line,
  run_info_line run p = Ret line /\ parameters_line line run (p_lambda p) (p_initial_sigma p) (p_seed p).
Proof.
  intros run p. destruct (format_num_printed (p_initial_sigma p) 12 ltac:(lia)) as [s [S1 S2]].
  unfold run_info_line. rewrite S1. cbn [obind]. eexists. split; [reflexivity|].
  exists ("Run " ++ dec_n run ++ " parameters: lambda"), (dec_n run), (dec_n (p_lambda p)), s, (dec_n (p_seed p)).
  split; [|split; [|split; [apply read_dec_n|split; [apply read_dec_n|split; [|apply read_dec_n]]]]].
  - replace ("Run " ++ dec_n run ++ " parameters: lambda=" ++ dec_n (p_lambda p) ++ ", sigma0=" ++ s ++ ", seed=" ++ dec_n (p_seed p))
      with (("Run " ++ dec_n run ++ " parameters: lambda") ++ String "=" ((dec_n (p_lambda p) ++ ", sigma0") ++ String "=" ((s ++ ", seed") ++ String "=" (dec_n (p_seed p))))).
    2:{ rewrite !app_ass. reflexivity. }
    rewrite pieces_app by (apply without_app; [reflexivity|]; apply without_app; [apply dec_n_without; reflexivity|reflexivity]).
    rewrite pieces_app by (apply without_app; [apply dec_n_without; reflexivity|reflexivity]).
    rewrite pieces_app by (apply without_app; [|reflexivity]; apply number_without; [reflexivity|]; eapply format_num_chars; eauto).
    rewrite pieces_none by (apply dec_n_without; reflexivity). reflexivity.
  - replace ("Run " ++ dec_n run ++ " parameters: lambda") with ("Run" ++ String " " (dec_n run ++ String " " "parameters: lambda")) by reflexivity.
    rewrite pieces_app by reflexivity. rewrite pieces_app by (apply dec_n_without; reflexivity). reflexivity.
  - pose proof (pt_shows _ _ _ S2 "" eq_refl) as K. rewrite app_nil in K. exact K.
Qed.

(* the line of its results *)
Lemma results_read : forall {E : Env f64} {F} run (c : cmaes f64 F) reasons, exists line,
  run_results_line run c reasons = Ret line /\
  results_line line run (option_map i_value (overall_best_individual c)) reasons (function_evals c).
Proof.
  intros E F run c reasons.
  assert (B : exists v, match overall_best_individual c with Some ind => format_num (i_value ind) 19 | None => Ret "None" end = Ret v /\
    match option_map i_value (overall_best_individual c) with Some x => shows 13 v x | None => v = "None" end /\ without "=" v).
  { destruct (overall_best_individual c) as [i|]; cbn [option_map].
    - destruct (format_num_printed (i_value i) 19 ltac:(lia)) as [v [V1 V2]]. exists v. split; [exact V1|]. split.
      + pose proof (pt_shows _ _ _ V2 "" eq_refl) as K. rewrite app_nil in K. exact K.
      + apply number_without; [reflexivity|]. eapply format_num_chars; eauto.
    - exists "None". repeat split. }
  destruct B as [v [B1 [B2 B3]]]. unfold run_results_line. rewrite B1. cbn [obind]. eexists. split; [reflexivity|].
  exists ("Run " ++ dec_n run ++ " results: best f-val"), (dec_n run), v, ("[" ++ reasons_str reasons ++ "]"), (dec_n (function_evals c)).
  split; [|split; [|split; [apply read_dec_n|split; [exact B2|split; [|apply read_dec_n]]]]].
  - replace ("Run " ++ dec_n run ++ " results: best f-val=" ++ v ++ ", termination_reasons=[" ++ reasons_str reasons ++ "], f-evals=" ++ dec_n (function_evals c))
      with (("Run " ++ dec_n run ++ " results: best f-val") ++ String "=" ((v ++ ", termination_reasons") ++ String "=" ((("[" ++ reasons_str reasons ++ "]") ++ ", f-evals") ++ String "=" (dec_n (function_evals c))))).
    2:{ rewrite !app_ass. reflexivity. }
    rewrite pieces_app by (apply without_app; [reflexivity|]; apply without_app; [apply dec_n_without; reflexivity|reflexivity]).
    rewrite pieces_app by (apply without_app; [exact B3|reflexivity]).
    rewrite pieces_app by (apply without_app; [|reflexivity]; apply without_app; [reflexivity|]; apply without_app; [apply reasons_without|reflexivity]).
    rewrite pieces_none by (apply dec_n_without; reflexivity). reflexivity.
  - replace ("Run " ++ dec_n run ++ " results: best f-val") with ("Run" ++ String " " (dec_n run ++ String " " "results: best f-val")) by reflexivity.
    rewrite pieces_app by reflexivity. rewrite pieces_app by (apply dec_n_without; reflexivity). reflexivity.
  - apply reasons_read; reflexivity.
Qed.

(* the closing line *)
Lemma closing_read : forall evals reason,
  closing_line ("Terminated in " ++ dec_n evals ++ " f-evals with reason: `" ++ restart_reason_name reason ++ "`") evals reason.
Proof.
  intros evals reason. destruct (restart_reason_plain reason) as [R1 [R2 R3]].
  exists (dec_n evals), ("`" ++ restart_reason_name reason ++ "`"). split; [|split; [apply read_dec_n|]].
  - replace ("Terminated in " ++ dec_n evals ++ " f-evals with reason: `" ++ restart_reason_name reason ++ "`")
      with ("Terminated" ++ String " " ("in" ++ String " " (dec_n evals ++ String " " ("f-evals" ++ String " " ("with" ++ String " " ("reason:" ++ String " " ("`" ++ restart_reason_name reason ++ "`"))))))).
    2:{ reflexivity. }
    do 2 rewrite pieces_app by reflexivity. rewrite pieces_app by (apply dec_n_without; reflexivity). do 3 rewrite pieces_app by reflexivity.
    rewrite pieces_none by (apply without_app; [reflexivity|]; apply without_app; [exact R2|reflexivity]). reflexivity.
  - unfold quoted. replace ("`" ++ restart_reason_name reason ++ "`") with ("" ++ String "`" (restart_reason_name reason ++ String "`" "")) by reflexivity.
    rewrite pieces_app by reflexivity. rewrite pieces_app by exact R1. cbn [pieces every_second map]. rewrite R3. reflexivity.
Qed.

(* the opening line *)
Lemma named_read : forall values v, without "=" v -> (forall k x, In (k, x) values -> without "=" k /\ without "=" x) ->
  pieces "=" (v ++ fold_right (fun '(k, x) s => ", " ++ k ++ "=" ++ x ++ s) "" values) = named_pieces v values.
Proof.
  induction values as [|[k x] values IH]; intros v Hv H; cbn [fold_right named_pieces]; [rewrite app_nil; apply pieces_none, Hv|].
  destruct (H k x (or_introl eq_refl)) as [Hk Hx].
  replace (v ++ ", " ++ k ++ "=" ++ x ++ fold_right (fun '(k, x) s => ", " ++ k ++ "=" ++ x ++ s) "" values)
    with ((v ++ ", " ++ k) ++ String "=" (x ++ fold_right (fun '(k, x) s => ", " ++ k ++ "=" ++ x ++ s) "" values)).
  2:{ rewrite !app_ass. reflexivity. }
  rewrite pieces_app by (apply without_app; [exact Hv|]; apply without_app; [reflexivity|exact Hk]).
  f_equal. apply IH; [exact Hx|]. intros k' x' H'. apply H. right. exact H'.
Qed.
