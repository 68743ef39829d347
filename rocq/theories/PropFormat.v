(* C69 and C70: the progress table. *)
From Coq Require Import List NArith ZArith Bool Arith Lia Reals Lra String Ascii.
From Flocq Require Import Core BinarySingleNaN.
Require Import Verif.Base Verif.Num Verif.F64 Verif.LinAlg Verif.Mode Verif.Weights Verif.Options
  Verif.Params Verif.Env Verif.State Verif.Sampling Verif.History Verif.Termination Verif.Plot Verif.Cmaes Verif.Lib Verif.Order
  Verif.NextInv Verif.Spec Verif.LogLemmas Verif.TraceLemmas Verif.BuildLemmas Verif.PanicLemmas Verif.NextSafe
  Verif.HistoryLemmas Verif.TermSpec Verif.TermLemmas Verif.AxisLemmas Verif.Toy Verif.ToyLemmas Verif.PropPlot Verif.Format Verif.FormatSpec Verif.FormatLemmas.
Import ListNotations.
Open Scope string_scope.
Open Scope nat_scope.

Section Table.
  Context {E : Env f64} {F : Type}.

  (* the standard deviations the last two columns are about *)
  Definition low_std (c : cmaes f64 F) : f64 := nmul (sigma c) (nsqrt (vmin (diagonal (covariance_matrix c)))).
  Definition high_std (c : cmaes f64 F) : f64 := nmul (sigma c) (nsqrt (vmax (diagonal (covariance_matrix c)))).

  Definition best_text (c : cmaes f64 F) (t : string) : Prop :=
    match current_best_individual c with
    | Some i => printed (i_value i) 19 t
    | None => t = repeat_char " " 19
    end.

  Lemma row_parts : forall c : cmaes f64 F, exists b r s lo hi,
    info_row c = Ret (pad_left 7 (dec (Z.of_N (generation c))) ++ " | " ++ pad_left 7 (dec (Z.of_N (function_evals c))) ++ " | " ++
                      b ++ " |" ++ r ++ " |" ++ s ++ " |" ++ lo ++ " |" ++ hi) /\
    best_text c b /\ printed (cmaes_axis_ratio c) 11 r /\ printed (sigma c) 11 s /\ printed (low_std c) 11 lo /\ printed (high_std c) 11 hi.
  Proof.
    intros c. assert (Hb : exists b, match current_best_individual c with Some i => format_num (i_value i) 19 | None => Ret (repeat_char " " 19) end = Ret b /\ best_text c b).
    { unfold best_text. destruct (current_best_individual c) as [i|]; [apply format_num_printed; lia|eauto]. }
    destruct Hb as [b [B1 B2]].
    destruct (format_num_printed (cmaes_axis_ratio c) 11 ltac:(lia)) as [r [R1 R2]].
    destruct (format_num_printed (sigma c) 11 ltac:(lia)) as [s [S1 S2]].
    destruct (format_num_printed (low_std c) 11 ltac:(lia)) as [lo [L1 L2]].
    destruct (format_num_printed (high_std c) 11 ltac:(lia)) as [hi [H1 H2]].
    exists b, r, s, lo, hi. split; [|auto].
    unfold info_row. cbv zeta. fold (low_std c) (high_std c). rewrite B1. cbn [obind]. rewrite R1. cbn [obind]. rewrite S1. cbn [obind].
    rewrite L1. cbn [obind]. rewrite H1. reflexivity.
  Qed.

  Lemma best_len : forall c b, best_text c b -> 19 <= String.length b <= 20 /\ all_chars no_bar b = true.
  Proof.
    intros c b H. unfold best_text in H. destruct (current_best_individual c) as [i|].
    - pose proof (pt_len _ _ _ H). split; [lia|apply (pt_bars _ _ _ H)].
    - subst b. rewrite repeat_len. split; [lia|reflexivity].
  Qed.
End Table.

Lemma read_sci_trim : forall s, read_sci (" " ++ s) = read_sci s.
Proof. intros s. reflexivity. Qed.
Lemma shows_space : forall d s x, shows d s x -> shows d (" " ++ s) x.
Proof. intros d s x H. destruct x; exact H. Qed.
Lemma no_bar_space : forall t, all_chars no_bar t = true -> all_chars no_bar (t ++ " ") = true.
Proof. intros t H. rewrite all_app, H. reflexivity. Qed.

Section Blank.
  Context {LT : Libm f64} {E : Env f64} {F : Type} (ev : F -> vec f64 -> outcome (f64 * F)).
  (* there is a best individual from the first generation on *)
  Lemma no_best_generation : forall o f c, reaches ev o f c -> current_best_individual c = None -> generation c = 0%N.
  Proof.
    intros o f c [c0 [l [[rs [now Hb]] H]]]. revert H.
    apply (steps_invariant ev (fun c => current_best_individual c = None -> generation c = 0%N)); unfold current_best_individual, generation.
    - clear. intros c op c' Hc Hq H. destruct (quiet_core _ _ _ _ Hq H) as [_ [_ [K3 [K4 _]]]]. rewrite K3, K4. exact Hc.
    - clear. intros par tk c r c' Hc H. apply next_outcome in H.
      destruct H as [[_ [_ [_ X]]]|[inds [ok [X1 [_ [X2 _]]]]]]; [rewrite X; exact Hc|].
      apply history_update_inv in X2. destruct X2 as [b [rest [X3 [_ [_ [X4 _]]]]]]. rewrite X4. discriminate.
    - apply cmaes_new_inv in Hb. cbv zeta in Hb. destruct Hb as [_ [_ [_ [S1 [S2 _]]]]]. rewrite S1. reflexivity.
  Qed.
End Blank.

(* C69. print_info never panics; its line has seven cells, which are: the generation and the number of function
   evaluations, exactly; the best value of the last generation with 13 digits (blank before the first generation);
   and, with 5 digits, the axis ratio, the step size and its products with the square roots of the least and the
   greatest variance of a coordinate. *)
Theorem C69_row : forall {LT : Libm f64} {E : Env f64}, eigen_shape (T := f64) ->
  forall {F} (ev : F -> vec f64 -> outcome (f64 * F)) o f (c : cmaes f64 F), reaches ev o f c ->
  exists row g e b r s lo hi vlo vhi,
    info_row c = Ret row /\ cells row = [g; e; b; r; s; lo; hi] /\
    read_whole g = Some (Z.of_N (generation c)) /\
    read_whole e = Some (Z.of_N (function_evals c)) /\
    match current_best_individual c with
    | Some i => shows 13 b (i_value i)
    | None => generation c = 0%N /\ blank b = true
    end /\
    shows 5 r (cmaes_axis_ratio c) /\
    shows 5 s (sigma c) /\
    shows 5 lo (nmul (sigma c) (nsqrt vlo)) /\ shows 5 hi (nmul (sigma c) (nsqrt vhi)) /\
    (Forall (fun v => nis_nan v = false) (diagonal (covariance_matrix c)) ->
     least (diagonal (covariance_matrix c)) vlo /\ greatest (diagonal (covariance_matrix c)) vhi).
Proof.
  intros LT E Heig F ev o f c Hr. destruct (row_parts c) as [b [r [s [lo [hi [H1 [Hb [Hra [Hs [Hlo Hhi]]]]]]]]]].
  set (g := pad_left 7 (dec (Z.of_N (generation c)))) in *. set (e := pad_left 7 (dec (Z.of_N (function_evals c)))) in *.
  assert (Bg : all_chars no_bar g = true) by (apply pad_no_bar; apply dec_no_bar; lia).
  assert (Be : all_chars no_bar e = true) by (apply pad_no_bar; apply dec_no_bar; lia).
  exists (g ++ " | " ++ e ++ " | " ++ b ++ " |" ++ r ++ " |" ++ s ++ " |" ++ lo ++ " |" ++ hi).
  exists (g ++ " "), (" " ++ e ++ " "), (" " ++ b ++ " "), (r ++ " "), (s ++ " "), (lo ++ " "), hi,
    (vmin (diagonal (covariance_matrix c))), (vmax (diagonal (covariance_matrix c))).
  split; [exact H1|]. split.
  { replace (g ++ " | " ++ e ++ " | " ++ b ++ " |" ++ r ++ " |" ++ s ++ " |" ++ lo ++ " |" ++ hi) with
      ((g ++ " ") ++ String "|" ((" " ++ e ++ " ") ++ String "|" ((" " ++ b ++ " ") ++ String "|" ((r ++ " ") ++ String "|" ((s ++ " ") ++ String "|" ((lo ++ " ") ++ String "|" hi))))))
      by (rewrite !app_ass; reflexivity).
    rewrite cells_app by (apply no_bar_space; exact Bg).
    rewrite cells_app by (change (all_chars no_bar (e ++ " ") = true); apply no_bar_space; exact Be).
    rewrite cells_app by (change (all_chars no_bar (b ++ " ") = true); apply no_bar_space; apply (best_len c b Hb)).
    rewrite cells_app by (apply no_bar_space; apply (pt_bars _ _ _ Hra)).
    rewrite cells_app by (apply no_bar_space; apply (pt_bars _ _ _ Hs)).
    rewrite cells_app by (apply no_bar_space; apply (pt_bars _ _ _ Hlo)).
    rewrite cells_none by (apply (pt_bars _ _ _ Hhi)). reflexivity. }
  split; [apply read_pad_dec; [lia|reflexivity]|].
  split; [change (read_whole (e ++ " ") = Some (Z.of_N (function_evals c))); apply read_pad_dec; [lia|reflexivity]|].
  split.
  { unfold best_text in Hb. destruct (current_best_individual c) as [i|] eqn:Ec.
    - apply shows_space. apply (pt_shows _ _ _ Hb " "). reflexivity.
    - subst b. split; [|reflexivity]. apply (no_best_generation ev o f c Hr). exact Ec. }
  split; [apply (pt_shows _ _ _ Hra " "); reflexivity|]. split; [apply (pt_shows _ _ _ Hs " "); reflexivity|].
  split; [apply (pt_shows _ _ _ Hlo " "); reflexivity|].
  split; [pose proof (pt_shows _ _ _ Hhi "" eq_refl) as K; rewrite app_nil in K; exact K|].
  intros Hn. assert (Hd : diagonal (covariance_matrix c) <> []).
  { pose proof (reaches_wf Heig ev _ _ _ Hr) as W. intros K. apply (f_equal (@List.length _)) in K. rewrite diagonal_length in K.
    unfold covariance_matrix in K. rewrite (proj1 (ws_cov _ _ (wf_st _ _ W))) in K. pose proof (wf_dim _ _ W). cbn in K. lia. }
  split; [apply vmin_least; assumption|apply vmax_greatest; assumption].
Qed.

(* C70. While the counters have at most seven digits and the numbers shown are zero, not finite, or of a magnitude
   whose decimal exponent has two digits, the separators of every line are exactly below those of the title.
   In any case no line is shorter than the title, and each number is at most one character too wide. *)
Theorem C70_aligned : forall {E : Env f64} {F} (c : cmaes f64 F) row, info_row c = Ret row ->
  (generation c < 10 ^ 7)%N -> (function_evals c < 10 ^ 7)%N ->
  (forall i, current_best_individual c = Some i -> ordinary (i_value i)) ->
  ordinary (cmaes_axis_ratio c) -> ordinary (sigma c) -> ordinary (low_std c) -> ordinary (high_std c) ->
  bars row = bars title_string /\ String.length row = String.length title_string.
Proof.
  intros E F c row H Hg He Ob Or Os Ol Oh. destruct (row_parts c) as [b [r [s [lo [hi [H1 [Hb [Hra [Hs [Hlo Hhi]]]]]]]]]].
  rewrite H in H1. apply Ret_inj in H1. subst row.
  pose proof (pt_fits _ _ _ Hra Or) as Lr. pose proof (pt_fits _ _ _ Hs Os) as Ls. pose proof (pt_fits _ _ _ Hlo Ol) as Ll. pose proof (pt_fits _ _ _ Hhi Oh) as Lh.
  assert (Lb : String.length b = 19).
  { unfold best_text in Hb. destruct (current_best_individual c) as [i|]; [|subst b; reflexivity]. apply (pt_fits _ _ _ Hb). apply Ob. reflexivity. }
  assert (Cg : forall n, (n < 10 ^ 7)%N -> String.length (pad_left 7 (dec (Z.of_N n))) = 7).
  { intros n Hn. rewrite pad_len. pose proof (dec_len_le (Z.of_N n) 7 ltac:(lia)) as L. change (10 ^ Z.of_nat 7)%Z with (Z.of_N (10 ^ 7)) in L. lia. }
  pose proof (Cg _ Hg) as Lg. pose proof (Cg _ He) as Le.
  set (g := pad_left 7 (dec (Z.of_N (generation c)))) in *. set (e := pad_left 7 (dec (Z.of_N (function_evals c)))) in *.
  assert (Bg : all_chars no_bar g = true) by (apply pad_no_bar; apply dec_no_bar; lia).
  assert (Be : all_chars no_bar e = true) by (apply pad_no_bar; apply dec_no_bar; lia).
  pose proof (proj2 (best_len c b Hb)) as Bb. pose proof (pt_bars _ _ _ Hra) as Br. pose proof (pt_bars _ _ _ Hs) as Bs.
  pose proof (pt_bars _ _ _ Hlo) as Bl. pose proof (pt_bars _ _ _ Hhi) as Bh. change (N.to_nat 11) with 11 in *.
  split.
  - unfold bars. rewrite !bars_from_app. rewrite !(bars_none g), !(bars_none e), !(bars_none b), !(bars_none r), !(bars_none s), !(bars_none lo), !(bars_none hi) by assumption.
    rewrite Lg, Le, Lb, Lr, Ls, Ll. reflexivity.
  - rewrite !app_len, Lg, Le, Lb, Lr, Ls, Ll, Lh. reflexivity.
Qed.

Theorem C70_widths : forall {E : Env f64} {F} (c : cmaes f64 F), exists row, info_row c = Ret row /\
  String.length title_string <= String.length row <=
    String.length title_string + (String.length (dec (Z.of_N (generation c))) - 7) + (String.length (dec (Z.of_N (function_evals c))) - 7) + 5.
Proof.
  intros E F c. destruct (row_parts c) as [b [r [s [lo [hi [H1 [Hb [Hra [Hs [Hlo Hhi]]]]]]]]]]. eexists. split; [exact H1|].
  pose proof (pt_len _ _ _ Hra). pose proof (pt_len _ _ _ Hs). pose proof (pt_len _ _ _ Hlo). pose proof (pt_len _ _ _ Hhi).
  pose proof (proj1 (best_len c b Hb)). rewrite !app_len, !pad_len. change (N.to_nat 11) with 11 in *.
  change (String.length title_string) with 91. cbn [String.length]. lia.
Qed.

Definition c69_ops : list op := [ONext false toy_tick; ONext false toy_tick].
Example C69_case : eigen_shape (T := f64) /\
  exists c, reaches toy_sphere (toy_options 2) tt c /\
    info_row c = Ret "      2 |       8 |  2.549127372028e+00 | 1.0069e+00 | 4.5743e-01 | 4.3722e-01 | 4.4024e-01".
Proof.
  split; [exact toy_eigen_shape|].
  destruct (holds_ex (after toy_sphere tt (toy_options 2) c69_ops)
    (fun c => match info_row c with
              | Ret r => String.eqb r "      2 |       8 |  2.549127372028e+00 | 1.0069e+00 | 4.5743e-01 | 4.3722e-01 | 4.4024e-01"
              | _ => false end)) as [c [H1 H2]].
  { vm_compute. reflexivity. }
  apply after_reaches in H1. destruct H1 as [c0 [H0 H1]]. exists c. split; [exists c0, c69_ops; auto|].
  destruct (info_row c) as [r| |]; [|discriminate H2|discriminate H2]. apply String.eqb_eq in H2. rewrite H2. reflexivity.
Qed.

(* a test that implies `ordinary` *)
Definition middling (x : f64) : bool :=
  match x with B754_finite _ _ e _ => ((-300 <=? e) && (e <=? 247))%Z | _ => true end.
Lemma middling_ordinary : forall x, middling x = true -> ordinary x.
Proof.
  intros [s|s| |s m e H] Hx; [right; left; reflexivity|left; reflexivity|left; reflexivity|]. right. right.
  cbn [middling] in Hx. apply andb_true_iff in Hx. destruct Hx as [H1 H2]. apply Z.leb_le in H1, H2.
  cbn [B2R]. rewrite <- F2R_Zabs, abs_cond_Zopp. cbn [Z.abs]. unfold F2R. cbn [Fnum Fexp].
  assert (Hm : (Z.pos m < 2 ^ 53)%Z).
  { unfold SpecFloat.bounded in H. apply andb_true_iff in H. destruct H as [H _]. unfold SpecFloat.canonical_mantissa in H. apply Zeq_bool_eq in H.
    destruct (Z.lt_ge_cases (Z.pos m) (2 ^ 53)) as [K|K]; [exact K|exfalso].
    assert (D : (54 <= Z.pos (SpecFloat.digits2_pos m))%Z).
    { rewrite Digits.Zpos_digits2_pos. assert (53 < Digits.Zdigits radix2 (Z.pos m))%Z by (apply Digits.Zdigits_gt_Zpower; exact K). lia. }
    unfold SpecFloat.fexp, SpecFloat.emin in H. lia. }
  assert (Q1 : (1 <= IZR (Z.pos m))%R) by (apply IZR_le; lia).
  assert (Q2 : (IZR (Z.pos m) <= bpow radix2 53)%R) by (rewrite <- IZR_Zpower by lia; apply IZR_le; change (radix2 ^ 53)%Z with (2 ^ 53)%Z; lia).
  assert (P1 : (bpow radix2 (-300) <= bpow radix2 e)%R) by (apply bpow_le; lia).
  assert (P2 : (bpow radix2 e <= bpow radix2 247)%R) by (apply bpow_le; lia).
  assert (C1 : (bpow ten (-99) <= bpow radix2 (-300))%R).
  { replace (-99)%Z with (Z.opp 99) by lia. replace (-300)%Z with (Z.opp 300) by lia. rewrite !bpow_opp. apply Rinv_le; [apply bpow_gt_0|].
    rewrite <- !IZR_Zpower by lia. apply IZR_le. vm_compute. discriminate. }
  assert (C2 : (bpow radix2 300 < 9999 * bpow ten 96)%R).
  { rewrite <- !IZR_Zpower by lia. rewrite <- mult_IZR. apply IZR_lt. vm_compute. reflexivity. }
  pose proof (bpow_gt_0 radix2 e) as G. split.
  - apply Rle_trans with (1 := C1). apply Rle_trans with (1 := P1). rewrite <- (Rmult_1_l (bpow radix2 e)) at 1. apply Rmult_le_compat_r; [lra|exact Q1].
  - apply Rle_lt_trans with (2 := C2). replace 300%Z with (53 + 247)%Z by lia. rewrite (bpow_plus radix2 53). apply Rmult_le_compat; lra.
Qed.
Example C70_case : exists (c : cmaes f64 unit) i, reaches toy_sphere (toy_options 2) tt c /\ current_best_individual c = Some i /\
  (0 < generation c < 10 ^ 7)%N /\ (function_evals c < 10 ^ 7)%N /\ ordinary (i_value i) /\
  ordinary (cmaes_axis_ratio c) /\ ordinary (sigma c) /\ ordinary (low_std c) /\ ordinary (high_std c).
Proof.
  destruct (holds_ex (after toy_sphere tt (toy_options 2) c69_ops)
    (fun c => (0 <? generation c)%N && (generation c <? 10 ^ 7)%N && (function_evals c <? 10 ^ 7)%N &&
              match current_best_individual c with Some i => middling (i_value i) | None => false end &&
              middling (cmaes_axis_ratio c) && middling (sigma c) && middling (low_std c) && middling (high_std c))) as [c [H1 H2]].
  { vm_compute. reflexivity. }
  apply after_reaches in H1. destruct H1 as [c0 [H0 H1]]. exists c.
  repeat (apply andb_true_iff in H2; let K := fresh "K" in destruct H2 as [H2 K]).
  destruct (current_best_individual c) as [i|]; [|discriminate]. exists i. split; [exists c0, c69_ops; auto|]. split; [reflexivity|].
  repeat match goal with K : (_ <? _)%N = true |- _ => apply N.ltb_lt in K end.
  split; [split; assumption|]. split; [assumption|]. repeat split; apply middling_ordinary; assumption.
Qed.

Print Assumptions C69_row.
Print Assumptions C70_aligned.
Print Assumptions C70_widths.
