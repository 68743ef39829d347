(* The axes of a chart: in binary64 the evaluation range and the linear axis, in exact arithmetic all of them. *)
From Coq Require Import List NArith ZArith Bool Reals Lra Lia Arith Sorting.Sorted.
From Flocq Require Import Core Mult_error.
From Flocq Require Import IEEE754.BinarySingleNaN.
Require Import Verif.Base Verif.Num Verif.F64 Verif.XReal Verif.LinAlg Verif.Mode Verif.Weights Verif.Options Verif.Params Verif.Env
  Verif.State Verif.Sampling Verif.History Verif.Cmaes
  Verif.Termination Verif.Plot Verif.Draw Verif.Lib Verif.Order Verif.Sort Verif.F64Lemmas Verif.CastLemmas Verif.CeilLemmas
  Verif.XRound Verif.XLe Verif.NextInv Verif.Spec Verif.LogLemmas Verif.TraceLemmas Verif.BuildLemmas Verif.PanicLemmas Verif.TermLemmas Verif.TermSpec Verif.PlotLemmas Verif.DrawLemmas.
Import ListNotations.
Open Scope R_scope.

(* f64::log10 and f64::round in exact arithmetic; the logarithm of anything but a positive number is as in x_ln *)
Definition x_log10 (a : xreal) : xreal :=
  match x_ln a with XFin r => XFin (r / ln 10) | b => b end.
Definition x_round (a : xreal) : xreal :=
  match a with XFin r => XFin (IZR (if Rltb r 0 then Zceil (r - / 2) else Zfloor (r + / 2))) | _ => a end.
#[global] Instance DrawLib_xreal : DrawLib xreal := { lm_log10 := x_log10; lm_round := x_round }.

(* ---- binary64 ---- *)
Lemma f64_offset_nan : forall x : f64, nis_nan (apply_offset x) = nis_nan x.
Proof.
  intros x. assert (Fo : exists r, f2x plot_offset = XFin r) by (eexists; vm_compute; reflexivity).
  destruct Fo as [r Fo]. unfold apply_offset. rewrite !f2x_nan.
  destruct (ngeb x n0).
  - rewrite f2x_add, Fo, xround_nan. destruct (f2x x); reflexivity.
  - rewrite f2x_sub, Fo, xround_nan. destruct (f2x x); reflexivity.
Qed.
Lemma f64_abs_nan : forall x : f64, nis_nan (nabs x) = nis_nan x.
Proof. intros x. rewrite !f2x_nan, f2x_abs. destruct (f2x x); reflexivity. Qed.

Lemma f64_ofN_round : forall n, (n < 2 ^ 64)%N -> f2x (nofN n) = XFin (rnd64 (IZR (Z.of_N n))).
Proof.
  intros n Hn. change (nofN n) with (f64_ofZ (Z.of_N n)). unfold f64_ofZ.
  pose proof (binary_normalize_correct 53 1024 f64_prec f64_emax mode_NE (Z.of_N n) 0 false) as H. cbv zeta in H.
  change (round radix2 (SpecFloat.fexp 53 1024) (round_mode mode_NE) (F2R (Float radix2 (Z.of_N n) 0)))
    with (rnd64 (F2R (Float radix2 (Z.of_N n) 0))) in H.
  replace (F2R (Float radix2 (Z.of_N n) 0)) with (IZR (Z.of_N n)) in H by (unfold F2R; cbn; ring).
  rewrite Rlt_bool_true in H.
  - destruct H as [H1 [H2 _]]. rewrite (f2x_finite _ H2), H1. reflexivity.
  - assert (H0 : 0 <= rnd64 (IZR (Z.of_N n))).
    { rewrite <- (rnd64_id 0) by apply generic_format_0. apply rnd64_le. apply (IZR_le 0). lia. }
    rewrite Rabs_pos_eq by exact H0. apply Rle_lt_trans with (bpow radix2 65); [|apply bpow_lt; reflexivity].
    rewrite <- (rnd64_id (bpow radix2 65)) by (apply generic_format_bpow; unfold SpecFloat.fexp, SpecFloat.emin; lia).
    apply rnd64_le. change (bpow radix2 65) with (IZR 36893488147419103232). apply IZR_le. lia.
Qed.

Lemma nofN_105 : forall n, (n < 2 ^ 64)%N -> (n <= nto_usize (nmul (nofN n) (nlit 105 100 : f64)))%N.
Proof.
  intros n Hn. destruct (N.eq_dec n 0) as [->|Hz]; [lia|].
  assert (Hq : exists q, f2x (nlit 105 100 : f64) = XFin q /\ 33 / 32 <= q <= 2).
  { eexists. split; [vm_compute; reflexivity|]. unfold F2R; cbn. lra. }
  destruct Hq as [q [Hq Hq1]]. rewrite f2x_to_usize, f2x_mul, Hq, f64_ofN_round by exact Hn. cbn [x_mul xround].
  assert (H1 : 1 <= IZR (Z.of_N n)) by (apply (IZR_le 1); lia).
  assert (H2 : IZR (Z.of_N n) <= 18446744073709551616) by (apply (IZR_le _ 18446744073709551616); lia).
  set (z := IZR (Z.of_N n)) in *. assert (Hr : z * (1 - / 9007199254740992) <= rnd64 z) by (apply rnd64_rel; lra).
  assert (Hu : rnd64 z <= bpow radix2 65).
  { rewrite <- (rnd64_id (bpow radix2 65)) by (apply generic_format_bpow; unfold SpecFloat.fexp, SpecFloat.emin; lia).
    apply rnd64_le. change (bpow radix2 65) with 36893488147419103232. lra. }
  set (r := rnd64 z) in *. clearbody r.
  assert (Hrq : r * q * (1 - / 9007199254740992) <= rnd64 (r * q)) by (apply rnd64_rel; nra).
  assert (Hrz : z <= rnd64 (r * q)).
  { apply Rle_trans with (2 := Hrq). apply Rle_trans with (z * (1 - / 9007199254740992) * (33 / 32) * (1 - / 9007199254740992)); [nra|].
    apply Rmult_le_compat_r; [lra|]. apply Rmult_le_compat; nra. }
  assert (Hb : rnd64 (r * q) <= bpow radix2 70).
  { rewrite <- (rnd64_id (bpow radix2 70)) by (apply generic_format_bpow; unfold SpecFloat.fexp, SpecFloat.emin; lia).
    apply rnd64_le. change (bpow radix2 65) with 36893488147419103232 in Hu. change (bpow radix2 70) with 1180591620717411303424. nra. }
  rewrite Rlt_bool_true.
  2: { rewrite Rabs_pos_eq by lra. apply Rle_lt_trans with (1 := Hb). apply bpow_lt. reflexivity. }
  assert (Hle : xle (XFin z) (XFin (rnd64 (r * q)))) by exact Hrz. apply to_usize_le in Hle.
  replace (x_to_usize (XFin z)) with n in Hle; [exact Hle|]. unfold z. cbn. rewrite Ztrunc_IZR. lia.
Qed.

(* a number growing by an eighth grows in binary64 *)
Lemma grow_eighth : forall b x, generic_format radix2 fexp64 b -> bpow radix2 (-1000) <= b -> b * (9 / 8) <= x -> b < rnd64 x.
Proof.
  intros b x Fb Hb Hx. pose proof (bpow_gt_0 radix2 (-1000)) as Hp. assert (Hb0 : 0 < b) by lra.
  assert (Hu : ulp radix2 fexp64 b <= b / 8).
  { change fexp64 with (FLT_exp (-1074) 53).
    apply Rle_trans with (Rabs b * bpow radix2 (1 - 53)).
    - apply ulp_FLT_le. rewrite Rabs_pos_eq by lra. apply Rle_trans with (2 := Hb). apply bpow_le. lia.
    - rewrite Rabs_pos_eq by lra. unfold Rdiv. apply Rmult_le_compat_l; [lra|].
      apply Rle_trans with (bpow radix2 (-3)); [apply bpow_le; lia|]. change (bpow radix2 (-3)) with (/ 8). lra. }
  apply Rlt_le_trans with (succ radix2 fexp64 b).
  - apply succ_gt_id. lra.
  - rewrite <- (rnd64_id (succ radix2 fexp64 b)) by (apply generic_format_succ; [apply valid_fexp64|exact Fb]).
    apply rnd64_le. rewrite succ_eq_pos by lra. lra.
Qed.

Definition f64_spread (l : list f64) : Prop :=
  (exists v, In v l /\ (B2R v = 0 \/ bpow radix2 (-1000) <= B2R v)) \/
  (exists v w, In v l /\ In w l /\ bpow radix2 (-1000) <= B2R w - B2R v).

Lemma f64_linear_axis : forall l sc y, Forall (fun v : f64 => is_finite v = true) l -> f64_spread l ->
  get_linear_y_axis l sc = Ret y ->
  nltb (ya_start y) (ya_end y) = true /\ Forall (fun v => nleb (ya_start y) v = true /\ nleb v (ya_end y) = true) l.
Proof.
  intros l sc y Hf Hs H. unfold get_linear_y_axis in H. oinv H. oinv H. apply Ret_inj in H. subst y. cbn [ya_start ya_end].
  assert (Hn : Forall (fun v : f64 => nis_nan v = false) l) by (eapply Forall_impl; [|exact Hf]; intros [ | | | ]; cbn; congruence).
  assert (G1 : min_by partial_cmp l = Some a) by (destruct (min_by partial_cmp l); cbn in Ho; [apply Ret_inj in Ho; congruence|discriminate]).
  assert (G2 : max_by partial_cmp l = Some a0) by (destruct (max_by partial_cmp l); cbn in Ho0; [apply Ret_inj in Ho0; congruence|discriminate]).
  apply (min_least _ _ Hn) in G1. apply (max_greatest _ _ Hn) in G2. destruct G1 as [I1 G1], G2 as [I2 G2].
  rewrite Forall_forall in Hf, G1, G2.
  set (A := B2R a). set (B := B2R a0). pose proof (f2x_finite a (Hf a I1)) as Ea. pose proof (f2x_finite a0 (Hf a0 I2)) as Eb. fold A in Ea. fold B in Eb.
  assert (Hlo : forall v, In v l -> f2x v = XFin (B2R v) /\ A <= B2R v <= B).
  { intros v Hv. pose proof (f2x_finite v (Hf v Hv)) as Ev. split; [exact Ev|]. specialize (G1 v Hv). specialize (G2 v Hv).
    rewrite f2x_ltb, Ev, Ea in G1. rewrite f2x_ltb, Ev, Eb in G2. cbn in G1, G2. apply Rltb_false in G1, G2. lra. }
  assert (Fmt : generic_format radix2 fexp64 B) by apply generic_format_B2R.
  clear Ho Ho0 G1 G2.
  assert (Hq : exists q, f2x (nlit 15 100 : f64) = XFin q /\ 1 / 8 <= q <= 1 /\ xround (XFin q) = XFin q).
  { eexists. split; [vm_compute; reflexivity|]. split; [unfold F2R; cbn; lra|].
    change (xround (f2x (nlit 15 100)) = f2x (nlit 15 100)). apply xround_f2x. }
  destruct Hq as [q [Eq [Hq Rq]]]. set (m0 := nmul (nsub a0 a) (nlit 15 100 : f64)).
  assert (Em : f2x m0 = xround (x_mul (xround (XFin (B - A))) (XFin q))).
  { unfold m0. rewrite f2x_mul, f2x_sub, Eq, Ea, Eb. reflexivity. }
  assert (HAB : A <= B) by apply (Hlo a I1).
  assert (R0 : xround (XFin 0) = XFin 0) by (apply xround_id; [apply generic_format_0|rewrite Rabs_R0; apply bpow_gt_0]).
  assert (HX : exists d, xround (XFin (B - A)) = d /\ xle (XFin 0) d) by (eexists; split; [reflexivity|rewrite <- R0; apply xround_le; cbn; lra]).
  destruct HX as [d [Ed Hd]].
  assert (Hm : xle (XFin 0) (f2x m0)).
  { rewrite Em, Ed, <- R0. apply xround_le. destruct d as [|[]|d]; cbn in Hd; try contradiction; cbn [x_mul].
    - unfold x_signed_inf. rewrite (proj2 (Rltb_true 0 q)) by lra. exact I.
    - cbn. nra. }
  (* a margin that is not negative keeps every value inside *)
  assert (Hin : forall m, xle (XFin 0) (f2x m) ->
            xle (f2x (nsub a m)) (XFin A) /\ xle (XFin B) (f2x (nadd a0 m))).
  { intros m Hm0. rewrite f2x_sub, f2x_add, Ea, Eb.
    pose proof (xround_f2x a) as Ra. pose proof (xround_f2x a0) as Rb. rewrite Ea in Ra. rewrite Eb in Rb.
    split; [rewrite <- Ra at 2|rewrite <- Rb at 1]; apply xround_le; destruct (f2x m) as [|[]|r]; cbn in Hm0; try contradiction; cbn; try exact I; lra. }
  assert (Hall : forall m, xle (XFin 0) (f2x m) ->
            (x_ltb (f2x (nsub a m)) (f2x (nadd a0 m)) = true) ->
            nltb (nsub a m) (nadd a0 m) = true /\ Forall (fun v => nleb (nsub a m) v = true /\ nleb v (nadd a0 m) = true) l).
  { intros m Hm0 Hlt. split; [rewrite f2x_ltb; exact Hlt|]. apply Forall_forall. intros v Hv. destruct (Hlo v Hv) as [Ev Hv'].
    destruct (Hin m Hm0) as [J1 J2]. rewrite !f64_xle. split.
    - eapply xle_trans; [exact J1|]. rewrite Ev. cbn. lra.
    - eapply xle_trans; [|exact J2]. rewrite Ev. cbn. lra. }
  (* strictness when two values differ *)
  assert (Hstrict : forall m, xle (XFin 0) (f2x m) -> A < B -> x_ltb (f2x (nsub a m)) (f2x (nadd a0 m)) = true).
  { intros m Hm0 HL. destruct (Hin m Hm0) as [J1 J2].
    destruct (f2x (nsub a m)) as [|[]|r1]; cbn in J1; try contradiction; destruct (f2x (nadd a0 m)) as [|[]|r2]; cbn in J2; try contradiction; cbn; auto.
    apply Rltb_true. lra. }
  fold m0. destruct (neqb m0 n0) eqn:Ez.
  - assert (Ez' : f2x m0 = XFin 0).
    { rewrite f2x_eqb in Ez. destruct (f2x m0) as [|[]|r]; cbn in Ez; try discriminate. apply Reqb_true in Ez. rewrite Ez. reflexivity. }
    clear Ez Hm. assert (Hsp : exists v, In v l /\ (B2R v = 0 \/ bpow radix2 (-1000) <= B2R v)).
    { destruct Hs as [Hs|[v [w [Hv [Hw Hvw]]]]]; [exact Hs|exfalso].
      assert (Hbig : bpow radix2 (-1000) <= B - A) by (pose proof (Hlo v Hv); pose proof (Hlo w Hw); lra).
      assert (K1 : xle (XFin (bpow radix2 (-1000))) d) by (rewrite <- Ed, <- xround_bpow by lia; apply xround_le; exact Hbig).
      assert (K2 : xle (XFin (bpow radix2 (-1003))) (f2x m0)).
      { rewrite Em, Ed, <- xround_bpow by lia. apply xround_le. destruct d as [|[]|d]; try contradiction K1; cbn [x_mul].
        - unfold x_signed_inf. rewrite (proj2 (Rltb_true 0 q)) by lra. exact I.
        - change (bpow radix2 (-1003) <= d * q). change (bpow radix2 (-1000) <= d) in K1.
          replace (-1003)%Z with (-1000 + -3)%Z by lia. rewrite bpow_plus. change (bpow radix2 (-3)) with (/ 8).
          pose proof (bpow_gt_0 radix2 (-1000)). generalize dependent (bpow radix2 (-1000)). intros. nra. }
      rewrite Ez' in K2. pose proof (bpow_gt_0 radix2 (-1003)) as K3. unfold xle in K2. generalize dependent (bpow radix2 (-1003)). intros. lra. }
    destruct Hsp as [v [Hv Hsp]]. destruct (Hlo v Hv) as [_ Hv'].
    pose proof (bpow_gt_0 radix2 (-1000)) as Hp.
    assert (HB : 0 <= B) by lra.
    destruct (neqb a0 n0) eqn:Ea0.
    + rewrite f2x_eqb, Eb in Ea0. cbn in Ea0. apply Reqb_true in Ea0.
      assert (Hq0 : xle (XFin 0) (f2x (nlit 15 100 : f64))) by (rewrite Eq; cbn; lra).
      apply Hall; [exact Hq0|]. destruct (Hin _ Hq0) as [J1 _].
      rewrite f2x_add, Eb, Eq, Ea0. cbn [x_add]. rewrite Rplus_0_l, Rq.
      destruct (f2x (nsub a (nlit 15 100))) as [|[]|r1]; cbn in J1; try contradiction; cbn; auto. apply Rltb_true. lra.
    + assert (HB' : 0 < B). { rewrite f2x_eqb, Eb in Ea0. cbn in Ea0. apply Reqb_false in Ea0. lra. }
      set (m1 := nmul a0 (nlit 15 100 : f64)).
      assert (Em1 : f2x m1 = xround (XFin (B * q))) by (unfold m1; rewrite f2x_mul, Eb, Eq; reflexivity).
      assert (Hm1 : xle (XFin 0) (f2x m1)) by (rewrite Em1, <- R0; apply xround_le; cbn; nra).
      apply Hall; [exact Hm1|]. destruct (Rlt_dec A B) as [HL|HL]; [apply Hstrict; auto|]. assert (EAB : A = B) by lra.
      assert (Hbig : bpow radix2 (-1000) <= B) by (destruct Hsp; lra).
      (* all values are the same number *)
      assert (F8 : generic_format radix2 fexp64 (B / 8)).
      { change fexp64 with (FLT_exp (-1074) 53) in *. replace (B / 8) with (B * bpow radix2 (-3)) by (change (bpow radix2 (-3)) with (/ 8); field).
        apply mult_bpow_exact_FLT; [exact Fmt|]. pose proof (mag_ge_bpow radix2 B (-999)) as Mg.
        rewrite Rabs_pos_eq in Mg by lra. specialize (Mg Hbig). unfold SpecFloat.emin. lia. }
      assert (Hm8 : xle (XFin (B / 8)) (f2x m1)).
      { rewrite Em1. rewrite <- (xround_id (B / 8)); [apply xround_le; cbn; nra|exact F8|].
        rewrite Rabs_pos_eq by lra. apply Rlt_trans with (Rabs B); [rewrite Rabs_pos_eq by lra; lra|]. apply (abs_B2R_lt_emax 53 1024). }
      destruct (Hin m1 Hm1) as [J1 J2].
      assert (Hend : xle (f2x (nadd a0 m1)) (XFin B) -> False).
      { rewrite f2x_add, Eb. destruct (f2x m1) as [|[]|r] eqn:E1; cbn in Hm8; try contradiction; cbn [x_add xround].
        destruct (Rlt_bool _ _); unfold xle.
        - intros K. assert (K' : B < rnd64 (B + r)) by (apply grow_eighth; [exact Fmt|exact Hbig|lra]).
          exact (Rlt_not_le _ _ K' K).
        - rewrite (proj2 (Rltb_false (B + r) 0)) by lra. intros []. }
      destruct (f2x (nsub a m1)) as [|[]|r1]; cbn in J1; try contradiction; destruct (f2x (nadd a0 m1)) as [|[]|r2]; cbn in J2, Hend; try contradiction; cbn; auto.
      apply Rltb_true. destruct (Rle_dec r2 B); [contradiction|lra].
  - apply Hall; [exact Hm|]. apply Hstrict; [exact Hm|]. destruct (Rlt_dec A B) as [HL|HL]; auto. exfalso.
    assert (EAB : B - A = 0) by lra. rewrite EAB, R0 in Em. cbn [x_mul] in Em. rewrite Rmult_0_l, R0 in Em.
    rewrite f2x_eqb, Em in Ez. cbn in Ez. apply Reqb_false in Ez. lra.
Qed.

(* ---- every drawn point comes from the values the axes were made for ---- *)
Section Points.
  Context {T : Type} {NT : Num T} {OL : OrdLaws T} {LT : Libm T} {DT : DrawLib T}.
  Hypothesis Habs : forall x : T, nis_nan (nabs x) = nis_nan x.

  (* everything drawn in a chart *)
  Definition drawn (ch : chart T) : list (N * T) := ch_marks ch ++ concat (ch_lines ch).
  Definition spans (axis : list T -> outcome (y_axis T)) (evals : list N) (V : list T) (ch : chart T) : Prop :=
    axis V = Ret (ch_y ch) /\ x_range evals = Ret (ch_x ch) /\
    Forall (fun pt => In (fst pt) evals /\ In (snd pt) V) (drawn ch).

  Lemma combine_nth_error : forall {A B} (l : list A) (m : list B) a b, In (a, b) (combine l m) <->
    exists j, nth_error l j = Some a /\ nth_error m j = Some b.
  Proof.
    intros A B. induction l as [|x l IH]; intros [|y m] a b; cbn [combine]; split.
    - intros [].
    - intros [[|j] [H _]]; discriminate H.
    - intros [].
    - intros [[|j] [H _]]; discriminate H.
    - intros [].
    - intros [[|j] [_ H]]; discriminate H.
    - intros [H|H].
      + exists 0%nat. cbn. split; congruence.
      + apply IH in H. destruct H as [j H]. exists (S j). exact H.
    - intros [[|j] [H1 H2]].
      + left. cbn in H1, H2. congruence.
      + right. apply IH. exists j. auto.
  Qed.
  Lemma nth_error_firstn : forall {A} k (l : list A) j a, nth_error (firstn k l) j = Some a -> (j < k)%nat /\ nth_error l j = Some a.
  Proof.
    intros A. induction k as [|k IH]; intros [|x l] [|j] a H; cbn in *; try discriminate H; auto.
    - split; [lia|exact H].
    - apply IH in H. split; [lia|apply H].
  Qed.
  Lemma nth_error_skipn : forall {A} k (l : list A) j, nth_error (skipn k l) j = nth_error l (k + j)%nat.
  Proof. intros A. induction k as [|k IH]; intros [|x l] j; cbn; auto. destruct j; reflexivity. Qed.

  Lemma get_points_In : forall xs (ys : list T) pt, In pt (get_points xs ys) ->
    In (fst pt) xs /\ In (snd pt) ys /\ not_nan (snd pt) = true.
  Proof.
    intros xs ys [e v] H. unfold get_points in H. apply filter_In in H. destruct H as [H1 H2].
    pose proof (in_combine_l _ _ _ _ H1). pose proof (in_combine_r _ _ _ _ H1). auto.
  Qed.

  Lemma series_spans : forall axis evals (S : list (list T)) y x leg, axis (concat S) = Ret y -> x_range evals = Ret x ->
    spans axis evals (concat S) (mkChart x y (map (get_points evals) S) [] leg).
  Proof.
    intros axis evals S y x leg H1 H2. split; [exact H1|]. split; [exact H2|]. unfold drawn. cbn [ch_marks ch_lines app].
    apply Forall_forall. intros pt Hp. apply in_concat in Hp. destruct Hp as [li [Hl Hp]]. apply in_map_iff in Hl.
    destruct Hl as [s [<- Hs]]. apply get_points_In in Hp. destruct Hp as [P1 [P2 _]]. split; [exact P1|].
    apply in_concat. exists s. auto.
  Qed.

  Lemma dist_in_values : forall m (d : plot_data T) i b j v, overall_best m d = Some (i, b) ->
    nth_error (dist_to_best b d) j = Some v -> not_nan v = true -> (1 < best_count b d)%nat \/ j <> i ->
    In v (single_dimensioned_values m d).
  Proof.
    intros m d i b j v Hb Hj Hn Hc. unfold single_dimensioned_values. apply filter_In. split; [|exact Hn]. rewrite Hb.
    apply in_or_app. right. apply in_or_app. right. apply in_or_app. right. apply in_or_app. right.
    apply in_map_iff. exists (j, v). split; [reflexivity|]. apply filter_In. split.
    - apply combine_nth_error. exists j. split; [|exact Hj].
      assert (Hl : (j < length (dist_to_best b d))%nat) by (apply nth_error_Some; rewrite Hj; discriminate).
      rewrite (nth_error_nth' _ 0%nat) by (rewrite seq_length; exact Hl). rewrite seq_nth by exact Hl. reflexivity.
    - cbn [fst]. apply orb_true_iff. destruct Hc as [Hc|Hc]; [left; apply Nat.ltb_lt; exact Hc|right].
      apply negb_true_iff, Nat.eqb_neq. exact Hc.
  Qed.

  Lemma build_plot_spans : forall n p l im, describes n (pl_data p) l -> build_plot p = Ret im ->
    let d := pl_data p in let evals := pd_function_evals d in
    spans get_log_y_axis evals (single_dimensioned_values (pl_mode p) d) (im_values im) /\
    spans (fun V => get_linear_y_axis V (po_scientific_notation (pl_options p))) evals (concat (pd_mean d)) (im_mean im) /\
    spans get_log_y_axis evals (concat (pd_sqrt_eigenvalues d)) (im_axes im) /\
    spans get_log_y_axis evals (concat (pd_coord_scales d)) (im_scales im).
  Proof.
    intros n p l im D H d evals. unfold build_plot in H. oinv H. oinv H. oinv H. oinv H. apply Ret_inj in H. subst im.
    cbn [im_values im_mean im_axes im_scales].
    unfold draw_mean in Ho0. oinv Ho0. unfold configure_area in Ho0. oinv Ho0. apply Ret_inj in Ho0. subst a0.
    unfold draw_sqrt_eigenvalues in Ho1. oinv Ho1. unfold configure_area in Ho1. oinv Ho1. apply Ret_inj in Ho1. subst a1.
    unfold draw_coord_axis_scales in Ho2. oinv Ho2. unfold configure_area in Ho2. oinv Ho2. apply Ret_inj in Ho2. subst a2.
    split; [|split; [|split]; apply series_spans; assumption].
    clear Ho0 Ho1 Ho3 Ho4 Ho5 Ho6. rename Ho into HS.
    unfold draw_single_dimensioned in HS. oinv HS. oinv HS. destruct a7 as [dl mk].
    unfold configure_area in HS. oinv HS. apply Ret_inj in HS. subst a.
    split; [exact Ho|]. split; [exact Ho1|]. unfold drawn. cbn [ch_marks ch_lines]. fold d in Ho0 |- *. fold evals in Ho0 |- *.
    assert (Hv : forall v, not_nan v = true ->
              In v (map nabs (pd_best d)) \/ In v (map nabs (pd_median d)) \/ In v (pd_sigma d) \/ In v (pd_axis_ratio d) ->
              In v (single_dimensioned_values (pl_mode p) d)).
    { intros v Hn Hv. unfold single_dimensioned_values. apply filter_In. split; [|exact Hn].
      destruct Hv as [Hv|[Hv|[Hv|Hv]]]; repeat (apply in_or_app; first [left; exact Hv|right]). }
    rewrite concat_app. apply Forall_app. split; [|apply Forall_app; split].
    - pose proof (first_best_spec (pl_mode p) (pd_best d)) as Hs. change (first_best (pl_mode p) (pd_best d)) with (overall_best (pl_mode p) d) in Hs.
      destruct (overall_best (pl_mode p) d) as [[i b]|] eqn:Eb; [|apply Ret_inj in Ho0; replace mk with (@nil (N * T)) by congruence; constructor].
      destruct Hs as [b1 [b2 [S1 [S2 [S3 _]]]]]. oinv Ho0. rename Ho2 into He. apply Ret_inj in Ho0. rewrite S3 in Ho0.
      replace mk with [(a, nabs b)] by congruence. constructor; [|constructor]. cbn [fst snd].
      unfold index in He. destruct (nth_error evals i) as [e|] eqn:Ee; [|discriminate He]. apply Ret_inj in He. subst e.
      split; [eapply nth_error_In; exact Ee|]. apply Hv; [unfold not_nan; rewrite Habs, S3; reflexivity|].
      left. apply in_map. rewrite S1. apply in_or_app. right. left. reflexivity.
    - pose proof (first_best_spec (pl_mode p) (pd_best d)) as Hs. change (first_best (pl_mode p) (pd_best d)) with (overall_best (pl_mode p) d) in Hs.
      destruct (overall_best (pl_mode p) d) as [[i b]|] eqn:Eb; [|apply Ret_inj in Ho0; replace dl with (@nil (list (N * T))) by congruence; constructor].
      oinv Ho0. apply Ret_inj in Ho0. apply (f_equal fst) in Ho0. cbn [fst] in Ho0. subst dl. cbn [concat]. rewrite app_nil_r.
      apply Forall_app. split; apply Forall_forall; intros [e v] Hp; unfold get_points in Hp; apply filter_In in Hp; destruct Hp as [Hp Hn];
        cbn [snd] in Hn; apply combine_nth_error in Hp; destruct Hp as [j [J1 J2]]; cbn [fst snd].
      + apply nth_error_firstn in J1, J2. destruct J1 as [J0 J1], J2 as [_ J2]. split; [eapply nth_error_In; exact J1|].
        eapply dist_in_values; [exact Eb|exact J2|exact Hn|]. destruct (1 <? best_count b d)%nat eqn:Ec; [left; apply Nat.ltb_lt; exact Ec|right; lia].
      + rewrite nth_error_skipn in J1. rewrite nth_error_skipn in J2. split; [eapply nth_error_In; exact J1|].
        eapply dist_in_values; [exact Eb|exact J2|exact Hn|]. right. lia.
    - cbn [concat]. rewrite app_nil_r.
      repeat (apply Forall_app; split); apply Forall_forall; intros pt Hp; apply get_points_In in Hp; destruct Hp as [P1 [P2 P3]];
        (split; [exact P1|apply Hv; [exact P3|tauto]]).
  Qed.
End Points.

(* ---- the evaluation range ---- *)
Lemma sorted_last : forall (l : list N) a, StronglySorted N.le (l ++ [a]) -> Forall (fun x => (x <= a)%N) (l ++ [a]).
Proof.
  induction l as [|x l IH]; intros a H; cbn [app] in *; [repeat constructor; lia|].
  inversion H as [|y z H1 H2]; subst. constructor; [|apply IH; exact H1].
  rewrite Forall_forall in H2. apply H2. apply in_or_app. right. left. reflexivity.
Qed.
Lemma x_range_spans : forall {T} {NT : Num T} (l : list N) x,
  (forall n, (n < 2 ^ 64)%N -> (n <= nto_usize (nmul (nofN n) (nlit 105 100 : T)))%N) ->
  StronglySorted N.le l -> Forall (fun n => (n < 2 ^ 64)%N) l -> x_range (T := T) l = Ret x ->
  Forall (fun e => (fst x <= e <= snd x)%N) l.
Proof.
  intros T NT l x Hup Hs Hb H. unfold x_range in H. oinv H. oinv H. apply Ret_inj in H. subst x. cbn [fst snd].
  destruct l as [|y l]; [discriminate Ho|]. cbn in Ho. apply Ret_inj in Ho. subst y.
  destruct (exists_last (l := a :: l)) as [l' [z E]]; [discriminate|]. rewrite E, rev_app_distr in Ho0. cbn in Ho0. apply Ret_inj in Ho0. subst z.
  apply Forall_forall. intros e He. split.
  - inversion Hs as [|u v S1 S2]; subst. destruct He as [->|He]; [lia|]. rewrite Forall_forall in S2. apply S2. exact He.
  - rewrite E in Hs, Hb, He. apply sorted_last in Hs. rewrite Forall_forall in Hs, Hb. specialize (Hs e He).
    specialize (Hb a0). assert (Ha : In a0 (l' ++ [a0])) by (apply in_or_app; right; left; reflexivity). specialize (Hup a0 (Hb Ha)). lia.
Qed.

(* ---- exact arithmetic ---- *)
Lemma x_lit : forall p q, (0 < q)%Z -> (nlit p q : xreal) = XFin (IZR p / IZR q).
Proof.
  intros p q H. unfold nlit. cbn. replace (Reqb (IZR q) 0) with false; [reflexivity|]. symmetry. apply Reqb_false.
  apply Rgt_not_eq. apply (IZR_lt 0). exact H.
Qed.
Lemma x_offset : exists o, 0 < o /\ (plot_offset : xreal) = XFin o.
Proof. eexists. split; [|apply x_lit; reflexivity]. lra. Qed.
Lemma x_nofN_105 : forall n, (n < 2 ^ 64)%N -> (n <= nto_usize (nmul (nofN n) (nlit 105 100 : xreal)))%N.
Proof.
  intros n Hn. rewrite x_lit by reflexivity. change (nmul (nofN n) (XFin (105 / 100))) with (XFin (IZR (Z.of_N n) * (105 / 100))).
  assert (H1 : 0 <= IZR (Z.of_N n)) by (apply (IZR_le 0); lia).
  assert (Hle : xle (XFin (IZR (Z.of_N n))) (XFin (IZR (Z.of_N n) * (105 / 100)))) by (cbn; lra). apply to_usize_le in Hle.
  replace (x_to_usize (XFin (IZR (Z.of_N n)))) with n in Hle; [exact Hle|]. cbn. rewrite Ztrunc_IZR. lia.
Qed.

Definition pos (v : xreal) : Prop := exists r, v = XFin r /\ 0 < r.
Definition fin (v : xreal) : Prop := exists r, v = XFin r.
Definition not_inf (v : xreal) : Prop := match v with XInf _ => False | _ => True end.
(* not below zero, or NaN *)
Definition not_neg (v : xreal) : Prop := nltb v n0 = false.

Lemma x_offset_pos : forall y, not_neg y -> not_inf (apply_offset y) -> nis_nan (apply_offset y) = false -> pos (apply_offset y).
Proof.
  intros y Hy Hi Hn. destruct x_offset as [o [Ho Eo]]. unfold apply_offset in *. rewrite Eo in *. unfold not_neg in Hy.
  destruct y as [|[]|r]; cbn in *; try discriminate; try contradiction.
  apply Rltb_false in Hy. unfold ngeb in *. cbn in *. unfold x_leb in *. cbn in *.
  destruct (Rltb 0 r || Reqb 0 r) eqn:E0.
  - exists (r + o). split; [reflexivity|lra].
  - apply orb_false_iff in E0. destruct E0 as [E1 E2]. apply Rltb_false in E1. apply Reqb_false in E2. lra.
Qed.
Lemma x_abs_offset_pos : forall y, not_inf (apply_offset y) -> nis_nan (nabs (apply_offset y)) = false -> pos (nabs (apply_offset y)).
Proof.
  intros y Hi Hn. destruct x_offset as [o [Ho Eo]]. unfold apply_offset in *. rewrite Eo in *.
  destruct y as [|[]|r]; cbn in *; unfold ngeb in *; cbn in *; try discriminate; try contradiction.
  unfold x_leb in *. cbn in *. destruct (Rltb 0 r || Reqb 0 r) eqn:E0; cbn in *.
  - apply orb_true_iff in E0. exists (Rabs (r + o)). split; [reflexivity|]. apply Rabs_pos_lt.
    destruct E0 as [E0|E0]; [apply Rltb_true in E0|apply Reqb_true in E0]; lra.
  - apply orb_false_iff in E0. destruct E0 as [E1 E2]. apply Rltb_false in E1. apply Reqb_false in E2.
    exists (Rabs (r + - o)). split; [reflexivity|]. apply Rabs_pos_lt. lra.
Qed.
Lemma x_dist_pos : forall a b, not_inf a -> not_inf b -> nis_nan (apply_offset (nabs (nsub a b))) = false ->
  pos (apply_offset (nabs (nsub a b))).
Proof.
  intros a b Ha Hb Hn. apply x_offset_pos; auto.
  - destruct a as [|[]|r], b as [|[]|s]; cbn in *; try contradiction; try reflexivity. unfold not_neg. cbn. apply Rltb_false. apply Rabs_pos.
  - destruct x_offset as [o [Ho Eo]]. unfold apply_offset in *. rewrite Eo in *.
    destruct a as [|[]|r], b as [|[]|s]; cbn in *; try contradiction; try exact I. destruct (x_leb _ _); exact I.
Qed.

Lemma x_log_axis : forall l y, Forall pos l -> get_log_y_axis l = Ret y ->
  nltb (ya_start y) (ya_end y) = true /\ Forall (fun v => nleb (ya_start y) v = true /\ nleb v (ya_end y) = true) l.
Proof.
  intros l y Hf H. unfold get_log_y_axis in H. oinv H. oinv H. apply Ret_inj in H. subst y. cbn [ya_start ya_end].
  assert (Hn : Forall (fun v : xreal => nis_nan v = false) l) by (eapply Forall_impl; [|exact Hf]; intros v [r [-> _]]; reflexivity).
  assert (G1 : min_by partial_cmp l = Some a) by (destruct (min_by partial_cmp l); cbn in Ho; [apply Ret_inj in Ho; congruence|discriminate]).
  assert (G2 : max_by partial_cmp l = Some a0) by (destruct (max_by partial_cmp l); cbn in Ho0; [apply Ret_inj in Ho0; congruence|discriminate]).
  apply (min_least _ _ Hn) in G1. apply (max_greatest _ _ Hn) in G2. destruct G1 as [I1 G1], G2 as [I2 G2].
  rewrite Forall_forall in Hf, G1, G2. destruct (Hf a I1) as [A [Ea Ha]]. destruct (Hf a0 I2) as [B [Eb Hb]]. clear Ho Ho0.
  assert (Hlo : forall v, In v l -> exists r, v = XFin r /\ A <= r <= B).
  { intros v Hv. destruct (Hf v Hv) as [r [-> _]]. exists r. split; [reflexivity|]. specialize (G1 _ Hv). specialize (G2 _ Hv).
    rewrite Ea in G1. rewrite Eb in G2. cbn in G1, G2. apply Rltb_false in G1, G2. lra. }
  assert (HAB : A <= B) by (destruct (Hlo a I1) as [r [E1 E2]]; rewrite Ea in E1; injection E1 as <-; lra).
  assert (Hl10 : 0 < ln 10) by (rewrite <- ln_1; apply ln_increasing; lra).
  assert (E1 : lm_powf (nofZ 10) (nsub (lm_log10 a) (nlit 4 10)) = XFin (A * exp (- (4 / 10) * ln 10))).
  { rewrite Ea, x_lit by reflexivity. cbn. unfold x_log10. cbn. rewrite (proj2 (Rltb_true 0 A)) by exact Ha. cbn.
    rewrite (proj2 (Rltb_true 0 10)) by lra. apply f_equal. unfold Rpower.
    replace ((ln A / ln 10 + - (4 / 10)) * ln 10) with (ln A + - (4 / 10) * ln 10) by (field; lra). rewrite exp_plus, exp_ln by exact Ha. reflexivity. }
  assert (E2 : lm_powf (nofZ 10) (nadd (lm_log10 a0) (nlit 4 10)) = XFin (B * exp (4 / 10 * ln 10))).
  { rewrite Eb, x_lit by reflexivity. cbn. unfold x_log10. cbn. rewrite (proj2 (Rltb_true 0 B)) by exact Hb. cbn.
    rewrite (proj2 (Rltb_true 0 10)) by lra. apply f_equal. unfold Rpower.
    replace ((ln B / ln 10 + 4 / 10) * ln 10) with (ln B + 4 / 10 * ln 10) by (field; lra). rewrite exp_plus, exp_ln by exact Hb. reflexivity. }
  rewrite E1, E2.
  assert (X1 : exp (- (4 / 10) * ln 10) < 1) by (rewrite <- exp_0; apply exp_increasing; nra).
  assert (X2 : 1 < exp (4 / 10 * ln 10)) by (rewrite <- exp_0; apply exp_increasing; nra).
  assert (X3 : 0 < exp (- (4 / 10) * ln 10)) by apply exp_pos.
  generalize dependent (exp (- (4 / 10) * ln 10)). generalize dependent (exp (4 / 10 * ln 10)). intros u Hu1 Hu2 v Hv1 Hv2 Hv3.
  split.
  - cbn. apply Rltb_true. nra.
  - apply Forall_forall. intros w Hw. destruct (Hlo w Hw) as [r [-> Hr]]. cbn. unfold x_leb. cbn.
    split; apply orb_true_iff; left; apply Rltb_true; nra.
Qed.

(* some value is not negative, or not all values are the same *)
Definition x_spread (l : list xreal) : Prop :=
  (exists v, In v l /\ nleb n0 v = true) \/ (exists v w, In v l /\ In w l /\ nltb v w = true).
Lemma x_linear_axis : forall l sc y, Forall fin l -> x_spread l -> get_linear_y_axis l sc = Ret y ->
  nltb (ya_start y) (ya_end y) = true /\ Forall (fun v => nleb (ya_start y) v = true /\ nleb v (ya_end y) = true) l.
Proof.
  intros l sc y Hf Hs H. unfold get_linear_y_axis in H. oinv H. oinv H. apply Ret_inj in H. subst y. cbn [ya_start ya_end].
  assert (Hn : Forall (fun v : xreal => nis_nan v = false) l) by (eapply Forall_impl; [|exact Hf]; intros v [r ->]; reflexivity).
  assert (G1 : min_by partial_cmp l = Some a) by (destruct (min_by partial_cmp l); cbn in Ho; [apply Ret_inj in Ho; congruence|discriminate]).
  assert (G2 : max_by partial_cmp l = Some a0) by (destruct (max_by partial_cmp l); cbn in Ho0; [apply Ret_inj in Ho0; congruence|discriminate]).
  apply (min_least _ _ Hn) in G1. apply (max_greatest _ _ Hn) in G2. destruct G1 as [I1 G1], G2 as [I2 G2].
  rewrite Forall_forall in Hf, G1, G2. destruct (Hf a I1) as [A Ea]. destruct (Hf a0 I2) as [B Eb]. clear Ho Ho0.
  assert (Hlo : forall v, In v l -> exists r, v = XFin r /\ A <= r <= B).
  { intros v Hv. destruct (Hf v Hv) as [r ->]. exists r. split; [reflexivity|]. specialize (G1 _ Hv). specialize (G2 _ Hv).
    rewrite Ea in G1. rewrite Eb in G2. cbn in G1, G2. apply Rltb_false in G1, G2. lra. }
  assert (HAB : A <= B) by (destruct (Hlo a I1) as [r [E1 E2]]; rewrite Ea in E1; injection E1 as <-; lra).
  assert (Hsp : 0 <= B \/ A < B).
  { destruct Hs as [[v [Hv Hs]]|[v [w [Hv [Hw Hs]]]]].
    - left. destruct (Hlo v Hv) as [r [-> Hr]]. cbn in Hs. unfold x_leb in Hs. cbn in Hs. apply orb_true_iff in Hs.
      destruct Hs as [Hs|Hs]; [apply Rltb_true in Hs|apply Reqb_true in Hs]; lra.
    - right. destruct (Hlo v Hv) as [r [-> Hr]]. destruct (Hlo w Hw) as [s [-> Hs']]. cbn in Hs. apply Rltb_true in Hs. lra. }
  rewrite Ea, Eb, x_lit by reflexivity.
  assert (Hm : exists m, 0 < m /\ (if neqb (nmul (nsub (XFin B) (XFin A)) (XFin (15 / 100))) n0
       then if neqb (XFin B) n0 then XFin (15 / 100) else nmul (XFin B) (XFin (15 / 100))
       else nmul (nsub (XFin B) (XFin A)) (XFin (15 / 100))) = XFin m).
  { cbn. destruct (Reqb ((B + - A) * (15 / 100)) 0) eqn:E0.
    - apply Reqb_true in E0. assert (B = A) by lra. destruct (Reqb B 0) eqn:E1.
      + exists (15 / 100). split; [lra|reflexivity].
      + apply Reqb_false in E1. exists (B * (15 / 100)). split; [|reflexivity]. nra.
    - apply Reqb_false in E0. exists ((B + - A) * (15 / 100)). split; [|reflexivity]. nra. }
  destruct Hm as [m [Hm Em]]. rewrite Em. split.
  - cbn. apply Rltb_true. lra.
  - apply Forall_forall. intros w Hw. destruct (Hlo w Hw) as [r [-> Hr]]. cbn. unfold x_leb. cbn.
    split; apply orb_true_iff; left; apply Rltb_true; lra.
Qed.

Section ExactShots.
  Context {E : Env xreal} {F : Type} (ev : F -> vec xreal -> outcome (xreal * F)).

  Definition scales_ok (s : state xreal) : Prop := not_neg (st_sigma s) /\ Forall not_neg (diagonal (cm_sqrt_eigenvalues (st_cov s))).
  Lemma x_sqrt_not_neg : forall a, not_neg (nsqrt a).
  Proof.
    intros [|[]|r]; unfold not_neg; cbn; try reflexivity. destruct (Rltb r 0); cbn; [reflexivity|]. apply Rltb_false. apply sqrt_pos.
  Qed.
  Lemma x_exp_not_neg : forall a, not_neg (x_exp a).
  Proof. intros [|[]|r]; unfold not_neg; cbn; try reflexivity; apply Rltb_false; [lra|]. left. apply exp_pos. Qed.
  Lemma x_mul_not_neg : forall a b, not_neg a -> not_neg b -> not_neg (x_mul a b).
  Proof.
    intros [|[]|r] [|[]|s]; unfold not_neg; cbn; try discriminate; try reflexivity; intros H1 H2;
      try apply Rltb_false in H1; try apply Rltb_false in H2.
    - unfold x_signed_inf. destruct (Rltb 0 s); [reflexivity|]. rewrite (proj2 (Rltb_false s 0)) by lra. reflexivity.
    - unfold x_signed_inf. destruct (Rltb 0 r); [reflexivity|]. rewrite (proj2 (Rltb_false r 0)) by lra. reflexivity.
    - apply Rltb_false. nra.
  Qed.
  Lemma x_div_not_neg : forall a b, not_neg a -> not_neg b -> not_neg (x_div a b).
  Proof.
    intros [|[]|r] [|[]|s]; unfold not_neg; cbn; try discriminate; try reflexivity; intros H1 H2;
      try apply Rltb_false in H1; try apply Rltb_false in H2.
    - rewrite (proj2 (Rltb_false s 0)) by lra. reflexivity.
    - apply Rltb_false. lra.
    - destruct (Reqb s 0) eqn:E0.
      + unfold x_signed_inf. destruct (Rltb 0 r); [reflexivity|]. rewrite (proj2 (Rltb_false r 0)) by lra. reflexivity.
      + cbn. apply Reqb_false in E0. apply Rltb_false. apply Rmult_le_pos; [exact H1|]. left. apply Rinv_0_lt_compat. lra.
  Qed.
  Lemma diagonal_mbuild : forall n (f : nat -> nat -> xreal), diagonal (mbuild n n f) = map (fun i => f i i) (seq 0 n).
  Proof.
    intros n f. unfold diagonal. rewrite mbuild_length. apply map_ext_in. intros i Hi. apply in_seq in Hi. unfold mnth, mbuild.
    rewrite (nth_indep _ [] (map (fun j => f O j) (seq 0 n))) by (rewrite map_length, seq_length; lia).
    rewrite (map_nth (fun i => map (fun j => f i j) (seq 0 n))), seq_nth by lia. cbn [Nat.add].
    rewrite (nth_indep _ n0 (f i O)) by (rewrite map_length, seq_length; lia).
    rewrite (map_nth (fun j => f i j)), seq_nth by lia. reflexivity.
  Qed.
  Lemma from_diagonal_not_neg : forall d, Forall not_neg d -> Forall not_neg (diagonal (from_diagonal d)).
  Proof.
    intros d H. unfold from_diagonal. rewrite diagonal_mbuild. apply Forall_forall. intros v Hv. apply in_map_iff in Hv.
    destruct Hv as [i [<- Hi]]. rewrite Nat.eqb_refl. apply in_seq in Hi. rewrite Forall_forall in H. apply H. apply nth_In. lia.
  Qed.

  Lemma state_update_scales : forall tree evals p inds s ok s', state_update tree evals p inds s = Ret (ok, s') ->
    scales_ok s -> scales_ok s'.
  Proof.
    intros tree evals p inds s ok s' H [H1 H2]. unfold state_update in H. oinv H. oinv H. oinv H. oinv H. oinv H. oinv H. oinv H.
    destruct a5 as [ok' cm].
    assert (Hs : not_neg (calc_sigma p s a1)) by (unfold calc_sigma; apply x_mul_not_neg; [exact H1|apply x_exp_not_neg]).
    assert (Hc : Forall not_neg (diagonal (cm_sqrt_eigenvalues cm))).
    { unfold set_cov in Ho5. destruct (do_eigen_update p s evals).
      - unfold update_eigendecomposition in Ho5. destruct (eigen _) as [[vecs vals]|].
        + destruct (existsb _ _).
          * apply Ret_inj in Ho5. apply (f_equal snd) in Ho5. cbn [snd] in Ho5. subst cm. exact H2.
          * oinv Ho5. oinv Ho5. oinv Ho5. apply Ret_inj in Ho5. apply (f_equal snd) in Ho5. cbn [snd] in Ho5. subst cm.
            cbn [cm_sqrt_eigenvalues]. apply from_diagonal_not_neg. apply Forall_forall. intros v Hv. apply in_map_iff in Hv.
            destruct Hv as [w [<- _]]. apply x_sqrt_not_neg.
        + apply Ret_inj in Ho5. apply (f_equal snd) in Ho5. cbn [snd] in Ho5. subst cm. exact H2.
      - apply Ret_inj in Ho5. apply (f_equal snd) in Ho5. cbn [snd] in Ho5. subst cm. exact H2. }
    destruct ok'; apply Ret_inj in H; apply (f_equal snd) in H; cbn [snd] in H; subst s'; split; assumption.
  Qed.

  Lemma reaches_scales : forall o f c, reaches ev o f c -> scales_ok (c_state c).
  Proof.
    intros o f c [c0 [l [[rs [now Hb]] H]]]. revert H. apply (steps_invariant ev (fun c => scales_ok (c_state c))).
    - clear. intros c op c' Hc Hq H. destruct (quiet_core _ _ _ _ Hq H) as [_ [_ [K3 _]]]. rewrite K3. exact Hc.
    - clear. intros par tk c r c' Hc H. apply next_outcome in H.
      destruct H as [[_ [_ [_ X]]]|[inds [ok [_ [_ [_ [X _]]]]]]]; [rewrite X; exact Hc|].
      eapply state_update_scales; eauto.
    - apply cmaes_new_inv in Hb. cbv zeta in Hb. destruct Hb as [Hv [_ [_ [S1 _]]]]. rewrite S1. split; cbn [st_sigma st_cov state_new].
      + unfold validate in Hv. destruct (length (o_initial_mean o) =? 0)%nat; [discriminate Hv|].
        destruct (o_population_size o <? 2)%N; [discriminate Hv|].
        destruct (is_initial_step_size_valid (o_initial_step_size o)) eqn:Es; [|discriminate Hv].
        unfold is_initial_step_size_valid in Es. apply andb_true_iff in Es. apply lt_asym. apply Es.
      + unfold cov_new. cbn [cm_sqrt_eigenvalues]. unfold identity. rewrite diagonal_mbuild. apply Forall_forall. intros v Hv'.
        apply in_map_iff in Hv'. destruct Hv' as [i [<- _]]. rewrite Nat.eqb_refl. unfold not_neg. cbn. apply Rltb_false. lra.
  Qed.

  Lemma vmax_In : forall d : list xreal, d <> [] -> In (vmax d) d.
  Proof.
    intros [|x l] H; [congruence|]. cbn [vmax]. clear H. revert x. induction l as [|y l IH]; intros x; cbn [fold_left]; [left; reflexivity|].
    destruct (ngeb x y); [destruct (IH x) as [H|H]; [left; exact H|right; right; exact H]|right; apply IH].
  Qed.
  Lemma vmin_In : forall d : list xreal, d <> [] -> In (vmin d) d.
  Proof.
    intros [|x l] H; [congruence|]. cbn [vmin]. clear H. revert x. induction l as [|y l IH]; intros x; cbn [fold_left]; [left; reflexivity|].
    destruct (nleb x y); [destruct (IH x) as [H|H]; [left; exact H|right; right; exact H]|right; apply IH].
  Qed.
  Lemma axis_ratio_not_neg : forall s, scales_ok s -> not_neg (axis_ratio s).
  Proof.
    intros s [_ H]. unfold axis_ratio. destruct (diagonal (cm_sqrt_eigenvalues (st_cov s))) as [|x d] eqn:Ed.
    - unfold not_neg. cbn. rewrite (proj2 (Reqb_true 0 0)) by reflexivity. unfold x_signed_inf. rewrite (proj2 (Rltb_false 0 0)) by lra. reflexivity.
    - rewrite <- Ed in *. assert (Hne : diagonal (cm_sqrt_eigenvalues (st_cov s)) <> []) by (rewrite Ed; discriminate).
      rewrite Forall_forall in H. apply x_div_not_neg; apply H; [apply vmax_In|apply vmin_In]; exact Hne.
  Qed.

  (* what is known of every recorded moment *)
  Record shot_ok (x : shot xreal) : Prop := {
    so_best : exists y, sh_best x = apply_offset y;
    so_median : exists y, sh_median x = apply_offset y;
    so_sigma : exists y, sh_sigma x = apply_offset y /\ not_neg y;
    so_ratio : exists y, sh_axis_ratio x = apply_offset y /\ not_neg y;
    so_eigen : Forall (fun v => exists y, v = apply_offset y /\ not_neg y) (sh_eigen x);
    so_scales : Forall (fun v => exists y, v = apply_offset y /\ not_neg y) (sh_scales x)
  }.
  Lemma shot_of_ok : forall (c : cmaes xreal F), scales_ok (c_state c) -> shot_ok (shot_of c).
  Proof.
    intros c H. pose proof (axis_ratio_not_neg _ H) as Hr. destruct H as [H1 H2].
    constructor; unfold shot_of, shot_at; cbn [sh_best sh_median sh_sigma sh_axis_ratio sh_eigen sh_scales]; eauto.
    - apply Forall_forall. intros v Hv. apply in_map_iff in Hv. destruct Hv as [y [<- Hy]]. exists y. split; [reflexivity|].
      apply (Permutation.Permutation_in _ (Permutation.Permutation_sym (sort_by_perm _ _))) in Hy. rewrite Forall_forall in H2. apply H2. exact Hy.
    - apply Forall_forall. intros v Hv. apply in_map_iff in Hv. destruct Hv as [y [<- Hy]]. exists (nsqrt y). split; [reflexivity|].
      apply x_sqrt_not_neg.
  Qed.
End ExactShots.
