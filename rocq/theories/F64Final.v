(* The final weights in binary64. *)
From Coq Require Import List NArith ZArith Bool Reals Lra Lia Arith Psatz Sorting.Sorted.
From Flocq Require Import Core.
From Flocq Require Import IEEE754.BinarySingleNaN.
Require Import Verif.Base Verif.Lib Verif.Num Verif.F64 Verif.XReal Verif.Weights Verif.Params Verif.Order Verif.F64Lemmas Verif.CeilLemmas Verif.XRound Verif.XLe
  Verif.F64Acc Verif.F64Weights Verif.F64Rates.
Import ListNotations.
Open Scope R_scope.

Lemma big3 : forall x, Rabs x <= 2037035976334486086268445688409378161051468393665936250636140449354381299763336706183397376 -> Rabs x <= bpow radix2 1000.
Proof. intros x H. apply Rle_trans with (bpow radix2 300); [exact H|apply bpow_le; lia]. Qed.

(* ---- filters and maps ---- *)
Lemma filter_gt_all : forall ws rs, Forall2 is ws rs -> Forall (fun r => 0 < r) rs -> filter (fun w => ngtb w n0) ws = ws.
Proof.
  intros ws rs H. induction H as [|w r ws rs Hw H IH]; intros Hr; [reflexivity|]. inversion Hr; subst. cbn [filter].
  unfold ngtb at 1. rewrite (proj2 (is_lt _ _ _ _ is0 Hw)) by assumption. f_equal. apply IH. assumption.
Qed.
Lemma filter_gt_none : forall ws rs, Forall2 is ws rs -> Forall (fun r => r <= 0) rs -> filter (fun w => ngtb w n0) ws = [].
Proof.
  intros ws rs H. induction H as [|w r ws rs Hw H IH]; intros Hr; [reflexivity|]. inversion Hr; subst. cbn [filter].
  unfold ngtb at 1. rewrite (proj2 (is_nlt _ _ _ _ is0 Hw)) by assumption. apply IH. assumption.
Qed.
Lemma filter_lt : forall ws rs, Forall2 is ws rs -> Forall2 is (filter (fun w => nltb w n0) ws) (filter (fun r => Rltb r 0) rs).
Proof.
  intros ws rs H. induction H as [|w r ws rs Hw H IH]; [constructor|]. cbn [filter].
  destruct (nltb w n0) eqn:El.
  - apply (is_lt _ _ _ _ Hw is0) in El. rewrite (proj2 (Rltb_true r 0)) by exact El. constructor; assumption.
  - apply (is_nlt _ _ _ _ Hw is0) in El. rewrite (proj2 (Rltb_false r 0)) by exact El. exact IH.
Qed.
Lemma filter_len : forall {A} (p : A -> bool) l, (length (filter p l) <= length l)%nat.
Proof. intros A p l. induction l as [|a l IH]; cbn [filter]; [auto|]. destruct (p a); cbn [length]; lia. Qed.
Lemma map_is : forall (P : R -> Prop) f g ws rs, (forall w r, is w r -> P r -> is (f w) (g r)) -> Forall2 is ws rs -> Forall P rs -> Forall2 is (map f ws) (map g rs).
Proof. intros P f g ws rs Hfg H. induction H as [|w r ws rs Hw H IH]; intros Hr; cbn [map]; constructor; inversion Hr; subst; auto. Qed.
Lemma sorted_map : forall g rs, (forall x y, y <= x -> g y <= g x) -> StronglySorted (fun a b => b <= a) rs -> StronglySorted (fun a b => b <= a) (map g rs).
Proof.
  intros g rs Hg H. induction H as [|a l Hs IH Ha]; cbn [map]; constructor; auto. apply Forall_forall. intros x Hx. apply in_map_iff in Hx.
  destruct Hx as [y [<- Hy]]. apply Hg. rewrite Forall_forall in Ha. apply Ha. exact Hy.
Qed.

(* ---- minimum with numbers that may be infinite ---- *)
Definition upward (x : f64) : Prop := nis_nan x = true \/ xle (XFin 0) (f2x x).
Lemma nmin_left : forall x y a, is x a -> 0 <= a -> upward y -> exists b, is (nmin x y) b /\ 0 <= b <= a.
Proof.
  intros x y a Hx Ha Hy. unfold nmin. rewrite (is_not_nan _ _ Hx). destruct Hy as [Hy|Hy].
  - rewrite Hy. exists a. split; [exact Hx|lra].
  - destruct (nis_nan y) eqn:Ny; [exists a; split; [exact Hx|lra]|].
    destruct (nltb x y) eqn:El; [exists a; split; [exact Hx|lra]|]. rewrite f2x_ltb, Hx in El.
    destruct (f2x y) as [|[]|r] eqn:Ey; cbn in Hy, El; try contradiction; try discriminate. apply Rltb_false in El. exists r. split; [exact Ey|lra].
Qed.
Lemma nmin_right : forall x y a, upward x -> is y a -> 0 <= a -> exists b, is (nmin x y) b /\ 0 <= b <= a.
Proof.
  intros x y a Hx Hy Ha. unfold nmin. destruct (nis_nan x) eqn:Nx; [exists a; split; [exact Hy|lra]|]. rewrite (is_not_nan _ _ Hy).
  destruct Hx as [Hx|Hx]; [congruence|]. destruct (nltb x y) eqn:El; [|exists a; split; [exact Hy|lra]]. rewrite f2x_ltb, Hy in El.
  destruct (f2x x) as [|[]|r] eqn:Ex; cbn in Hx, El; try contradiction; try discriminate. apply Rltb_true in El. exists r. split; [exact Ex|lra].
Qed.
Lemma is_upward : forall x a, is x a -> 0 <= a -> upward x.
Proof. intros x a H Ha. right. rewrite H. exact Ha. Qed.
Lemma pos_finite : forall x a, is x a -> 0 < a -> exists m e H, x = B754_finite false m e H.
Proof.
  intros x a Hx Ha. apply is_B2R in Hx. destruct Hx as [Fx Ex]. destruct x as [s|s| |s m e He]; try discriminate Fx; [cbn in Ex; lra|].
  destruct s; [|eauto]. exfalso. cbn [B2R] in Ex. assert (K : F2R (Float radix2 (cond_Zopp true (Zpos m)) e) < 0) by (apply F2R_lt_0; reflexivity). lra.
Qed.

Section Final.
  Variables (ws : list f64) (rs : list R) (mu : N) (setting : weights_setting) (dim : N).
  Hypotheses (Hraw : raw_ok ws rs (N.to_nat mu)) (Hd : (1 <= dim <= 9007199254740992)%N).
  Let iw := mkIW ws setting mu.
  Let c1 := calc_c1 dim (iw_mu_eff iw).
  Let cmu := calc_cmu dim (iw_mu_eff iw) c1.
  Let k := N.to_nat mu.

  Lemma mu_real : IZR (Z.of_N mu) = INR k.
  Proof. rewrite INR_IZR_INZ. unfold k. f_equal. lia. Qed.
  Lemma mu_small : INR k <= 1099511627776.
  Proof. destruct (ra_len _ _ _ Hraw) as [A B]. rewrite INR_IZR_INZ. apply IZR_le. unfold k. lia. Qed.

  (* a number of at least 0, for the negative weights *)
  Lemma alpha : forall mm m, is mm m -> 0 <= m <= 1000000000000000000000000000000000000000000000000000000000000 ->
    exists a, is (nmin (nadd n1 (ndiv c1 cmu))
                       (nmin (nadd n1 (ndiv (nmul n2 mm) (nadd (iw_mu_eff iw) n2)))
                             (ndiv (nsub (nsub n1 c1) cmu) (nmul (nofN dim) cmu)))) a /\
      0 <= a <= 10000000000000000000000000000000000000000000000000000000000000.
  Proof.
    intros mm m Hm Hmm. destruct (mu_eff_acc ws rs mu setting Hraw) as [M [HM [M1 [M2 M3]]]]. fold iw in HM.
    rewrite mu_real in M3. pose proof mu_small as Hk.
    assert (M4 : M <= 1200000000000) by lra.
    destruct (c1_ok dim (iw_mu_eff iw) M Hd HM M1 M4) as [c [Ic Hc]]. fold c1 in Ic.
    pose proof (cmu_ok dim (iw_mu_eff iw) M Hd HM M1 M4 c Ic) as Hcmu. fold c1 in Hcmu. fold cmu in Hcmu. specialize (Hcmu ltac:(lra) ltac:(lra)).
    pose proof (D_is dim Hd) as HD. pose proof (D_range dim Hd) as Dr. set (D := IZR (Z.of_N dim)) in *.
    assert (I1 : is (nsub n1 c1) (rnd64 (1 - c))) by (apply is_sub; [exact is1|exact Ic|apply bigp; lra]).
    destruct (near (1 - c)) as [N1 N2]; [lra|]. set (e := rnd64 (1 - c)) in *.
    (* the middle candidate is finite *)
    assert (J1 : is (nmul n2 mm) (2 * m)) by (apply rnd_dbl; [exact Hm|apply big3; rewrite Rabs_pos_eq; lra]).
    assert (J2 : is (nadd (iw_mu_eff iw) n2) (rnd64 (M + 2))) by (apply is_add; [exact HM|exact is2|apply bigp; lra]).
    assert (J3 : 2 <= rnd64 (M + 2)) by (apply (rnd_int_le 2); [lia|lra]). set (d := rnd64 (M + 2)) in *. clearbody d.
    assert (Q1 : 0 <= 2 * m / d) by (apply Rmult_le_pos; [lra|left; apply Rinv_0_lt_compat; lra]).
    assert (Q2 : 2 * m / d <= m) by (apply Rmult_le_reg_r with d; [lra|]; replace (2 * m / d * d) with (2 * m) by (field; lra); nra).
    assert (J4 : is (ndiv (nmul n2 mm) (nadd (iw_mu_eff iw) n2)) (rnd64 (2 * m / d))) by (apply is_div; auto; [lra|apply big3; rewrite Rabs_pos_eq; lra]).
    assert (J5 : 0 <= rnd64 (2 * m / d)) by (apply rnd_nonneg; exact Q1).
    assert (J6 : rnd64 (2 * m / d) <= 1606938044258990275541962092341162602522202993782792835301376).
    { change 1606938044258990275541962092341162602522202993782792835301376 with (bpow radix2 200).
      rewrite <- (rnd64_id (bpow radix2 200)) by (apply generic_format_bpow; unfold SpecFloat.fexp, SpecFloat.emin; lia). apply rnd64_le.
      change (bpow radix2 200) with 1606938044258990275541962092341162602522202993782792835301376. lra. }
    set (f := rnd64 (2 * m / d)) in *. clearbody f.
    assert (J7 : is (nadd n1 (ndiv (nmul n2 mm) (nadd (iw_mu_eff iw) n2))) (rnd64 (1 + f))) by (apply is_add; [exact is1|exact J4|apply big3; rewrite Rabs_pos_eq; lra]).
    destruct (near (1 + f)) as [_ J8]; [lra|]. assert (J9 : 0 <= rnd64 (1 + f)) by (apply rnd_nonneg; lra). set (g := rnd64 (1 + f)) in *. clearbody g.
    (* the other two are not negative *)
    assert (UA : upward (nadd n1 (ndiv c1 cmu)) /\ upward (ndiv (nsub (nsub n1 c1) cmu) (nmul (nofN dim) cmu))).
    { destruct Hcmu as [[_ E0]|[_ [y [Iy Hy]]]].
      - rewrite E0. split.
        + destruct (pos_finite _ _ Ic ltac:(lra)) as [p [q [H ->]]]. right. exact I.
        + assert (I2 : is (nsub (nsub n1 c1) (B754_zero false)) e).
          { pose proof (is_sub _ _ _ _ I1 (eq_refl : is (B754_zero false) 0)) as K. rewrite Rminus_0_r, (is_round _ _ I1) in K. apply K. apply bigp; lra. }
          destruct (pos_finite _ _ HD ltac:(lra)) as [p [q [H ->]]]. change (nmul (B754_finite false p q H : f64) (B754_zero false)) with (B754_zero false : f64).
          destruct (pos_finite _ _ I2 ltac:(lra)) as [p2 [q2 [H2 ->]]]. right. exact I.
      - split.
        + assert (R1 : 0 < c / y) by (apply Rdiv_lt_0_compat; lra).
          assert (R2 : c / y <= 1000000000000000000000000000000000000).
          { apply Rmult_le_reg_r with y; [lra|]. replace (c / y * y) with c by (field; lra). lra. }
          assert (I2 : is (ndiv c1 cmu) (rnd64 (c / y))) by (apply is_div; auto; [lra|apply bigp; lra]).
          assert (R3 : 0 <= rnd64 (c / y)) by (apply rnd_nonneg; lra).
          assert (R4 : rnd64 (c / y) <= bpow radix2 200).
          { rewrite <- (rnd64_id (bpow radix2 200)) by (apply generic_format_bpow; unfold SpecFloat.fexp, SpecFloat.emin; lia). apply rnd64_le.
            change (bpow radix2 200) with 1606938044258990275541962092341162602522202993782792835301376. lra. }
          change (bpow radix2 200) with 1606938044258990275541962092341162602522202993782792835301376 in R4.
          eapply is_upward; [apply is_add; [exact is1|exact I2|apply big3; rewrite Rabs_pos_eq; lra]|]. apply rnd_nonneg. lra.
        + assert (I2 : is (nsub (nsub n1 c1) cmu) (rnd64 (e - y))) by (apply is_sub; auto; apply bigp; lra).
          assert (R0 : 0 <= rnd64 (e - y)) by (apply rnd_nonneg; lra). assert (R0' : rnd64 (e - y) <= 2) by (apply (rnd_le_int 2); [lia|lra]).
          assert (I3 : is (nmul (nofN dim) cmu) (rnd64 (D * y))) by (apply is_mul; auto; apply bigp; nra).
          assert (Hlow : / 1000000000000000000000000000000000000 <= D * y) by nra. destruct (near (D * y)) as [R1 _]; [lra|].
          set (x := rnd64 (e - y)) in *. set (z := rnd64 (D * y)) in *. clearbody x z.
          assert (z0 : / 2000000000000000000000000000000000000 <= z) by lra.
          assert (R2 : 0 <= x / z) by (apply Rmult_le_pos; [lra|left; apply Rinv_0_lt_compat; lra]).
          assert (R3 : x / z <= 10000000000000000000000000000000000000).
          { apply Rmult_le_reg_r with z; [lra|]. replace (x / z * z) with x by (field; lra). lra. }
          eapply is_upward; [apply is_div; [exact I2|exact I3|lra|apply bigp; lra]|]. apply rnd_nonneg. exact R2. }
    destruct UA as [U1 U2]. destruct (nmin_left _ _ _ J7 J9 U2) as [b [Ib Hb]]. destruct (nmin_right _ _ _ U1 Ib ltac:(lra)) as [a [Ia Ha]].
    exists a. split; [exact Ia|lra].
  Qed.

  Lemma final_weights : exists gs, Forall2 is (iw_finalize iw dim c1 cmu) gs /\ length gs = length rs /\
    Forall (fun r => 0 < r) (firstn k gs) /\ Forall (fun r => r <= 0) (skipn k gs) /\ StronglySorted (fun a b => b <= a) gs /\
    1 - INR (k + 1) / 4503599627370496 <= tot (firstn k gs) <= 1 + INR (k + 1) / 4503599627370496.
  Proof.
    destruct (mu_eff_acc ws rs mu setting Hraw) as [M [HM [M1 [M2 M3]]]]. fold iw in HM. pose proof (alpha) as Alpha.
    destruct Hraw as [Hi Hm [Hl1 Hl2] Hp Hn Hs Hsort _]. unfold iw_finalize. cbn [iw iw_weights]. fold k in Hm, Hl1, Hp, Hn, Hs.
    pose proof (Forall2_firstn is k _ _ Hi) as Hf. pose proof (Forall2_skipn is k _ _ Hi) as Hsk.
    assert (Hp0 : Forall (fun r => 0 < r) (firstn k rs)) by (eapply Forall_impl; [|exact Hp]; cbn beta; intros; lra).
    assert (Hn0 : Forall (fun r => r <= 0) (skipn k rs)) by (eapply Forall_impl; [|exact Hn]; cbn beta; intros; lra).
    assert (Ef : filter (fun w => ngtb w n0) ws = firstn k ws).
    { rewrite <- (firstn_skipn k ws) at 1. rewrite filter_app, (filter_gt_all _ _ Hf Hp0), (filter_gt_none _ _ Hsk Hn0), app_nil_r. reflexivity. }
    rewrite Ef. clear Ef.
    assert (Lf : length (firstn k rs) = k) by (apply firstn_length_le; exact Hl1).
    destruct (sum_acc _ _ Hf) as [S [S1 [S2 S3]]].
    { eapply Forall_impl; [|exact Hp]. cbn beta. intros r Hr. apply bp200. lra. }
    { lia. }
    assert (Slen : (1 - INR k * uu) * tot (firstn k rs) <= S /\ S * (1 - INR k * uu) <= tot (firstn k rs)).
    { destruct (sum_acc_len _ _ Hf) as [S' [A1 [A2 A3]]].
      { eapply Forall_impl; [|exact Hp]. cbn beta. intros r Hr. apply bp200. lra. }
      { lia. }
      rewrite (is_fun _ _ _ S1 A1). rewrite Lf in A2, A3. auto. }
    set (P := tot (firstn k rs)) in *.
    assert (HP : small <= P).
    { unfold P. destruct (firstn k rs) as [|r l] eqn:Er; [cbn in Lf; lia|]. inversion Hp as [|? ? Hr Hl]; subst. change (tot (r :: l)) with (r + tot l).
      assert (0 <= tot l) by (apply tot_nonneg; eapply Forall_impl; [|exact Hl]; cbn beta; intros; lra). lra. }
    assert (HP2 : P <= INR k * 64) by (unfold P; rewrite <- Lf at 2; apply tot_le; eapply Forall_impl; [|exact Hp]; cbn beta; intros; lra).
    pose proof mu_small as Hk. assert (S0 : / 5000000000000 <= S) by lra. assert (SU : S <= 100000000000000) by lra.
    assert (Hall : Forall (fun r => -64 <= r <= 64 /\ (0 < r -> small <= r)) rs).
    { rewrite <- (firstn_skipn k rs). apply Forall_app. split; [eapply Forall_impl; [|exact Hp]|eapply Forall_impl; [|exact Hn]]; cbn beta; intros; lra. }
    set (g1 := fun r => if Rlt_dec 0 r then rnd64 (r / S) else r).
    assert (Hg1 : forall r, small <= r <= 64 -> r / S * (1 - uu) <= rnd64 (r / S) <= r / S * (1 + uu) /\ / 500000000000000000000000000000 <= r / S <= 500000000000000).
    { intros r Hr. assert (A : / 500000000000000000000000000000 <= r / S) by (apply Rmult_le_reg_r with S; [lra|]; replace (r / S * S) with r by (field; lra); lra).
      split; [apply near; lra|]. split; [exact A|]. apply Rmult_le_reg_r with S; [lra|]; replace (r / S * S) with r by (field; lra); lra. }
    assert (I1 : Forall2 is (map (fun w => if ngtb w n0 then ndiv w (nsum (firstn k ws)) else w) ws) (map g1 rs)).
    { apply (map_is (fun r => -64 <= r <= 64 /\ (0 < r -> small <= r))); auto. intros w r Hw [Hr Hr2]. unfold ngtb, g1. destruct (nltb n0 w) eqn:El.
      - apply (is_lt _ _ _ _ is0 Hw) in El. destruct (Rlt_dec 0 r); [|lra]. destruct (Hg1 r) as [_ B]; [lra|].
        apply is_div; auto; [lra|apply bigp; lra].
      - apply (is_nlt _ _ _ _ is0 Hw) in El. destruct (Rlt_dec 0 r); [lra|exact Hw]. }
    assert (mono1 : forall x y, y <= x -> g1 y <= g1 x).
    { intros x y Hxy. unfold g1. destruct (Rlt_dec 0 y), (Rlt_dec 0 x); try lra.
      - apply rnd64_le. apply Rmult_le_compat_r; [left; apply Rinv_0_lt_compat; lra|exact Hxy].
      - apply Rle_trans with 0; [lra|]. apply rnd_nonneg. apply Rmult_le_pos; [lra|left; apply Rinv_0_lt_compat; lra]. }
    assert (Hpos1 : Forall (fun r => 0 < r) (firstn k (map g1 rs))).
    { rewrite firstn_map. apply Forall_forall. intros x Hx. apply in_map_iff in Hx. destruct Hx as [r [<- Hr]]. rewrite Forall_forall in Hp.
      specialize (Hp r Hr). unfold g1. destruct (Rlt_dec 0 r); [|lra]. destruct (Hg1 r Hp) as [[A _] [B _]]. set (y := rnd64 (r / S)) in *. clearbody y. lra. }
    assert (Hneg1 : skipn k (map g1 rs) = skipn k rs).
    { rewrite skipn_map. rewrite <- (map_id (skipn k rs)) at 2. apply map_ext_in. intros r Hr. rewrite Forall_forall in Hn0. specialize (Hn0 r Hr).
      unfold g1. destruct (Rlt_dec 0 r); [lra|reflexivity]. }
    assert (Htot : 1 - INR (k + 1) / 4503599627370496 <= tot (firstn k (map g1 rs)) <= 1 + INR (k + 1) / 4503599627370496).
    { assert (A : P / S * (1 - uu) <= tot (firstn k (map g1 rs)) <= P / S * (1 + uu)).
      { rewrite firstn_map. unfold P. clear - Hp Hg1. induction Hp as [|r l Hr Hl IH]; [cbn; lra|]. cbn [map].
        change (tot (r :: l)) with (r + tot l). change (tot (g1 r :: map g1 l)) with (g1 r + tot (map g1 l)).
        destruct (Hg1 r Hr) as [B _]. replace (g1 r) with (rnd64 (r / S)) by (unfold g1; destruct (Rlt_dec 0 r); [reflexivity|lra]).
        set (y := rnd64 (r / S)) in *. clearbody y. unfold Rdiv in *. rewrite Rmult_plus_distr_r. lra. }
      pose proof (pos_INR k) as K0. assert (Kk : 0 <= INR k * uu <= / 8192) by lra. replace (INR (k + 1)) with (INR k + 1) by (rewrite plus_INR; reflexivity).
      assert (B1 : 1 - INR k * uu <= P / S) by (apply Rmult_le_reg_r with S; [lra|]; replace (P / S * S) with P by (field; lra); lra).
      assert (B2 : P / S * (1 - INR k * uu) <= 1) by (apply Rmult_le_reg_r with S; [lra|]; replace (P / S * (1 - INR k * uu) * S) with ((1 - INR k * uu) * P) by (field; lra); lra).
      replace ((INR k + 1) / 4503599627370496) with (2 * (INR k * uu) + 2 * uu) by field.
      set (y := tot _) in *. set (v := P / S) in *. set (h := INR k * uu) in *. clearbody y v h.
      assert (B3 : v <= 1 + 11 / 10 * h) by nra. nra. }
    assert (Hsort1 : StronglySorted (fun a b => b <= a) (map g1 rs)) by (apply sorted_map; assumption).
    unfold iw_mu_eff_minus. cbn [iw iw_mu iw_weights]. destruct (N.ltb_spec mu (N.of_nat (length ws))) as [Hlt|Hge].
    2: { exists (map g1 rs). split; [exact I1|]. split; [apply map_length|]. split; [exact Hpos1|]. split; [rewrite Hneg1; exact Hn0|]. split; [exact Hsort1|exact Htot]. }
    (* negative weights *)
    assert (Lw : length ws = length rs) by (eapply Verif.Lib.Forall2_len; exact Hi).
    assert (Hne : skipn k rs <> []).
    { intros E0. apply (f_equal (@length R)) in E0. rewrite skipn_length in E0. cbn in E0. unfold k in E0. lia. }
    specialize (Hs Hne). apply Exists_exists in Hs. destruct Hs as [r0 [Hr0 Hneg]].
    assert (Hr0' : -64 <= r0 <= - small) by (rewrite Forall_forall in Hn; specialize (Hn r0 Hr0); lra).
    assert (Lsk : (Z.of_nat (length (skipn k rs)) <= 1099511627776)%Z) by (rewrite skipn_length; lia).
    destruct (sum_neg 64 _ _ ltac:(lia) Hsk) as [T [T1 [T2 T3]]].
    { eapply Forall_impl; [|exact Hn]. cbn beta. intros; lra. }
    { unfold B53. lia. }
    fold k. rewrite Forall_forall in T3. specialize (T3 r0 Hr0).
    assert (Hsk64 : Forall (fun r => -64 <= r <= 64) (skipn k rs)) by (eapply Forall_impl; [|exact Hn]; cbn beta; intros; lra).
    pose proof (squares_is _ _ Hsk Hsk64) as Hsq.
    destruct (sum_bound 4096 _ _ ltac:(lia) Hsq) as [Q [Q1 [Q2 Q3]]].
    { apply Forall_forall. intros x Hx. apply in_map_iff in Hx. destruct Hx as [r [<- Hr]]. rewrite Forall_forall in Hsk64. specialize (Hsk64 r Hr).
      split; [apply rnd_nonneg; nra|apply (rnd_le_int 4096); [lia|nra]]. }
    { rewrite map_length. unfold B53. lia. }
    assert (Q4 : / 30000000000000000000000000 <= Q).
    { rewrite Forall_forall in Q3. specialize (Q3 (rnd64 (r0 * r0)) (in_map _ _ _ Hr0)).
      assert (L : / 20000000000000000000000000 <= r0 * r0) by nra. destruct (near (r0 * r0)) as [A _]; [lra|]. set (y := rnd64 (r0 * r0)) in *. clearbody y. lra. }
    assert (TB : -71000000000000 <= T).
    { apply Rle_trans with (2 := proj1 T2). apply Ropp_le_contravar. apply (IZR_le _ 71000000000000). lia. }
    assert (TT : 0 <= T * T <= 5041000000000000000000000000) by nra.
    assert (I2 : is (powi (nsum (skipn k ws)) 2) (rnd64 (T * T))) by (apply is_powi2; [exact T1|apply bigp; lra]).
    assert (W0 : 0 <= rnd64 (T * T)) by (apply rnd_nonneg; lra).
    assert (W1 : rnd64 (T * T) <= bpow radix2 93).
    { rewrite <- (rnd64_id (bpow radix2 93)) by (apply generic_format_bpow; unfold SpecFloat.fexp, SpecFloat.emin; lia). apply rnd64_le.
      change (bpow radix2 93) with 9903520314283042199192993792. lra. }
    change (bpow radix2 93) with 9903520314283042199192993792 in W1. set (x := rnd64 (T * T)) in *. clearbody x.
    assert (X0 : 0 <= x / Q) by (apply Rmult_le_pos; [lra|left; apply Rinv_0_lt_compat; lra]).
    assert (X1 : x / Q <= 500000000000000000000000000000000000000000000000000000).
    { apply Rmult_le_reg_r with Q; [lra|]. replace (x / Q * Q) with x by (field; lra). lra. }
    assert (I3 : is (ndiv (powi (nsum (skipn k ws)) 2) (nsum (map (fun w => powi w 2) (skipn k ws)))) (rnd64 (x / Q))) by (apply is_div; auto; [lra|apply bigp; lra]).
    assert (Y0 : 0 <= rnd64 (x / Q)) by (apply rnd_nonneg; lra).
    assert (Y1 : rnd64 (x / Q) <= bpow radix2 180).
    { rewrite <- (rnd64_id (bpow radix2 180)) by (apply generic_format_bpow; unfold SpecFloat.fexp, SpecFloat.emin; lia). apply rnd64_le.
      change (bpow radix2 180) with 1532495540865888858358347027150309183618739122183602176. lra. }
    change (bpow radix2 180) with 1532495540865888858358347027150309183618739122183602176 in Y1.
    destruct (Alpha _ _ I3) as [a [Ia Ha]]; [lra|]. unfold cmu, c1 in Ia. set (av := nmin _ _) in *. clearbody av.
    (* the sum of the negative ones *)
    pose proof (filter_lt _ _ I1) as Hfl.
    assert (Hin1 : In r0 (map g1 rs)) by (rewrite <- (firstn_skipn k (map g1 rs)); apply in_or_app; right; rewrite Hneg1; exact Hr0).
    assert (Hall1 : Forall (fun r => r < 0 -> -64 <= r <= - small) (map g1 rs)).
    { rewrite <- (firstn_skipn k (map g1 rs)). apply Forall_app. rewrite Hneg1. split; [eapply Forall_impl; [|exact Hpos1]|eapply Forall_impl; [|exact Hn]]; cbn beta; intros; lra. }
    destruct (sum_neg 64 _ _ ltac:(lia) Hfl) as [N [N1 [N2 N3]]].
    { apply Forall_forall. intros r Hr. apply filter_In in Hr. destruct Hr as [Hr1 Hr2]. apply Rltb_true in Hr2. rewrite Forall_forall in Hall1. specialize (Hall1 r Hr1 Hr2). lra. }
    { pose proof (filter_len (fun r => Rltb r 0) (map g1 rs)) as FL. rewrite map_length in FL. unfold B53. lia. }
    assert (N4 : N <= - small).
    { rewrite Forall_forall in N3. apply Rle_trans with r0; [|lra]. apply N3. apply filter_In. split; [exact Hin1|]. apply Rltb_true. lra. }
    assert (I4 : is (nabs (nsum (filter (fun w => nltb w n0) (map (fun w => if ngtb w n0 then ndiv w (nsum (firstn k ws)) else w) ws)))) (- N)).
    { unfold is in *. rewrite f2x_abs, N1. cbn [x_abs]. f_equal. apply Rabs_left. lra. }
    set (sn := nabs _) in *. clearbody sn. set (B := - N) in *. assert (HB : small <= B) by (unfold B; lra). clearbody B.
    set (g2 := fun r => if Rlt_dec r 0 then rnd64 (rnd64 (r * a) / B) else r).
    assert (Hra : forall r, -64 <= r < 0 -> -1000000000000000000000000000000000000000000000000000000000000000 <= rnd64 (r * a) <= 0 /\
      -10000000000000000000000000000000000000000000000000000000000000000000000000000 <= rnd64 (r * a) / B <= 0).
    { intros r Hr. assert (A1 : -640000000000000000000000000000000000000000000000000000000000000 <= r * a <= 0) by nra.
      assert (A2 : rnd64 (r * a) <= 0) by (apply rnd_nonpos; lra).
      assert (A3 : - bpow radix2 209 <= rnd64 (r * a)).
      { rewrite <- (rnd64_id (bpow radix2 209)) by (apply generic_format_bpow; unfold SpecFloat.fexp, SpecFloat.emin; lia). rewrite <- rnd64_opp. apply rnd64_le.
        change (bpow radix2 209) with 822752278660603021077484591278675252491367932816789931674304512. lra. }
      change (bpow radix2 209) with 822752278660603021077484591278675252491367932816789931674304512 in A3. set (y := rnd64 (r * a)) in *. clearbody y.
      split; [lra|]. assert (IB : 0 < / B <= 4398046511104).
      { split; [apply Rinv_0_lt_compat; lra|]. rewrite <- (Rinv_inv 4398046511104). apply Rinv_le_contravar; lra. }
      unfold Rdiv. split; nra. }
    assert (I5 : Forall2 is (map (fun w => if nltb w n0 then ndiv (nmul w av) sn else w) (map (fun w => if ngtb w n0 then ndiv w (nsum (firstn k ws)) else w) ws)) (map g2 (map g1 rs))).
    { apply (map_is (fun r => r < 0 -> -64 <= r <= - small)); auto. intros w r Hw Hr. unfold g2. destruct (nltb w n0) eqn:El.
      - apply (is_lt _ _ _ _ Hw is0) in El. destruct (Rlt_dec r 0); [|lra]. specialize (Hr El). destruct (Hra r) as [A1 A2]; [lra|].
        assert (J : is (nmul w av) (rnd64 (r * a))) by (apply is_mul; auto; apply big3; apply Rabs_le; nra).
        apply is_div; auto; [lra|]. apply big3. apply Rabs_le. set (y := rnd64 (r * a) / B) in *. clearbody y. lra.
      - apply (is_nlt _ _ _ _ Hw is0) in El. destruct (Rlt_dec r 0); [lra|exact Hw]. }
    assert (iB : 0 < / B) by (apply Rinv_0_lt_compat; lra).
    assert (np : forall r, r < 0 -> rnd64 (rnd64 (r * a) / B) <= 0).
    { intros r Hr. apply rnd_nonpos. assert (A : rnd64 (r * a) <= 0) by (apply rnd_nonpos; nra). unfold Rdiv. set (y := rnd64 (r * a)) in *. clearbody y. nra. }
    assert (mono2 : forall x y, y <= x -> g2 y <= g2 x).
    { intros u v Huv. unfold g2. destruct (Rlt_dec v 0) as [Lv|Lv], (Rlt_dec u 0) as [Lu|Lu]; try lra.
      - apply rnd64_le. apply Rmult_le_compat_r; [lra|]. apply rnd64_le. nra.
      - specialize (np v Lv). lra. }
    assert (Epos : firstn k (map g2 (map g1 rs)) = firstn k (map g1 rs)).
    { rewrite (firstn_map g2 k (map g1 rs)). rewrite <- (map_id (firstn k (map g1 rs))) at 2. apply map_ext_in. intros r Hr. rewrite Forall_forall in Hpos1.
      specialize (Hpos1 r Hr). unfold g2. destruct (Rlt_dec r 0); [lra|reflexivity]. }
    exists (map g2 (map g1 rs)). split; [exact I5|]. split; [rewrite !map_length; reflexivity|]. rewrite Epos. split; [exact Hpos1|].
    split; [|split; [apply sorted_map; assumption|exact Htot]].
    rewrite (skipn_map g2 k (map g1 rs)), Hneg1. apply Forall_forall. intros z Hz. apply in_map_iff in Hz. destruct Hz as [r [<- Hr]].
    rewrite Forall_forall in Hn0. specialize (Hn0 r Hr). unfold g2. destruct (Rlt_dec r 0) as [L|L]; [apply np; exact L|exact Hn0].
  Qed.
End Final.
