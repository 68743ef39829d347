(* Weights and learning rates in binary64, for a logarithm of ordinary accuracy. *)
From Coq Require Import List NArith ZArith Bool Reals Lra Lia Arith Psatz Sorting.Sorted.
From Flocq Require Import Core Sterbenz.
From Flocq Require Import IEEE754.BinarySingleNaN.
Require Import Verif.Base Verif.Num Verif.F64 Verif.XReal Verif.Weights Verif.Params Verif.Order Verif.F64Lemmas Verif.CeilLemmas Verif.XRound Verif.XLe Verif.F64Acc.
Import ListNotations.
Open Scope R_scope.

Lemma is_inj : forall x y a, is x a -> is y a -> a <> 0 -> x = y.
Proof.
  intros x y a Hx Hy Ha. apply is_B2R in Hx, Hy. destruct Hx as [Fx Ex], Hy as [Fy Ey].
  apply B2R_inj; [| |congruence].
  - destruct x as [s|s| |s m e He]; try discriminate; [cbn in Ex; lra|reflexivity].
  - destruct y as [s|s| |s m e He]; try discriminate; [cbn in Ey; lra|reflexivity].
Qed.
Lemma big : forall x, Rabs x <= 1606938044258990275541962092341162602522202993782792835301376 -> Rabs x <= bpow radix2 1000.
Proof. intros x H. apply Rle_trans with (bpow radix2 200); [exact H|apply bpow_le; lia]. Qed.
Lemma bigp : forall x, 0 <= x -> x <= 1606938044258990275541962092341162602522202993782792835301376 -> Rabs x <= bpow radix2 1000.
Proof. intros x H0 H. apply big. rewrite Rabs_pos_eq; assumption. Qed.

(* ---- plain sums ---- *)
Definition B53 : Z := 9007199254740992.
Lemma sum_bound_from : forall (b : Z) ws rs acc s (k : Z), (0 < b)%Z -> (0 <= k)%Z ->
  Forall2 is ws rs -> Forall (fun r => 0 <= r <= IZR b) rs -> is acc s -> 0 <= s <= IZR (b * k) ->
  (b * (k + Z.of_nat (length rs)) <= B53)%Z ->
  exists s', is (fold_left nadd ws acc) s' /\ s <= s' <= IZR (b * (k + Z.of_nat (length rs))) /\ Forall (fun r => r <= s') rs.
Proof.
  intros b ws rs acc s k Hb Hk H. revert acc s k Hk. induction H as [|w r ws rs Hw _ IH]; intros acc s k Hk Hr Ha Hs Hl.
  - exists s. cbn [fold_left length]. rewrite Z.add_0_r. split; [exact Ha|]. split; [lra|constructor].
  - inversion Hr as [|? ? Hr1 Hr2]; subst. cbn [fold_left length] in *. rewrite Nat2Z.inj_succ in *.
    assert (Hle : s + r <= IZR (b * (k + 1))) by (rewrite Z.mul_add_distr_l, plus_IZR, Z.mul_1_r; lra).
    assert (Hbd : (0 <= b * (k + 1) <= B53)%Z) by (split; [nia|]; apply Z.le_trans with (2 := Hl); apply Z.mul_le_mono_nonneg_l; lia).
    assert (Hsmall : IZR (b * (k + 1)) <= 9007199254740992) by (apply (IZR_le _ B53); lia).
    assert (Hn : is (nadd acc w) (rnd64 (s + r))) by (apply is_add; auto; apply bigp; lra).
    destruct (IH (nadd acc w) (rnd64 (s + r)) (k + 1)%Z) as [s' [K1 [K2 K3]]]; auto; try lia.
    + split; [apply rnd_nonneg; lra|]. apply rnd_le_int; [unfold B53 in *; lia|exact Hle].
    + replace (k + 1 + Z.of_nat (length rs))%Z with (k + Z.succ (Z.of_nat (length rs)))%Z in K2 by lia.
      assert (Q1 : s <= rnd64 (s + r)) by (rewrite <- (is_round _ _ Ha) at 1; apply rnd64_le; lra).
      assert (Q2 : r <= rnd64 (s + r)) by (rewrite <- (is_round _ _ Hw) at 1; apply rnd64_le; lra).
      exists s'. split; [exact K1|]. split; [lra|]. constructor; [lra|exact K3].
Qed.
Lemma sum_bound : forall (b : Z) ws rs, (0 < b)%Z -> Forall2 is ws rs -> Forall (fun r => 0 <= r <= IZR b) rs ->
  (b * Z.of_nat (length rs) <= B53)%Z ->
  exists s, is (nsum ws) s /\ 0 <= s <= IZR (b * Z.of_nat (length rs)) /\ Forall (fun r => r <= s) rs.
Proof.
  intros b ws rs Hb H Hr Hl. destruct (sum_bound_from b ws rs n0 0 0 Hb (Z.le_refl 0) H Hr (is_ofZ 0 ltac:(lia))) as [s K].
  - rewrite Z.mul_0_r. lra.
  - exact Hl.
  - exists s. exact K.
Qed.
Lemma is_neg : forall x r, is x r -> is (nneg x) (- r).
Proof. unfold is. intros x r H. rewrite f2x_neg, H. reflexivity. Qed.
Lemma sum_neg_from : forall (b : Z) ws rs acc s (k : Z), (0 < b)%Z -> (0 <= k)%Z ->
  Forall2 is ws rs -> Forall (fun r => - IZR b <= r <= 0) rs -> is acc s -> - IZR (b * k) <= s <= 0 ->
  (b * (k + Z.of_nat (length rs)) <= B53)%Z ->
  exists s', is (fold_left nadd ws acc) s' /\ - IZR (b * (k + Z.of_nat (length rs))) <= s' <= s /\ Forall (fun r => s' <= r) rs.
Proof.
  intros b ws rs acc s k Hb Hk H. revert acc s k Hk. induction H as [|w r ws rs Hw _ IH]; intros acc s k Hk Hr Ha Hs Hl.
  - exists s. cbn [fold_left length]. rewrite Z.add_0_r. split; [exact Ha|]. split; [lra|constructor].
  - inversion Hr as [|? ? Hr1 Hr2]; subst. cbn [fold_left length] in *. rewrite Nat2Z.inj_succ in *.
    assert (Hle : - IZR (b * (k + 1)) <= s + r) by (rewrite Z.mul_add_distr_l, plus_IZR, Z.mul_1_r; lra).
    assert (Hbd : (0 <= b * (k + 1) <= B53)%Z) by (split; [nia|]; apply Z.le_trans with (2 := Hl); apply Z.mul_le_mono_nonneg_l; lia).
    assert (Hsmall : IZR (b * (k + 1)) <= 9007199254740992) by (apply (IZR_le _ B53); lia).
    assert (Hn : is (nadd acc w) (rnd64 (s + r))) by (apply is_add; auto; apply big; apply Rabs_le; lra).
    destruct (IH (nadd acc w) (rnd64 (s + r)) (k + 1)%Z) as [s' [K1 [K2 K3]]]; auto; try lia.
    + split; [|apply rnd_nonpos; lra]. rewrite <- opp_IZR in *. apply rnd_int_le; [unfold B53 in *; lia|exact Hle].
    + replace (k + 1 + Z.of_nat (length rs))%Z with (k + Z.succ (Z.of_nat (length rs)))%Z in K2 by lia.
      assert (Q1 : rnd64 (s + r) <= s) by (rewrite <- (is_round _ _ Ha) at 2; apply rnd64_le; lra).
      assert (Q2 : rnd64 (s + r) <= r) by (rewrite <- (is_round _ _ Hw) at 2; apply rnd64_le; lra).
      exists s'. split; [exact K1|]. split; [lra|]. constructor; [lra|exact K3].
Qed.
Lemma sum_neg : forall (b : Z) ws rs, (0 < b)%Z -> Forall2 is ws rs -> Forall (fun r => - IZR b <= r <= 0) rs ->
  (b * Z.of_nat (length rs) <= B53)%Z ->
  exists s, is (nsum ws) s /\ - IZR (b * Z.of_nat (length rs)) <= s <= 0 /\ Forall (fun r => s <= r) rs.
Proof.
  intros b ws rs Hb H Hr Hl. destruct (sum_neg_from b ws rs n0 0 0 Hb (Z.le_refl 0) H Hr (is_ofZ 0 ltac:(lia))) as [s K].
  - rewrite Z.mul_0_r. lra.
  - exact Hl.
  - exists s. exact K.
Qed.

(* ---- raw weights ---- *)
Notation small := (/ 4398046511104).
Record raw_ok (ws : list f64) (rs : list R) (mu : nat) : Prop := {
  ra_is : Forall2 is ws rs;
  ra_mu : (1 <= mu)%nat;
  ra_len : (mu <= length rs <= N.to_nat 1099511627776)%nat;
  ra_pos : Forall (fun r => small <= r <= 64) (firstn mu rs);
  ra_neg : Forall (fun r => r = 0 \/ -64 <= r <= - small) (skipn mu rs);
  ra_some : skipn mu rs <> [] -> Exists (fun r => r < 0) (skipn mu rs);
  ra_sorted : StronglySorted (fun a b => b <= a) rs;
  ra_second : (2 <= mu)%nat -> 15 / 100 * nth 0 rs 0 <= nth 1 rs 0
}.

Lemma Forall2_firstn : forall {A B} (P : A -> B -> Prop) n l m, Forall2 P l m -> Forall2 P (firstn n l) (firstn n m).
Proof. intros A B P n l m H. revert n. induction H; intros [|n]; cbn [firstn]; constructor; auto. Qed.
Lemma Forall2_skipn : forall {A B} (P : A -> B -> Prop) n l m, Forall2 P l m -> Forall2 P (skipn n l) (skipn n m).
Proof. intros A B P n l m H. revert n. induction H as [|a b l m Hab H IH]; intros [|n]; cbn [skipn]; auto. Qed.

Lemma bp200 : forall r, / 316912650057057350374175801344 <= r <= 1267650600228229401496703205376 -> bpow radix2 (-200) <= r <= bpow radix2 200.
Proof.
  intros r [H1 H2]. split.
  - apply Rle_trans with (bpow radix2 (-98)); [apply bpow_le; lia|exact H1].
  - apply Rle_trans with (bpow radix2 100); [exact H2|apply bpow_le; lia].
Qed.
Lemma near : forall x, / 1606938044258990275541962092341162602522202993782792835301376 <= x -> x * (1 - uu) <= rnd64 x <= x * (1 + uu).
Proof. intros x H. apply rnd_near. apply Rle_trans with (bpow radix2 (-200)); [apply bpow_le; lia|exact H]. Qed.

Lemma squares_is : forall ws rs, Forall2 is ws rs -> Forall (fun r => -64 <= r <= 64) rs ->
  Forall2 is (map (fun w => powi w 2) ws) (map (fun r => rnd64 (r * r)) rs).
Proof.
  intros ws rs H. induction H as [|w r ws rs Hw H IH]; intros Hr; cbn [map]; constructor; inversion Hr; subst; auto.
  apply is_powi2; [exact Hw|]. apply bigp; nra.
Qed.

Lemma mu_eff_cases : forall ws rs mu setting, raw_ok ws rs (N.to_nat mu) ->
  exists M, is (iw_mu_eff (mkIW ws setting mu)) M /\ (mu = 1%N /\ M = 1 \/ 114 / 100 <= M) /\ 999 / 1000 <= M <= 1001 / 1000 * IZR (Z.of_N mu).
Proof.
  intros ws rs mu setting H. destruct H as [Hi Hm [Hl1 Hl2] Hp _ _ Hs H2]. unfold iw_mu_eff. cbn [iw_mu iw_weights]. set (k := N.to_nat mu) in *.
  pose proof (Forall2_firstn is k ws rs Hi) as Hf. set (sel := firstn k ws) in *. set (rr := firstn k rs) in *.
  assert (Lr : length rr = k) by (apply firstn_length_le; exact Hl1).
  assert (Hk : IZR (Z.of_N mu) = INR k) by (rewrite INR_IZR_INZ; unfold k; f_equal; lia). rewrite Hk.
  assert (P64 : Forall (fun r => -64 <= r <= 64) rr) by (eapply Forall_impl; [|exact Hp]; cbn beta; intros; lra).
  assert (Hp0 : Forall (fun r => 0 <= r) rr) by (eapply Forall_impl; [|exact Hp]; cbn beta; intros; lra).
  destruct (Nat.eq_dec k 1) as [E1|E1].
  - (* a single weight *)
    destruct rr as [|r [|r2 rr']] eqn:Er; cbn [length] in Lr; try lia. clearbody sel.
    inversion Hf as [|w ? sel' ? Hw Hn]; subst sel. inversion Hn; subst sel'.
    assert (Hr : small <= r <= 64) by (inversion Hp; assumption). cbn [map]. unfold nsum. cbn [fold_left].
    assert (I0 : is (nadd n0 w) r).
    { pose proof (is_add n0 w 0 r (is_ofZ 0 ltac:(lia)) Hw) as K. rewrite Rplus_0_l, (is_round _ _ Hw) in K. apply K. apply bigp; lra. }
    assert (Hrr : Rabs (r * r) <= bpow radix2 1000) by (apply bigp; nra).
    pose proof (is_powi2 _ _ I0 Hrr) as I1. pose proof (is_powi2 _ _ Hw Hrr) as I2.
    assert (Hlow : / 20000000000000000000000000 <= r * r) by nra.
    destruct (near (r * r)) as [Q1 Q2]; [lra|]. set (q := rnd64 (r * r)) in *.
    assert (I3 : is (nadd n0 (powi w 2)) q).
    { pose proof (is_add n0 _ 0 q (is_ofZ 0 ltac:(lia)) I2) as K. rewrite Rplus_0_l, (is_round _ _ I2) in K. apply K. apply bigp; nra. }
    assert (q0 : 0 < q) by nra.
    pose proof (is_div _ _ _ _ I1 I3 q0) as I4. replace (q / q) with 1 in I4 by (field; lra).
    rewrite (is_round _ _ (is_ofZ 1 ltac:(lia))) in I4. exists 1. split; [apply I4; apply bigp; lra|]. split; [left; split; [unfold k in E1; lia|reflexivity]|]. rewrite E1. cbn. lra.
  - (* at least two *)
    assert (K2 : (2 <= k)%nat) by lia.
    assert (HI : 2 <= INR k <= 1099511627776).
    { split; [apply (le_INR 2); exact K2|]. rewrite INR_IZR_INZ. apply IZR_le. lia. }
    destruct (sum_acc sel rr Hf) as [S [S1 [S2 S3]]].
    { eapply Forall_impl; [|exact Hp]. cbn beta. intros r Hr. apply bp200. lra. }
    { lia. }
    pose proof (squares_is _ _ Hf P64) as Hq.
    assert (Hsq : Forall (fun r => (1 - uu) * (r * r) <= rnd64 (r * r) <= (1 + uu) * (r * r) /\ / 20000000000000000000000000 <= r * r <= 4096) rr).
    { eapply Forall_impl; [|exact Hp]. cbn beta. intros r Hr. assert (L : / 20000000000000000000000000 <= r * r) by nra.
      destruct (near (r * r)); [lra|]. split; [lra|nra]. }
    destruct (sum_acc _ _ Hq) as [Q [Q1 [Q2 Q3]]].
    { apply Forall_forall. intros x Hx. apply in_map_iff in Hx. destruct Hx as [r [<- Hr]]. rewrite Forall_forall in Hsq.
      specialize (Hsq r Hr). apply bp200. destruct Hsq as [[A B] C]. set (y := rnd64 (r * r)) in *. clearbody y. lra. }
    { rewrite map_length. lia. }
    set (T := tot rr) in *. set (T2 := tot (map (fun r => r * r) rr)).
    assert (HT2 : (1 - uu) * T2 <= tot (map (fun r => rnd64 (r * r)) rr) <= (1 + uu) * T2).
    { unfold T2. clear - Hsq. induction Hsq as [|r l Hr Hl IH]; [cbn; lra|]. cbn [map].
      change (tot (r * r :: map (fun r => r * r) l)) with (r * r + tot (map (fun r => r * r) l)).
      change (tot (rnd64 (r * r) :: map (fun r => rnd64 (r * r)) l)) with (rnd64 (r * r) + tot (map (fun r => rnd64 (r * r)) l)).
      set (x := rnd64 (r * r)) in *. set (t1 := tot (map _ l)) in *. set (t2 := tot (map (fun r => rnd64 _) l)) in *. clearbody x t1 t2. lra. }
    set (Q' := tot (map (fun r => rnd64 (r * r)) rr)) in *.
    (* bounds of the exact sums *)
    assert (TT2 : T2 <= T * T) by (apply squares_le; exact Hp0).
    assert (TC : T * T <= INR k * T2) by (rewrite <- Lr; apply cauchy).
    assert (Hfirst : exists a b l, rr = a :: b :: l /\ small <= a <= 64 /\ 15 / 100 * a <= b /\ Forall (fun r => 0 <= r <= a) rr).
    { destruct rr as [|a [|b l]] eqn:Er; cbn [length] in Lr; try lia. exists a, b, l. split; [reflexivity|].
      inversion Hp as [|? ? Ha _]; subst. split; [exact Ha|].
      assert (Rs : exists tl, rs = a :: b :: tl).
      { unfold rr in Er. destruct k as [|[|k']]; [lia|lia|]. destruct rs as [|x [|y tl]]; cbn [firstn] in Er; try discriminate Er.
        injection Er as -> -> _. eauto. }
      destruct Rs as [tl Rs]. split.
      - specialize (H2 K2). rewrite Rs in H2. exact H2.
      - rewrite <- Er. clear - Hs Rs Hp0 Er. rewrite Rs in Hs. inversion Hs as [|? ? _ Hall]; subst.
        apply Forall_forall. intros r Hr. rewrite <- Er in Hp0. rewrite Forall_forall in Hp0. split; [apply Hp0; exact Hr|].
        assert (Hin : In r (a :: b :: tl)) by (rewrite <- (firstn_skipn k (a :: b :: tl)); apply in_or_app; left; exact Hr).
        destruct Hin as [->|Hin]; [lra|]. rewrite Forall_forall in Hall. apply Hall. exact Hin. }
    destruct Hfirst as [a [b [l [Er [Ha [Hb Hall]]]]]].
    assert (TM : T2 <= a * T) by (apply squares_max; exact Hall).
    assert (TL : 115 / 100 * a <= T).
    { unfold T. rewrite Er. change (tot (a :: b :: l)) with (a + (b + tot l)).
      assert (0 <= tot l) by (apply tot_nonneg; rewrite Er in Hp0; inversion Hp0 as [|? ? _ X]; inversion X; assumption). lra. }
    assert (TU : T <= INR k * 64) by (rewrite <- Lr; apply tot_le; eapply Forall_impl; [|exact Hp]; cbn beta; intros; lra).
    assert (T2U : T2 <= INR k * 4096) by (rewrite <- Lr, <- (map_length (fun r => r * r) rr); apply tot_le; apply Forall_forall; intros x Hx;
      apply in_map_iff in Hx; destruct Hx as [r [<- Hr]]; rewrite Forall_forall in Hsq; specialize (Hsq r Hr); lra).
    assert (T0 : small <= T) by lra. assert (T20 : / 30000000000000000000000000 * (1 / 1100000000000) <= T2) by nra.
    set (kk := INR k) in *. clearbody kk T T2 Q'. clear Hsq Hall Er Hp Hp0 P64 Hq Hf.
    assert (SU : 0 < S <= 200000000000000) by lra.
    assert (QL : / 200000000000000000000000000000000000000 <= Q <= 10000000000000000) by lra.
    assert (SS : T * T * (9997 / 10000) <= S * S * (1 - uu) /\ S * S * (1 + uu) <= T * T * (10005 / 10000)).
    { assert (A1 : 8191 / 8192 * T * (8191 / 8192 * T) <= S * S) by (apply Rmult_le_compat; lra).
      assert (A2 : S * (8191 / 8192) * (S * (8191 / 8192)) <= T * T) by (apply Rmult_le_compat; lra). split; lra. }
    assert (Sl : / 30000000000000000000000000 <= S * S) by nra.
    assert (Sb : S * S <= 40000000000000000000000000000) by nra.
    destruct (near (S * S)) as [N1 N2]; [lra|]. assert (I1 : is (powi (nsum sel) 2) (rnd64 (S * S))) by (apply is_powi2; [exact S1|apply bigp; lra]).
    set (x := rnd64 (S * S)) in *. clearbody x.
    assert (qpos : 0 < Q) by lra.
    assert (Qb : T2 * (9998 / 10000) <= Q <= T2 * (10002 / 10000)) by lra.
    assert (Dlo : 99905 / 100000 * (T * T / T2) <= x / Q).
    { apply Rmult_le_reg_r with Q; [exact qpos|]. replace (x / Q * Q) with x by (field; lra).
      apply Rle_trans with (99905 / 100000 * (T * T / T2) * (T2 * (10002 / 10000))); [apply Rmult_le_compat_l; [|lra]|].
      - apply Rmult_le_pos; [lra|]. apply Rmult_le_pos; [nra|]. left. apply Rinv_0_lt_compat. lra.
      - replace (99905 / 100000 * (T * T / T2) * (T2 * (10002 / 10000))) with (T * T * (99905 / 100000 * (10002 / 10000))) by (field; lra).
        apply Rle_trans with (T * T * (9997 / 10000)); [apply Rmult_le_compat_l; [nra|lra]|lra]. }
    assert (Dhi : x / Q <= 10008 / 10000 * (T * T / T2)).
    { apply Rmult_le_reg_r with Q; [exact qpos|]. replace (x / Q * Q) with x by (field; lra).
      apply Rle_trans with (10008 / 10000 * (T * T / T2) * (T2 * (9998 / 10000))); [|apply Rmult_le_compat_l; [|lra]].
      - replace (10008 / 10000 * (T * T / T2) * (T2 * (9998 / 10000))) with (T * T * (10008 / 10000 * (9998 / 10000))) by (field; lra).
        apply Rle_trans with (T * T * (10005 / 10000)); [lra|]. apply Rmult_le_compat_l; [nra|lra].
      - apply Rmult_le_pos; [lra|]. apply Rmult_le_pos; [nra|]. left. apply Rinv_0_lt_compat. lra. }
    assert (m1 : 115 / 100 <= T * T / T2).
    { apply Rmult_le_reg_r with T2; [lra|]. replace (T * T / T2 * T2) with (T * T) by (field; lra). nra. }
    assert (m2 : T * T / T2 <= kk).
    { apply Rmult_le_reg_r with T2; [lra|]. replace (T * T / T2 * T2) with (T * T) by (field; lra). lra. }
    set (m := T * T / T2) in *. clearbody m.
    destruct (near (x / Q)) as [N3 N4]; [lra|]. exists (rnd64 (x / Q)). split; [apply is_div; auto; apply bigp; lra|]. set (y := rnd64 (x / Q)) in *. clearbody y. split; [right; lra|lra].
Qed.
Lemma mu_eff_acc : forall ws rs mu setting, raw_ok ws rs (N.to_nat mu) ->
  exists M, is (iw_mu_eff (mkIW ws setting mu)) M /\ (M = 1 \/ 114 / 100 <= M) /\ 999 / 1000 <= M <= 1001 / 1000 * IZR (Z.of_N mu).
Proof. intros ws rs mu setting H. destruct (mu_eff_cases ws rs mu setting H) as [M [A [B C]]]. exists M. split; [exact A|]. split; [tauto|exact C]. Qed.
