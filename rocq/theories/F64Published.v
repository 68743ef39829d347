(* The computed parameters against the published formulas: relative errors in binary64. *)
From Coq Require Import List NArith ZArith Bool Reals Lra Lia Arith Psatz.
From Flocq Require Import Core.
From Flocq Require Import IEEE754.BinarySingleNaN.
Require Import Verif.Base Verif.Lib Verif.Num Verif.F64 Verif.XReal Verif.Weights Verif.Params Verif.Order Verif.F64Lemmas Verif.CeilLemmas Verif.XRound Verif.XLe
  Verif.F64Acc Verif.F64Weights Verif.F64Rates Verif.F64Raw Verif.F64Mean Verif.F64Rel.
Import ListNotations.
Open Scope R_scope.

Notation tiny64 := (/ 1606938044258990275541962092341162602522202993782792835301376).

Lemma Forall2_imp : forall {A B} (P Q : A -> B -> Prop) l m, (forall a b, P a b -> Q a b) -> Forall2 P l m -> Forall2 Q l m.
Proof. intros A B P Q l m H K. induction K; constructor; auto. Qed.
Lemma Forall2_ne : forall {A B} (P : A -> B -> Prop) l m, Forall2 P l m -> l <> [] -> m <> [].
Proof. intros A B P l m H. destruct H; [auto|discriminate]. Qed.

(* the effective number of parents of any list of positive weights *)
Lemma mu_eff_rel : forall ws rs qs setting e mu, Forall2 is ws rs -> (N.to_nat mu <= length ws)%nat ->
  Forall2 (rel e) (firstn (N.to_nat mu) rs) qs -> Forall (fun r => small <= r <= 64) (firstn (N.to_nat mu) rs) -> (1 <= mu <= 1099511627776)%N ->
  exists M, is (iw_mu_eff (mkIW ws setting mu)) M /\
    rel (4 * e + INR (N.to_nat mu) * (3 * e0) + 3 * e0) M (tot qs * tot qs / tot (map (fun q => q * q) qs)).
Proof.
  intros ws rs qs setting e mu Hi Hlen Hrel Hp Hm. unfold iw_mu_eff. cbn [iw_mu iw_weights]. set (k := N.to_nat mu) in *.
  pose proof (Forall2_firstn is k ws rs Hi) as Hf. set (sel := firstn k ws) in *. set (rr := firstn k rs) in *.
  assert (Lr : length rr = k) by (unfold rr; apply firstn_length_le; rewrite <- (Forall2_len _ _ _ Hi); exact Hlen).
  assert (Hk : 1 <= INR k <= 1099511627776).
  { rewrite INR_IZR_INZ. unfold k. split; [apply (IZR_le 1)|apply IZR_le]; lia. }
  assert (Hne : rr <> []) by (intros E0; rewrite E0 in Lr; cbn in Lr; lia).
  assert (Lk : (length rr <= N.to_nat 1099511627776)%nat) by (rewrite Lr; unfold k; lia).
  clearbody sel rr. clear Hi Hlen.
  assert (P64 : Forall (fun r => -64 <= r <= 64) rr) by (eapply Forall_impl; [|exact Hp]; cbn beta; intros; lra).
  destruct (rel_sum sel rr Hf) as [S [S1 S2]]; auto.
  { eapply Forall_impl; [|exact Hp]. cbn beta. intros r Hr. apply bp200. lra. }
  pose proof (squares_is _ _ Hf P64) as Hq.
  assert (Hsq : Forall (fun r => rel e0 (rnd64 (r * r)) (r * r) /\ / 20000000000000000000000000 <= r * r <= 4096) rr).
  { eapply Forall_impl; [|exact Hp]. cbn beta. intros r Hr. assert (L : / 20000000000000000000000000 <= r * r) by nra. split; [apply rel_rnd; lra|nra]. }
  assert (Hqb : Forall (fun r => / 40000000000000000000000000 <= rnd64 (r * r) <= 8192) rr).
  { eapply Forall_impl; [|exact Hp]. cbn beta. intros r Hr. assert (L : / 20000000000000000000000000 <= r * r) by nra. destruct (near (r * r)) as [A B]; [lra|].
    set (y := rnd64 (r * r)) in *. clearbody y. split; nra. }
  destruct (rel_sum _ _ Hq) as [Q [Q1 Q2]].
  { apply Forall_forall. intros x Hx. apply in_map_iff in Hx. destruct Hx as [r [<- Hr]]. rewrite Forall_forall in Hqb. specialize (Hqb r Hr). apply bp200. lra. }
  { destruct rr; [elim Hne; reflexivity|discriminate]. }
  { rewrite map_length. exact Lk. }
  rewrite map_length, Lr in Q2. rewrite Lr in S2.
  assert (Hqs : Forall2 (rel (e0 + (e + e))) (map (fun r => rnd64 (r * r)) rr) (map (fun q => q * q) qs)).
  { clear - Hrel Hsq. induction Hrel as [|r q rr qs H1 H IH]; cbn [map]; constructor; inversion Hsq as [|? ? [A _] B]; subst.
    - apply rel_trans with (r * r); [exact A|]. apply rel_mul; assumption.
    - apply IH. assumption. }
  pose proof (rel_trans _ _ _ _ _ S2 (rel_tot _ _ _ Hne Hrel)) as RS.
  assert (Hne2 : map (fun r => rnd64 (r * r)) rr <> []) by (destruct rr; [elim Hne; reflexivity|discriminate]).
  pose proof (rel_trans _ _ _ _ _ Q2 (rel_tot _ _ _ Hne2 Hqs)) as RQ.
  (* magnitudes *)
  assert (TU : small <= tot rr <= INR k * 64).
  { split; [|rewrite <- Lr; apply tot_le; eapply Forall_impl; [|exact Hp]; cbn beta; intros; lra].
    destruct rr as [|r l]; [elim Hne; reflexivity|]. inversion Hp as [|? ? Hr Hl]; subst. change (tot (r :: l)) with (r + tot l).
    assert (0 <= tot l) by (apply tot_nonneg; eapply Forall_impl; [|exact Hl]; cbn beta; intros; lra). lra. }
  assert (QU : / 40000000000000000000000000 <= tot (map (fun r => rnd64 (r * r)) rr) <= INR k * 8192).
  { split; [|rewrite <- Lr, <- (map_length (fun r => rnd64 (r * r)) rr); apply tot_le; apply Forall_forall; intros x Hx; apply in_map_iff in Hx; destruct Hx as [r [<- Hr]];
      rewrite Forall_forall in Hqb; specialize (Hqb r Hr); lra].
    destruct rr as [|r l]; [elim Hne; reflexivity|]. inversion Hqb as [|? ? Hr Hl]; subst. cbn [map]. change (tot (rnd64 (r * r) :: map (fun r => rnd64 (r * r)) l)) with (rnd64 (r * r) + tot (map (fun r => rnd64 (r * r)) l)).
    assert (0 <= tot (map (fun r => rnd64 (r * r)) l)).
    { apply tot_nonneg. apply Forall_forall. intros x Hx. apply in_map_iff in Hx. destruct Hx as [r' [<- Hr']]. rewrite Forall_forall in Hl. specialize (Hl r' Hr'). lra. }
    lra. }
  assert (Kb : 0 <= INR k * e0 <= 1 / 2) by lra.
  assert (SB : / 20000000000000 <= S <= 200000000000000).
  { pose proof (rel_to _ _ _ S2 Kb) as A. apply Rabs_le_inv in A. pose proof (exp_low (- (INR k * e0))) as X. destruct S2 as [_ [B C]].
    assert (1 / 2 <= exp (- (INR k * e0))) by lra. set (t := tot rr) in *. clearbody t. set (x := exp (- (INR k * e0))) in *. clearbody x.
    assert (D : / 20000000000000 <= S) by nra. split; [exact D|]. assert (2 * (INR k * e0) * t <= t) by nra. lra. }
  assert (QB : / 100000000000000000000000000 <= Q <= 20000000000000000).
  { pose proof (rel_to _ _ _ Q2 Kb) as A. apply Rabs_le_inv in A. pose proof (exp_low (- (INR k * e0))) as X. destruct Q2 as [_ [B C]].
    assert (1 / 2 <= exp (- (INR k * e0))) by lra. set (t := tot (map (fun r => rnd64 (r * r)) rr)) in *. clearbody t. set (x := exp (- (INR k * e0))) in *. clearbody x.
    assert (D : / 100000000000000000000000000 <= Q) by nra. split; [exact D|]. assert (2 * (INR k * e0) * t <= t) by nra. lra. }
  assert (SS : / 500000000000000000000000000 <= S * S <= 40000000000000000000000000000) by nra.
  assert (I1 : is (powi (nsum sel) 2) (rnd64 (S * S))) by (apply is_powi2; [exact S1|apply bigp; lra]).
  pose proof (rel_rnd (S * S) ltac:(lra)) as N1. destruct (near (S * S)) as [X1 X2]; [lra|]. set (x := rnd64 (S * S)) in *. clearbody x.
  assert (D0 : / 100000000000000000000000000000000000000000000000 <= x / Q).
  { apply Rmult_le_reg_r with Q; [lra|]. replace (x / Q * Q) with x by (field; lra). lra. }
  assert (D1 : x / Q <= 10000000000000000000000000000000000000000000000000000000000).
  { apply Rmult_le_reg_r with Q; [lra|]. replace (x / Q * Q) with x by (field; lra). lra. }
  exists (rnd64 (x / Q)). split; [apply is_div; auto; [lra|apply bigp; lra]|].
  pose proof (rel_trans _ _ _ _ _ (rel_rnd (x / Q) ltac:(lra)) (rel_div _ _ _ _ _ _ (rel_trans _ _ _ _ _ N1 (rel_mul _ _ _ _ _ _ RS RS)) RQ)) as R.
  eapply rel_weaken; [exact R|]. lra.
Qed.

Section Rates.
  Variables (dim : N) (mu_eff : f64) (M' M e : R).
  Hypotheses (Hd : (1 <= dim <= 9007199254740992)%N) (HM : is mu_eff M') (HR : rel e M' M) (He : 0 <= e <= / 16384)
    (M1 : M = 1 /\ M' = 1 \/ 114 / 100 <= M') (M2 : 1 <= M) (M3 : M' <= 1200000000000).
  Let D := IZR (Z.of_N dim).
  Lemma M_one : M' = 1 \/ 114 / 100 <= M'. Proof. tauto. Qed.
  Lemma D_is' : is (nofN dim) D. Proof. apply is_ofN. lia. Qed.
  Lemma D_rng : 1 <= D <= 9007199254740992.
  Proof. unfold D. split; [apply (IZR_le 1)|apply (IZR_le _ 9007199254740992)]; lia. Qed.
  Lemma q13 : exists q, is (nlit 13 10) q /\ rel e0 q (13 / 10) /\ 5 / 4 <= q <= 3 / 2.
  Proof.
    eexists. split; [vm_compute; reflexivity|]. unfold F2R; cbn. split; [|lra]. apply rel_weaken with (2 * / 9007199254740992); [|lra]. apply rel_of; [lra|lra|].
    apply Rabs_le. lra.
  Qed.
  Lemma rel_rfl : forall x d, 0 < x -> 0 <= d -> rel d x x.
  Proof. intros x d Hx Hd0. apply rel_weaken with 0; [apply rel_refl; exact Hx|exact Hd0]. Qed.
  Lemma rel_step : forall x y d, tiny64 <= x -> rel d x y -> rel (e0 + d) (rnd64 x) y.
  Proof. intros x y d Hx H. apply rel_trans with x; [apply rel_rnd; exact Hx|exact H]. Qed.
  Lemma W1 : forall x y d, rel d x y -> forall d', d <= d' -> rel d' x y.
  Proof. intros. eapply rel_weaken; eauto. Qed.

  Lemma c1_rel : exists c, is (calc_c1 dim mu_eff) c /\ rel (e + 7 * e0) c (2 / ((D + 13 / 10) * (D + 13 / 10) + M)).
  Proof.
    unfold calc_c1. destruct D_rng as [D1 D2]. pose proof D_is' as HD. destruct q13 as [q [Iq [Rq Hq]]]. pose proof M_one as Mo.
    assert (I1 : is (nadd (nofN dim) (nlit 13 10)) (rnd64 (D + q))) by (apply is_add; auto; apply bigp; lra).
    assert (A1 : 2 <= rnd64 (D + q)) by (apply (rnd_int_le 2); [lia|lra]). destruct (near (D + q)) as [_ A2]; [lra|].
    pose proof (rel_step (D + q) (D + 13 / 10) e0 ltac:(lra) (rel_add _ _ _ _ _ (rel_rfl D e0 ltac:(lra) ltac:(lra)) Rq)) as R1.
    set (x := rnd64 (D + q)) in *. clearbody x.
    assert (I2 : is (powi (nadd (nofN dim) (nlit 13 10)) 2) (rnd64 (x * x))) by (apply is_powi2; auto; apply bigp; nra).
    assert (B1 : 4 <= rnd64 (x * x)) by (apply (rnd_int_le 4); [lia|nra]). destruct (near (x * x)) as [_ B2]; [nra|].
    assert (B3 : x * x <= 100000000000000000000000000000000) by nra.
    pose proof (rel_step (x * x) _ _ ltac:(nra) (rel_mul _ _ _ _ _ _ R1 R1)) as R2. set (y := rnd64 (x * x)) in *. clearbody y.
    assert (I3 : is (nadd (powi (nadd (nofN dim) (nlit 13 10)) 2) mu_eff) (rnd64 (y + M'))) by (apply is_add; auto; apply bigp; lra).
    assert (C1 : 4 <= rnd64 (y + M')) by (apply (rnd_int_le 4); [lia|lra]). destruct (near (y + M')) as [_ C2]; [lra|].
    pose proof (rel_step (y + M') _ _ ltac:(lra) (rel_add _ _ _ _ _ (W1 _ _ _ R2 (e + 5 * e0) ltac:(lra)) (W1 _ _ _ HR (e + 5 * e0) ltac:(lra)))) as R3.
    set (z := rnd64 (y + M')) in *. clearbody z. clear I1 I2.
    assert (E1 : 2 / z <= 1 / 2) by (apply Rmult_le_reg_r with z; [lra|]; replace (2 / z * z) with 2 by (field; lra); lra).
    assert (E2 : / 200000000000000000000000000000000 <= 2 / z) by (apply Rmult_le_reg_r with z; [lra|]; replace (2 / z * z) with 2 by (field; lra); lra).
    exists (rnd64 (2 / z)). split; [apply is_div; auto; [exact is2|lra|apply bigp; lra]|].
    eapply rel_weaken; [exact (rel_step (2 / z) _ _ ltac:(lra) (rel_div _ _ _ _ _ _ (rel_refl 2 ltac:(lra)) R3))|lra].
  Qed.

  Lemma cc_rel : exists c, is (calc_cc dim mu_eff) c /\ rel (2 * e + 5 * e0) c ((4 + M / D) / (D + 4 + 2 * M / D)).
  Proof.
    unfold calc_cc. destruct D_rng as [D1 D2]. pose proof D_is' as HD. pose proof M_one as Mo.
    assert (Q0 : / 10000000000000000 <= M' / D <= M').
    { split; apply Rmult_le_reg_r with D; try lra; replace (M' / D * D) with M' by (field; lra); nra. }
    assert (I1 : is (ndiv mu_eff (nofN dim)) (rnd64 (M' / D))) by (apply is_div; auto; [lra|apply bigp; lra]).
    assert (I2 : is (ndiv (nmul n2 mu_eff) (nofN dim)) (rnd64 (2 * M' / D))).
    { apply is_div; auto; [apply rnd_dbl; [exact HM|apply bigp; lra]|lra|]. replace (2 * M' / D) with (2 * (M' / D)) by (unfold Rdiv; ring). apply bigp; lra. }
    pose proof (rel_step (M' / D) _ _ ltac:(lra) (rel_div _ _ _ _ _ _ HR (rel_refl D ltac:(lra)))) as Ra.
    pose proof (rel_step (2 * M' / D) _ _ ltac:(replace (2 * M' / D) with (2 * (M' / D)) by (unfold Rdiv; ring); lra)
      (rel_div _ _ _ _ _ _ (rel_mul _ _ _ _ _ _ (rel_refl 2 ltac:(lra)) HR) (rel_refl D ltac:(lra)))) as Rb.
    assert (L0 : 0 <= rnd64 (M' / D)) by (apply rnd_nonneg; lra). assert (L0' : 0 <= rnd64 (2 * M' / D)) by (apply rnd_nonneg; replace (2 * M' / D) with (2 * (M' / D)) by (unfold Rdiv; ring); lra).
    assert (L1 : rnd64 (M' / D) <= 9007199254740992) by (apply (rnd_le_int 9007199254740992); [lia|lra]).
    assert (L2 : rnd64 (2 * M' / D) <= 9007199254740992).
    { apply (rnd_le_int 9007199254740992); [lia|]. replace (2 * M' / D) with (2 * (M' / D)) by (unfold Rdiv; ring). lra. }
    set (a := rnd64 (M' / D)) in *. set (b := rnd64 (2 * M' / D)) in *. clearbody a b.
    assert (I3 : is (nadd (nofZ 4) (ndiv mu_eff (nofN dim))) (rnd64 (4 + a))) by (apply is_add; [exact (is_ofZ 4 ltac:(lia))|auto|apply bigp; lra]).
    assert (I4 : is (nadd (nofN dim) (nofZ 4)) (rnd64 (D + 4))) by (apply is_add; [auto|exact (is_ofZ 4 ltac:(lia))|apply bigp; lra]).
    assert (L3 : 4 <= rnd64 (D + 4)) by (apply (rnd_int_le 4); [lia|lra]). destruct (near (D + 4)) as [_ L4]; [lra|].
    pose proof (rel_rnd (D + 4) ltac:(lra)) as Rd. set (d := rnd64 (D + 4)) in *. clearbody d.
    assert (I5 : is (nadd (nadd (nofN dim) (nofZ 4)) (ndiv (nmul n2 mu_eff) (nofN dim))) (rnd64 (d + b))) by (apply is_add; auto; apply bigp; lra).
    assert (L6 : 4 <= rnd64 (4 + a)) by (apply (rnd_int_le 4); [lia|lra]). destruct (near (4 + a)) as [_ L8]; [lra|].
    destruct (near (d + b)) as [L9 L7]; [lra|].
    pose proof (rel_step (4 + a) _ _ ltac:(lra) (rel_add _ _ _ _ _ (rel_rfl 4 (e + e0) ltac:(lra) ltac:(lra)) (W1 _ _ _ Ra (e + e0) ltac:(lra)))) as Rx.
    pose proof (rel_step (d + b) _ _ ltac:(lra) (rel_add _ _ _ _ _ (W1 _ _ _ Rd (e + e0) ltac:(lra)) (W1 _ _ _ Rb (e + e0) ltac:(lra)))) as Ry.
    set (x := rnd64 (4 + a)) in *. set (y := rnd64 (d + b)) in *. clearbody x y.
    assert (Q1 : x / y <= 10000000000000000000) by (apply Rmult_le_reg_r with y; [lra|]; replace (x / y * y) with x by (field; lra); lra).
    assert (Q2 : / 100000000000000000000 <= x / y) by (apply Rmult_le_reg_r with y; [lra|]; replace (x / y * y) with x by (field; lra); lra).
    exists (rnd64 (x / y)). split; [apply is_div; auto; [lra|apply bigp; lra]|].
    eapply rel_weaken; [exact (rel_step (x / y) _ _ ltac:(lra) (rel_div _ _ _ _ _ _ Rx Ry))|lra].
  Qed.

  Lemma cs_rel : exists c, is (calc_cs dim mu_eff) c /\ rel (2 * e + 4 * e0) c ((M + 2) / (D + M + 5)).
  Proof.
    unfold calc_cs. destruct D_rng as [D1 D2]. pose proof D_is' as HD. pose proof M_one as Mo.
    assert (I1 : is (nadd mu_eff n2) (rnd64 (M' + 2))) by (apply is_add; auto; [exact is2|apply bigp; lra]).
    assert (I2 : is (nadd (nofN dim) mu_eff) (rnd64 (D + M'))) by (apply is_add; auto; apply bigp; lra).
    destruct (near (M' + 2)) as [A1 A2]; [lra|]. destruct (near (D + M')) as [B1 B2]; [lra|].
    pose proof (rel_step (M' + 2) _ _ ltac:(lra) (rel_add _ _ _ _ _ HR (rel_rfl 2 e ltac:(lra) ltac:(lra)))) as Ra.
    pose proof (rel_step (D + M') _ _ ltac:(lra) (rel_add _ _ _ _ _ (rel_rfl D e ltac:(lra) ltac:(lra)) HR)) as Rb.
    set (a := rnd64 (M' + 2)) in *. set (b := rnd64 (D + M')) in *. clearbody a b.
    assert (I3 : is (nadd (nadd (nofN dim) mu_eff) (nofZ 5)) (rnd64 (b + 5))) by (apply is_add; auto; [exact (is_ofZ 5 ltac:(lia))|apply bigp; lra]).
    destruct (near (b + 5)) as [C1 C2]; [lra|].
    pose proof (rel_step (b + 5) _ _ ltac:(lra) (rel_add _ _ _ _ _ Rb (rel_rfl 5 (e0 + e) ltac:(lra) ltac:(lra)))) as Rd.
    set (d := rnd64 (b + 5)) in *. clearbody d.
    assert (Q1 : a / d <= 10) by (apply Rmult_le_reg_r with d; [lra|]; replace (a / d * d) with a by (field; lra); lra).
    assert (Q2 : / 100000000000000000000 <= a / d) by (apply Rmult_le_reg_r with d; [lra|]; replace (a / d * d) with a by (field; lra); lra).
    exists (rnd64 (a / d)). split; [apply is_div; auto; [lra|apply bigp; lra]|].
    eapply rel_weaken; [exact (rel_step (a / d) _ _ ltac:(lra) (rel_div _ _ _ _ _ _ Ra Rd))|lra].
  Qed.

  (* eta is far below every unit used here *)
  Lemma eta_tiny : eta <= / 1000000000000000000000000000000000000000000000000000000000000.
  Proof. apply Rle_trans with (bpow radix2 (-200)); [apply bpow_le; lia|]. change (bpow radix2 (-200)) with tiny64. lra. Qed.
  Lemma M_gap : M = 1 /\ M' = 1 \/ 114 / 100 <= M' /\ 113 / 100 <= M /\ Rabs (M' - M) <= 2 * e * M /\ M <= 2 * M' /\ M' <= 2 * M.
  Proof.
    destruct M1 as [H|H]; [left; exact H|]. right. pose proof (rel_to _ _ _ HR ltac:(lra)) as A. split; [exact H|]. pose proof A as B. apply Rabs_le_inv in B.
    assert (X : 2 * e * M <= / 8192 * M) by (apply Rmult_le_compat_r; lra). repeat split; (lra || exact A).
  Qed.

  Lemma spread_rel : let s := sqrt ((M - 1) / (D + 1)) in
    exists s', is (nsqrt (ndiv (nsub mu_eff n1) (nadd (nofN dim) n1))) s' /\ Rabs (s' - s) <= 2 * (18 * e + 3 * e0) * s /\ 0 <= s' <= 2000000.
  Proof.
    intros s. destruct D_rng as [D1 D2]. pose proof D_is' as HD. pose proof M_one as Mo.
    assert (I1 : is (nsub mu_eff n1) (rnd64 (M' - 1))) by (apply is_sub; auto; [exact is1|apply bigp; lra]).
    assert (I2 : is (nadd (nofN dim) n1) (rnd64 (D + 1))) by (apply is_add; auto; [exact is1|apply bigp; lra]).
    assert (B1 : 2 <= rnd64 (D + 1)) by (apply (rnd_int_le 2); [lia|lra]). destruct (near (D + 1)) as [_ B2]; [lra|]. pose proof (rel_rnd (D + 1) ltac:(lra)) as Rb.
    set (b := rnd64 (D + 1)) in *. clearbody b. destruct M_gap as [[E E']|[G1 [G2 [G3 [G4 G5]]]]].
    - (* a single parent *)
      assert (Es : s = 0) by (unfold s; rewrite E; replace ((1 - 1) / (D + 1)) with 0 by (field; lra); apply sqrt_0).
      assert (Z : rnd64 0 = 0) by (apply rnd64_id; apply generic_format_0).
      rewrite E' in I1. replace (1 - 1) with 0 in I1 by ring. rewrite Z in I1.
      pose proof (is_div _ _ _ _ I1 I2 ltac:(lra)) as I3. replace (0 / b) with 0 in I3 by (field; lra). rewrite Z in I3. specialize (I3 ltac:(apply bigp; lra)).
      pose proof (is_sqrt _ _ I3 ltac:(lra)) as I4. rewrite sqrt_0, Z in I4. exists 0. split; [exact I4|]. rewrite Es. split; [|lra].
      rewrite Rminus_diag_eq by reflexivity. rewrite Rabs_R0. lra.
    - assert (Ra : rel (36 * e) (M' - 1) (M - 1)).
      { replace (36 * e) with (2 * (18 * e)) by ring. apply rel_of; [lra|lra|]. replace (M' - 1 - (M - 1)) with (M' - M) by ring. apply Rle_trans with (1 := G3). nra. }
      destruct (near (M' - 1)) as [A1 A2]; [lra|]. pose proof (rel_step (M' - 1) _ _ ltac:(lra) Ra) as Ra'. set (a := rnd64 (M' - 1)) in *. clearbody a.
      assert (Q1 : / 100000000000000000000 <= a / b) by (apply Rmult_le_reg_r with b; [lra|]; replace (a / b * b) with a by (field; lra); nra).
      assert (Q2 : a / b <= 1300000000000) by (apply Rmult_le_reg_r with b; [lra|]; replace (a / b * b) with a by (field; lra); nra).
      assert (I3 : is (ndiv (nsub mu_eff n1) (nadd (nofN dim) n1)) (rnd64 (a / b))) by (apply is_div; auto; [lra|apply bigp; lra]).
      assert (C2 : rnd64 (a / b) <= 1300000000000) by (apply (rnd_le_int 1300000000000); [lia|lra]). destruct (near (a / b)) as [C1 _]; [lra|].
      pose proof (rel_step (a / b) _ _ ltac:(lra) (rel_div _ _ _ _ _ _ Ra' Rb)) as Rq. set (q := rnd64 (a / b)) in *. clearbody q.
      pose proof (is_sqrt _ _ I3 ltac:(lra)) as I4.
      assert (S1 : / 200000000000 <= sqrt q) by (rewrite <- (sqrt_square (/ 200000000000)) by lra; apply sqrt_le_1_alt; lra).
      assert (S2 : sqrt q <= 2000000) by (rewrite <- (sqrt_square 2000000) by lra; apply sqrt_le_1_alt; lra).
      assert (Rs : rel (18 * e + 2 * e0) (sqrt q) s).
      { apply rel_sqrt. eapply rel_weaken; [exact Rq|]. lra. }
      pose proof (rel_step (sqrt q) _ _ ltac:(lra) Rs) as Rs'. assert (T2 : rnd64 (sqrt q) <= 2000000) by (apply (rnd_le_int 2000000); [lia|lra]).
      exists (rnd64 (sqrt q)). split; [exact I4|]. pose proof (rel_pos _ _ _ Rs') as Ps. pose proof (rel_to _ _ _ Rs' ltac:(lra)) as T. split; [|lra].
      apply Rle_trans with (1 := T). assert (0 <= s) by apply sqrt_pos. nra.
  Qed.

  Lemma damp_rel : exists d, is (calc_damp_s dim mu_eff (calc_cs dim mu_eff)) d /\
    rel (152 * e + 61 * e0) d (1 + 2 * Rmax 0 (sqrt ((M - 1) / (D + 1)) - 1) + (M + 2) / (D + M + 5)).
  Proof.
    unfold calc_damp_s. destruct D_rng as [D1 D2]. destruct cs_rel as [c' [Ic Rc]]. set (c := (M + 2) / (D + M + 5)) in *.
    destruct (cs_ok dim mu_eff M' Hd HM M_one M3) as [c2 [Ic2 Hc]]. rewrite (is_fun _ _ _ Ic2 Ic) in Hc. clear Ic2 c2.
    destruct spread_rel as [s' [Is [Rs Hs]]]. cbv zeta in Rs. set (s := sqrt ((M - 1) / (D + 1))) in *. assert (S0 : 0 <= s) by apply sqrt_pos. clearbody s.
    set (x := nsqrt (ndiv (nsub mu_eff n1) (nadd (nofN dim) n1))) in *. clearbody x.
    assert (I5 : is (nsub x n1) (rnd64 (s' - 1))) by (apply is_sub; auto; [exact is1|]; apply big; apply Rabs_le; lra).
    pose proof (rnd_any (s' - 1)) as A. assert (U2 : rnd64 (s' - 1) <= 2000000) by (apply (rnd_le_int 2000000); [lia|lra]).
    set (t := rnd64 (s' - 1)) in *. clearbody t.
    assert (I6 : is (nmax (nsub x n1) n0) (Rmax 0 t)).
    { unfold nmax. rewrite (is_not_nan _ _ I5), (is_not_nan _ _ is0). destruct (nltb n0 _) eqn:El.
      - apply (is_lt _ _ _ _ is0 I5) in El. rewrite Rmax_right by lra. exact I5.
      - apply (is_nlt _ _ _ _ is0 I5) in El. rewrite Rmax_left by lra. exact is0. }
    assert (Hm : Rabs (Rmax 0 t - Rmax 0 (s - 1)) <= (2 * (18 * e + 3 * e0) + 4 * e0) * (1 + Rmax 0 (s - 1))).
    { pose proof eta_tiny as Et. set (et := eta) in *. clearbody et. assert (Sm : s <= 1 + Rmax 0 (s - 1)) by (unfold Rmax; destruct (Rle_dec 0 (s - 1)); lra).
      assert (X : Rabs (Rmax 0 t - Rmax 0 (s - 1)) <= Rabs (t - (s - 1))).
      { unfold Rmax. destruct (Rle_dec 0 t), (Rle_dec 0 (s - 1)); unfold Rabs; repeat destruct (Rcase_abs _); lra. }
      apply Rle_trans with (1 := X). assert (Y : Rabs (s' - 1) <= s' + 1) by (apply Rabs_le; lra).
      set (m := Rmax 0 (s - 1)) in *. assert (M0 : 0 <= m) by apply Rmax_l. clearbody m. replace (t - (s - 1)) with (t - (s' - 1) + (s' - s)) by ring.
      apply Rle_trans with (1 := Rabs_triang _ _). apply Rabs_le_inv in Rs.
      assert (Z : 2 * (18 * e + 3 * e0) * s <= 2 * (18 * e + 3 * e0) * (1 + m)) by (apply Rmult_le_compat_l; lra).
      assert (Z2 : s' <= 2 * (1 + m)) by nra. apply Rabs_le in Rs. lra. }
    assert (m0 : 0 <= Rmax 0 t <= 2000000) by (split; [apply Rmax_l|apply Rmax_lub; lra]).
    set (m' := Rmax 0 t) in *. assert (M0 : 0 <= Rmax 0 (s - 1)) by apply Rmax_l. set (m := Rmax 0 (s - 1)) in *. clearbody m m'.
    pose proof (rnd_dbl _ _ I6 (bigp (2 * m') ltac:(lra) ltac:(lra))) as I7.
    assert (I8 : is (nadd n1 (calc_cs dim mu_eff)) (rnd64 (1 + c'))) by (apply is_add; [exact is1|exact Ic|apply bigp; lra]).
    pose proof (rel_step (1 + c') _ _ ltac:(lra) (rel_add _ _ _ _ _ (rel_rfl 1 (2 * e + 4 * e0) ltac:(lra) ltac:(lra)) Rc)) as Rv.
    assert (V1 : 1 <= rnd64 (1 + c')) by (apply (rnd_int_le 1); [lia|lra]). assert (V2 : rnd64 (1 + c') <= 2) by (apply (rnd_le_int 2); [lia|lra]).
    pose proof (rel_to _ _ _ Rv ltac:(lra)) as Tv. assert (C0 : 0 < c) by (destruct Rc; assumption). clearbody c.
    set (v := rnd64 (1 + c')) in *. clearbody v.
    exists (rnd64 (v + 2 * m')). split; [apply is_add; [exact I8|exact I7|apply bigp; lra]|].
    apply rel_weaken with (e0 + 2 * (76 * e + 30 * e0)); [|lra]. apply rel_step; [lra|]. apply rel_of; [lra|lra|].
    replace (v + 2 * m' - (1 + 2 * m + c)) with ((v - (1 + c)) + 2 * (m' - m)) by ring. apply Rle_trans with (1 := Rabs_triang _ _). rewrite Rabs_mult, (Rabs_right 2) by lra.
    set (r1 := Rabs (v - (1 + c))) in *. set (r2 := Rabs (m' - m)) in *. clearbody r1 r2. nra.
  Qed.

  Lemma cmu_den_rel : exists z, is (nadd (powi (nadd (nofN dim) n2) 2) (ndiv (nmul n2 mu_eff) n2)) z /\ rel (e + 4 * e0) z ((D + 2) * (D + 2) + M) /\ 4 <= z <= 1000000000000000000000000000000000.
  Proof.
    destruct D_rng as [D1 D2]. pose proof D_is' as HD. pose proof M_one as Mo.
    assert (J1 : is (nadd (nofN dim) n2) (rnd64 (D + 2))) by (apply is_add; auto; [exact is2|apply bigp; lra]).
    assert (C1 : 2 <= rnd64 (D + 2)) by (apply (rnd_int_le 2); [lia|lra]). destruct (near (D + 2)) as [_ C2]; [lra|]. pose proof (rel_rnd (D + 2) ltac:(lra)) as Rx.
    set (x := rnd64 (D + 2)) in *. clearbody x.
    assert (J2 : is (powi (nadd (nofN dim) n2) 2) (rnd64 (x * x))) by (apply is_powi2; auto; apply bigp; nra).
    assert (D3 : 4 <= rnd64 (x * x)) by (apply (rnd_int_le 4); [lia|nra]). destruct (near (x * x)) as [_ D4]; [nra|].
    assert (D5 : x * x <= 100000000000000000000000000000000) by nra. pose proof (rel_step (x * x) _ _ ltac:(nra) (rel_mul _ _ _ _ _ _ Rx Rx)) as Ry.
    set (y := rnd64 (x * x)) in *. clearbody y.
    assert (J3 : is (ndiv (nmul n2 mu_eff) n2) M').
    { assert (I : is (nmul n2 mu_eff) (2 * M')) by (apply rnd_dbl; [exact HM|apply bigp; lra]). apply rnd_halve; auto; [apply bigp; lra|eapply is_format; exact HM]. }
    assert (J4 : is (nadd (powi (nadd (nofN dim) n2) 2) (ndiv (nmul n2 mu_eff) n2)) (rnd64 (y + M'))) by (apply is_add; auto; apply bigp; lra).
    assert (E1 : 4 <= rnd64 (y + M')) by (apply (rnd_int_le 4); [lia|lra]). destruct (near (y + M')) as [_ E2]; [lra|].
    pose proof (rel_step (y + M') _ _ ltac:(lra) (rel_add _ _ _ _ _ (W1 _ _ _ Ry (e + 3 * e0) ltac:(lra)) (W1 _ _ _ HR (e + 3 * e0) ltac:(lra)))) as Rz.
    eexists. split; [exact J4|]. split; [eapply rel_weaken; [exact Rz|lra]|]. lra.
  Qed.

  Lemma cmu_rel : exists m, is (calc_cmu dim mu_eff (calc_c1 dim mu_eff)) m /\
    (let spec := Rmin (1 - 2 / ((D + 13 / 10) * (D + 13 / 10) + M)) (2 * (M - 2 + 1 / M) / ((D + 2) * (D + 2) + M)) in
     Rabs (m - spec) <= 2 * (305 * e + 462 * e0) * spec).
  Proof.
    destruct D_rng as [D1 D2]. pose proof D_is' as HD. pose proof M_one as Mo. destruct c1_rel as [c' [Ic Rc]]. set (c := 2 / ((D + 13 / 10) * (D + 13 / 10) + M)) in *.
    destruct (c1_ok dim mu_eff M' Hd HM M_one M3) as [c2 [Ic2 Hc']]. rewrite (is_fun _ _ _ Ic2 Ic) in Hc'. clear Ic2 c2.
    assert (Hc : 0 < c <= 1 / 2).
    { split; [destruct Rc; assumption|]. unfold c. apply Rmult_le_reg_r with ((D + 13 / 10) * (D + 13 / 10) + M); [nra|].
      replace (2 / ((D + 13 / 10) * (D + 13 / 10) + M) * ((D + 13 / 10) * (D + 13 / 10) + M)) with 2 by (field; nra). nra. }
    clearbody c. destruct M_gap as [[E E']|[G1 [G2 [G3 [G4 G5]]]]].
    - destruct (cmu_ok dim mu_eff M' Hd HM M_one M3 c' Ic ltac:(lra) ltac:(lra)) as [[_ K]|[K _]]; [|lra]. exists 0. split; [rewrite K; reflexivity|]. cbv zeta.
      replace (2 * (M - 2 + 1 / M) / ((D + 2) * (D + 2) + M)) with 0 by (rewrite E; field; nra). rewrite Rmin_right by lra.
      rewrite Rminus_diag_eq by reflexivity. rewrite Rabs_R0. lra.
    - assert (I1 : is (nsub n1 (calc_c1 dim mu_eff)) (rnd64 (1 - c'))) by (apply is_sub; [exact is1|exact Ic|apply bigp; lra]).
      assert (R1 : rel (4 * e + 29 * e0) (rnd64 (1 - c')) (1 - c)).
      { apply rel_weaken with (e0 + 2 * (2 * (e + 7 * e0))); [|lra]. apply rel_step; [lra|]. apply rel_of; [lra|lra|].
        pose proof (rel_to _ _ _ Rc ltac:(lra)) as K. replace (1 - c' - (1 - c)) with (- (c' - c)) by ring. rewrite Rabs_Ropp. apply Rle_trans with (1 := K). apply Rmult_le_compat_l; lra. }
      (* numerator *)
      assert (J : / 1300000000000 <= 1 / M' <= 1) by (split; apply Rmult_le_reg_r with M'; try lra; replace (1 / M' * M') with 1 by (field; lra); lra).
      assert (I2 : is (ndiv n1 mu_eff) (rnd64 (1 / M'))) by (apply is_div; [exact is1|exact HM|lra|apply bigp; lra]).
      assert (I3 : is (nsub mu_eff n2) (rnd64 (M' - 2))) by (apply is_sub; [exact HM|exact is2|apply big; apply Rabs_le; lra]).
      pose proof (rnd_any (1 / M')) as A1. pose proof (rnd_any (M' - 2)) as A2. pose proof eta_tiny as Et. set (et := eta) in *. clearbody et.
      rewrite (Rabs_right (1 / M')) in A1 by lra. assert (A3 : Rabs (M' - 2) <= M') by (apply Rabs_le; lra).
      set (a := rnd64 (M' - 2)) in *. set (b := rnd64 (1 / M')) in *. clearbody a b.
      assert (Tu : Rabs (a + b - (M - 2 + 1 / M)) <= (2 * e + 3 * e0) * M).
      { replace (a + b - (M - 2 + 1 / M)) with ((a - (M' - 2)) + (b - 1 / M') + (M' - M) * (1 - 1 / (M * M'))) by (field; lra).
        apply Rle_trans with (1 := Rabs_triang _ _). apply Rle_trans with (Rabs (a - (M' - 2)) + Rabs (b - 1 / M') + Rabs ((M' - M) * (1 - 1 / (M * M')))); [apply Rplus_le_compat_r; apply Rabs_triang|].
        assert (F : 0 <= 1 / (M * M') <= 1).
        { assert (0 < M * M') by nra. split; [left; apply Rdiv_lt_0_compat; lra|]. apply Rmult_le_reg_r with (M * M'); [nra|]. replace (1 / (M * M') * (M * M')) with 1 by (field; lra). nra. }
        assert (F2 : Rabs ((M' - M) * (1 - 1 / (M * M'))) <= 2 * e * M).
        { rewrite Rabs_mult. rewrite (Rabs_right (1 - 1 / (M * M'))) by lra. pose proof (Rabs_pos (M' - M)). nra. }
        lra. }
      set (tt := M - 2 + 1 / M) in *.
      assert (Ht : M <= 76 * tt).
      { unfold tt. apply Rmult_le_reg_r with M; [lra|]. replace (76 * (M - 2 + 1 / M) * M) with (76 * ((M - 1) * (M - 1))) by (field; lra). nra. }
      assert (Ht2 : tt <= M).
      { unfold tt. assert (1 / M <= 1) by (apply Rmult_le_reg_r with M; [lra|]; replace (1 / M * M) with 1 by (field; lra); lra). lra. }
      clearbody tt.
      assert (Rt : rel (2 * (76 * (2 * e + 3 * e0))) (a + b) tt).
      { apply rel_of; [lra|lra|]. apply Rle_trans with (1 := Tu). replace (76 * (2 * e + 3 * e0) * tt) with ((2 * e + 3 * e0) * (76 * tt)) by ring. apply Rmult_le_compat_l; lra. }
      assert (Bt : / 200 <= a + b <= 3000000000000).
      { apply Rabs_le_inv in Tu. assert (X : (2 * e + 3 * e0) * M <= / 8000 * M) by (apply Rmult_le_compat_r; lra). lra. }
      assert (I4 : is (nadd (nsub mu_eff n2) (ndiv n1 mu_eff)) (rnd64 (a + b))) by (apply is_add; auto; apply bigp; lra).
      pose proof (rel_step (a + b) _ _ ltac:(lra) Rt) as Rt'. destruct (near (a + b)) as [B1 B2]; [lra|]. set (t := rnd64 (a + b)) in *. clearbody t.
      pose proof (rnd_dbl _ _ I4 (bigp (2 * t) ltac:(lra) ltac:(lra))) as I5.
      destruct cmu_den_rel as [z [J4 [Rz Hz]]].
      (* quotient and minimum *)
      assert (Q1 : / 1000000000000000000000000000000000000 <= 2 * t / z) by (apply Rmult_le_reg_r with z; [lra|]; replace (2 * t / z * z) with (2 * t) by (field; lra); lra).
      assert (Q2 : 2 * t / z <= 3000000000000) by (apply Rmult_le_reg_r with z; [lra|]; replace (2 * t / z * z) with (2 * t) by (field; lra); lra).
      assert (I6 : is (ndiv (nmul n2 (nadd (nsub mu_eff n2) (ndiv n1 mu_eff))) (nadd (powi (nadd (nofN dim) n2) 2) (ndiv (nmul n2 mu_eff) n2))) (rnd64 (2 * t / z)))
        by (apply is_div; auto; [lra|apply bigp; lra]).
      pose proof (rel_step (2 * t / z) _ _ ltac:(lra) (rel_div _ _ _ _ _ _ (rel_mul _ _ _ _ _ _ (rel_refl 2 ltac:(lra)) Rt') Rz)) as Rq.
      set (q := rnd64 (2 * t / z)) in *. clearbody q. set (p := rnd64 (1 - c')) in *. clearbody p.
      exists (Rmin p q). split.
      + unfold calc_cmu, nmin. rewrite (is_not_nan _ _ I1), (is_not_nan _ _ I6). destruct (nltb _ _) eqn:El.
        * apply (is_lt _ _ _ _ I1 I6) in El. rewrite Rmin_left by lra. exact I1.
        * apply (is_nlt _ _ _ _ I1 I6) in El. rewrite Rmin_right by lra. exact I6.
      + cbv zeta. apply rel_to; [|lra]. apply rel_min; [eapply rel_weaken; [exact R1|lra]|eapply rel_weaken; [exact Rq|lra]].
  Qed.
End Rates.
