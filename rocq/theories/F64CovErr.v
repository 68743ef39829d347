(* Rounding errors of the covariance matrix computed in binary64, one entry at a time, for every way of summing. *)
From Coq Require Import List NArith ZArith Bool Reals Lra Lia Arith Psatz.
From Flocq Require Import Core Plus_error Relative.
From Flocq Require Import IEEE754.BinarySingleNaN.
Require Import Verif.Lib Verif.Base Verif.Num Verif.F64 Verif.XReal Verif.LinAlg Verif.Mode Verif.Weights Verif.Options Verif.Params Verif.Env Verif.State Verif.Order Verif.F64Lemmas
  Verif.CeilLemmas Verif.XRound Verif.XLe Verif.F64Acc Verif.F64Weights Verif.F64Rates Verif.F64Mean Verif.F64Sigma Verif.F64Cov Verif.PanicLemmas Verif.StateLemmas Verif.TermLemmas Verif.RSum.
Import ListNotations.
Open Scope R_scope.

(* an addition of binary64 numbers has no underflow error *)
Lemma add_err : forall x y, generic_format radix2 fexp64 x -> generic_format radix2 fexp64 y -> Rabs (rnd64 (x + y) - (x + y)) <= uu * Rabs (x + y).
Proof.
  intros x y Hx Hy. destruct (FLT_plus_error_N_ex radix2 (-1074) 53 (prec_gt_0_ := eq_refl) (fun z => negb (Z.even z)) x y Hx Hy) as [e [H1 H2]].
  assert (E1 : rnd64 (x + y) = (x + y) * (1 + e)) by exact H2. rewrite E1. replace ((x + y) * (1 + e) - (x + y)) with (e * (x + y)) by ring. rewrite Rabs_mult.
  apply Rmult_le_compat_r; [apply Rabs_pos|]. apply Rle_trans with (1 := H1). unfold u_ro. simpl. lra.
Qed.

(* growth of the relative error over n additions *)
Definition grow (n : nat) : R := (1 + uu) ^ n.
Lemma grow_1 : forall n, 1 <= grow n.
Proof. intros n. unfold grow. apply pow_R1_Rle. lra. Qed.
Lemma grow_le : forall n m, (n <= m)%nat -> grow n <= grow m.
Proof. intros n m H. unfold grow. apply Rle_pow; [lra|exact H]. Qed.
Lemma grow_S : forall n, grow (S n) = (1 + uu) * grow n.
Proof. reflexivity. Qed.
Lemma grow_small : forall n, INR n <= 2199023255552 -> grow n - 1 <= 1001 / 1000 * (INR n * uu).
Proof.
  intros n Hn. assert (H : grow n * (1 - INR n * uu) <= 1).
  { clear Hn. induction n as [|n IH]; [unfold grow; cbn [pow INR]; lra|]. rewrite grow_S, S_INR. pose proof (grow_1 n) as G. pose proof (pos_INR n) as P. set (a := grow n) in *. set (b := INR n) in *. clearbody a b.
    assert (a * ((1 + uu) * (1 - (b + 1) * uu)) <= a * (1 - b * uu)); [|lra]. apply Rmult_le_compat_l; [lra|]. nra. }
  pose proof (pos_INR n) as P. set (b := INR n * uu) in *. assert (B : 0 <= b <= / 4096) by (unfold b; lra). clearbody b. pose proof (grow_1 n). set (a := grow n) in *. clearbody a. nra.
Qed.

Lemma zero_of : forall x, Rabs (x - 0) <= 0 -> x = 0.
Proof. intros x H. apply Rabs_le_inv in H. lra. Qed.
(* adding two approximations *)
Lemma join_err : forall a b A B SA SB g, generic_format radix2 fexp64 a -> generic_format radix2 fexp64 b -> 1 <= g -> Rabs A <= SA -> Rabs B <= SB ->
  Rabs (a - A) <= (g - 1) * SA -> Rabs (b - B) <= (g - 1) * SB -> Rabs (rnd64 (a + b) - (A + B)) <= ((1 + uu) * g - 1) * (SA + SB).
Proof.
  intros a b A B SA SB g Fa Fb Hg HA HB Ha Hb. pose proof (add_err a b Fa Fb) as H.
  assert (S1 : Rabs (a + b) <= g * (SA + SB)).
  { replace (a + b) with ((a - A) + (b - B) + (A + B)) by ring. apply Rle_trans with (1 := Rabs_triang _ _). pose proof (Rabs_triang (a - A) (b - B)). pose proof (Rabs_triang A B). lra. }
  replace (rnd64 (a + b) - (A + B)) with ((rnd64 (a + b) - (a + b)) + ((a - A) + (b - B))) by ring. apply Rle_trans with (1 := Rabs_triang _ _). pose proof (Rabs_triang (a - A) (b - B)) as T.
  set (x := Rabs (a + b)) in *. set (y := Rabs (rnd64 (a + b) - (a + b))) in *. clearbody x y. assert (uu * x <= uu * (g * (SA + SB))) by (apply Rmult_le_compat_l; lra). lra.
Qed.
Lemma tot_app : forall a b, tot (a ++ b) = tot a + tot b.
Proof. induction a as [|x a IH]; intros b; [cbn [app]; change (tot []) with 0; ring|]. change (tot ((x :: a) ++ b)) with (x + tot (a ++ b)). rewrite IH. change (tot (x :: a)) with (x + tot a). ring. Qed.
Lemma tot_abs : forall l, Rabs (tot l) <= tot (map Rabs l).
Proof.
  induction l as [|x l IH]; [cbn; rewrite Rabs_R0; lra|]. change (tot (x :: l)) with (x + tot l). change (tot (map Rabs (x :: l))) with (Rabs x + tot (map Rabs l)).
  apply Rle_trans with (1 := Rabs_triang _ _). lra.
Qed.
Lemma tot_abs_nonneg : forall l, 0 <= tot (map Rabs l).
Proof. intros l. apply Rle_trans with (2 := tot_abs l). apply Rabs_pos. Qed.

(* ---- entries of sums of matrices ---- *)
Section Sums.
  Variables (n i j : nat).
  Hypotheses (Hi : (i < n)%nat) (Hj : (j < n)%nat).
  Let ent (m : mat f64) : f64 := mnth m i j.

  Lemma ent_madd : forall a b m : mat f64, shape n n a -> madd_c a b = Ret m -> ent m = nadd (ent a) (ent b) /\ shape n n m.
  Proof.
    intros a b m Sa H. assert (Sm : shape n n m) by (apply (madd_c_shape (T := f64) n a b m); [lia|exact Sa|exact H]). split; [|exact Sm]. rewrite (madd_c_inv _ _ _ H) in *. unfold ent.
    destruct (mnth_madd a b i j) as [K|[_ K]]; [exact K|exfalso]. rewrite (shape_row _ _ _ Sm Hi) in K. destruct Sm as [Sm _]. unfold mat, vec in *. lia.
  Qed.
  (* what a computed sum r of the entries of l says *)
  Definition summed (l : list (mat f64)) (r : R) : Prop :=
    exists ts, Forall2 is (map ent l) ts /\ Rabs (r - tot ts) <= (grow (length l) - 1) * tot (map Rabs ts).

  Lemma msum_err : forall l acc m r, shape n n acc -> msum_from acc l = Ret m -> is (ent m) r ->
    exists s ts, is (ent acc) s /\ Forall2 is (map ent l) ts /\ Rabs (r - (s + tot ts)) <= (grow (length l) - 1) * (Rabs s + tot (map Rabs ts)).
  Proof.
    induction l as [|x l IH]; intros acc m r Sa H Ir; cbn [msum_from] in H.
    - apply Ret_inj in H. subst m. exists r, []. split; [exact Ir|]. split; [constructor|]. cbn. rewrite Rplus_0_r, Rminus_diag_eq, Rabs_R0 by reflexivity. unfold grow. cbn. lra.
    - oinv H. match goal with X : madd_c acc x = Ret a |- _ => rename X into Ha end. destruct (ent_madd _ _ _ Sa Ha) as [Ea Sx]. destruct (IH a m r Sx H Ir) as [s1 [ts [I1 [I2 I3]]]].
      rewrite Ea in I1. destruct (add_fin _ _ _ I1) as [s [t [Is [It Es]]]]. exists s, (t :: ts). split; [exact Is|]. split; [cbn [map]; constructor; assumption|].
      change (tot (t :: ts)) with (t + tot ts). change (tot (map Rabs (t :: ts))) with (Rabs t + tot (map Rabs ts)). cbn [length]. rewrite grow_S.
      pose proof (add_err s t (is_format _ _ Is) (is_format _ _ It)) as Er. rewrite <- Es in Er. pose proof (Rabs_triang s t) as T1. pose proof (grow_1 (length l)) as G. set (g := grow (length l)) in *. clearbody g.
      pose proof (tot_abs_nonneg ts) as P. set (Q := tot (map Rabs ts)) in *. set (V := tot ts) in *. clearbody Q V.
      assert (T2 : Rabs s1 <= Rabs (s + t) * (1 + uu)) by (replace s1 with ((s1 - (s + t)) + (s + t)) by ring; apply Rle_trans with (1 := Rabs_triang _ _); lra).
      replace (r - (s + (t + V))) with ((r - (s1 + V)) + (s1 - (s + t))) by ring. apply Rle_trans with (1 := Rabs_triang _ _).
      pose proof (Rabs_pos (s + t)). set (z := Rabs (s + t)) in *. set (B := Rabs s + Rabs t) in *. replace (Rabs s + (Rabs t + Q)) with (B + Q) by (unfold B; ring). clearbody z B.
      set (z1 := Rabs s1) in *. set (e := Rabs (s1 - (s + t))) in *. set (w := Rabs (r - (s1 + V))) in *. clearbody z1 e w.
      assert ((g - 1) * (z1 + Q) <= (g - 1) * (z * (1 + uu) + Q)) by (apply Rmult_le_compat_l; lra).
      assert (((g - 1) * (1 + uu) + uu) * z <= ((g - 1) * (1 + uu) + uu) * B) by (apply Rmult_le_compat_r || apply Rmult_le_compat_l; nra).
      assert (0 <= uu * g * Q) by (apply Rmult_le_pos; nra). nra.
  Qed.
  Lemma ent_zero : ent (mzeros n) = n0.
  Proof. unfold ent, mzeros. rewrite mnth_mbuild by assumption. reflexivity. Qed.

  Lemma tree_shape : forall t (l : list (mat f64)) m, rank_mu_update_parallel n t l = Ret m -> shape n n m.
  Proof.
    induction t as [|k a IH1 b IH2]; intros l m H; cbn [rank_mu_update_parallel] in H.
    - assert (G : forall l2 (acc : mat f64), shape n n acc -> msum_from acc l2 = Ret m -> shape n n m).
      { induction l2 as [|x l2 IH]; intros acc Sa2 H2; cbn [msum_from] in H2; [apply Ret_inj in H2; subst; exact Sa2|]. oinv H2. eapply IH; [|exact H2]. eapply (madd_c_shape (T := f64)); [lia|exact Sa2|eassumption]. }
      eapply G; [|exact H]. apply shape_mbuild.
    - oinv H. oinv H. eapply (madd_c_shape (T := f64)); [lia| |exact H]. eapply IH1; eassumption.
  Qed.
  Lemma tree_err : forall t l m r, Forall (shape n n) l -> rank_mu_update_parallel n t l = Ret m -> is (ent m) r -> shape n n m /\ summed l r.
  Proof.
    induction t as [|k a IHa b IHb]; intros l m r Hl H Ir; cbn [rank_mu_update_parallel] in H.
    - split.
      + eapply (tree_shape RLeaf); exact H.
      + destruct (msum_err _ _ _ _ (shape_mbuild (T := f64) n n _) H Ir) as [s [ts [Is [I2 I3]]]]. change (mbuild n n (fun _ _ => n0)) with (mzeros (T := f64) n) in Is. rewrite ent_zero in Is.
        assert (s = 0) by (eapply is_fun; [exact Is|exact is0]). subst s. exists ts. split; [exact I2|]. rewrite Rplus_0_l, Rabs_R0, Rplus_0_l in I3. exact I3.
    - oinv H. oinv H. match goal with X : rank_mu_update_parallel n a _ = Ret ?x, Y : rank_mu_update_parallel n b _ = Ret ?y |- _ => rename X into Ha; rename Y into Hb; rename x into ma; rename y into mb end.
      assert (Fa : Forall (shape n n) (firstn k l)). { apply Forall_forall. intros x Hx. rewrite Forall_forall in Hl. apply Hl. rewrite <- (firstn_skipn k l). apply in_or_app. left. exact Hx. }
      assert (Fb : Forall (shape n n) (skipn k l)). { apply Forall_forall. intros x Hx. rewrite Forall_forall in Hl. apply Hl. rewrite <- (firstn_skipn k l). apply in_or_app. right. exact Hx. }
      assert (Sa : shape n n ma).
      { eapply tree_shape; exact Ha. }
      destruct (ent_madd _ _ _ Sa H) as [Em Sm]. split; [exact Sm|]. rewrite Em in Ir. destruct (add_fin _ _ _ Ir) as [x [y [Ix [Iy Er]]]].
      destruct (IHa _ _ _ Fa Ha Ix) as [_ [ta [A1 A2]]]. destruct (IHb _ _ _ Fb Hb Iy) as [_ [tb [B1 B2]]]. exists (ta ++ tb). split.
      { rewrite <- (firstn_skipn k l), map_app. apply Forall2_app; assumption. }
      rewrite tot_app, map_app, tot_app. assert (Len : (length (firstn k l) + length (skipn k l) = length l)%nat) by (rewrite <- app_length, firstn_skipn; reflexivity).
      pose proof (tot_abs ta) as Ta. pose proof (tot_abs tb) as Tb. pose proof (is_format _ _ Ix) as Fx. pose proof (is_format _ _ Iy) as Fy.
      destruct (firstn k l) as [|x1 l1] eqn:E1.
      { (* nothing on the left: the sum is the right one *)
        inversion A1; subst ta. cbn [tot fold_right map length] in *. unfold grow in A2. cbn [pow] in A2. assert (x = 0) by (apply zero_of; lra). subst x.
        rewrite Rplus_0_l in Er. rewrite (rnd64_id y Fy) in Er. subst y. rewrite !Rplus_0_l. rewrite <- Len. exact B2. }
      destruct (skipn k l) as [|x2 l2] eqn:E2.
      { inversion B1; subst tb. cbn [tot fold_right map length] in *. unfold grow in B2. cbn [pow] in B2. assert (y = 0) by (apply zero_of; lra). subst y.
        rewrite Rplus_0_r in Er. rewrite (rnd64_id x Fx) in Er. subst x. rewrite !Rplus_0_r. rewrite <- Len, Nat.add_0_r. exact A2. }
      cbn [length] in *. set (p := S (length l1)) in *. set (q := S (length l2)) in *. assert (Hmax : (S (Nat.max p q) <= length l)%nat) by lia.
      pose proof (tot_abs_nonneg ta) as Pa. pose proof (tot_abs_nonneg tb) as Pb. set (SA := tot (map Rabs ta)) in *. set (SB := tot (map Rabs tb)) in *.
      assert (A3 : Rabs (x - tot ta) <= (grow (Nat.max p q) - 1) * SA) by (apply Rle_trans with (1 := A2); apply Rmult_le_compat_r; [exact Pa|]; pose proof (grow_le p (Nat.max p q) ltac:(lia)); lra).
      assert (B3 : Rabs (y - tot tb) <= (grow (Nat.max p q) - 1) * SB) by (apply Rle_trans with (1 := B2); apply Rmult_le_compat_r; [exact Pb|]; pose proof (grow_le q (Nat.max p q) ltac:(lia)); lra).
      pose proof (join_err x y _ _ SA SB (grow (Nat.max p q)) Fx Fy (grow_1 _) Ta Tb A3 B3) as J. rewrite Er. apply Rle_trans with (1 := J).
      apply Rmult_le_compat_r; [lra|]. rewrite <- grow_S. pose proof (grow_le _ _ Hmax). lra.
  Qed.
  Lemma seq_err : forall l m r, Forall (shape n n) l -> rank_mu_update l = Ret m -> is (ent m) r -> summed l r.
  Proof.
    intros l m r Hl H Ir. unfold rank_mu_update, msum_c in H. destruct l as [|x l]; [discriminate H|]. inversion Hl; subst.
    destruct (msum_err _ _ _ _ ltac:(eassumption) H Ir) as [s [ts [Is [I2 I3]]]]. exists (s :: ts). split; [cbn [map]; constructor; assumption|].
    change (tot (s :: ts)) with (s + tot ts). change (tot (map Rabs (s :: ts))) with (Rabs s + tot (map Rabs ts)). apply Rle_trans with (1 := I3). cbn [length].
    apply Rmult_le_compat_r; [pose proof (tot_abs_nonneg ts); pose proof (Rabs_pos s); lra|]. pose proof (grow_le (length l) (S (length l)) ltac:(lia)). lra.
  Qed.
End Sums.

(* ---- one entry, in real numbers ---- *)
Lemma eta_tiny : 0 < eta <= uu * uu.
Proof. split; [apply eta_pos|]. unfold eta. change uu with (bpow radix2 (-53)). rewrite <- bpow_plus. apply bpow_le. lia. Qed.
Lemma sub_fin : forall (a b : f64) r, is (nsub a b) r -> exists x y, is a x /\ is b y /\ r = rnd64 (x - y).
Proof.
  unfold is. intros a b r H. rewrite f2x_sub in H. apply xround_fin in H. destruct H as [z [H ->]].
  destruct (f2x a) as [|[]|x], (f2x b) as [|[]|y]; cbn in H; try discriminate. exists x, y. injection H as <-. auto.
Qed.
Lemma format_opp : forall x, generic_format radix2 fexp64 x -> generic_format radix2 fexp64 (- x).
Proof. intros x H. apply generic_format_opp. exact H. Qed.
Lemma sub_err : forall x y, generic_format radix2 fexp64 x -> generic_format radix2 fexp64 y -> Rabs (rnd64 (x - y) - (x - y)) <= uu * Rabs (x - y).
Proof. intros x y Hx Hy. apply (add_err x (- y) Hx (format_opp y Hy)). Qed.
Lemma rnd_format : forall x, generic_format radix2 fexp64 (rnd64 x).
Proof. intros x. apply generic_format_round; [apply FLT_exp_valid; reflexivity|apply valid_rnd_N]. Qed.
Lemma fsum_grow : forall rs s, generic_format radix2 fexp64 s -> Forall (generic_format radix2 fexp64) rs ->
  Rabs (fsum rs s - (s + tot rs)) <= (grow (length rs) - 1) * (Rabs s + tot (map Rabs rs)).
Proof.
  induction rs as [|t rs IH]; intros s Fs Fr.
  - unfold fsum, grow. cbn [fold_left length pow map]. change (tot []) with 0. rewrite Rplus_0_r, Rminus_diag_eq, Rabs_R0 by reflexivity. lra.
  - inversion Fr; subst. change (fsum (t :: rs) s) with (fsum rs (rnd64 (s + t))). specialize (IH (rnd64 (s + t)) (rnd_format _) ltac:(assumption)).
    change (tot (t :: rs)) with (t + tot rs). change (tot (map Rabs (t :: rs))) with (Rabs t + tot (map Rabs rs)). cbn [length]. rewrite grow_S.
    pose proof (add_err s t Fs ltac:(assumption)) as Er. set (s1 := rnd64 (s + t)) in *. set (r := fsum rs s1) in *. clearbody s1 r.
    pose proof (Rabs_triang s t) as T1. pose proof (grow_1 (length rs)) as G. set (g := grow (length rs)) in *. clearbody g. pose proof (tot_abs_nonneg rs) as P. set (Q := tot (map Rabs rs)) in *. set (V := tot rs) in *. clearbody Q V.
    assert (T2 : Rabs s1 <= Rabs (s + t) * (1 + uu)) by (replace s1 with ((s1 - (s + t)) + (s + t)) by ring; apply Rle_trans with (1 := Rabs_triang _ _); lra).
    replace (r - (s + (t + V))) with ((r - (s1 + V)) + (s1 - (s + t))) by ring. apply Rle_trans with (1 := Rabs_triang _ _).
    pose proof (Rabs_pos (s + t)). set (z := Rabs (s + t)) in *. set (B := Rabs s + Rabs t) in *. replace (Rabs s + (Rabs t + Q)) with (B + Q) by (unfold B; ring). clearbody z B.
    set (z1 := Rabs s1) in *. set (e := Rabs (s1 - (s + t))) in *. set (w := Rabs (r - (s1 + V))) in *. clearbody z1 e w.
    assert ((g - 1) * (z1 + Q) <= (g - 1) * (z * (1 + uu) + Q)) by (apply Rmult_le_compat_l; lra).
    assert (((g - 1) * (1 + uu) + uu) * z <= ((g - 1) * (1 + uu) + uu) * B) by (apply Rmult_le_compat_r || apply Rmult_le_compat_l; nra).
    assert (0 <= uu * g * Q) by (apply Rmult_le_pos; nra). nra.
Qed.

(* the product of three numbers, the way the entries of the outer products are computed *)
Lemma prod3_err : forall c x z, Rabs (rnd64 (rnd64 (c * x) * z) - c * x * z) <= 201 / 100 * uu * Rabs (c * x * z) + 101 / 100 * (1 + Rabs z) * eta.
Proof.
  intros c x z. pose proof eta_tiny as Et. pose proof (rnd_any (c * x)) as H1. pose proof (rnd_any (rnd64 (c * x) * z)) as H2.
  set (q := rnd64 (c * x)) in *. set (r := rnd64 (q * z)) in *. clearbody q r. set (p := c * x) in *. clearbody p.
  assert (H3 : Rabs (q * z - p * z) <= uu * Rabs (p * z) + eta * Rabs z).
  { replace (q * z - p * z) with ((q - p) * z) by ring. rewrite !Rabs_mult. apply Rle_trans with ((uu * Rabs p + eta) * Rabs z); [apply Rmult_le_compat_r; [apply Rabs_pos|exact H1]|]. lra. }
  assert (H4 : Rabs (q * z) <= Rabs (p * z) + Rabs (q * z - p * z)). { replace (q * z) with (p * z + (q * z - p * z)) at 1 by ring. apply Rabs_triang. }
  replace (r - p * z) with ((r - q * z) + (q * z - p * z)) by ring. apply Rle_trans with (1 := Rabs_triang _ _).
  pose proof (Rabs_pos (p * z)). pose proof (Rabs_pos z). set (a := Rabs (p * z)) in *. set (b := Rabs z) in *. set (e := Rabs (q * z - p * z)) in *. set (g := Rabs (r - q * z)) in *. set (k := Rabs (q * z)) in *. set (h := eta) in *. clearbody a b e g k h.
  assert (0 <= h * b) by nra. assert (uu * k <= uu * (a + (uu * a + h * b))) by (apply Rmult_le_compat_l; lra). nra.
Qed.

(* the factor of the old matrix *)
Lemma near_abs : forall x y d, Rabs (x - y) <= d -> Rabs x <= Rabs y + d.
Proof. intros x y d H. replace x with (y + (x - y)) by ring. apply Rle_trans with (1 := Rabs_triang _ _). lra. Qed.
Lemma factor_real : forall c1 cmu cc b W V Sc N e x1 x2 x3 x4 x6 y1 k,
  0 <= c1 <= 1 -> 0 <= cmu <= 1 -> 0 <= cc <= 1 -> 0 <= b <= 1 -> 0 <= b * (2 - cc) <= 1 -> Rabs V <= W -> 0 <= W -> 0 <= N -> 0 <= N * uu <= / 4096 -> 0 < e <= uu * uu ->
  Rabs (Sc - V) <= 1001 / 1000 * (N * uu) * W -> Rabs (x6 - (2 - cc)) <= uu * (2 - cc) -> Rabs (x4 - b * x6) <= uu * Rabs (b * x6) + e -> Rabs (x3 - c1 * x4) <= uu * Rabs (c1 * x4) + e ->
  Rabs (x2 - (1 + x3)) <= uu * Rabs (1 + x3) -> Rabs (x1 - (x2 - c1)) <= uu * Rabs (x2 - c1) -> Rabs (y1 - cmu * Sc) <= uu * Rabs (cmu * Sc) + e -> Rabs (k - (x1 - y1)) <= uu * Rabs (x1 - y1) ->
  let B := 1 + cmu * W in let a := 1 + c1 * (b * (2 - cc)) - c1 - cmu * V in
  Rabs a <= B /\ Rabs (k - a) <= (101 / 100 * N + 10) * uu * B.
Proof.
  intros c1 cmu cc b W V Sc N e x1 x2 x3 x4 x6 y1 k H1 Hm Hc Hb Hd Ta Pw Pn HN Et HS R6 R4 R3 R2 R1 Ry Rk B a. set (d := b * (2 - cc)) in *.
  assert (A6 : Rabs (b * x6 - d) <= uu * d).
  { unfold d. replace (b * x6 - b * (2 - cc)) with (b * (x6 - (2 - cc))) by ring. rewrite Rabs_mult, (Rabs_pos_eq b) by lra. apply Rle_trans with (b * (uu * (2 - cc))); [apply Rmult_le_compat_l; lra|]. right; ring. }
  assert (A4 : Rabs (x4 - d) <= 201 / 100 * uu).
  { pose proof (near_abs _ _ _ A6) as K. rewrite (Rabs_pos_eq d) in K by lra. apply Rabs_le_inv in A6. apply Rabs_le_inv in R4. apply Rabs_le. set (z := Rabs (b * x6)) in *. set (q := b * x6) in *. clearbody z q d. clear - Hd Et K A6 R4. lra. }
  assert (A3 : Rabs (x3 - c1 * d) <= 302 / 100 * uu).
  { assert (Ac : Rabs (c1 * x4 - c1 * d) <= 201 / 100 * uu).
    { replace (c1 * x4 - c1 * d) with (c1 * (x4 - d)) by ring. rewrite Rabs_mult, (Rabs_pos_eq c1) by lra. apply Rle_trans with (1 * (201 / 100 * uu)); [apply Rmult_le_compat; try lra; apply Rabs_pos|lra]. }
    pose proof (near_abs _ _ _ Ac) as K. assert (C0 : 0 <= c1 * d <= 1) by (split; [apply Rmult_le_pos; lra|apply Rle_trans with (1 * 1); [apply Rmult_le_compat; lra|lra]]). rewrite (Rabs_pos_eq (c1 * d)) in K by lra.
    apply Rabs_le_inv in Ac. apply Rabs_le_inv in R3. apply Rabs_le. set (z := Rabs (c1 * x4)) in *. set (q := c1 * x4) in *. set (f := c1 * d) in *. clearbody z q f. clear - C0 Et K Ac R3. lra. }
  assert (C0 : 0 <= c1 * d <= c1) by (split; [apply Rmult_le_pos; lra|apply Rle_trans with (c1 * 1); [apply Rmult_le_compat_l; lra|lra]]). unfold a. set (f := c1 * d) in *. clearbody f.
  assert (A2 : Rabs (x2 - (1 + f)) <= 505 / 100 * uu).
  { assert (Rabs (1 + x3) <= 201 / 100) by (apply Rabs_le_inv in A3; apply Rabs_le; lra). apply Rabs_le_inv in A3. apply Rabs_le_inv in R2. apply Rabs_le. lra. }
  assert (A1 : Rabs (x1 - (1 + f - c1)) <= 608 / 100 * uu).
  { assert (Rabs (x2 - c1) <= 101 / 100) by (apply Rabs_le_inv in A2; apply Rabs_le; lra). apply Rabs_le_inv in A2. apply Rabs_le_inv in R1. apply Rabs_le. lra. }
  assert (AS : Rabs (cmu * Sc - cmu * V) <= 1001 / 1000 * (N * uu) * (cmu * W)).
  { replace (cmu * Sc - cmu * V) with (cmu * (Sc - V)) by ring. rewrite Rabs_mult, (Rabs_pos_eq cmu) by lra. apply Rle_trans with (cmu * (1001 / 1000 * (N * uu) * W)); [apply Rmult_le_compat_l; lra|]. right; ring. }
  assert (CW : 0 <= cmu * W) by (apply Rmult_le_pos; lra). assert (CV : Rabs (cmu * V) <= cmu * W) by (rewrite Rabs_mult, (Rabs_pos_eq cmu) by lra; apply Rmult_le_compat_l; lra).
  unfold B. set (M := cmu * W) in *. set (v := cmu * V) in *. set (sc := cmu * Sc) in *. clearbody M v sc. set (t := N * uu) in *.
  assert (TM : 0 <= t * M <= / 4096 * M) by (split; [apply Rmult_le_pos; lra|apply Rmult_le_compat_r; lra]). replace ((101 / 100 * N + 10) * uu * (1 + M)) with (101 / 100 * t + 10 * uu + 101 / 100 * (t * M) + 10 * uu * M) by (unfold t; ring).
  replace (1001 / 1000 * t * M) with (1001 / 1000 * (t * M)) in AS by ring. set (tm := t * M) in *. clearbody t tm.
  assert (AY : Rabs (y1 - v) <= 1001 / 1000 * tm + 1002 / 1000 * uu * M + e).
  { pose proof (near_abs _ _ _ AS) as K. apply Rabs_le_inv in AS. apply Rabs_le_inv in Ry. apply Rabs_le. set (z := Rabs sc) in *. clearbody z. lra. }
  split; [apply Rabs_le_inv in CV; apply Rabs_le; lra|].
  assert (Hx : Rabs (x1 - y1) <= 101 / 100 + 1003 / 1000 * M).
  { apply Rabs_le_inv in CV. apply Rabs_le_inv in AY. apply Rabs_le_inv in A1. apply Rabs_le. lra. }
  apply Rabs_le_inv in AY. apply Rabs_le_inv in A1. apply Rabs_le_inv in Rk. apply Rabs_le. lra.
Qed.
Lemma factor_err : forall (p : params f64) hs k, hs = n0 \/ hs = n1 -> is (cov_factor p hs) k -> INR (length (p_weights p)) <= 2199023255552 ->
  exists c1 cmu cc h ws, is (p_c1 p) c1 /\ is (p_cmu p) cmu /\ is (p_cc p) cc /\ is hs h /\ (h = 0 \/ h = 1) /\ Forall2 is (p_weights p) ws /\
    (0 <= c1 <= 1 -> 0 <= cmu <= 1 -> 0 <= cc <= 1 ->
     let B := 1 + cmu * tot (map Rabs ws) in let a := 1 + c1 * ((1 - h) * cc * (2 - cc)) - c1 - cmu * tot ws in
     Rabs a <= B /\ Rabs (k - a) <= (101 / 100 * INR (length (p_weights p)) + 10) * uu * B).
Proof.
  intros p hs k Hh Ik Hn. unfold cov_factor in Ik. destruct (sub_fin _ _ _ Ik) as [x1 [y1 [Ix1 [Iy1 Ek]]]]. destruct (sub_fin _ _ _ Ix1) as [x2 [c1 [Ix2 [I1 E1]]]]. destruct (mul_fin _ _ _ Iy1) as [cmu [Sc [Im [Is E2]]]].
  destruct (add_fin _ _ _ Ix2) as [one [x3 [Io [Ix3 E3]]]]. assert (one = 1) by (eapply is_fun; [exact Io|exact is1]). subst one.
  destruct (mul_fin _ _ _ Ix3) as [c1' [x4 [I1' [Ix4 E4]]]]. assert (c1' = c1) by (eapply is_fun; eassumption). subst c1'.
  destruct (mul_fin _ _ _ Ix4) as [x5 [x6 [Ix5 [Ix6 E5]]]]. destruct (mul_fin _ _ _ Ix5) as [x7 [cc [Ix7 [Ic E6]]]]. destruct (sub_fin _ _ _ Ix6) as [two [cc' [I2 [Ic' E7]]]].
  assert (two = 2) by (eapply is_fun; [exact I2|exact is2]). assert (cc' = cc) by (eapply is_fun; eassumption). subst two cc'.
  destruct (sub_fin _ _ _ Ix7) as [one [h [Io' [Ih E8]]]]. assert (one = 1) by (eapply is_fun; [exact Io'|exact is1]). subst one.
  assert (Vh : h = 0 \/ h = 1). { destruct Hh as [-> | ->]; [left; eapply is_fun; [exact Ih|exact is0]|right; eapply is_fun; [exact Ih|exact is1]]. }
  unfold nsum in Is. destruct (fold_back _ _ _ Is) as [s [ws [I0 [Hws Es]]]]. assert (s = 0) by (eapply is_fun; [exact I0|exact is0]). subst s.
  exists c1, cmu, cc, h, ws. repeat (split; [assumption|]). intros H1 Hm Hc B a.
  assert (Lw : length ws = length (p_weights p)) by (symmetry; exact (Forall2_len _ _ _ Hws)). rewrite <- Lw in *.
  assert (Fw : Forall (generic_format radix2 fexp64) ws). { clear - Hws. induction Hws; constructor; [eapply is_format; eassumption|assumption]. }
  pose proof (fsum_grow ws 0 (is_format _ _ is0) Fw) as HS. rewrite <- Es, Rabs_R0, !Rplus_0_l in HS. pose proof (grow_small (length ws) Hn) as Gs. pose proof (tot_abs ws) as Ta. pose proof (tot_abs_nonneg ws) as Pw. pose proof (pos_INR (length ws)) as Pn.
  set (W := tot (map Rabs ws)) in *. set (V := tot ws) in *. set (N := INR (length ws)) in *. set (g := grow (length ws)) in *. 
  assert (HS1 : Rabs (Sc - V) <= 1001 / 1000 * (N * uu) * W). { apply Rle_trans with (1 := HS). apply Rmult_le_compat_r; assumption. }
  assert (F1 : 1 - h = 0 \/ 1 - h = 1) by (destruct Vh; lra). 
  assert (E8' : x7 = 1 - h). { rewrite E8. destruct F1 as [-> | ->]; apply rnd64_id; [apply (is_format _ _ is0)|apply (is_format _ _ is1)]. }
  assert (E6' : x5 = (1 - h) * cc). { rewrite E6, E8'. destruct F1 as [-> | ->]; [rewrite Rmult_0_l; apply rnd64_id, (is_format _ _ is0)|rewrite Rmult_1_l; apply rnd64_id, (is_format _ _ Ic)]. }
  pose proof (sub_err 2 cc (is_format _ _ is2) (is_format _ _ Ic)) as R7. rewrite <- E7 in R7. rewrite (Rabs_pos_eq (2 - cc)) in R7 by lra.
  pose proof (rnd_any (x5 * x6)) as R5. rewrite <- E5, E6' in R5. pose proof (rnd_any (c1 * x4)) as R4. rewrite <- E4 in R4.
  pose proof (add_err 1 x3 (is_format _ _ is1) (is_format _ _ Ix3)) as R3. rewrite <- E3 in R3. pose proof (sub_err x2 c1 (is_format _ _ Ix2) (is_format _ _ I1)) as R1. rewrite <- E1 in R1.
  pose proof (rnd_any (cmu * Sc)) as R2. rewrite <- E2 in R2. pose proof (sub_err x1 y1 (is_format _ _ Ix1) (is_format _ _ Iy1)) as Rk. rewrite <- Ek in Rk.
  pose proof eta_tiny as Et. set (e := eta) in *. assert (HN : 0 <= N * uu <= / 4096) by lra.
  assert (Hd : 0 <= (1 - h) * cc * (2 - cc) <= 1).
  { destruct F1 as [-> | ->]; [rewrite !Rmult_0_l; lra|]. rewrite Rmult_1_l. split; [apply Rmult_le_pos; lra|]. pose proof (Rle_0_sqr (1 - cc)) as K. unfold Rsqr in K. lra. }
  assert (Q : 0 <= (1 - h) * cc <= 1) by (destruct F1 as [-> | ->]; lra).
  apply (factor_real c1 cmu cc ((1 - h) * cc) W V Sc N e x1 x2 x3 x4 x6 y1 k); assumption.
Qed.

(* sums of products of three *)
Definition exact3 (q : R * R * R) : R := fst (fst q) * snd (fst q) * snd q.
Definition float3 (q : R * R * R) : R := rnd64 (rnd64 (fst (fst q) * snd (fst q)) * snd q).
Definition size3 (q : list (R * R * R)) : R := tot (map (fun t => Rabs (exact3 t)) q).
Lemma size3_nonneg : forall q, 0 <= size3 q.
Proof. intros q. unfold size3. apply tot_nonneg. apply Forall_map, Forall_forall. intros. apply Rabs_pos. Qed.
Lemma exact3_size : forall q, Rabs (tot (map exact3 q)) <= size3 q.
Proof. intros q. apply Rle_trans with (1 := tot_abs _). unfold size3. rewrite map_map. lra. Qed.
Lemma terms_err : forall q Y, Forall (fun t => Rabs (snd t) <= Y) q ->
  Rabs (tot (map float3 q) - tot (map exact3 q)) <= 201 / 100 * uu * size3 q + 101 / 100 * (1 + Y) * INR (length q) * eta /\
  tot (map Rabs (map float3 q)) <= (1 + 201 / 100 * uu) * size3 q + 101 / 100 * (1 + Y) * INR (length q) * eta.
Proof.
  intros q Y H. pose proof eta_pos as Pe. induction H as [|t q Ht H IH].
  - unfold size3. cbn [map length INR]. change (tot []) with 0. rewrite Rminus_diag_eq, Rabs_R0 by reflexivity. split; lra.
  - destruct IH as [IH1 IH2]. cbn [length]. rewrite S_INR. cbn [map]. change (tot (float3 t :: map float3 q)) with (float3 t + tot (map float3 q)). change (tot (exact3 t :: map exact3 q)) with (exact3 t + tot (map exact3 q)).
    change (size3 (t :: q)) with (Rabs (exact3 t) + size3 q). change (tot (Rabs (float3 t) :: map Rabs (map float3 q))) with (Rabs (float3 t) + tot (map Rabs (map float3 q))).
    pose proof (prod3_err (fst (fst t)) (snd (fst t)) (snd t)) as Q. fold (exact3 t) in Q. fold (float3 t) in Q.
    assert (Q1 : 101 / 100 * (1 + Rabs (snd t)) * eta <= 101 / 100 * (1 + Y) * eta) by (apply Rmult_le_compat_r; lra). 
    assert (Q2 : Rabs (float3 t - exact3 t) <= 201 / 100 * uu * Rabs (exact3 t) + 101 / 100 * (1 + Y) * eta) by lra. clear Q Q1. pose proof (near_abs _ _ _ Q2) as Q3. split; [|lra].
    replace (float3 t + tot (map float3 q) - (exact3 t + tot (map exact3 q))) with ((float3 t - exact3 t) + (tot (map float3 q) - tot (map exact3 q))) by ring. apply Rle_trans with (1 := Rabs_triang _ _). lra.
Qed.
Lemma sum3_err : forall q Y r, Forall (fun t => Rabs (snd t) <= Y) q -> 0 <= Y -> INR (length q) <= 2199023255552 ->
  Rabs (r - tot (map float3 q)) <= (grow (length q) - 1) * tot (map Rabs (map float3 q)) ->
  Rabs (r - tot (map exact3 q)) <= (1002 / 1000 * INR (length q) + 202 / 100) * uu * size3 q + 102 / 100 * INR (length q) * (1 + Y) * eta.
Proof.
  intros q Y r Hq HY Hn H. destruct (terms_err q Y Hq) as [T1 T2]. pose proof (grow_small _ Hn) as G. pose proof (grow_1 (length q)) as G1. pose proof (pos_INR (length q)) as Pn. pose proof (size3_nonneg q) as Ps. pose proof eta_tiny as Et.
  assert (Pt : 0 <= tot (map Rabs (map float3 q))) by apply tot_abs_nonneg.
  replace (r - tot (map exact3 q)) with ((r - tot (map float3 q)) + (tot (map float3 q) - tot (map exact3 q))) by ring. apply Rle_trans with (1 := Rabs_triang _ _).
  set (x := Rabs (r - tot (map float3 q))) in *. set (y := Rabs (tot (map float3 q) - tot (map exact3 q))) in *. set (t := tot (map Rabs (map float3 q))) in *. set (s := size3 q) in *. set (N := INR (length q)) in *. set (g := grow (length q)) in *. set (e := eta) in *. clearbody x y t s N g e.
  set (v := (1 + Y) * N * e) in *. assert (V : 0 <= v) by (unfold v; apply Rmult_le_pos; [apply Rmult_le_pos; lra|lra]).
  replace (101 / 100 * (1 + Y) * N * e) with (101 / 100 * v) in * by (unfold v; ring). replace (102 / 100 * N * (1 + Y) * e) with (102 / 100 * v) by (unfold v; ring). clearbody v.
  assert (K : (g - 1) * t <= 1001 / 1000 * (N * uu) * ((1 + 201 / 100 * uu) * s + 101 / 100 * v)) by (apply Rmult_le_compat; lra).
  assert (NU : 0 <= N * uu <= / 4096) by lra. set (nu := N * uu) in *. replace ((1002 / 1000 * N + 202 / 100) * uu * s) with (1002 / 1000 * (nu * s) + 202 / 100 * uu * s) by (unfold nu; ring). clearbody nu.
  assert (0 <= nu * s <= / 4096 * s) by (split; [apply Rmult_le_pos; lra|apply Rmult_le_compat_r; lra]). assert (0 <= nu * v <= / 4096 * v) by (split; [apply Rmult_le_pos; lra|apply Rmult_le_compat_r; lra]).
  set (ns := nu * s) in *. set (nv := nu * v) in *. replace (1001 / 1000 * nu * ((1 + 201 / 100 * uu) * s + 101 / 100 * v)) with (1001 / 1000 * ((1 + 201 / 100 * uu) * ns + 101 / 100 * nv)) in K by (unfold ns, nv; ring). clearbody ns nv. lra.
Qed.

(* everything together *)
Lemma entry_err : forall k a B C p P cmu r T S N Y, 1 <= B -> Rabs a <= B -> Rabs (k - a) <= (101 / 100 * N + 10) * uu * B -> 0 <= N <= 2199023255552 -> 0 <= Y -> 0 <= cmu <= 1 -> Rabs T <= S ->
  Rabs (p - P) <= 201 / 100 * uu * Rabs P + 101 / 100 * (1 + Y) * eta -> generic_format radix2 fexp64 p ->
  Rabs (r - T) <= (1002 / 1000 * N + 202 / 100) * uu * S + 102 / 100 * N * (1 + Y) * eta ->
  Rabs (rnd64 (rnd64 (rnd64 (k * C) + p) + rnd64 (cmu * r)) - (a * C + P + cmu * T)) <= (2 * N + 16) * uu * (B * Rabs C + Rabs P + cmu * S) + (2 * N + 5) * (1 + Y) * eta.
Proof.
  intros k a B C p P cmu r T S N Y HB Ha Hk HN HY Hm HT Hp Fp Hr. pose proof eta_tiny as Et.
  assert (NU : 0 <= N * uu <= / 4096) by lra. assert (PS : 0 <= S) by (apply Rle_trans with (2 := HT); apply Rabs_pos).
  pose proof (rnd_any (k * C)) as R1. set (q1 := rnd64 (k * C)) in *. assert (F1 : generic_format radix2 fexp64 q1) by apply rnd_format. clearbody q1.
  pose proof (add_err q1 p F1 Fp) as R2. set (s1 := rnd64 (q1 + p)) in *. assert (F2 : generic_format radix2 fexp64 s1) by apply rnd_format. clearbody s1.
  pose proof (rnd_any (cmu * r)) as R3. set (q3 := rnd64 (cmu * r)) in *. assert (F3 : generic_format radix2 fexp64 q3) by apply rnd_format. clearbody q3.
  pose proof (add_err s1 q3 F2 F3) as R4. set (C' := rnd64 (s1 + q3)) in *. clearbody C'. clear F1 F2 F3 Fp. set (e := eta) in *. clearbody e.
  set (E := (1 + Y) * e) in *. assert (HE : e <= E /\ 0 <= E) by (unfold E; nra).
  (* the three parts *)
  set (M := B * Rabs C) in *. assert (PM : 0 <= M) by (unfold M; apply Rmult_le_pos; [lra|apply Rabs_pos]).
  set (nu := N * uu) in *. assert (NM : 0 <= nu * M <= / 4096 * M) by (split; [apply Rmult_le_pos; lra|apply Rmult_le_compat_r; lra]).
  assert (K1 : Rabs (k * C - a * C) <= 101 / 100 * (nu * M) + 10 * uu * M).
  { replace (k * C - a * C) with ((k - a) * C) by ring. rewrite Rabs_mult. apply Rle_trans with ((101 / 100 * N + 10) * uu * B * Rabs C); [apply Rmult_le_compat_r; [apply Rabs_pos|exact Hk]|]. right; unfold nu, M; ring. }
  assert (K0 : Rabs (a * C) <= M) by (rewrite Rabs_mult; unfold M; apply Rmult_le_compat_r; [apply Rabs_pos|exact Ha]).
  pose proof (near_abs _ _ _ K1) as K2. set (nm := nu * M) in *. 
  assert (Q1 : Rabs (q1 - a * C) <= 102 / 100 * nm + 1102 / 100 * uu * M + e).
  { replace (q1 - a * C) with ((q1 - k * C) + (k * C - a * C)) by ring. apply Rle_trans with (1 := Rabs_triang _ _). set (z1 := Rabs (q1 - k * C)) in *. set (z2 := Rabs (k * C - a * C)) in *. set (z3 := Rabs (k * C)) in *. set (z4 := Rabs (a * C)) in *. clearbody z1 z2 z3 z4 nm M nu. clear - R1 K1 K0 K2 NM PM Et NU. lra. }
  assert (Q3 : Rabs (q3 - cmu * T) <= 1003 / 1000 * (nu * (cmu * S)) + 304 / 100 * uu * (cmu * S) + 103 / 100 * N * E + e /\ 0 <= nu * (cmu * S) <= / 4096 * (cmu * S)).
  { assert (PC : 0 <= cmu * S) by (apply Rmult_le_pos; lra). set (V := cmu * S) in *. assert (NV : 0 <= nu * V <= / 4096 * V) by (split; [apply Rmult_le_pos; lra|apply Rmult_le_compat_r; lra]). split; [|exact NV].
    assert (NE : 0 <= N * E) by (apply Rmult_le_pos; lra). 
    assert (J1 : Rabs (cmu * r - cmu * T) <= 1002 / 1000 * (nu * V) + 202 / 100 * uu * V + 102 / 100 * (N * E)).
    { replace (cmu * r - cmu * T) with (cmu * (r - T)) by ring. rewrite Rabs_mult, (Rabs_pos_eq cmu) by lra. apply Rle_trans with (cmu * ((1002 / 1000 * N + 202 / 100) * uu * S + 102 / 100 * N * (1 + Y) * e)); [apply Rmult_le_compat_l; lra|].
      replace (cmu * ((1002 / 1000 * N + 202 / 100) * uu * S + 102 / 100 * N * (1 + Y) * e)) with (1002 / 1000 * (nu * V) + 202 / 100 * uu * V + 102 / 100 * (cmu * (N * E))) by (unfold nu, V, E; ring).
      assert (cmu * (N * E) <= 1 * (N * E)) by (apply Rmult_le_compat_r; lra). lra. }
    assert (J0 : Rabs (cmu * T) <= V) by (rewrite Rabs_mult, (Rabs_pos_eq cmu) by lra; unfold V; apply Rmult_le_compat_l; lra).
    pose proof (near_abs _ _ _ J1) as J2. replace (q3 - cmu * T) with ((q3 - cmu * r) + (cmu * r - cmu * T)) by ring. apply Rle_trans with (1 := Rabs_triang _ _).
    replace (103 / 100 * N * E) with (103 / 100 * (N * E)) by ring. set (ne := N * E) in *. set (nv := nu * V) in *. set (z1 := Rabs (q3 - cmu * r)) in *. set (z2 := Rabs (cmu * r - cmu * T)) in *. set (z3 := Rabs (cmu * r)) in *. set (z4 := Rabs (cmu * T)) in *. clearbody z1 z2 z3 z4 nv ne V. clear - R3 J1 J0 J2 NV PC Et NE. lra. }
  destruct Q3 as [Q3 NV]. assert (PC : 0 <= cmu * S) by (apply Rmult_le_pos; lra). assert (J0 : Rabs (cmu * T) <= cmu * S) by (rewrite Rabs_mult, (Rabs_pos_eq cmu) by lra; apply Rmult_le_compat_l; lra).
  replace ((2 * N + 16) * uu * (M + Rabs P + cmu * S) + (2 * N + 5) * (1 + Y) * e) with (2 * nm + 2 * (nu * Rabs P) + 2 * (nu * (cmu * S)) + 16 * uu * (M + Rabs P + cmu * S) + 2 * (N * E) + 5 * E) by (unfold nm, nu, E; ring).
  assert (NP : 0 <= nu * Rabs P) by (apply Rmult_le_pos; [lra|apply Rabs_pos]). assert (NE : 0 <= N * E) by (apply Rmult_le_pos; lra).
  replace (103 / 100 * N * E) with (103 / 100 * (N * E)) in Q3 by ring. replace (101 / 100 * (1 + Y) * e) with (101 / 100 * E) in Hp by (unfold E; ring).
  set (V := cmu * S) in *. set (nv := nu * V) in *. set (ne := N * E) in *. set (np := nu * Rabs P) in *. clearbody nv ne np nm V.
  pose proof (near_abs _ _ _ Q1) as X1. pose proof (near_abs _ _ _ Hp) as X2. pose proof (near_abs _ _ _ Q3) as X3. pose proof (Rabs_triang q1 p) as X4. pose proof (near_abs _ _ _ R2) as X5. pose proof (Rabs_triang s1 q3) as X6. pose proof (Rabs_pos P) as PP.
  replace (C' - (a * C + P + cmu * T)) with ((C' - (s1 + q3)) + (s1 - (q1 + p)) + ((q1 - a * C) + (p - P) + (q3 - cmu * T))) by ring.
  pose proof (Rabs_triang (C' - (s1 + q3) + (s1 - (q1 + p))) ((q1 - a * C) + (p - P) + (q3 - cmu * T))) as Y1. pose proof (Rabs_triang (C' - (s1 + q3)) (s1 - (q1 + p))) as Y2. pose proof (Rabs_triang (q1 - a * C + (p - P)) (q3 - cmu * T)) as Y3. pose proof (Rabs_triang (q1 - a * C) (p - P)) as Y4.
  apply Rle_trans with (1 := Y1). clear Y1.
  set (z1 := Rabs (C' - (s1 + q3))) in *. set (z2 := Rabs (s1 - (q1 + p))) in *. set (z3 := Rabs (q1 - a * C)) in *. set (z4 := Rabs (p - P)) in *. set (z5 := Rabs (q3 - cmu * T)) in *. set (z6 := Rabs (C' - (s1 + q3) + (s1 - (q1 + p)))) in *. set (z7 := Rabs (q1 - a * C + (p - P) + (q3 - cmu * T))) in *. set (z8 := Rabs (q1 - a * C + (p - P))) in *.
  set (y1 := Rabs (a * C)) in *. set (y2 := Rabs q1) in *. set (y3 := Rabs p) in *. set (y4 := Rabs P) in *. set (y5 := Rabs q3) in *. set (y6 := Rabs (cmu * T)) in *. set (y7 := Rabs (q1 + p)) in *. set (y8 := Rabs s1) in *. set (y9 := Rabs (s1 + q3)) in *. clearbody z1 z2 z3 z4 z5 z6 z7 z8 y1 y2 y3 y4 y5 y6 y7 y8 y9 M E.
  clear - R2 R4 Q1 Hp Q3 K0 J0 X1 X2 X3 X4 X5 X6 Y2 Y3 Y4 PM PC PP NM NV NP NE HE Et.
  assert (U2 : y7 <= 102 / 100 * M + 101 / 100 * y4 + 3 * E) by lra.
  assert (U4 : y9 <= 103 / 100 * (M + y4 + V) + 6 * E + 104 / 100 * ne) by lra.
  lra.
Qed.

(* ---- the code ---- *)
Section Code.
  Context {L : Libm f64} {E : Env f64}.
  (* the factor of the outer product of a step, as the code computes it: negative weights are rescaled *)
  Definition coef (n : N) (si : mat f64) (w : f64) (y : vec f64) : f64 :=
    if nltb w n0 then nmul w (ndiv (nofN n) (powi (magnitude (mvmul si y)) 2)) else w.

  Lemma mnth_outer_in : forall (a b : vec f64) i j, (i < length a)%nat -> (j < length b)%nat -> mnth (outer a b) i j = nmul (nth i a n0) (nth j b n0).
  Proof.
    intros a b i j Hi Hj. unfold mnth, outer. rewrite (nth_indep _ [] (map (fun y => nmul n0 y) b)) by (rewrite map_length; exact Hi).
    rewrite (map_nth (fun x => map (fun y => nmul x y) b)). rewrite (nth_indep _ n0 (nmul (nth i a n0) n0)) by (rewrite map_length; exact Hj). rewrite (map_nth (fun y => nmul (nth i a n0) y)). reflexivity.
  Qed.
  Lemma mnth_scale_in : forall s n (m : mat f64) i j, shape n n m -> (i < n)%nat -> (j < n)%nat -> mnth (mscale s m) i j = nmul s (mnth m i j).
  Proof.
    intros s n m i j Hm Hi Hj. unfold mscale. destruct (mnth_mmap (nmul s) m i j) as [Q|[_ Q]]; [exact Q|exfalso].
    rewrite (shape_row _ _ _ Hm Hi) in Q. destruct Hm as [Hm _]. unfold mat, vec in *. lia.
  Qed.
  Lemma contributions_nth : forall (p : params f64) si inds l d, contributions p si inds = Ret l ->
    length l = length (p_weights p) /\ forall k, (k < length (p_weights p))%nat -> (k < length inds)%nat /\
      nth k l [] = outer (vscale (coef (p_dim p) si (nth k (p_weights p) n0) (pt_step (nth k inds d))) (pt_step (nth k inds d))) (pt_step (nth k inds d)).
  Proof.
    intros p si inds l d H. unfold contributions in H. apply omap_Ret in H. pose proof (Forall2_len _ _ _ H) as Hl. rewrite combine_length, seq_length, Nat.min_id in Hl. split; [auto|]. intros k Hk.
    assert (G : forall (a : list (nat * f64)) (b : list (mat f64)), Forall2 (fun iw m => map_weights p si inds (fst iw) (snd iw) = Ret m) a b ->
      forall j, (j < length a)%nat -> map_weights p si inds (fst (nth j a (0%nat, n0))) (snd (nth j a (0%nat, n0))) = Ret (nth j b [])).
    { clear. intros a b H. induction H as [|ip v a b Hv H IH]; intros j Hj; [cbn in Hj; lia|]. destruct j as [|j]; cbn [nth length] in *; [exact Hv|apply IH; lia]. }
    specialize (G _ _ H k). rewrite combine_length, seq_length, Nat.min_id in G. specialize (G Hk). rewrite combine_nth in G by (apply seq_length). cbn [fst snd] in G. rewrite seq_nth in G by exact Hk. cbn [Nat.add] in G.
    set (w := nth k (p_weights p) n0) in *. unfold map_weights in G. unfold coef.
    assert (Ix : forall ind, index inds k = Ret ind -> (k < length inds)%nat /\ nth k inds d = ind).
    { intros ind Q. apply index_Ret in Q. split; [apply nth_error_Some; congruence|apply nth_error_nth; exact Q]. }
    destruct (nltb w n0).
    - oinv G. match goal with X : (ind <- index inds k ;; _) = Ret a |- _ => rename X into Ha end. oinv Ha. oinv Ha. apply Ret_inj in Ha. oinv G. apply Ret_inj in G.
      match goal with X : index inds k = Ret ?x, Y : index inds k = Ret ?y |- _ => destruct (Ix _ X) as [J1 J2]; destruct (Ix _ Y) as [_ J3] end. split; [exact J1|]. rewrite J2.
      match goal with X : mvmul_c si _ = Ret _ |- _ => unfold mvmul_c in X; apply check_Ret in X; destruct X as [_ X] end. rewrite <- G, <- Ha. subst. reflexivity.
    - oinv G. match goal with X : Ret w = Ret a |- _ => apply Ret_inj in X; subst a end. oinv G. apply Ret_inj in G. match goal with X : index inds k = Ret ?x |- _ => destruct (Ix _ X) as [J1 J2] end. split; [exact J1|]. rewrite J2, <- G. reflexivity.
  Qed.

  Lemma tot_list : forall {A} (f : A -> R) (l : list A) d, tot (map f l) = Sig (length l) (fun k => f (nth k l d)).
  Proof.
    intros A f l d. transitivity (tot (map (fun k => f (nth k l d)) (seq 0 (length l)))); [|exact (tot_Sig (fun k => f (nth k l d)) (length l) 0)]. f_equal. apply (nth_ext _ _ (f d) (f d)); [rewrite !map_length, seq_length; reflexivity|].
    intros k Hk. rewrite map_length in Hk. rewrite map_nth. rewrite (nth_indep _ (f d) (f (nth 0 l d))) by (rewrite map_length, seq_length; exact Hk). rewrite (map_nth (fun k => f (nth k l d))), seq_nth by exact Hk. reflexivity.
  Qed.
  Lemma is_values : forall (l : list f64) rs, Forall2 is l rs -> rs = map (fun x => B2R x) l /\ Forall (fun x => is_finite x = true) l.
  Proof. intros l rs H. induction H as [|x r l rs Hx H [I1 I2]]; [split; [reflexivity|constructor]|]. apply is_B2R in Hx. destruct Hx as [Fx Ex]. split; [cbn [map]; rewrite I1, Ex; reflexivity|constructor; assumption]. Qed.

  Section Entry.
    Variables (tree : rtree) (evals : N) (p : params f64) (inds : list (point f64)) (s : state f64) (ok : bool) (s' : state f64) (n : nat) (d : point f64) (c1 cmu cc : R).
    Hypotheses (X : state_update tree evals p inds s = Ret (ok, s')) (Hn : (1 <= n)%nat) (Hd : p_dim p = N.of_nat n) (Hs : shape n n (cm_cov (st_cov s))) (Hsym : symmetric_mat n (cm_cov (st_cov s)))
      (Hst : forall q, In q inds -> length (pt_step q) = n) (Hm : INR (length (p_weights p)) <= 2199023255552)
      (I1 : is (p_c1 p) c1) (Im : is (p_cmu p) cmu) (Ic : is (p_cc p) cc) (B1 : 0 <= c1 <= 1) (Bm : 0 <= cmu <= 1) (Bc : 0 <= cc <= 1).
    Let m := length (p_weights p).
    Let yf k i : f64 := nth i (pt_step (nth k inds d)) n0.
    Let bf k : f64 := coef (p_dim p) (cm_sqrt_inv (st_cov s)) (nth k (p_weights p) n0) (pt_step (nth k inds d)).
    Let pf i : f64 := nth i (st_path_c s') n0.
    Let w k : R := B2R (nth k (p_weights p) n0 : f64).
    Let y k i : R := B2R (yf k i).
    Let b k : R := B2R (bf k).
    Let pc i : R := B2R (pf i).
    Let old i j : R := B2R (mnth (cm_cov (st_cov s)) i j : f64).

    Let h : R := B2R (calc_hs p (st_generation s) (st_path_sigma s') : f64).

    Lemma update_entry : (m <= length inds)%nat /\ (h = 0 \/ h = 1) /\ forall i j, (i < n)%nat -> (j < n)%nat -> is_finite (mnth (cm_cov (st_cov s')) i j : f64) = true ->
      is_finite (mnth (cm_cov (st_cov s)) i j : f64) = true /\ is_finite (pf i) = true /\ is_finite (pf j) = true /\
      (forall k, (k < m)%nat -> is_finite (yf k i) = true /\ is_finite (yf k j) = true /\ is_finite (bf k) = true) /\
      forall Y, Rabs (pc i) <= Y -> Rabs (pc j) <= Y -> (forall k, (k < m)%nat -> Rabs (y k i) <= Y /\ Rabs (y k j) <= Y) ->
      Rabs (B2R (mnth (cm_cov (st_cov s')) i j : f64) -
            ((1 + c1 * ((1 - h) * cc * (2 - cc)) - c1 - cmu * Sig m w) * old i j + c1 * pc i * pc j + cmu * Sig m (fun k => b k * y k i * y k j)))
      <= (2 * INR m + 16) * uu * ((1 + cmu * Sig m (fun k => Rabs (w k))) * Rabs (old i j) + Rabs (c1 * pc i * pc j) + cmu * Sig m (fun k => Rabs (b k * y k i * y k j))) + (2 * INR m + 5) * (1 + Y) * eta.
    Proof.
      apply state_update_inv in X. destruct X as [yw [rm [cov U]]]. clear X. pose proof (up_set _ _ _ _ _ _ _ _ _ _ U) as Hset. apply set_cov_cov in Hset. rewrite Hset. pose proof (up_cov _ _ _ _ _ _ _ _ _ _ U) as Hcov.
      pose proof (up_rank _ _ _ _ _ _ _ _ _ _ U) as Hrm. unfold h. clear h. set (hs := calc_hs _ _ _) in *. assert (Hh : hs = n0 \/ hs = n1) by apply hs_values. clearbody hs. clear U Hset.
      unfold calc_rank_mu in Hrm. oinv Hrm. match goal with Q : contributions _ _ _ = Ret ?x |- _ => rename Q into Hcon; rename x into l end.
      destruct (contributions_nth _ _ _ _ d Hcon) as [Ll Ln]. fold m in Ll, Ln.
      assert (Lm : (m <= length inds)%nat) by (destruct m as [|m']; [lia|]; destruct (Ln m' ltac:(lia)); lia). split; [exact Lm|].
      assert (Hy : forall k, (k < m)%nat -> length (pt_step (nth k inds d)) = n) by (intros k Hk; apply Hst, nth_In; lia).
      assert (Sl : Forall (shape n n) l).
      { apply Forall_forall. intros x Hx. apply (In_nth _ _ []) in Hx. destruct Hx as [k [Hk0 Ex]]. assert (Hk : (k < m)%nat) by (clear - Hk0 Ll; unfold mat, vec in *; lia). destruct (Ln k Hk) as [_ Q]. rewrite <- Ex. assert (Q' : nth k l ([] : mat f64) = _) by exact Q. clear Q. unfold mat, vec in *. rewrite Q'. pose proof (shape_outer (vscale (bf k) (pt_step (nth k inds d))) (pt_step (nth k inds d))) as Z.
        unfold vscale in Z at 1. rewrite map_length, (Hy k Hk) in Z. exact Z. }
      unfold calc_cov in Hcov. oinv Hcov. match goal with Q : madd_c _ _ = Ret a |- _ => rename Q into Ha end.
      pose proof (shape_mscale _ _ (cov_factor p hs) _ Hs) as Sk. pose proof (madd_c_shape n _ _ _ Hn Sk Ha) as Sa. pose proof (madd_c_shape n _ _ _ Hn Sa Hcov) as Sc. assert (Lc : length cov = n) by apply Sc.
      assert (Lp : length (st_path_c s') = n).
      { unfold madd_c, same_shape in Ha. apply check_Ret in Ha. destruct Ha as [Ha _]. apply andb_prop in Ha. destruct Ha as [Ha _]. apply shape_is_shape in Ha. destruct Ha as [Ha _]. unfold outer, vscale in Ha. rewrite !map_length in Ha. rewrite Ha. apply Sk. }
      assert (Srm : shape n n rm).
      { unfold madd_c, same_shape in Hcov. apply check_Ret in Hcov. destruct Hcov as [Q _]. apply andb_prop in Q. destruct Q as [Q _]. apply shape_is_shape in Q. rewrite (shape_ncols _ _ _ Sa) in Q by lia. assert (La : length a = n) by apply Sa. unfold mat, vec in *. rewrite La in Q.
        destruct Q as [Q1 Q2]. unfold mscale, mmap in Q1, Q2. rewrite map_length in Q1. split; [exact Q1|]. apply Forall_map in Q2. eapply Forall_impl; [|exact Q2]. cbn beta. intros r Hr. rewrite map_length in Hr. exact Hr. }
      (* an entry of the upper triangle *)
      assert (Main : forall i j, (i < n)%nat -> (j < n)%nat -> is_finite (mnth cov i j : f64) = true ->
        is_finite (mnth (cm_cov (st_cov s)) i j : f64) = true /\ is_finite (pf i) = true /\ is_finite (pf j) = true /\
        (forall k, (k < m)%nat -> is_finite (yf k i) = true /\ is_finite (yf k j) = true /\ is_finite (bf k) = true) /\
        forall Y, Rabs (pc i) <= Y -> Rabs (pc j) <= Y -> (forall k, (k < m)%nat -> Rabs (y k i) <= Y /\ Rabs (y k j) <= Y) ->
        Rabs (B2R (mnth cov i j : f64) -
              ((1 + c1 * ((1 - B2R (hs : f64)) * cc * (2 - cc)) - c1 - cmu * Sig m w) * old i j + c1 * pc i * pc j + cmu * Sig m (fun k => b k * y k i * y k j)))
        <= (2 * INR m + 16) * uu * ((1 + cmu * Sig m (fun k => Rabs (w k))) * Rabs (old i j) + Rabs (c1 * pc i * pc j) + cmu * Sig m (fun k => Rabs (b k * y k i * y k j))) + (2 * INR m + 5) * (1 + Y) * eta).
      { intros i j Hi Hj Hf. assert (If : is (mnth cov i j) (B2R (mnth cov i j : f64))) by (apply f2x_finite; exact Hf). remember (B2R (mnth cov i j : f64)) as C' eqn:EC. clear EC Hf.
        destruct (ent_madd n i j Hi Hj _ _ _ Sa Hcov) as [Q1 _]. destruct (ent_madd n i j Hi Hj _ _ _ Sk Ha) as [Q2 _]. rewrite Q2 in Q1. rewrite (mnth_scale_in _ n _ i j Hs Hi Hj), (mnth_scale_in _ n _ i j Srm Hi Hj) in Q1.
        rewrite mnth_outer_in in Q1 by (unfold vscale; rewrite ?map_length, ?Lp; assumption). rewrite nth_vscale in Q1 by (rewrite Lp; exact Hi). fold (pf i) (pf j) in Q1. rewrite Q1 in If. clear Q1 Q2.
        destruct (add_fin _ _ _ If) as [s1 [q3 [J1 [J2 Ef]]]]. destruct (add_fin _ _ _ J1) as [q1 [q2 [J3 [J4 E1]]]]. destruct (mul_fin _ _ _ J3) as [k0 [C [Ik [IC E2]]]]. destruct (mul_fin _ _ _ J4) as [t0 [pj [J5 [Ipj E3]]]].
        destruct (mul_fin _ _ _ J5) as [c1' [pi [I1' [Ipi E4]]]]. assert (c1' = c1) by (eapply is_fun; eassumption). subst c1'. destruct (mul_fin _ _ _ J2) as [cmu' [r [Im' [Ir E5]]]]. assert (cmu' = cmu) by (eapply is_fun; eassumption). subst cmu'.
        destruct (factor_err p hs k0 Hh Ik Hm) as [c1' [cmu' [cc' [h [ws [G1 [G2 [G3 [Gh [Vh [Gw G]]]]]]]]]]]. assert (c1' = c1) by (eapply is_fun; eassumption). assert (cmu' = cmu) by (eapply is_fun; eassumption). assert (cc' = cc) by (eapply is_fun; eassumption). subst c1' cmu' cc'.
        specialize (G B1 Bm Bc). cbv zeta in G. fold m in G. apply is_B2R in IC. destruct IC as [FC EC]. apply is_B2R in Ipj. destruct Ipj as [Fpj Epj]. apply is_B2R in Ipi. destruct Ipi as [Fpi Epi]. apply is_B2R in Gh. destruct Gh as [_ Eh].
        destruct (is_values _ _ Gw) as [Ew _]. rewrite Ew, map_map in G. rewrite !(tot_list _ (p_weights p) n0) in G. fold m in G.
        change (Sig m (fun k => Rabs (B2R (nth k (p_weights p) n0)))) with (Sig m (fun k => Rabs (w k))) in G. change (Sig m (fun k => B2R (nth k (p_weights p) n0))) with (Sig m w) in G.
        assert (Sm : summed i j l r).
        { destruct (p_parallel_update p).
          - rewrite Hd, Nat2N.id in Hrm. exact (proj2 (tree_err n i j Hi Hj tree l rm r Sl Hrm Ir)).
          - exact (seq_err n i j Hi Hj l rm r Sl Hrm Ir). }
        destruct Sm as [ts [T1 T2]]. rewrite Ll in T2.
        (* the summands *)
        assert (Lt : length ts = m) by (rewrite <- (Forall2_len _ _ _ T1), map_length; exact Ll).
        assert (Tk : forall k, (k < m)%nat -> is_finite (yf k i) = true /\ is_finite (yf k j) = true /\ is_finite (bf k) = true /\ nth k ts 0 = rnd64 (rnd64 (b k * y k i) * y k j)).
        { intros k Hk. assert (Q : is (nth k (map (fun x : mat f64 => mnth x i j) l) n0) (nth k ts 0)).
          { clear - T1 Hk Lt. rewrite <- Lt in Hk. clear Lt. revert k Hk. induction T1 as [|x t a0 b0 Ht T IH]; intros k Hk; [cbn in Hk; lia|]. destruct k; cbn [nth length] in *; [exact Ht|apply IH; lia]. }
          rewrite (nth_indep _ n0 (mnth (T := f64) [] i j)) in Q by (rewrite map_length, Ll; exact Hk). rewrite (map_nth (fun x : mat f64 => mnth x i j)) in Q. destruct (Ln k Hk) as [_ Z]. rewrite Z in Q. clear Z.
          rewrite mnth_outer_in in Q by (unfold vscale; rewrite ?map_length, Hy; assumption). rewrite nth_vscale in Q by (rewrite Hy; assumption). fold (yf k i) (yf k j) (bf k) in Q.
          destruct (mul_fin _ _ _ Q) as [u1 [u2 [V1 [V2 V3]]]]. destruct (mul_fin _ _ _ V1) as [u3 [u4 [V4 [V5 V6]]]]. apply is_B2R in V2. apply is_B2R in V4. apply is_B2R in V5. destruct V2 as [V2 V2']. destruct V4 as [V4 V4']. destruct V5 as [V5 V5'].
          repeat (split; [assumption|]). rewrite V3, V6. unfold b, y. rewrite V2', V4', V5'. reflexivity. }
        split; [exact FC|]. split; [exact Fpi|]. split; [exact Fpj|]. split; [intros k Hk; destruct (Tk k Hk) as [? [? [? _]]]; auto|].
        intros Y Y1 Y2 Y3. set (q := map (fun k => (b k, y k i, y k j)) (seq 0 m)).
        assert (Et : ts = map float3 q).
        { apply (nth_ext _ _ 0 (float3 (b 0%nat, y 0%nat i, y 0%nat j))); [unfold q; rewrite !map_length, seq_length; exact Lt|]. rewrite Lt. intros k Hk. destruct (Tk k Hk) as [_ [_ [_ ->]]]. unfold q. rewrite map_map.
          rewrite (map_nth (fun x => float3 (b x, y x i, y x j))), seq_nth by exact Hk. reflexivity. }
        assert (Lq : length q = m) by (unfold q; rewrite map_length, seq_length; reflexivity).
        assert (Fq : Forall (fun t => Rabs (snd t) <= Y) q). { apply Forall_map, Forall_forall. intros k Hk. apply in_seq in Hk. cbn [snd]. apply Y3. lia. }
        assert (PY : 0 <= Y) by (apply Rle_trans with (2 := Y1); apply Rabs_pos). rewrite Et in T2.
        assert (Hq : INR (length q) <= 2199023255552) by (rewrite Lq; exact Hm). rewrite <- Lq in T2. pose proof (sum3_err q Y r Fq PY Hq T2) as S3. rewrite Lq in S3.
        assert (Eq1 : tot (map exact3 q) = Sig m (fun k => b k * y k i * y k j)) by (unfold q; rewrite map_map, (tot_Sig (fun x => exact3 (b x, y x i, y x j)) m 0); reflexivity).
        assert (Eq2 : size3 q = Sig m (fun k => Rabs (b k * y k i * y k j))) by (unfold size3, q; rewrite map_map, (tot_Sig (fun x => Rabs (exact3 (b x, y x i, y x j))) m 0); reflexivity).
        pose proof (exact3_size q) as Sq. rewrite Eq1, Eq2 in *.
        assert (P3 : Rabs (q2 - c1 * pc i * pc j) <= 201 / 100 * uu * Rabs (c1 * pc i * pc j) + 101 / 100 * (1 + Y) * eta).
        { rewrite E3, E4. unfold pc in *. rewrite Epi, Epj in *. apply Rle_trans with (1 := prod3_err c1 pi pj). pose proof eta_pos. apply Rplus_le_compat_l. apply Rmult_le_compat_r; lra. }
        assert (Bq : 1 <= 1 + cmu * Sig m (fun k => Rabs (w k))).
        { assert (0 <= Sig m (fun k => Rabs (w k))) by (apply Rle_trans with (2 := Sig_abs m w); apply Rabs_pos). assert (0 <= cmu * Sig m (fun k => Rabs (w k))) by (apply Rmult_le_pos; lra). lra. }
        destruct G as [Ga Gb]. pose proof (entry_err k0 _ _ C q2 (c1 * pc i * pc j) cmu r (Sig m (fun k => b k * y k i * y k j)) _ (INR m) Y Bq Ga Gb (conj (pos_INR m) Hm) PY Bm Sq P3 (is_format _ _ J4) S3) as Fin.
        unfold old. rewrite EC, Eh. rewrite Ef, E1, E2, E5. exact Fin. }
      split; [destruct Hh as [-> | ->]; [left; reflexivity|right; exact (proj2 (is_B2R _ _ is1))]|].
      intros i j Hi Hj. unfold fill_lower. rewrite mnth_mbuild by (unfold mat, vec in *; lia). destruct (Nat.ltb j i) eqn:Eij.
      - intros Hf. destruct (Main j i Hj Hi Hf) as [M1 [M2 [M3 [M4 M5]]]]. rewrite (Hsym i j Hi Hj). split; [exact M1|]. split; [exact M3|]. split; [exact M2|]. split; [intros k Hk; destruct (M4 k Hk) as [? [? ?]]; auto|].
        intros Y Y1 Y2 Y3. specialize (M5 Y Y2 Y1 (fun k Hk => conj (proj2 (Y3 k Hk)) (proj1 (Y3 k Hk)))). unfold old in *. rewrite (Hsym i j Hi Hj).
        rewrite (Sig_ext m (fun k => b k * y k i * y k j) (fun k => b k * y k j * y k i)) by (intros; cbn beta; ring). rewrite (Sig_ext m (fun k => Rabs (b k * y k i * y k j)) (fun k => Rabs (b k * y k j * y k i))) by (intros; cbn beta; f_equal; ring).
        replace (c1 * pc i * pc j) with (c1 * pc j * pc i) by ring. exact M5.
      - apply Main; assumption.
    Qed.
  End Entry.
End Code.
