(* Lemmas about the printed text. *)
From Coq Require Import List NArith ZArith Reals Lra Lia Bool String Ascii.
From Flocq Require Import Core BinarySingleNaN.
Require Import Verif.Base Verif.Num Verif.F64 Verif.Format Verif.FormatSpec.
Import ListNotations.
Open Scope string_scope.
Open Scope Z_scope.

(* ---- strings ---- *)
Lemma app_len : forall a b, String.length (a ++ b) = (String.length a + String.length b)%nat.
Proof. induction a as [|c a IH]; intros b; cbn; [reflexivity|rewrite IH; reflexivity]. Qed.
Lemma app_ass : forall a b c : string, (a ++ b) ++ c = a ++ (b ++ c).
Proof. induction a as [|x a IH]; intros b c; cbn; [reflexivity|rewrite IH; reflexivity]. Qed.
Lemma app_nil : forall a : string, a ++ "" = a.
Proof. induction a as [|c a IH]; cbn; [reflexivity|rewrite IH; reflexivity]. Qed.
Lemma repeat_len : forall c n, String.length (repeat_char c n) = n.
Proof. induction n as [|n IH]; cbn; [reflexivity|rewrite IH; reflexivity]. Qed.

Fixpoint all_chars (p : ascii -> bool) (s : string) : bool :=
  match s with "" => true | String c s' => p c && all_chars p s' end.
Lemma all_app : forall p a b, all_chars p (a ++ b) = all_chars p a && all_chars p b.
Proof. induction a as [|c a IH]; intros b; cbn; [reflexivity|rewrite IH; apply andb_assoc]. Qed.
Lemma all_repeat : forall p c n, p c = true -> all_chars p (repeat_char c n) = true.
Proof. intros p c n H. induction n as [|n IH]; cbn; [reflexivity|rewrite H; exact IH]. Qed.
Lemma all_impl : forall (p q : ascii -> bool), (forall c, p c = true -> q c = true) -> forall s, all_chars p s = true -> all_chars q s = true.
Proof.
  intros p q H s. induction s as [|c s IH]; cbn; [reflexivity|]. intros K. apply andb_true_iff in K. destruct K as [K1 K2].
  rewrite (H _ K1). apply IH. exact K2.
Qed.

(* ---- numerals ---- *)
Fixpoint value (acc : Z) (s : string) : Z :=
  match s with "" => acc | String c s' => value (10 * acc + digit_value c) s' end.

Lemma digit_ok : forall d, 0 <= d < 10 -> is_digit (digit d) = true /\ digit_value (digit d) = d.
Proof.
  intros d H. assert (K : d = 0 \/ d = 1 \/ d = 2 \/ d = 3 \/ d = 4 \/ d = 5 \/ d = 6 \/ d = 7 \/ d = 8 \/ d = 9) by lia.
  repeat (destruct K as [-> | K]; [split; reflexivity|]). subst d. split; reflexivity.
Qed.
Lemma value_snoc : forall s acc c, value acc (s ++ String c "") = 10 * value acc s + digit_value c.
Proof. induction s as [|a s IH]; intros acc c; cbn [String.append value]; [reflexivity|apply IH]. Qed.
Lemma value_acc : forall s acc, value acc s = acc * 10 ^ Z.of_nat (String.length s) + value 0 s.
Proof.
  induction s as [|c s IH]; intros acc; [cbn; lia|]. cbn [value]. rewrite IH. rewrite (IH (10 * 0 + digit_value c)).
  cbn [String.length]. rewrite Nat2Z.inj_succ, Z.pow_succ_r by lia. lia.
Qed.
Lemma read_digits_app : forall s t acc n, all_chars is_digit s = true ->
  read_digits acc n (s ++ t) = read_digits (value acc s) (n + String.length s) t.
Proof.
  induction s as [|c s IH]; intros t acc n H; cbn in *; [rewrite Nat.add_0_r; reflexivity|].
  apply andb_true_iff in H. destruct H as [H1 H2]. rewrite H1, IH by exact H2. rewrite Nat.add_succ_r. reflexivity.
Qed.
Lemma parse_digits_value : forall s acc, all_chars is_digit s = true -> parse_digits acc s = Some (value acc s).
Proof.
  induction s as [|c s IH]; intros acc H; cbn [parse_digits value]; [reflexivity|].
  cbn in H. apply andb_true_iff in H. destruct H as [H1 H2]. unfold is_digit in H1. apply andb_true_iff in H1. destruct H1 as [K1 K2].
  apply Nat.leb_le in K1, K2. unfold digit_value in *.
  replace (0 <=? Z.of_nat (nat_of_ascii c) - 48) with true by (symmetry; apply Z.leb_le; lia).
  replace (Z.of_nat (nat_of_ascii c) - 48 <=? 9) with true by (symmetry; apply Z.leb_le; lia).
  cbn [andb]. apply IH. exact H2.
Qed.

Record numeral (q : Z) (s : string) : Prop := {
  nu_digits : all_chars is_digit s = true;
  nu_value : value 0 s = q;
  nu_len : (1 <= String.length s)%nat;
  nu_low : (1 < String.length s)%nat -> 10 ^ (Z.of_nat (String.length s) - 1) <= q;
  nu_high : q < 10 ^ Z.of_nat (String.length s)
}.
Lemma one_digit : forall q, 0 <= q < 10 -> numeral q (String (digit q) "").
Proof.
  intros q H. destruct (digit_ok q H) as [D1 D2].
  constructor; cbn [String.length all_chars value]; rewrite ?D1, ?D2; try reflexivity; try lia.
Qed.
Lemma dec_fuel_numeral : forall fuel q, 0 <= q -> q < 2 ^ (Z.of_nat fuel + 1) -> numeral q (dec_fuel fuel q).
Proof.
  induction fuel as [|fuel IH]; intros q H0 H1.
  - change (2 ^ (Z.of_nat 0 + 1)) with 2 in H1. cbn [dec_fuel]. rewrite Z.mod_small by lia. apply one_digit. lia.
  - cbn [dec_fuel]. destruct (q <? 10) eqn:E.
    + apply Z.ltb_lt in E. apply one_digit. lia.
    + apply Z.ltb_ge in E. rewrite Nat2Z.inj_succ in H1.
      assert (Hm : 0 <= q mod 10 < 10) by (apply Z.mod_pos_bound; lia). destruct (digit_ok _ Hm) as [D1 D2].
      assert (Hd : q = 10 * (q / 10) + q mod 10) by (apply Z.div_mod; lia).
      assert (Hq : 1 <= q / 10) by (apply Z.div_le_lower_bound; lia).
      assert (Hs : q / 10 < 2 ^ (Z.of_nat fuel + 1)).
      { apply Z.div_lt_upper_bound; [lia|]. replace (Z.succ (Z.of_nat fuel) + 1) with (Z.succ (Z.of_nat fuel + 1)) in H1 by lia.
        rewrite Z.pow_succ_r in H1 by lia. assert (0 < 2 ^ (Z.of_nat fuel + 1)) by (apply Z.pow_pos_nonneg; lia). lia. }
      destruct (IH (q / 10) ltac:(lia) Hs) as [N1 N2 N3 N4 N5]. set (s := dec_fuel fuel (q / 10)) in *.
      constructor; rewrite ?app_len; cbn [String.length].
      * rewrite all_app, N1. cbn [all_chars andb]. rewrite D1. reflexivity.
      * rewrite value_snoc, N2, D2. lia.
      * lia.
      * intros _. replace (Z.of_nat (String.length s + 1) - 1) with (Z.succ (Z.of_nat (String.length s) - 1)) by lia.
        rewrite Z.pow_succ_r by lia. destruct (Nat.eq_dec (String.length s) 1) as [e|e].
        -- rewrite e in *. cbn. lia.
        -- specialize (N4 ltac:(lia)). lia.
      * replace (Z.of_nat (String.length s + 1)) with (Z.succ (Z.of_nat (String.length s))) by lia. rewrite Z.pow_succ_r by lia. lia.
Qed.
Lemma dec_numeral : forall q, 0 <= q -> numeral q (dec q).
Proof.
  intros q H. apply dec_fuel_numeral; [exact H|]. rewrite Z2Nat.id by apply Z.log2_nonneg.
  destruct (Z.eq_dec q 0) as [-> | Hq]; [reflexivity|]. replace (Z.log2 q + 1) with (Z.succ (Z.log2 q)) by lia. apply Z.log2_spec. lia.
Qed.
(* the number of digits is determined by the size *)
Lemma dec_len : forall q n, (1 <= n)%nat -> 0 <= q < 10 ^ Z.of_nat n -> ((1 < n)%nat -> 10 ^ (Z.of_nat n - 1) <= q) ->
  String.length (dec q) = n.
Proof.
  intros q n Hn Hq Hl. destruct (dec_numeral q ltac:(lia)) as [_ _ N3 N4 N5]. set (m := String.length (dec q)) in *.
  destruct (Nat.lt_trichotomy m n) as [H|[H|H]]; [|exact H|].
  - assert (10 ^ Z.of_nat m <= 10 ^ (Z.of_nat n - 1)) by (apply Z.pow_le_mono_r; lia). specialize (Hl ltac:(lia)). lia.
  - assert (10 ^ Z.of_nat n <= 10 ^ (Z.of_nat m - 1)) by (apply Z.pow_le_mono_r; lia). specialize (N4 ltac:(lia)). lia.
Qed.
Lemma dec_len_le : forall q n, (1 <= n)%nat -> 0 <= q < 10 ^ Z.of_nat n -> (String.length (dec q) <= n)%nat.
Proof.
  intros q n Hn Hq. destruct (dec_numeral q ltac:(lia)) as [_ _ N3 N4 _]. set (m := String.length (dec q)) in *.
  destruct (Nat.le_gt_cases m n) as [H|H]; [exact H|]. specialize (N4 ltac:(lia)).
  assert (10 ^ Z.of_nat n <= 10 ^ (Z.of_nat m - 1)) by (apply Z.pow_le_mono_r; lia). lia.
Qed.
Lemma digit_not : forall c d, is_digit c = true -> is_digit d = false -> Ascii.eqb c d = false.
Proof. intros c d H1 H2. destruct (Ascii.eqb c d) eqn:E; [|reflexivity]. apply Ascii.eqb_eq in E. congruence. Qed.

(* ---- powers of ten ---- *)
Lemma pow_ten : forall k, 0 <= k -> IZR (10 ^ k) = bpow ten k.
Proof. intros k H. rewrite <- IZR_Zpower by exact H. reflexivity. Qed.
Lemma ten_pos : forall k, (0 < bpow ten k)%R.
Proof. intros. apply bpow_gt_0. Qed.

Lemma exponent10_spec : forall n d, 0 < n -> 0 < d ->
  (bpow ten (exponent10 n d) <= IZR n / IZR d < bpow ten (exponent10 n d + 1))%R.
Proof.
  intros n d Hn Hd. assert (Rn : (0 < IZR n)%R) by (apply IZR_lt; exact Hn). assert (Rd : (0 < IZR d)%R) by (apply IZR_lt; exact Hd).
  unfold exponent10. destruct (d <=? n) eqn:E.
  - apply Z.leb_le in E. assert (Hq : 1 <= n / d) by (apply Z.div_le_lower_bound; lia).
    destruct (dec_numeral (n / d) ltac:(lia)) as [_ _ N3 N4 N5]. set (m := String.length (dec (n / d))) in *.
    assert (Hlow : 10 ^ (Z.of_nat m - 1) <= n / d).
    { destruct (Nat.eq_dec m 1) as [e|e]; [rewrite e; cbn; lia|]. apply N4. lia. }
    pose proof (Z.div_mod n d ltac:(lia)) as Hdm. pose proof (Z.mod_pos_bound n d Hd) as Hmb.
    replace (Z.of_nat m - 1 + 1) with (Z.of_nat m) by lia. rewrite <- !pow_ten by lia.
    split.
    + apply Rmult_le_reg_r with (IZR d); [exact Rd|]. unfold Rdiv. rewrite Rmult_assoc, Rinv_l, Rmult_1_r by lra.
      rewrite <- mult_IZR. apply IZR_le. nia.
    + apply Rmult_lt_reg_r with (IZR d); [exact Rd|]. unfold Rdiv. rewrite Rmult_assoc, Rinv_l, Rmult_1_r by lra.
      rewrite <- mult_IZR. apply IZR_lt. nia.
  - apply Z.leb_gt in E. assert (Hq : 1 <= (d - 1) / n) by (apply Z.div_le_lower_bound; lia).
    destruct (dec_numeral ((d - 1) / n) ltac:(lia)) as [_ _ N3 N4 N5]. set (m := String.length (dec ((d - 1) / n))) in *.
    assert (Hlow : 10 ^ (Z.of_nat m - 1) <= (d - 1) / n).
    { destruct (Nat.eq_dec m 1) as [e|e]; [rewrite e; cbn; lia|]. apply N4. lia. }
    pose proof (Z.div_mod (d - 1) n ltac:(lia)) as Hdm. pose proof (Z.mod_pos_bound (d - 1) n Hn) as Hmb.
    replace (- Z.of_nat m + 1) with (- (Z.of_nat m - 1)) by lia. rewrite !bpow_opp, <- !pow_ten by lia.
    assert (P1 : (0 < IZR (10 ^ Z.of_nat m))%R) by (apply IZR_lt; apply Z.pow_pos_nonneg; lia).
    assert (P2 : (0 < IZR (10 ^ (Z.of_nat m - 1)))%R) by (apply IZR_lt; apply Z.pow_pos_nonneg; lia).
    split.
    + apply Rmult_le_reg_r with (IZR d); [exact Rd|]. unfold Rdiv. rewrite (Rmult_assoc (IZR n)), Rinv_l, Rmult_1_r by lra.
      apply Rmult_le_reg_l with (IZR (10 ^ Z.of_nat m)); [exact P1|]. rewrite <- Rmult_assoc, Rinv_r, Rmult_1_l by lra.
      rewrite <- mult_IZR. apply IZR_le. nia.
    + apply Rmult_lt_reg_r with (IZR d); [exact Rd|]. unfold Rdiv. rewrite (Rmult_assoc (IZR n)), Rinv_l, Rmult_1_r by lra.
      apply Rmult_lt_reg_l with (IZR (10 ^ (Z.of_nat m - 1))); [exact P2|]. rewrite <- Rmult_assoc, Rinv_r, Rmult_1_l by lra.
      rewrite <- mult_IZR. apply IZR_lt. nia.
Qed.

Lemma round_spec : forall n d, 0 <= n -> 0 < d -> (Rabs (IZR (round_half_even n d) - IZR n / IZR d) <= / 2)%R.
Proof.
  intros n d Hn Hd. assert (Rd : (0 < IZR d)%R) by (apply IZR_lt; exact Hd). unfold round_half_even.
  pose proof (Z.div_mod n d ltac:(lia)) as Hdm. pose proof (Z.mod_pos_bound n d Hd) as Hmb. set (q := n / d) in *. set (r := n mod d) in *.
  assert (K : (IZR n / IZR d = IZR q + IZR r / IZR d)%R).
  { rewrite Hdm, plus_IZR, mult_IZR. field. lra. }
  assert (K1 : (0 <= IZR r / IZR d)%R).
  { apply Rmult_le_pos; [apply IZR_le; lia|]. left. apply Rinv_0_lt_compat. exact Rd. }
  assert (K2 : (IZR r / IZR d < 1)%R).
  { apply Rmult_lt_reg_r with (IZR d); [exact Rd|]. unfold Rdiv. rewrite Rmult_assoc, Rinv_l, Rmult_1_r, Rmult_1_l by lra. apply IZR_lt. lia. }
  assert (U : forall z, 2 * r <= z -> z <= d -> (IZR r / IZR d <= / 2)%R).
  { intros z Z1 Z2. apply Rmult_le_reg_r with (IZR d); [exact Rd|]. unfold Rdiv. rewrite Rmult_assoc, Rinv_l, Rmult_1_r by lra.
    assert (IZR (2 * r) <= IZR d)%R by (apply IZR_le; lia). rewrite mult_IZR in H. lra. }
  assert (D : d <= 2 * r -> (/ 2 <= IZR r / IZR d)%R).
  { intros Z1. apply Rmult_le_reg_r with (IZR d); [exact Rd|]. unfold Rdiv. rewrite Rmult_assoc, Rinv_l, Rmult_1_r by lra.
    assert (IZR d <= IZR (2 * r))%R by (apply IZR_le; lia). rewrite mult_IZR in H. lra. }
  rewrite K. destruct (2 * r ?= d) eqn:E.
  - apply Z.compare_eq in E. specialize (U (2 * r) ltac:(lia) ltac:(lia)). specialize (D ltac:(lia)).
    destruct (Z.even q); [|rewrite plus_IZR]; apply Rabs_le; lra.
  - assert (2 * r < d) by exact E. specialize (U (2 * r) ltac:(lia) ltac:(lia)). apply Rabs_le; lra.
  - assert (d < 2 * r) by (apply Z.gt_lt; exact E). specialize (D ltac:(lia)). rewrite plus_IZR. apply Rabs_le; lra.
Qed.

(* the significand has p + 1 digits, the shown value is close, and the exponent is that of the rounded value *)
Lemma scientific_spec : forall n d p s k, 0 < n -> 0 < d -> scientific n d p = (s, k) ->
  10 ^ Z.of_N p <= s < 10 ^ (Z.of_N p + 1) /\
  (Rabs (IZR s * bpow ten (k - Z.of_N p) - IZR n / IZR d) <= / 2 * bpow ten (- Z.of_N p) * (IZR n / IZR d))%R /\
  (IZR n / IZR d < bpow ten (k + 1))%R /\
  ((bpow ten k <= IZR n / IZR d)%R \/ (bpow ten k - / 2 * bpow ten (k - 1 - Z.of_N p) <= IZR n / IZR d)%R) /\
  exponent10 n d <= k.
Proof.
  intros n d p s k Hn Hd. unfold scientific. set (k0 := exponent10 n d). set (P := Z.of_N p). assert (HP : 0 <= P) by (unfold P; lia).
  set (s0 := round_half_even _ _). destruct (exponent10_spec n d Hn Hd) as [E1 E2]. fold k0 in E1, E2. set (v := (IZR n / IZR d)%R) in *.
  assert (Rd : (0 < IZR d)%R) by (apply IZR_lt; exact Hd).
  assert (Hv : (0 < v)%R) by (pose proof (ten_pos k0); lra).
  assert (R0 : (Rabs (IZR s0 - v * bpow ten (P - k0)) <= / 2)%R).
  { assert (W : (IZR (n * 10 ^ Z.max 0 (P - k0)) / IZR (d * 10 ^ Z.max 0 (k0 - P)) = v * bpow ten (P - k0))%R).
    { rewrite !mult_IZR, !pow_ten by lia. unfold v.
      replace (bpow ten (P - k0)) with (bpow ten (Z.max 0 (P - k0)) / bpow ten (Z.max 0 (k0 - P)))%R.
      - field. split; apply Rgt_not_eq; [apply ten_pos|exact Rd].
      - unfold Rdiv. rewrite <- bpow_opp, <- bpow_plus. f_equal. lia. }
    rewrite <- W. apply round_spec.
    - apply Z.mul_nonneg_nonneg; [lia|]. apply Z.pow_nonneg. lia.
    - apply Z.mul_pos_pos; [exact Hd|]. apply Z.pow_pos_nonneg; lia. }
  assert (B1 : (bpow ten P <= v * bpow ten (P - k0))%R).
  { replace P with (k0 + (P - k0)) at 1 by lia. rewrite bpow_plus. apply Rmult_le_compat_r; [left; apply ten_pos|exact E1]. }
  assert (B2 : (v * bpow ten (P - k0) < bpow ten (P + 1))%R).
  { replace (P + 1) with (k0 + 1 + (P - k0)) by lia. rewrite (bpow_plus ten (k0 + 1)). apply Rmult_lt_compat_r; [apply ten_pos|exact E2]. }
  assert (I1 : IZR (10 ^ P) = bpow ten P) by (apply pow_ten; exact HP).
  assert (I2 : IZR (10 ^ (P + 1)) = bpow ten (P + 1)) by (apply pow_ten; lia).
  apply Rabs_le_inv in R0. destruct R0 as [R1 R2].
  assert (S1 : 10 ^ P <= s0).
  { apply Z.lt_succ_r. apply lt_IZR. unfold Z.succ. rewrite plus_IZR, I1. lra. }
  assert (S2 : s0 <= 10 ^ (P + 1)).
  { apply Z.lt_succ_r. apply lt_IZR. unfold Z.succ. rewrite plus_IZR, I2. lra. }
  (* distance of the rounded value *)
  assert (Dst : (Rabs (IZR s0 * bpow ten (k0 - P) - v) <= / 2 * bpow ten (- P) * v)%R).
  { replace (IZR s0 * bpow ten (k0 - P) - v)%R with ((IZR s0 - v * bpow ten (P - k0)) * bpow ten (k0 - P))%R.
    2:{ rewrite Rmult_minus_distr_r, Rmult_assoc, <- bpow_plus. replace (P - k0 + (k0 - P)) with 0 by lia. cbn. ring. }
    rewrite Rabs_mult, (Rabs_pos_eq (bpow ten _)) by (left; apply ten_pos).
    apply Rle_trans with (/ 2 * bpow ten (k0 - P))%R.
    - apply Rmult_le_compat_r; [left; apply ten_pos|]. apply Rabs_le. lra.
    - replace (k0 - P) with (- P + k0) by lia. rewrite bpow_plus, <- Rmult_assoc. apply Rmult_le_compat_l; [|exact E1].
      pose proof (ten_pos (- P)). lra. }
  destruct (10 ^ (P + 1) <=? s0) eqn:E; intros H; injection H as <- <-.
  - apply Z.leb_le in E. assert (s0 = 10 ^ (P + 1)) by lia. split; [|split; [|split; [|split]]].
    + split; [lia|]. apply Z.pow_lt_mono_r; lia.
    + replace (IZR (10 ^ P) * bpow ten (k0 + 1 - P))%R with (IZR s0 * bpow ten (k0 - P))%R; [exact Dst|].
      rewrite H, I1, I2, <- !bpow_plus. f_equal. lia.
    + apply Rlt_le_trans with (1 := E2). apply bpow_le. lia.
    + right. rewrite H, I2 in R2. replace (k0 + 1 - 1 - P) with (k0 - P) by lia.
      replace v with (v * bpow ten (P - k0) * bpow ten (k0 - P))%R.
      2:{ rewrite Rmult_assoc, <- bpow_plus. replace (P - k0 + (k0 - P)) with 0 by lia. cbn. ring. }
      replace (bpow ten (k0 + 1)) with (bpow ten (P + 1) * bpow ten (k0 - P))%R by (rewrite <- bpow_plus; f_equal; lia).
      rewrite <- Rmult_minus_distr_r. apply Rmult_le_compat_r; [left; apply ten_pos|lra].
    + lia.
  - apply Z.leb_gt in E. split; [lia|]. split; [exact Dst|]. split; [exact E2|]. split; [left; exact E1|lia].
Qed.

(* ---- splitting and parsing the text again ---- *)
Definition no_char (c : ascii) (a : ascii) : bool := negb (Ascii.eqb a c).
Lemma split_none : forall c s, all_chars (no_char c) s = true -> split_at c s = [s].
Proof.
  intros c s. induction s as [|a s IH]; cbn; [reflexivity|]. unfold no_char at 1. intros H. apply andb_true_iff in H. destruct H as [H1 H2].
  destruct (Ascii.eqb a c); [discriminate H1|]. rewrite (IH H2). reflexivity.
Qed.
Lemma split_one : forall c s t, all_chars (no_char c) s = true -> all_chars (no_char c) t = true ->
  split_at c (s ++ String c t) = [s; t].
Proof.
  intros c s t. induction s as [|a s IH]; cbn; intros H1 H2.
  - rewrite Ascii.eqb_refl. rewrite split_none by exact H2. reflexivity.
  - apply andb_true_iff in H1. destruct H1 as [K1 K2]. unfold no_char in K1. destruct (Ascii.eqb a c); [discriminate K1|].
    rewrite (IH K2 H2). reflexivity.
Qed.
Lemma digits_no : forall c s, is_digit c = false -> all_chars is_digit s = true -> all_chars (no_char c) s = true.
Proof. intros c s H. apply all_impl. intros a Ha. unfold no_char. rewrite (digit_not a c Ha H). reflexivity. Qed.

Lemma numeral_cons : forall q s, numeral q s -> exists c s', s = String c s' /\ is_digit c = true /\ all_chars is_digit s' = true.
Proof.
  intros q s [N1 _ N3 _ _]. destruct s as [|c s']; [cbn in N3; lia|]. cbn in N1. apply andb_true_iff in N1. destruct N1. eauto.
Qed.
Lemma parse_dec_signed : forall k, -2147483648 <= k <= 2147483647 -> parse_i32 (dec_signed k) = Some k.
Proof.
  intros k Hk. unfold dec_signed, parse_i32. destruct (k <? 0) eqn:E.
  - apply Z.ltb_lt in E. pose proof (dec_numeral (- k) ltac:(lia)) as N. destruct (numeral_cons _ _ N) as [c [t [Ed _]]].
    cbn [String.append]. change (Ascii.eqb "-" "-") with true. cbv iota. rewrite Ed. rewrite <- Ed.
    rewrite parse_digits_value by apply (nu_digits _ _ N). rewrite (nu_value _ _ N).
    replace (- - k) with k by lia.
    replace (-2147483648 <=? k) with true by (symmetry; apply Z.leb_le; lia).
    replace (k <=? 2147483647) with true by (symmetry; apply Z.leb_le; lia). reflexivity.
  - apply Z.ltb_ge in E. pose proof (dec_numeral k ltac:(lia)) as N. destruct (numeral_cons _ _ N) as [c [t [Ed [D1 D2]]]].
    rewrite Ed. rewrite (digit_not c "-" D1 eq_refl), (digit_not c "+" D1 eq_refl). rewrite <- Ed.
    rewrite parse_digits_value by apply (nu_digits _ _ N). rewrite (nu_value _ _ N).
    replace (-2147483648 <=? k) with true by (symmetry; apply Z.leb_le; lia).
    replace (k <=? 2147483647) with true by (symmetry; apply Z.leb_le; lia). reflexivity.
Qed.

(* ---- one number ---- *)
Definition places (w : N) : Z := Z.of_N (N.max w 8 - 7).
Definition sign_text (x : f64) : string := if nleb n0 x then " " else "-".
(* the text of a finite number *)
Definition number_text (x : f64) (s k : Z) : string := sign_text x ++ point_after_first (dec s) ++ "e" ++ format_sign3 k.

Record shown (x : f64) (w : N) (s k : Z) : Prop := {
  sw_digits : 10 ^ places w <= s < 10 ^ (places w + 1);
  sw_close : (Rabs (IZR s * bpow ten (k - places w) - Rabs (B2R x)) <= / 2 * bpow ten (- places w) * Rabs (B2R x))%R;
  sw_high : (Rabs (B2R x) < bpow ten (k + 1))%R;
  sw_low : (bpow ten k - / 2 * bpow ten (k - 1 - places w) <= Rabs (B2R x))%R;
  sw_range : -324 <= k <= 309
}.
Lemma two_1024 : (bpow radix2 1024 <= bpow ten 309)%R.
Proof. rewrite <- !IZR_Zpower by lia. apply IZR_le. vm_compute. discriminate. Qed.
Lemma two_m1074 : (bpow ten (-324) <= bpow radix2 (-1074))%R.
Proof.
  replace (-324) with (Z.opp 324) by lia. replace (-1074) with (Z.opp 1074) by lia. rewrite !bpow_opp.
  apply Rinv_le; [apply bpow_gt_0|]. rewrite <- !IZR_Zpower by lia. apply IZR_le. vm_compute. discriminate.
Qed.
Lemma low_pow : forall k P, 0 <= P -> (bpow ten (k - 1) <= bpow ten k - / 2 * bpow ten (k - 1 - P))%R.
Proof.
  intros k P HP. assert (bpow ten (k - 1 - P) <= bpow ten (k - 1))%R by (apply bpow_le; lia).
  replace (bpow ten k) with (10 * bpow ten (k - 1))%R; [pose proof (ten_pos (k - 1)); lra|].
  replace k with (k - 1 + 1) at 2 by lia. rewrite bpow_plus. change (bpow ten 1) with (IZR 10). ring.
Qed.

Lemma places_pos : forall w, 1 <= places w.
Proof. intros w. unfold places. lia. Qed.

Lemma first_point : forall s w, 10 ^ places w <= s < 10 ^ (places w + 1) ->
  exists c t, dec s = String c t /\ is_digit c = true /\ all_chars is_digit t = true /\ Z.of_nat (String.length t) = places w.
Proof.
  intros s w H. assert (0 < 10 ^ places w) by (apply Z.pow_pos_nonneg; pose proof (places_pos w); lia).
  pose proof (dec_numeral s ltac:(lia)) as N. destruct (numeral_cons _ _ N) as [c [t [E [D1 D2]]]]. exists c, t.
  split; [exact E|]. split; [exact D1|]. split; [exact D2|].
  assert (L : String.length (dec s) = Z.to_nat (places w + 1)).
  { apply dec_len.
    - pose proof (places_pos w). lia.
    - rewrite Z2Nat.id by (pose proof (places_pos w); lia). lia.
    - intros _. rewrite Z2Nat.id by (pose proof (places_pos w); lia). replace (places w + 1 - 1) with (places w) by lia. lia. }
  rewrite E in L. cbn [String.length] in L. pose proof (places_pos w). lia.
Qed.

Lemma Bleb_0_finite : forall s m e (H : SpecFloat.bounded 53 1024 m e = true), nleb (n0 : f64) (B754_finite s m e H) = negb s.
Proof. intros s m e H. destruct s; reflexivity. Qed.

Lemma format_finite : forall s0 m e (H : SpecFloat.bounded 53 1024 m e = true) w, exists s k,
  shown (B754_finite s0 m e H) w s k /\ format_num (B754_finite s0 m e H) w = Ret (number_text (B754_finite s0 m e H) s k).
Proof.
  intros s0 m e H w. set (x := B754_finite s0 m e H : f64).
  set (n := Zpos m * 2 ^ Z.max 0 e). set (d := 2 ^ Z.max 0 (- e)).
  assert (Hd : 0 < d) by (apply Z.pow_pos_nonneg; lia).
  assert (Hn : 0 < n) by (apply Z.mul_pos_pos; [lia|apply Z.pow_pos_nonneg; lia]).
  destruct (scientific n d (N.max w 8 - 7)) as [s k] eqn:Es. exists s, k.
  assert (Hx : Rabs (B2R x) = (IZR n / IZR d)%R).
  { unfold x. cbn [B2R]. rewrite <- F2R_Zabs, abs_cond_Zopp. cbn [Z.abs]. unfold F2R, n, d. cbn [Fnum Fexp].
    rewrite mult_IZR. change 2 with (radix_val radix2). rewrite !IZR_Zpower by lia. unfold Rdiv. rewrite Rmult_assoc, <- bpow_opp, <- bpow_plus.
    do 2 f_equal. lia. }
  destruct (scientific_spec n d _ s k Hn Hd Es) as [S1 [S2 [S3 [S4 S5]]]]. rewrite <- Hx in S2, S3, S4.
  fold (places w) in S1, S2, S4.
  assert (L : (bpow ten k - / 2 * bpow ten (k - 1 - places w) <= Rabs (B2R x))%R).
  { destruct S4 as [S4|S4]; [|exact S4]. pose proof (ten_pos (k - 1 - places w)). lra. }
  assert (Hhi : (Rabs (B2R x) < bpow radix2 1024)%R) by apply abs_B2R_lt_emax.
  assert (Hlo : (bpow radix2 (-1074) <= Rabs (B2R x))%R) by (apply (abs_B2R_ge_emin 53 1024 x); reflexivity).
  assert (Rk : -324 <= k <= 309).
  { pose proof (low_pow k (places w) ltac:(pose proof (places_pos w); lia)) as Q. pose proof two_1024. pose proof two_m1074. split.
    - assert (-324 < k + 1) by (apply (lt_bpow ten); lra). lia.
    - assert (k - 1 < 309) by (apply (lt_bpow ten); lra). lia. }
  split; [constructor; assumption|].
  assert (F : format_exp (nabs x) (N.max w 8 - 7) = point_after_first (dec s) ++ String "e" (dec_signed k)).
  { unfold x, format_exp, nabs. cbn [Num_f64 f64_abs Babs]. fold n d. rewrite Es. reflexivity. }
  destruct (first_point s w S1) as [c [t [Ed [D1 [D2 _]]]]].
  assert (G : split_at "e" (format_exp (nabs x) (N.max w 8 - 7)) = [point_after_first (dec s); dec_signed k]).
  { rewrite F. apply split_one.
    - rewrite Ed. cbn [point_after_first all_chars]. rewrite (digits_no "e" t eq_refl D2).
      unfold no_char at 1. rewrite (digit_not c "e" D1 eq_refl). reflexivity.
    - unfold dec_signed. destruct (k <? 0) eqn:Ek.
      + apply Z.ltb_lt in Ek. rewrite all_app. rewrite (digits_no "e" _ eq_refl (nu_digits _ _ (dec_numeral (- k) ltac:(lia)))). reflexivity.
      + apply Z.ltb_ge in Ek. apply (digits_no "e" _ eq_refl (nu_digits _ _ (dec_numeral k ltac:(lia)))). }
  unfold format_num, x at 1. fold x. cbv zeta. rewrite G. cbn [nth_error unwrap obind]. rewrite parse_dec_signed by lia. reflexivity.
Qed.

Lemma format_sign3_len : forall k, -999 <= k <= 999 ->
  String.length (format_sign3 k) = (if Z.abs k <? 100 then 3%nat else 4%nat).
Proof.
  intros k Hk. unfold format_sign3. rewrite !app_len, repeat_len. replace (String.length (if k <? 0 then "-" else "+")) with 1%nat by (destruct (k <? 0); reflexivity).
  destruct (Z.abs k <? 100) eqn:E.
  - apply Z.ltb_lt in E. pose proof (dec_len_le (Z.abs k) 2 ltac:(lia) ltac:(change (10 ^ Z.of_nat 2) with 100; lia)) as L.
    pose proof (nu_len _ _ (dec_numeral (Z.abs k) ltac:(lia))). lia.
  - apply Z.ltb_ge in E. rewrite (dec_len (Z.abs k) 3); [reflexivity|lia|change (10 ^ Z.of_nat 3) with 1000; lia|intros _; change (10 ^ (Z.of_nat 3 - 1)) with 100; lia].
Qed.

Lemma number_text_len : forall x w s k, shown x w s k ->
  String.length (number_text x s k) = (N.to_nat (N.max w 8) + (if (Z.abs k <? 100)%Z then 0 else 1))%nat.
Proof.
  intros x w s k H. destruct (first_point s w (sw_digits _ _ _ _ H)) as [c [t [Ed [D1 [D2 D3]]]]]. pose proof (sw_range _ _ _ _ H).
  unfold number_text. rewrite !app_len, format_sign3_len by lia. rewrite Ed. cbn [point_after_first String.length].
  replace (String.length (sign_text x)) with 1%nat by (unfold sign_text; destruct (nleb n0 x); reflexivity).
  unfold places in D3. destruct (Z.abs k <? 100); lia.
Qed.

Lemma trim_digit : forall c s, is_digit c = true -> trim (String c s) = String c s.
Proof. intros c s H. cbn. rewrite (digit_not c " " H eq_refl). reflexivity. Qed.
Lemma after_digit : forall a c s, is_digit c = true -> is_digit a = false -> rest_after a (String c s) = None.
Proof. intros a c s H H1. cbn. rewrite (digit_not c a H H1). reflexivity. Qed.

Lemma read_blank : forall t acc n, blank t = true -> read_digits acc n t = (acc, n, t).
Proof.
  intros [|c t] acc n H; [reflexivity|]. unfold blank in H. cbn [trim] in H. cbn [read_digits].
  destruct (Ascii.eqb c " ") eqn:E; [apply Ascii.eqb_eq in E; subst c; reflexivity|discriminate H].
Qed.

(* the reader gets the rounded value *)
Lemma read_exponent : forall k t, blank t = true ->
  (let '(eneg, s) := match rest_after "-" (format_sign3 k ++ t) with
                     | Some s' => (Some true, s')
                     | None => match rest_after "+" (format_sign3 k ++ t) with Some s' => (Some false, s') | None => (None, format_sign3 k ++ t) end
                     end in
   match eneg, read_digits 0 0 s with
   | Some eneg, (e, S _, rest) => if blank rest then Some (if eneg : bool then - e else e) else None
   | _, _ => None
   end) = Some k.
Proof.
  intros k t Ht. unfold format_sign3. pose proof (dec_numeral (Z.abs k) ltac:(lia)) as N.
  set (z := repeat_char "0" (2 - String.length (dec (Z.abs k))) ++ dec (Z.abs k)).
  assert (Z1 : all_chars is_digit z = true).
  { unfold z. rewrite all_app, all_repeat by reflexivity. apply (nu_digits _ _ N). }
  assert (Z2 : value 0 z = Z.abs k).
  { unfold z. rewrite <- (nu_value _ _ N) at 3. generalize (2 - String.length (dec (Z.abs k)))%nat. intros j.
    induction j as [|j IH]; [reflexivity|]. cbn [repeat_char String.append value]. exact IH. }
  assert (Z3 : exists j, String.length z = S j).
  { unfold z. rewrite app_len. pose proof (nu_len _ _ N). exists (String.length (repeat_char "0" (2 - String.length (dec (Z.abs k)))) + String.length (dec (Z.abs k)) - 1)%nat. lia. }
  destruct Z3 as [j Z3].
  assert (R : read_digits 0 0 (z ++ t) = (Z.abs k, S j, t)).
  { rewrite (read_digits_app z t 0 0 Z1), Z2, Z3. apply read_blank. exact Ht. }
  rewrite app_ass. destruct (k <? 0) eqn:E; cbn [String.append rest_after]; cbn [Ascii.eqb Bool.eqb]; rewrite R, Ht; f_equal;
    [apply Z.ltb_lt in E|apply Z.ltb_ge in E]; lia.
Qed.

Lemma read_number_text : forall x w s k u, shown x w s k -> blank u = true ->
  read_sci (number_text x s k ++ u) = Some (let v := (IZR s * bpow ten (k - places w))%R in if nleb n0 x then v else (- v)%R).
Proof.
  intros x w s k u H Hu. destruct (first_point s w (sw_digits _ _ _ _ H)) as [c [t [Ed [D1 [D2 D3]]]]].
  assert (Hs : value 0 (String c t) = s).
  { rewrite <- Ed. apply (nu_value _ _ (dec_numeral s ltac:(destruct (sw_digits _ _ _ _ H); pose proof (Z.pow_nonneg 10 (places w)); lia))). }
  cbn [value] in Hs. set (es := format_sign3 k ++ u).
  set (body := String c (String "." (t ++ String "e" es))).
  assert (Eb : number_text x s k ++ u = sign_text x ++ body).
  { unfold number_text, body, es. rewrite Ed. rewrite !app_ass. reflexivity. }
  assert (Ht : exists j, String.length t = S j).
  { pose proof (places_pos w). exists (Z.to_nat (places w) - 1)%nat. lia. }
  destruct Ht as [j Hj].
  assert (Pre : (match rest_after "-" (trim (number_text x s k ++ u)) with Some s' => (true, s') | None => (false, trim (number_text x s k ++ u)) end) =
                (negb (nleb n0 x), body)).
  { rewrite Eb. unfold sign_text. destruct (nleb n0 x).
    - cbn [String.append trim]. change (Ascii.eqb " " " ") with true. cbv iota. unfold body. rewrite trim_digit, after_digit by (exact D1 || reflexivity). reflexivity.
    - cbn [String.append trim]. reflexivity. }
  assert (Rd : read_digits 0 0 body = (digit_value c, 1%nat, String "." (t ++ String "e" es))).
  { unfold body. cbn [read_digits]. rewrite D1. reflexivity. }
  unfold read_sci. rewrite Pre, Rd.
  cbv iota beta. change (rest_after "." (String "." (t ++ String "e" es))) with (Some (t ++ String "e" es)). cbv iota beta.
  rewrite read_digits_app by exact D2. change (value (10 * 0 + digit_value c) t) with (value (digit_value c) t) in Hs. rewrite Hs. cbn [plus]. rewrite Hj.
  change (read_digits s (S j) (String "e" es)) with (s, S j, String "e" es). cbv iota beta.
  change (rest_after "e" (String "e" es)) with (Some es). cbv iota beta.
  pose proof (read_exponent k u Hu) as R. fold es in R.
  destruct (match rest_after "-" es with Some s' => (Some true, s') | None => match rest_after "+" es with Some s' => (Some false, s') | None => (None, es) end end) as [eneg r].
  destruct eneg as [eneg|]; [|discriminate R]. destruct (read_digits 0 0 r) as [[e ne] rest]. destruct ne; [discriminate R|].
  destruct (blank rest); [|discriminate R].
  injection R as R. rewrite R. rewrite <- Hj, D3. destruct (nleb n0 x); reflexivity.
Qed.

(* ---- padding ---- *)
Lemma blank_repeat : forall n, blank (repeat_char " " n) = true.
Proof. unfold blank. induction n as [|n IH]; [reflexivity|]. cbn [repeat_char trim]. exact IH. Qed.
Lemma trim_repeat : forall n s, trim (repeat_char " " n ++ s) = trim s.
Proof. induction n as [|n IH]; intros s; [reflexivity|]. cbn [repeat_char String.append trim]. apply IH. Qed.
Lemma pad_len : forall w s, String.length (pad_left w s) = Nat.max w (String.length s).
Proof. intros w s. unfold pad_left. rewrite app_len, repeat_len. lia. Qed.

Definition no_bar : ascii -> bool := no_char "|".
Lemma pad_no_bar : forall w s, all_chars no_bar s = true -> all_chars no_bar (pad_left w s) = true.
Proof. intros w s H. unfold pad_left. rewrite all_app, all_repeat by reflexivity. exact H. Qed.
Lemma dec_no_bar : forall q, 0 <= q -> all_chars no_bar (dec q) = true.
Proof. intros q H. apply digits_no; [reflexivity|]. apply (nu_digits _ _ (dec_numeral q H)). Qed.
Lemma read_pad_dec : forall w q u, 0 <= q -> blank u = true -> read_whole (pad_left w (dec q) ++ u) = Some q.
Proof.
  intros w q u H Hu. unfold read_whole, pad_left. rewrite app_ass, trim_repeat. pose proof (dec_numeral q H) as N.
  destruct (numeral_cons _ _ N) as [c [t [E [D1 D2]]]]. rewrite E. cbn [String.append]. rewrite (trim_digit c (t ++ u) D1).
  change (String c (t ++ u)) with (String c t ++ u). rewrite <- E.
  rewrite (read_digits_app (dec q) u 0 0 (nu_digits _ _ N)), (nu_value _ _ N), read_blank by exact Hu.
  pose proof (nu_len _ _ N) as L. destruct (0 + String.length (dec q))%nat eqn:El; [lia|]. rewrite Hu. reflexivity.
Qed.

(* numbers whose decimal exponent has two digits *)
Definition ordinary (x : f64) : Prop :=
  is_finite x = false \/ B2R x = 0%R \/ (bpow ten (-99) <= Rabs (B2R x) < 9999 * bpow ten 96)%R.

Lemma bpow_split : forall k, (bpow ten k = bpow ten (k - 100) * bpow ten 100)%R.
Proof. intros k. rewrite <- bpow_plus. f_equal. lia. Qed.
Lemma ordinary_exponent : forall x w s k, shown x w s k -> (11 <= w)%N -> B2R x <> 0%R -> is_finite x = true -> ordinary x -> Z.abs k < 100.
Proof.
  intros x w s k H Hw Hx Hf [Ho|[Ho|[O1 O2]]]; [congruence|congruence|].
  pose proof (sw_high _ _ _ _ H) as K1. pose proof (sw_low _ _ _ _ H) as K2.
  assert (-99 < k + 1) by (apply (lt_bpow ten); lra).
  destruct (Z.le_gt_cases k 99) as [G|G]; [lia|exfalso].
  assert (P : 4 <= places w) by (unfold places; lia).
  assert (Q : (bpow ten (k - 1 - places w) <= bpow ten (k - 100) * bpow ten 95)%R).
  { rewrite <- bpow_plus. apply bpow_le. lia. }
  rewrite (bpow_split k) in K2. assert (M : (1 <= bpow ten (k - 100))%R) by (change 1%R with (bpow ten 0); apply bpow_le; lia).
  replace (bpow ten 100) with (100000 * bpow ten 95)%R in K2.
  2:{ replace 100 with (5 + 95) by lia. rewrite bpow_plus. change (bpow ten 5) with (IZR (Z.pow_pos 10 5)). reflexivity. }
  replace (bpow ten 96) with (10 * bpow ten 95)%R in O2.
  2:{ replace 96 with (1 + 95) by lia. rewrite bpow_plus. reflexivity. }
  pose proof (ten_pos 95) as T. set (a := bpow ten (k - 100)) in *. set (b := bpow ten 95) in *.
  assert (b <= a * b)%R by (rewrite <- (Rmult_1_l b) at 1; apply Rmult_le_compat_r; lra). nra.
Qed.

Lemma nleb_0_sign : forall x : f64, is_finite x = true -> if nleb n0 x then (0 <= B2R x)%R else (B2R x < 0)%R.
Proof.
  intros x Hx. assert (H0 : is_finite (n0 : f64) = true) by reflexivity.
  change (nleb n0 x) with (Bleb (n0 : f64) x). rewrite (Bleb_correct _ _ _ _ H0 Hx). replace (B2R (n0 : f64)) with 0%R by reflexivity.
  destruct (Rle_bool_spec 0 (B2R x)); lra.
Qed.

(* what a printed number is *)
Record printed (x : f64) (w : N) (t : string) : Prop := {
  pt_shows : forall u, blank u = true -> shows (places w + 1) (t ++ u) x;
  pt_bars : all_chars no_bar t = true;
  pt_len : (N.to_nat w <= String.length t <= N.to_nat w + 1)%nat;
  pt_fits : ordinary x -> String.length t = N.to_nat w
}.
Lemma special_word : forall w t u, (String.length t <= w)%nat -> trim t = t -> t <> "" -> blank u = true -> is_word t (pad_left w t ++ u).
Proof.
  intros w t u _ Ht Hn Hu. unfold is_word, pad_left. rewrite app_ass, trim_repeat. exists u. split; [|exact Hu].
  destruct t as [|c t]; [congruence|]. cbn [trim] in Ht. cbn [String.append trim]. destruct (Ascii.eqb c " ") eqn:E; [|reflexivity].
  exfalso. clear - Ht. assert (K : forall a, (String.length (trim a) <= String.length a)%nat).
  { induction a as [|b a IH]; [cbn; lia|]. cbn [trim]. destruct (Ascii.eqb b " "); cbn [String.length]; lia. }
  pose proof (K t) as Kt. rewrite Ht in Kt. cbn [String.length] in Kt. lia.
Qed.

Lemma format_num_printed : forall x w, (11 <= w)%N -> exists t, format_num x w = Ret t /\ printed x w t.
Proof.
  intros x w Hw. destruct x as [s|s| |s m e H].
  - (* zero *)
    assert (Hp : exists j, N.to_nat (N.max w 8 - 7) = S j) by (exists (N.to_nat (N.max w 8 - 8)); lia). destruct Hp as [j Hp].
    set (z := repeat_char "0" j).
    assert (Hz : all_chars is_digit z = true) by (apply all_repeat; reflexivity).
    assert (Hv : value 0 z = 0).
    { unfold z. clear. induction j as [|j IH]; [reflexivity|]. cbn [repeat_char value]. exact IH. }
    assert (F : format_num (B754_zero s) w = Ret (" 0.0" ++ z ++ "e+00")).
    { unfold format_num. replace (if nleb n0 (B754_zero s : f64) then " " else "-") with " " by (destruct s; reflexivity). cbv zeta.
      replace (format_exp (nabs (B754_zero s : f64)) (N.max w 8 - 7)) with ("0.0" ++ z ++ String "e" "0").
      2:{ unfold nabs. cbn [Num_f64 f64_abs Babs format_exp]. rewrite Hp. reflexivity. }
      rewrite <- app_ass. rewrite split_one.
      - cbn [nth_error unwrap obind]. change (parse_i32 "0") with (Some 0). cbn [unwrap obind]. rewrite app_ass. reflexivity.
      - cbn [String.append all_chars]. rewrite (digits_no "e" z eq_refl Hz). reflexivity.
      - reflexivity. }
    exists (" 0.0" ++ z ++ "e+00"). split; [exact F|].
    assert (Hl : String.length (" 0.0" ++ z ++ "e+00") = N.to_nat w).
    { rewrite !app_len. unfold z. rewrite repeat_len. cbn [String.length]. lia. }
    constructor.
    + intros u Hu. cbn [shows]. exists 0%R. split.
      * rewrite !app_ass. unfold read_sci.
        replace (trim (" 0.0" ++ z ++ "e+00" ++ u)) with ("0.0" ++ z ++ "e+00" ++ u) by reflexivity.
        replace (rest_after "-" ("0.0" ++ z ++ "e+00" ++ u)) with (@None string) by reflexivity. cbv iota beta.
        replace (read_digits 0 0 ("0.0" ++ z ++ "e+00" ++ u)) with (0, 1%nat, ".0" ++ z ++ "e+00" ++ u) by reflexivity. cbv iota beta.
        replace (rest_after "." (".0" ++ z ++ "e+00" ++ u)) with (Some (("0" ++ z) ++ "e+00" ++ u)) by reflexivity. cbv iota beta.
        rewrite read_digits_app by (cbn [String.append all_chars]; rewrite Hz; reflexivity).
        cbn [String.append value]. change (10 * 0 + digit_value "0") with 0. rewrite Hv. cbn [String.length plus].
        assert (Re : read_digits 0 0 (String "0" (String "0" u)) = (0, 2%nat, u)).
        { pose proof (read_digits_app "00" u 0 0 eq_refl) as Q. cbn [String.append] in Q. rewrite Q. apply read_blank. exact Hu. }
        change (read_digits 0 (S (String.length z)) (String "e" (String "+" (String "0" (String "0" u)))))
          with (0, S (String.length z), String "e" (String "+" (String "0" (String "0" u)))). cbv iota beta.
        cbn [rest_after Ascii.eqb Bool.eqb]. rewrite Re, Hu. rewrite Rmult_0_l. reflexivity.
      * cbn [B2R]. rewrite Rminus_0_r, Rabs_R0. lra.
    + rewrite !all_app. unfold no_bar. rewrite (digits_no "|" z eq_refl Hz). reflexivity.
    + lia.
    + intros _. exact Hl.
  - exists (pad_left (N.to_nat w) (if s then "-inf" else "inf")). split; [reflexivity|].
    assert (Hl : String.length (pad_left (N.to_nat w) (if s then "-inf" else "inf")) = N.to_nat w).
    { rewrite pad_len. destruct s; cbn [String.length]; lia. }
    constructor; [|apply pad_no_bar; destruct s; reflexivity|lia|intros _; exact Hl].
    intros u Hu. cbn [shows]. apply special_word; [destruct s; cbn [String.length]; lia|destruct s; reflexivity|destruct s; discriminate|exact Hu].
  - exists (pad_left (N.to_nat w) "NaN"). split; [reflexivity|].
    assert (Hl : String.length (pad_left (N.to_nat w) "NaN") = N.to_nat w) by (rewrite pad_len; cbn [String.length]; lia).
    constructor; [|apply pad_no_bar; reflexivity|lia|intros _; exact Hl].
    intros u Hu. cbn [shows]. apply special_word; [cbn [String.length]; lia|reflexivity|discriminate|exact Hu].
  - destruct (format_finite s m e H w) as [d [k [S1 S2]]]. set (x := B754_finite s m e H : f64) in *.
    exists (number_text x d k). split; [exact S2|].
    pose proof (number_text_len _ _ _ _ S1) as L. rewrite (N.max_l w 8) in L by lia.
    constructor.
    + intros u Hu. unfold x, shows. fold x. rewrite (read_number_text x w d k u S1 Hu). eexists. split; [reflexivity|]. cbv zeta.
      pose proof (sw_close _ _ _ _ S1) as C. pose proof (nleb_0_sign x eq_refl) as Sg. replace (1 - (places w + 1)) with (- places w) by lia.
      destruct (nleb n0 x).
      * rewrite (Rabs_pos_eq (B2R x) Sg) in C at 1. exact C.
      * rewrite (Rabs_left (B2R x) Sg) in C at 1. rewrite <- Rabs_Ropp in C.
        replace (- (IZR d * bpow ten (k - places w)) - B2R x)%R with (- (IZR d * bpow ten (k - places w) - - B2R x))%R by ring. exact C.
    + destruct (first_point d w (sw_digits _ _ _ _ S1)) as [c [t [Ed [D1 [D2 D3]]]]]. unfold number_text. rewrite !all_app.
      replace (all_chars no_bar (sign_text x)) with true by (unfold sign_text; destruct (nleb n0 x); reflexivity).
      rewrite Ed. cbn [point_after_first all_chars]. replace (all_chars no_bar t) with true by (symmetry; apply (digits_no "|" t eq_refl D2)).
      replace (no_bar c) with true by (unfold no_bar, no_char; rewrite (digit_not c "|" D1 eq_refl); reflexivity).
      unfold format_sign3. rewrite !all_app, (all_repeat no_bar "0") by reflexivity. rewrite dec_no_bar by lia. destruct (k <? 0); reflexivity.
    + destruct (Z.abs k <? 100); lia.
    + intros Ho. assert (B2R x <> 0)%R.
      { intros Hx. pose proof (abs_B2R_ge_emin 53 1024 x eq_refl) as G. rewrite Hx, Rabs_R0 in G. pose proof (bpow_gt_0 radix2 (SpecFloat.emin 53 1024)). lra. }
      pose proof (ordinary_exponent x w d k S1 Hw H0 eq_refl Ho) as K. apply Z.ltb_lt in K. rewrite K in L. lia.
Qed.

(* ---- lines ---- *)
Lemma bars_from_app : forall a b n, bars_from n (a ++ b) = (bars_from n a ++ bars_from (n + String.length a) b)%list.
Proof.
  induction a as [|c a IH]; intros b n; cbn [String.append bars_from String.length]; [rewrite Nat.add_0_r; reflexivity|].
  rewrite IH. replace (S n + String.length a)%nat with (n + S (String.length a))%nat by lia. destruct (Ascii.eqb c "|"); reflexivity.
Qed.
Lemma bars_none : forall a n, all_chars no_bar a = true -> bars_from n a = [].
Proof.
  induction a as [|c a IH]; intros n H; [reflexivity|]. cbn [all_chars] in H. apply andb_true_iff in H. destruct H as [H1 H2].
  cbn [bars_from]. unfold no_bar, no_char in H1. destruct (Ascii.eqb c "|"); [discriminate H1|]. apply IH. exact H2.
Qed.
Lemma cells_none : forall a, all_chars no_bar a = true -> cells a = [a].
Proof.
  induction a as [|c a IH]; intros H; [reflexivity|]. cbn [all_chars] in H. apply andb_true_iff in H. destruct H as [H1 H2].
  cbn [cells]. unfold no_bar, no_char in H1. destruct (Ascii.eqb c "|"); [discriminate H1|]. rewrite (IH H2). reflexivity.
Qed.
Lemma cells_app : forall a b, all_chars no_bar a = true -> cells (a ++ String "|" b) = a :: cells b.
Proof.
  induction a as [|c a IH]; intros b H; [reflexivity|]. cbn [all_chars] in H. apply andb_true_iff in H. destruct H as [H1 H2].
  cbn [String.append cells]. unfold no_bar, no_char in H1. destruct (Ascii.eqb c "|"); [discriminate H1|]. rewrite (IH b H2). reflexivity.
Qed.
