(* Lower bounds that survive rounding, for the step size computed in binary64. *)
From Coq Require Import List NArith ZArith Bool Reals Lra Lia Psatz.
From Flocq Require Import Core.
From Flocq Require Import IEEE754.BinarySingleNaN.
Require Import Verif.Lib Verif.Base Verif.Num Verif.F64 Verif.XReal Verif.LinAlg Verif.Params Verif.State Verif.Order Verif.F64Lemmas
  Verif.CeilLemmas Verif.XRound Verif.XLe Verif.F64Acc Verif.F64Weights Verif.F64Rates Verif.F64Mean.
Import ListNotations.
Open Scope R_scope.

(* NaN, or at least r *)
Definition low (x : f64) (r : R) : Prop := f2x x = XNaN \/ xle (XFin r) (f2x x).

Lemma low_mono : forall x r s, low x r -> s <= r -> low x s.
Proof. intros x r s [H|H] Hs; [left; exact H|right]. destruct (f2x x) as [|[]|v]; cbn in *; auto. lra. Qed.

(* v is NaN or at least r, then so is its rounding; for r that is a binary64 number *)
Lemma xround_low : forall v r, generic_format radix2 fexp64 r -> Rabs r < bpow radix2 1024 ->
  v = XNaN \/ xle (XFin r) v -> xround v = XNaN \/ xle (XFin r) (xround v).
Proof.
  intros v r Hf Hb [->|H]; [left; reflexivity|right]. pose proof (xround_le _ _ H) as K. rewrite (xround_id r Hf Hb) in K. exact K.
Qed.
Lemma format_int : forall z, (Z.abs z <= 9007199254740992)%Z -> generic_format radix2 fexp64 (IZR z).
Proof. intros z H. exact (is_format _ _ (is_ofZ z H)). Qed.
Lemma int_bound : forall z, (Z.abs z <= 9007199254740992)%Z -> Rabs (IZR z) < bpow radix2 1024.
Proof. intros z H. rewrite <- abs_IZR. apply Rle_lt_trans with (IZR 9007199254740992); [apply IZR_le; exact H|]. change 9007199254740992 with (bpow radix2 53). apply bpow_lt. lia. Qed.

Lemma sqrt_low : forall x : f64, low (nsqrt x) 0.
Proof.
  intros x. pose proof (Bsqrt_correct 53 1024 f64_prec f64_emax mode_NE x) as [S1 [S2 _]].
  change (Bsqrt mode_NE x) with (nsqrt x : f64) in S1, S2.
  destruct x as [s|s| |s m e He].
  - right. cbn. lra.
  - destruct s; [left; reflexivity|right; exact I].
  - left. reflexivity.
  - destruct s; [left; reflexivity|]. right. rewrite f2x_finite by (rewrite S2; reflexivity). rewrite S1. cbn [xle]. apply rnd_nonneg. apply sqrt_ge_0.
Qed.
Lemma div_low : forall (x y : f64) b, low x 0 -> is y b -> 0 < b -> low (ndiv x y) 0.
Proof.
  intros x y b Hx Hy Hb. unfold low. rewrite (f2x_div_pos x y b Hy Hb). apply xround_low; [exact (format_int 0 ltac:(lia))|exact (int_bound 0 ltac:(lia))|].
  destruct Hx as [->|Hx]; [left; reflexivity|right]. destruct (f2x x) as [|[]|v]; cbn in *; try contradiction.
  - unfold Rltb. destruct (Rlt_dec b 0); [lra|exact I].
  - unfold Reqb. destruct (Req_EM_T b 0); [lra|]. cbn. apply Rmult_le_reg_r with b; [exact Hb|]. replace (v / b * b) with v by (field; lra). lra.
Qed.
Lemma sub1_low : forall x : f64, low x 0 -> low (nsub x n1) (-1).
Proof.
  intros x Hx. unfold low. rewrite f2x_sub. change (f2x n1) with (f2x (n1 : f64)). rewrite is1.
  apply xround_low; [exact (format_int (-1) ltac:(lia))|exact (int_bound (-1) ltac:(lia))|].
  destruct Hx as [->|Hx]; [left; reflexivity|right]. destruct (f2x x) as [|[]|v]; cbn in *; try contradiction; auto. lra.
Qed.
Lemma scale_low : forall (t x : f64) r, is t r -> 0 <= r -> low x (-1) -> low (nmul t x) (- r).
Proof.
  intros t x r Ht Hr Hx. unfold low. rewrite f2x_mul, Ht. pose proof (is_B2R _ _ Ht) as [Ft Et].
  assert (G : generic_format radix2 fexp64 (- r)) by (apply generic_format_opp; exact (is_format _ _ Ht)).
  apply xround_low; [exact G|rewrite Rabs_Ropp, <- Et; apply abs_B2R_lt_emax|].
  destruct Hx as [->|Hx]; [left; reflexivity|]. destruct (f2x x) as [|[]|v]; cbn in *; try contradiction.
  - unfold x_signed_inf. unfold Rltb. destruct (Rlt_dec 0 r); [right; exact I|]. destruct (Rlt_dec r 0); [lra|left; reflexivity].
  - right. nra.
Qed.

(* the product of a step size of at least s and a factor of at least e *)
Lemma product_low : forall (a b : f64) s e, low a s -> low b e -> 0 <= s -> 0 < e -> low (nmul a b) (s * e * (1 - uu) - eta) /\ low (nmul a b) 0.
Proof.
  intros a b s e Ha Hb Hs He. unfold low. rewrite f2x_mul. pose proof eta_pos as P. assert (U : 0 < uu < 1) by lra.
  assert (W : x_mul (f2x a) (f2x b) = XNaN \/ xle (XFin 0) (x_mul (f2x a) (f2x b)) /\ xle (XFin (s * e * (1 - uu) - eta)) (xround (x_mul (f2x a) (f2x b)))).
  2: { destruct W as [->|[W1 W2]]; [split; left; reflexivity|]. split; [right; exact W2|]. apply xround_low; [exact (format_int 0 ltac:(lia))|exact (int_bound 0 ltac:(lia))|right; exact W1]. }
  destruct Ha as [->|Ha]; [left; reflexivity|]. destruct Hb as [->|Hb]; [left; destruct (f2x a) as [|[]|]; reflexivity|].
  assert (D : forall r q, s <= r -> e <= q -> s * e * (1 - uu) - eta <= rnd64 (r * q)).
  { intros r q H1 H2. pose proof (rnd_any (r * q)) as A. assert (X : s * e <= r * q) by (apply Rmult_le_compat; lra). assert (Y : 0 <= s * e) by nra.
    rewrite (Rabs_pos_eq (r * q)) in A by lra. apply Rabs_le_inv in A. assert (s * e * (1 - uu) <= r * q * (1 - uu)) by (apply Rmult_le_compat_r; lra). lra. }
  destruct (f2x a) as [|[]|r], (f2x b) as [|[]|q]; cbn [xle] in Ha, Hb; try contradiction; cbn [x_mul xorb].
  - right. split; exact I.
  - unfold x_signed_inf, Rltb. destruct (Rlt_dec 0 q); [right; split; exact I|lra].
  - unfold x_signed_inf, Rltb. destruct (Rlt_dec 0 r); [right; split; exact I|]. destruct (Rlt_dec r 0); [lra|left; reflexivity].
  - right. assert (N0 : 0 <= r * q) by (apply Rmult_le_pos; lra). split; [exact N0|]. cbn [xround]. destruct (Rlt_bool (Rabs (rnd64 (r * q))) (bpow radix2 1024)).
    + cbn [xle]. apply D; assumption.
    + unfold Rltb. destruct (Rlt_dec (r * q) 0) as [Hn|Hn]; cbn [xle]; [lra|exact I].
Qed.

(* a cast of any integer is the rounding of that integer *)
Lemma ofZ_round : forall z, f2x (nofZ z : f64) = xround (XFin (IZR z)).
Proof.
  intros z. change (nofZ z : f64) with (f64_ofZ z). unfold f64_ofZ.
  pose proof (binary_normalize_correct 53 1024 f64_prec f64_emax mode_NE z 0 false) as C. cbv zeta in C.
  assert (Ez : F2R (Float radix2 z 0) = IZR z) by (unfold F2R; cbn; ring). rewrite Ez in C. cbn [xround].
  change (round radix2 (SpecFloat.fexp 53 1024) (round_mode mode_NE) (IZR z)) with (rnd64 (IZR z)) in C.
  destruct (Rlt_bool (Rabs (rnd64 (IZR z))) (bpow radix2 1024)).
  - destruct C as [C1 [C2 _]]. rewrite (f2x_finite _ C2), C1. reflexivity.
  - apply f2x_overflow in C. rewrite C. f_equal. unfold Rltb. destruct (Rlt_dec (IZR z) 0) as [H|H]; destruct (Rlt_bool_spec (IZR z) 0); auto; lra.
Qed.

(* the expected length of a normal vector, as computed, is a positive number *)
Lemma chi_ok : forall dim, (1 <= dim <= 9007199254740992)%N -> exists r, is (chi_n dim) r /\ 0 < r.
Proof.
  intros dim Hd. unfold chi_n. pose proof (is_ofN dim ltac:(lia)) as HD. set (D := IZR (Z.of_N dim)) in *.
  assert (DR : 1 <= D <= 9007199254740992) by (unfold D; split; [apply (IZR_le 1)|apply (IZR_le _ 9007199254740992)]; lia). clearbody D.
  assert (Is : is (nsqrt (nofN dim)) (rnd64 (sqrt D))) by (apply is_sqrt; [exact HD|lra]).
  assert (S1 : 1 <= sqrt D) by (rewrite <- sqrt_1; apply sqrt_le_1; lra).
  assert (S2 : sqrt D <= 9007199254740992). { apply Rle_trans with (sqrt (D * D)); [apply sqrt_le_1; nra|]. rewrite sqrt_square; lra. }
  assert (A1 : 1 <= rnd64 (sqrt D)) by (apply (rnd_int_le 1); [lia|exact S1]). assert (A2 : rnd64 (sqrt D) <= 9007199254740992) by (apply (rnd_le_int 9007199254740992); [lia|exact S2]).
  set (q := rnd64 (sqrt D)) in *. clearbody q. clear S1 S2.
  (* 1 - 1 / (4 dim) *)
  assert (I4 : is (nmul (nofZ 4) (nofN dim)) (rnd64 (4 * D))) by (apply is_mul; [apply (is_ofZ 4); lia|exact HD|apply bigp; rewrite ?Rabs_pos_eq; lra]).
  assert (B1 : 4 <= rnd64 (4 * D)) by (apply (rnd_int_le 4); [lia|lra]). destruct (near (4 * D)) as [_ B2]; [lra|].
  set (d4 := rnd64 (4 * D)) in *. clearbody d4.
  assert (E4 : 0 < 1 / d4 <= / 4).
  { split; [apply Rdiv_lt_0_compat; lra|]. apply Rmult_le_reg_r with d4; [lra|]. replace (1 / d4 * d4) with 1 by (field; lra). lra. }
  assert (I5 : is (ndiv n1 (nmul (nofZ 4) (nofN dim))) (rnd64 (1 / d4))) by (apply is_div; [exact is1|exact I4|lra|apply bigp; lra]).
  assert (C1 : 0 <= rnd64 (1 / d4)) by (apply rnd_nonneg; lra). assert (C2 : rnd64 (1 / d4) <= 1) by (apply (rnd_le_int 1); [lia|lra]).
  assert (C3 : rnd64 (1 / d4) <= / 4).
  { assert (G : rnd64 (1 / d4) <= rnd64 (bpow radix2 (-2))) by (apply rnd64_le; cbn; lra).
    rewrite (rnd64_id (bpow radix2 (-2))) in G by (apply generic_format_bpow; unfold SpecFloat.fexp, SpecFloat.emin; lia). change (bpow radix2 (-2)) with (/ 4) in G. exact G. }
  set (e4 := rnd64 (1 / d4)) in *. clearbody e4.
  assert (I6 : is (nsub n1 (ndiv n1 (nmul (nofZ 4) (nofN dim)))) (rnd64 (1 - e4))) by (apply is_sub; [exact is1|exact I5|apply bigp; lra]).
  assert (G6 : / 2 <= rnd64 (1 - e4)).
  { assert (G : rnd64 (bpow radix2 (-1)) <= rnd64 (1 - e4)) by (apply rnd64_le; cbn; lra).
    rewrite (rnd64_id (bpow radix2 (-1))) in G by (apply generic_format_bpow; unfold SpecFloat.fexp, SpecFloat.emin; lia). exact G. }
  assert (G7 : rnd64 (1 - e4) <= 1) by (apply (rnd_le_int 1); [lia|lra]). set (g := rnd64 (1 - e4)) in *. clearbody g.
  (* the square of the dimension *)
  assert (IQ : exists Q, is (nofN (dim * dim)) Q /\ 1 <= Q <= 100000000000000000000000000000000).
  { assert (Z1 : 1 <= IZR (Z.of_N (dim * dim)) <= 81129638414606681695789005144064).
    { split; [apply (IZR_le 1); nia|apply (IZR_le _ 81129638414606681695789005144064); nia]. }
    destruct (near (IZR (Z.of_N (dim * dim)))) as [N1 N2]; [lra|]. exists (rnd64 (IZR (Z.of_N (dim * dim)))). split.
    - unfold is. change (nofN (dim * dim) : f64) with (nofZ (Z.of_N (dim * dim)) : f64). rewrite ofZ_round. apply xround_small. apply bigp; lra.
    - split; [apply (rnd_int_le 1); [lia|lra]|]. lra. }
  destruct IQ as [Q [IQ HQ]].
  assert (I7 : is (nmul (nofZ 21) (nofN (dim * dim))) (rnd64 (21 * Q))) by (apply is_mul; [apply (is_ofZ 21); lia|exact IQ|apply bigp; lra]).
  assert (H7 : 21 <= rnd64 (21 * Q)) by (apply (rnd_int_le 21); [lia|lra]). set (z := rnd64 (21 * Q)) in *. clearbody z.
  assert (E7 : 0 < 1 / z <= 1).
  { split; [apply Rdiv_lt_0_compat; lra|]. apply Rmult_le_reg_r with z; [lra|]. replace (1 / z * z) with 1 by (field; lra). lra. }
  assert (I8 : is (ndiv n1 (nmul (nofZ 21) (nofN (dim * dim)))) (rnd64 (1 / z))) by (apply is_div; [exact is1|exact I7|lra|apply bigp; lra]).
  assert (H8 : 0 <= rnd64 (1 / z)) by (apply rnd_nonneg; lra). assert (H9 : rnd64 (1 / z) <= 1) by (apply (rnd_le_int 1); [lia|lra]). set (y := rnd64 (1 / z)) in *. clearbody y.
  assert (I9 : is (nadd (nsub n1 (ndiv n1 (nmul (nofZ 4) (nofN dim)))) (ndiv n1 (nmul (nofZ 21) (nofN (dim * dim))))) (rnd64 (g + y))) by (apply is_add; [exact I6|exact I8|apply bigp; lra]).
  assert (K1 : / 2 <= rnd64 (g + y)).
  { assert (G : rnd64 (bpow radix2 (-1)) <= rnd64 (g + y)) by (apply rnd64_le; cbn; lra).
    rewrite (rnd64_id (bpow radix2 (-1))) in G by (apply generic_format_bpow; unfold SpecFloat.fexp, SpecFloat.emin; lia). exact G. }
  assert (K2 : rnd64 (g + y) <= 2) by (apply (rnd_le_int 2); [lia|lra]). set (h := rnd64 (g + y)) in *. clearbody h.
  exists (rnd64 (q * h)). split; [apply is_mul; [exact Is|exact I9|apply bigp; nra]|].
  assert (G : rnd64 (bpow radix2 (-1)) <= rnd64 (q * h)) by (apply rnd64_le; cbn; nra).
  rewrite (rnd64_id (bpow radix2 (-1))) in G by (apply generic_format_bpow; unfold SpecFloat.fexp, SpecFloat.emin; lia). change (bpow radix2 (-1)) with (/ 2) in G. lra.
Qed.
