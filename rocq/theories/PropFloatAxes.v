(* C87: the points drawn, and the matrices they are drawn with, as computed in binary64. *)
From Coq Require Import List NArith ZArith Bool Reals Lra Lia Arith Psatz Permutation Sorted.
From Flocq Require Import Core.
From Flocq Require Import IEEE754.BinarySingleNaN.
Require Import Verif.Lib Verif.Base Verif.Num Verif.F64 Verif.XReal Verif.LinAlg Verif.Mode Verif.Weights Verif.Options
  Verif.Params Verif.Env Verif.State Verif.Sampling Verif.History Verif.Termination Verif.Plot Verif.Cmaes
  Verif.Spec Verif.Order Verif.F64Lemmas Verif.BuildLemmas Verif.TraceLemmas Verif.CeilLemmas Verif.XRound Verif.XLe
  Verif.NextInv Verif.SamplingLemmas Verif.PanicLemmas Verif.NextSafe Verif.PlotLemmas Verif.RSum
  Verif.F64Acc Verif.F64Weights Verif.F64Rates Verif.Toy Verif.ToyLemmas Verif.StateLemmas
  Verif.F64Rel Verif.F64Mean Verif.F64Cov Verif.F64CovErr Verif.F64Path Verif.F64Conj Verif.F64Axes Verif.TermLemmas Verif.PropPlot Verif.PropSampling Verif.PropFloatParams Verif.PropFloatMean Verif.PropFloatCovErr Verif.PropFloatConj.
Import ListNotations.
Open Scope R_scope.

(* ---- specification: v and vals are the vectors (columns) and values of an eigenvalue decomposition ---- *)
(* the direction of axis j, and the standard deviation along it *)
Definition axis (n : nat) (v : mat f64) (i j : nat) : R := B2R (mnth v i j) / euclid n (fun k => B2R (mnth v k j)).
Definition deviation (vals : vec f64) (j : nat) : R := sqrt (comp vals j).
(* the columns are finite and their lengths are between 1/2 and 2 *)
Definition sound_columns (n : nat) (v : mat f64) : Prop :=
  forall j, (j < n)%nat -> (forall i, (i < n)%nat -> is_finite (mnth v i j) = true) /\ / 2 <= euclid n (fun k => B2R (mnth v k j)) <= 2.
Definition positive_value (vals : vec f64) (j : nat) : Prop := fin_comp vals j /\ 0 < comp vals j.
(* coordinate i of the point drawn with the normal numbers z *)
Definition drawn_point (n : nat) (v : mat f64) (vals : vec f64) (m s : R) (z : nat -> R) (i : nat) : R :=
  m + s * Sig n (fun j => axis n v i j * deviation vals j * z j).
Definition point_tolerance (n : nat) (v : mat f64) (vals : vec f64) (m s : R) (z : nat -> R) (i : nat) : R :=
  (3 * INR n + 9) / 2 ^ 53 * (Rabs m + Rabs s * Sig n (fun j => Rabs (axis n v i j) * deviation vals j * Rabs (z j)))
  + (2 * Rabs s * Sig n (fun j => (deviation vals j + 1) * Rabs (z j) + 1) + 2) * bpow radix2 (-1074).
(* an entry of the inverse square root of the matrix *)
Definition inverse_root (n : nat) (v : mat f64) (vals : vec f64) (i j : nat) : R :=
  Sig n (fun k => axis n v i k * axis n v j k / deviation vals k).
Definition inverse_tolerance (n : nat) (v : mat f64) (vals : vec f64) (i j : nat) : R :=
  (4 * INR n + 12) / 2 ^ 53 * Sig n (fun k => Rabs (axis n v i k * axis n v j k / deviation vals k))
  + 3 * Sig n (fun k => / deviation vals k + 1) * bpow radix2 (-1074).

Lemma Forall2_nth_intro : forall {A B} (R : A -> B -> Prop) l m da db, length l = length m -> (forall i, (i < length l)%nat -> R (nth i l da) (nth i m db)) -> Forall2 R l m.
Proof.
  intros A B R l. induction l as [|x l IH]; intros [|y m] da db Hl H; try discriminate Hl; constructor.
  - apply (H 0%nat). cbn. lia.
  - apply (IH m da db); [cbn in Hl; lia|]. intros i Hi. apply (H (S i)). cbn. lia.
Qed.
Section Matrices.
  Variable n : nat.
  Hypothesis Hn1 : (1 <= n)%nat.
  Hypothesis Hn : INR n <= 1099511627776.

  Lemma nu_small : 0 <= INR n * uu <= / 8192.
  Proof. pose proof (pos_INR n). split; [apply Rmult_le_pos; lra|]. lra. Qed.
  Lemma eta_ok : 0 < eta <= uu * uu.
  Proof. pose proof eta_tiny. lra. Qed.

  Lemma mnth_in : forall (m : mat f64) i j, mnth m i j = nth j (nth i m []) n0.
  Proof. reflexivity. Qed.
  Lemma column_nth : forall (m : mat f64) j k, length m = n -> (k < n)%nat -> nth k (column m j) n0 = mnth m k j.
  Proof. intros m j k Hm Hk. unfold column, mnth. rewrite (nth_indep _ n0 ((fun r : vec f64 => nth j r n0) [])) by (rewrite map_length; unfold vec in *; lia). apply (map_nth (fun r : vec f64 => nth j r n0)). Qed.
  Lemma column_length : forall (m : mat f64) j, length (column m j) = length m.
  Proof. intros. unfold column. apply map_length. Qed.

  (* the length of a column *)
  Lemma magnitude_is : forall v : vec f64, length v = n -> (forall i, (i < n)%nat -> fin_comp v i) -> euclid n (comp v) <= 2 ->
    exists s, is (LinAlg.magnitude v) s /\ Rabs (s - euclid n (comp v)) <= (102 / 100 * (INR n * uu) + 21 / 10 * uu) * euclid n (comp v) + bpow radix2 (-515).
  Proof.
    intros v Lv Fv He. set (rs := map (fun i => rnd64 (comp v i * comp v i)) (seq 0 n)). pose proof nu_small as NU. pose proof eta_ok as ET.
    assert (P2 : Sig n (fun i => comp v i * comp v i) <= 4). { assert (S0 : 0 <= Sig n (fun i => comp v i * comp v i)) by (apply Sig_nonneg; intros; nra). unfold euclid in He. pose proof (sqrt_sqrt _ S0) as Q. pose proof (sqrt_pos (Sig n (fun i => comp v i * comp v i))). nra. }
    assert (C2 : forall i, (i < n)%nat -> comp v i * comp v i <= 4). { intros i Hi. apply Rle_trans with (2 := P2). apply (Sig_pos_term n (fun i => comp v i * comp v i) i); [intros; nra|exact Hi]. }
    assert (F : Forall2 is (map (fun x : f64 => nmul x x) v) rs).
    { apply Forall2_nth_intro with (da := n0) (db := 0); [unfold rs; rewrite !map_length, seq_length; exact Lv|]. rewrite map_length, Lv. intros i Hi. rewrite (nth_indep _ n0 ((fun x : f64 => nmul x x) n0)) by (rewrite map_length; lia). rewrite (map_nth (fun x : f64 => nmul x x)).
      unfold rs. rewrite (nth_indep _ 0 ((fun i => rnd64 (comp v i * comp v i)) 0%nat)) by (rewrite map_length, seq_length; exact Hi). rewrite (map_nth (fun i => rnd64 (comp v i * comp v i))), seq_nth by exact Hi.
      assert (Ii : is (nth i v n0) (comp v i)) by (apply f2x_finite, Fv; exact Hi). apply is_mul; [exact Ii|exact Ii|]. specialize (C2 i Hi). apply bigp; cbn; nra. }
    assert (B : Forall (fun r => 0 <= r) rs) by (apply Forall_map, Forall_forall; intros; apply rnd_nonneg; nra).
    assert (S : is (norm2 v) (fsum rs 0)).
    { unfold norm2, nsum. apply fold_forward; [exact is0|exact F|]. rewrite Rabs_R0, Rplus_0_l. unfold rs. rewrite map_map, map_length, seq_length, tot_Sig.
      assert (T : Sig n (fun i => Rabs (rnd64 (comp v i * comp v i))) <= 6). { apply Rle_trans with (Sig n (fun i => (1 + uu) * (comp v i * comp v i) + eta)); [apply Sig_le; intros i Hi; pose proof (rnd_any (comp v i * comp v i)) as A; apply near_abs in A; rewrite (Rabs_pos_eq (comp v i * comp v i)) in A by nra; lra|]. rewrite Sig_plus, Sig_mul_l, Sig_const. assert (INR n * eta <= INR n * uu) by (apply Rmult_le_compat_l; [apply pos_INR|lra]). lra. }
      pose proof (grow_small n ltac:(lra)) as G. pose proof (grow_1 n). apply Rle_trans with (6 * 2); [apply Rmult_le_compat; [apply Sig_nonneg; intros; apply Rabs_pos|lra|exact T|lra]|]. apply Rle_trans with (bpow radix2 4); [cbn; lra|apply bpow_le; lia]. }
    assert (S0 : 0 <= fsum rs 0) by (apply fsum_nonneg; [lra|exact B]). exists (rnd64 (sqrt (fsum rs 0))). split; [apply is_sqrt; assumption|].
    pose proof (length_err n (comp v) Hn S0) as H. fold rs in H. unfold euclid. apply Rle_trans with (1 := H). right. ring.
  Qed.

  Lemma column_comp : forall (v : mat f64) j i, length v = n -> (i < n)%nat -> comp (column v j) i = B2R (mnth v i j).
  Proof. intros v j i Hv Hi. unfold comp. rewrite column_nth by assumption. reflexivity. Qed.
  Lemma column_euclid : forall (v : mat f64) j, length v = n -> euclid n (comp (column v j)) = euclid n (fun k => B2R (mnth v k j)).
  Proof. intros v j Hv. unfold euclid. f_equal. apply Sig_ext. intros i Hi. rewrite column_comp by assumption. reflexivity. Qed.
  Lemma euclid_term : forall x i, (i < n)%nat -> Rabs (x i) <= euclid n x.
  Proof.
    intros x i Hi. unfold euclid. rewrite <- (sqrt_Rsqr_abs (x i)). apply sqrt_le_1; [apply Rle_0_sqr|apply Sig_nonneg; intros; nra|]. apply (Sig_pos_term n (fun i => x i * x i) i); [intros; nra|exact Hi].
  Qed.

  (* an entry of the matrix of normalised columns *)
  Lemma unit_entry : forall v i j, shape n n v -> sound_columns n v -> (i < n)%nat -> (j < n)%nat ->
    (exists q, is (mnth (normalize_columns v) i j) q /\ approx q (axis n v i j) (103 / 100 * (INR n * uu) + 32 / 10 * uu) eta) /\ Rabs (axis n v i j) <= 1.
  Proof.
    intros v i j Sv Hs Hi Hj. pose proof nu_small as NU. pose proof eta_ok as ET. destruct Sv as [Lv Rv]. assert (Nc : ncols v = n) by (apply (shape_ncols n n v); [split; assumption|lia]). destruct (Hs j Hj) as [Fc Hl]. set (l := euclid n (fun k => B2R (mnth v k j))) in *.
    assert (Il : Rabs (B2R (mnth v i j)) <= l) by (exact (euclid_term (fun k => B2R (mnth v k j)) i Hi)). split.
    - destruct (magnitude_is (column v j)) as [s [Is Es]]; [rewrite column_length; exact Lv|intros k Hk; unfold fin_comp; rewrite column_nth by assumption; apply Fc; exact Hk|rewrite column_euclid by exact Lv; fold l; lra|].
      rewrite column_euclid in Es by exact Lv. fold l in Es. assert (B5 : bpow radix2 (-515) <= uu / 1000). { apply Rle_trans with (bpow radix2 (-63)); [apply bpow_le; lia|]. cbn. lra. }
      assert (Es' : Rabs (s - l) <= (102 / 100 * (INR n * uu) + 21 / 10 * uu) * l + uu / 1000) by lra.
      assert (Ps : / 4 <= s). { apply Rabs_le_inv in Es'. assert ((102 / 100 * (INR n * uu) + 21 / 10 * uu) * l <= / 1000 * l) by (apply Rmult_le_compat_r; lra). lra. }
      unfold normalize_columns. rewrite mnth_mbuild by lia. exists (rnd64 (B2R (mnth v i j) / s)). split.
      + apply is_div; [apply f2x_finite, Fc; exact Hi|exact Is|lra|]. unfold Rdiv. rewrite Rabs_mult. assert (0 < / s) by (apply Rinv_0_lt_compat; lra). assert (/ s <= 4) by (replace 4 with (/ / 4) by field; apply Rinv_le_contravar; lra). rewrite (Rabs_pos_eq (/ s)) by lra. apply Rle_trans with (2 * 4); [apply Rmult_le_compat; try lra; apply Rabs_pos|]. apply Rle_trans with (bpow radix2 3); [cbn; lra|apply bpow_le; lia].
      + unfold axis. fold l. apply (axis_err (INR n * uu) eta NU ET _ l s); [lra|exact Es'|apply rnd_any].
    - unfold axis. fold l. unfold Rdiv. rewrite Rabs_mult. assert (0 < / l) by (apply Rinv_0_lt_compat; lra). rewrite (Rabs_pos_eq (/ l)) by lra. apply Rle_trans with (l * / l); [apply Rmult_le_compat_r; lra|]. rewrite Rinv_r by lra. lra.
  Qed.

  (* a row times a column with one entry *)
  Lemma dot_single : forall (row : vec f64) (x : f64) j q, length row = n -> (j < n)%nat -> is (dot row (map (fun k => if Nat.eqb k j then x else n0) (seq 0 n))) q ->
    exists a b, is (nth j row n0) a /\ is x b /\ q = rnd64 (a * b).
  Proof.
    intros row x j q Lr Hj H. unfold dot, nsum in H. destruct (fold_back _ _ _ H) as [s0 [rs [I0 [Irs Eq]]]]. assert (s0 = 0) by (eapply is_fun; [exact I0|exact is0]). subst s0.
    set (col := map (fun k => if Nat.eqb k j then x else n0) (seq 0 n)) in *. assert (Lc : length col = n) by (unfold col; rewrite map_length; apply seq_length).
    assert (K : forall k, (k < n)%nat -> exists a b, is (nth k row n0) a /\ is (if Nat.eqb k j then x else n0) b /\ nth k rs 0 = rnd64 (a * b)).
    { intros k Hk. pose proof (PropFloatConj.Forall2_nth _ _ k Irs) as J. rewrite map2_length, Lr, Lc, Nat.min_id in J. specialize (J Hk). rewrite (Lib.nth_map2 nmul row col n0 n0 n0) in J by (rewrite ?Lr, ?Lc; exact Hk).
      destruct (mul_fin _ _ _ J) as [a [b [Ia [Ib E]]]]. exists a, b. split; [exact Ia|]. split; [|exact E]. unfold col in Ib. rewrite (nth_indep _ n0 ((fun k => if Nat.eqb k j then x else n0) 0%nat)) in Ib by (rewrite map_length, seq_length; exact Hk). rewrite (map_nth (fun k => if Nat.eqb k j then x else n0)), seq_nth in Ib by exact Hk. exact Ib. }
    destruct (K j Hj) as [a [b [Ia [Ib E]]]]. rewrite Nat.eqb_refl in Ib. exists a, b. split; [exact Ia|]. split; [exact Ib|].
    assert (Ers : rs = map (fun k => if Nat.eqb k j then rnd64 (a * b) else 0) (seq 0 n)).
    { apply list_seq; [rewrite <- (Forall2_len _ _ _ Irs), map2_length, Lr, Lc; apply Nat.min_id|]. intros k Hk. destruct (K k Hk) as [a' [b' [Ia' [Ib' E']]]]. destruct (Nat.eqb_spec k j) as [->|Ne]; [exact E|]. assert (b' = 0) by (eapply is_fun; [exact Ib'|exact is0]). subst b'. rewrite E', Rmult_0_r. apply rnd_id, generic_format_0. }
    rewrite Eq, Ers, fsum_single by apply generic_format_0. cbn [Nat.leb plus andb]. destruct (Nat.ltb_spec j n); [|lia]. rewrite Rplus_0_l. apply rnd_id, rnd_format.
  Qed.
  Lemma mmul_entry : forall a b (c : mat f64) i j, shape n n a -> shape n n b -> mmul_c a b = Ret c -> (i < n)%nat -> (j < n)%nat -> mnth c i j = dot (nth i a []) (column b j).
  Proof.
    intros a b c i j Sa Sb H Hi Hj. unfold mmul_c in H. apply check_Ret in H. destruct H as [_ ->]. unfold mmul, mnth. destruct Sa as [La Ra]. rewrite (shape_ncols n n b Sb Hn1).
    rewrite (nth_indep _ [] ((fun row => map (fun j => dot row (column b j)) (seq 0 n)) [])) by (rewrite map_length; unfold mat, vec in *; lia). rewrite (map_nth (fun row => map (fun j => dot row (column b j)) (seq 0 n))).
    rewrite (nth_indep _ n0 ((fun j => dot (nth i a []) (column b j)) 0%nat)) by (rewrite map_length, seq_length; exact Hj). rewrite (map_nth (fun j => dot (nth i a []) (column b j))), seq_nth by exact Hj. reflexivity.
  Qed.
  Lemma column_diagonal : forall (g : f64 -> f64) (d : vec f64) j, length d = n -> (j < n)%nat -> g n0 = n0 ->
    column (mmap g (from_diagonal d)) j = map (fun k => if Nat.eqb k j then g (nth j d n0) else n0) (seq 0 n).
  Proof.
    intros g d j Ld Hj Hg. unfold column, mmap, from_diagonal, mbuild. rewrite Ld, !map_map. apply map_ext_in. intros k Hk. apply in_seq in Hk. rewrite map_map, (nth_indep _ n0 ((fun x => g (if Nat.eqb k x then nth k d n0 else n0)) 0%nat)) by (rewrite map_length, seq_length; exact Hj).
    rewrite (map_nth (fun x => g (if Nat.eqb k x then nth k d n0 else n0))), seq_nth by exact Hj. cbn [plus]. destruct (Nat.eqb_spec k j) as [->|Ne]; [reflexivity|exact Hg].
  Qed.
  Lemma mmap_id : forall m : mat f64, mmap (fun x => x) m = m.
  Proof. intros m. unfold mmap. rewrite (map_ext (map (fun x => x)) (fun x => x)) by (intros; apply map_id). apply map_id. Qed.
  Lemma shape_diagonal : forall d : vec f64, length d = n -> shape n n (from_diagonal d).
  Proof. intros d H. unfold from_diagonal. rewrite H. apply shape_mbuild. Qed.
End Matrices.

(* the matrices of the search distribution come from this decomposition *)
Definition from_solver {L : Libm f64} {E : Env f64} (n : nat) (cm : cov_matrix f64) (v : mat f64) (vals : vec f64) : Prop :=
  shape n n v /\ length vals = n /\ existsb (fun x => nleb x n0) vals = false /\
  cm_sqrt_eigenvalues cm = from_diagonal (map nsqrt vals) /\
  exists t, mmul_c (normalize_columns v) (mmap (fun d => if ngtb d n0 then ndiv n1 d else d) (from_diagonal (map nsqrt vals))) = Ret t /\
    mmul_c t (transpose (normalize_columns v)) = Ret (cm_sqrt_inv cm) /\ mmul_c (normalize_columns v) (from_diagonal (map nsqrt vals)) = Ret (cm_transform cm).
Definition from_start {L : Libm f64} {E : Env f64} (n : nat) (cm : cov_matrix f64) (v : mat f64) (vals : vec f64) : Prop :=
  v = identity n /\ vals = repeat n1 n /\ cm_sqrt_eigenvalues cm = identity n /\ cm_sqrt_inv cm = identity n /\ cm_transform cm = identity n.

Section Entries.
  Context {L : Libm f64} {E : Env f64}.
  Variable n : nat.
  Hypothesis Hn1 : (1 <= n)%nat.
  Hypothesis Hn : INR n <= 1099511627776.
  Variables (cm : cov_matrix f64) (v : mat f64) (vals : vec f64).

  Lemma shape_normalized : shape n n v -> shape n n (normalize_columns v).
  Proof. intros S. pose proof (shape_ncols n n v S Hn1) as Nc. destruct S as [Lv _]. unfold normalize_columns. rewrite Lv, Nc. apply shape_mbuild. Qed.
  (* a standard deviation that is a number *)
  Lemma value_is : from_solver n cm v vals -> forall j D, (j < n)%nat -> is (nth j (map nsqrt vals) n0) D ->
    is (nth j vals n0) (comp vals j) /\ positive_value vals j /\ D = rnd64 (deviation vals j) /\ approx D (deviation vals j) uu 0 /\ 0 < deviation vals j /\
    generic_format radix2 fexp64 (comp vals j) /\ comp vals j < bpow radix2 1024.
  Proof.
    intros [_ [Lv [Hp _]]] j D Hj H. rewrite (nth_indep _ n0 (nsqrt n0)) in H by (rewrite map_length; lia). rewrite map_nth in H. destruct (sqrt_fin _ _ H) as [q [Iq [Hq ->]]].
    destruct (is_B2R _ _ Iq) as [Fq Eq]. unfold positive_value, fin_comp, deviation, comp. rewrite Eq. split; [exact Iq|].
    assert (Pq : 0 < q). { destruct Hq as [Hq|Hq]; [exact Hq|]. exfalso. subst q. assert (X : existsb (fun x : f64 => nleb x n0) vals = true); [|congruence]. apply existsb_exists. exists (nth j vals n0). split; [apply nth_In; lia|]. rewrite f2x_leb, Iq, is0. apply xle_leb. cbn. lra. }
    pose proof (is_format _ _ Iq) as Fo. split; [split; assumption|]. split; [reflexivity|]. destruct (deviation_err q Fo Pq) as [A _]. split; [exact A|]. split; [apply sqrt_lt_R0; exact Pq|]. split; [exact Fo|].
    rewrite <- Eq. apply Rle_lt_trans with (Rabs (B2R (nth j vals n0 : f64))); [apply Rle_abs|]. apply abs_B2R_lt_emax.
  Qed.

  Lemma transform_entry : from_solver n cm v vals -> sound_columns n v -> forall i j t, (i < n)%nat -> (j < n)%nat -> is (mnth (cm_transform cm) i j) t ->
    positive_value vals j /\ approx t (axis n v i j * deviation vals j) (104 / 100 * (INR n * uu) + 53 / 10 * uu) (101 / 100 * deviation vals j * eta + eta).
  Proof.
    intros Hs Hc i j t Hi Hj H. pose proof Hs as [Sv [Lv [_ [_ [t0 [_ [_ Ht]]]]]]]. pose proof (shape_normalized Sv) as Sn. assert (Ld : length (map nsqrt vals) = n) by (rewrite map_length; exact Lv).
    rewrite (mmul_entry n Hn1 _ _ _ i j Sn (shape_diagonal n _ Ld) Ht Hi Hj) in H. rewrite <- (mmap_id (from_diagonal _)), (column_diagonal n (fun x => x)) in H by (auto; reflexivity).
    destruct (dot_single n Hn1 _ _ j t (shape_row n _ i Sn Hi) Hj H) as [a [b [Ia [Ib ->]]]]. destruct (value_is Hs j b Hj Ib) as [_ [V1 [_ [V2 [V3 _]]]]]. split; [exact V1|].
    destruct (unit_entry n Hn1 Hn v i j Sv Hc Hi Hj) as [[q [Iq Aq]] _]. assert (a = q) by (eapply is_fun; [exact Ia|exact Iq]). subst q.
    apply (transform_err (INR n * uu) eta (nu_small n Hn) eta_ok a _ b); [exact Aq|lra|exact V2|apply rnd_any].
  Qed.

  Lemma whitening_entry : from_solver n cm v vals -> sound_columns n v -> (forall k, (k < n)%nat -> fin_comp vals k) -> forall i j x, (i < n)%nat -> (j < n)%nat -> is (mnth (cm_sqrt_inv cm) i j) x ->
    (forall k, (k < n)%nat -> positive_value vals k) /\ Rabs (x - inverse_root n v vals i j) <= inverse_tolerance n v vals i j.
  Proof.
    intros Hs Hc Hfin i j x Hi Hj H. pose proof Hs as [Sv [Lv [Hpos [_ [t [Ht [Hw _]]]]]]]. pose proof (shape_normalized Sv) as Sn. assert (Ld : length (map nsqrt vals) = n) by (rewrite map_length; exact Lv).
    set (V := normalize_columns v) in *. set (g := fun d : f64 => if ngtb d n0 then ndiv n1 d else d) in *. assert (G0 : g n0 = n0) by reflexivity. pose proof (nu_small n Hn) as NU. pose proof eta_ok as ET.
    assert (Sg : shape n n (mmap g (from_diagonal (map nsqrt vals)))) by (apply shape_mmap, shape_diagonal, Ld).
    assert (St : shape n n t). { unfold mmul_c in Ht. apply check_Ret in Ht. destruct Ht as [_ ->]. apply shape_mmul; assumption. }
    rewrite (mmul_entry n Hn1 _ _ _ i j St (shape_transpose n _ Sn Hn1) Hw Hi Hj) in H. unfold dot, nsum in H. destruct (fold_back _ _ _ H) as [s0 [rs [I0 [Irs Eq]]]]. assert (s0 = 0) by (eapply is_fun; [exact I0|exact is0]). subst s0.
    set (row := nth i t []) in *. set (col := column (transpose V) j) in *. assert (Lr : length row = n) by (apply shape_row; assumption). assert (Lc : length col = n) by (unfold col; rewrite column_length; apply (shape_transpose n _ Sn Hn1)).
    assert (K : forall k, (k < n)%nat -> positive_value vals k /\ approx (nth k rs 0) (axis n v i k * axis n v j k / deviation vals k) (209 / 100 * (INR n * uu) + 11 * uu) (21 / 10 * (/ deviation vals k) * eta + 21 / 10 * eta) /\ generic_format radix2 fexp64 (nth k rs 0) /\ 0 < deviation vals k).
    { intros k Hk. pose proof (PropFloatConj.Forall2_nth _ _ k Irs) as J. rewrite map2_length, Lr, Lc, Nat.min_id in J. specialize (J Hk). rewrite (Lib.nth_map2 nmul row col n0 n0 n0) in J by (rewrite ?Lr, ?Lc; exact Hk).
      destruct (mul_fin _ _ _ J) as [a [b [Ia [Ib Ej]]]].
      (* the right factor *)
      unfold col in Ib. rewrite (column_nth n Hn1) in Ib by (try exact Hk; apply (shape_transpose n _ Sn Hn1)). unfold transpose in Ib. destruct Sn as [Ln Rn]. rewrite (shape_ncols n n V (conj Ln Rn) Hn1), Ln, mnth_mbuild in Ib by assumption. pose proof (conj Ln Rn : shape n n V) as Sn.
      destruct (unit_entry n Hn1 Hn v j k Sv Hc Hj Hk) as [[q [Iq Aq]] B1]. fold V in Iq. assert (b = q) by (eapply is_fun; [exact Ib|exact Iq]). subst q.
      (* the left factor *)
      unfold row in Ia. rewrite <- mnth_in in Ia. rewrite (mmul_entry n Hn1 _ _ _ i k Sn Sg Ht Hi Hk), (column_diagonal n g) in Ia by assumption.
      destruct (dot_single n Hn1 _ _ k a (shape_row n _ i Sn Hi) Hk Ia) as [a' [r [Ia' [Ir ->]]]].
      destruct (unit_entry n Hn1 Hn v i k Sv Hc Hi Hk) as [[q [Iq' Aq']] B2]. fold V in Iq'. assert (a' = q) by (eapply is_fun; [exact Ia'|exact Iq']). subst q.
      (* the inverse of the deviation *)
      assert (Iv : is (nth k vals n0) (comp vals k)) by (apply f2x_finite, Hfin; exact Hk).
      assert (Pv : 0 <= comp vals k). { apply Rnot_lt_le. intros C. assert (X : existsb (fun x : f64 => nleb x n0) vals = true); [|congruence]. apply existsb_exists. exists (nth k vals n0). split; [apply nth_In; lia|]. rewrite f2x_leb, Iv, is0. apply xle_leb. cbn. lra. }
      assert (Id : is (nth k (map nsqrt vals) n0) (rnd64 (sqrt (comp vals k)))) by (rewrite (nth_indep _ n0 (nsqrt n0)) by lia; rewrite map_nth; apply is_sqrt; assumption).
      destruct (value_is Hs k _ Hk Id) as [_ [V1 [_ [V2 [V3 [V4 V5]]]]]]. destruct (recip_err (comp vals k) V4 (proj2 V1) V5) as [P1 [P2 P3]]. fold (deviation vals k) in *.
      unfold g in Ir. assert (Gt : ngtb (nth k (map nsqrt vals) n0) n0 = true) by (unfold ngtb; apply (proj2 (is_lt _ _ _ _ is0 Id)); exact P1). rewrite Gt in Ir.
      assert (r = rnd64 (1 / rnd64 (deviation vals k))) by (eapply is_fun; [exact Ir|apply is_div; [exact is1|exact Id|exact P1|exact P2]]). subst r.
      split; [exact V1|]. split; [|split; [rewrite Ej; apply rnd_format|exact V3]].
      eapply (whitening_err (INR n * uu) eta NU ET); [exact Aq'|exact Aq|exact B2|exact B1|exact V3|eapply inverse_err; [exact V3|exact V2|exact P3]|apply rnd_any|rewrite Ej; apply rnd_any]. }
    split; [intros k Hk; apply (K k Hk)|].
    assert (Ers : rs = map (fun k => nth k rs 0) (seq 0 n)) by (apply list_seq; [rewrite <- (Forall2_len _ _ _ Irs), map2_length, Lr, Lc; apply Nat.min_id|reflexivity]).
    set (r := 209 / 100 * (INR n * uu) + 11 * uu) in *. assert (Hr : 0 <= r <= / 3000) by (unfold r; lra).
    pose proof (sum_approx n (fun k => nth k rs 0) (fun k => axis n v i k * axis n v j k / deviation vals k) r (fun k => 21 / 10 * (/ deviation vals k) * eta + 21 / 10 * eta) Hn ltac:(lra)) as A.
    rewrite <- Ers, <- Eq in A. specialize (A (fun k Hk => proj1 (proj2 (proj2 (K k Hk))))). assert (A0 : forall k, (k < n)%nat -> 0 <= 21 / 10 * (/ deviation vals k) * eta + 21 / 10 * eta). { intros k Hk. pose proof (Rinv_0_lt_compat _ (proj2 (proj2 (proj2 (K k Hk))))). assert (0 <= / deviation vals k * eta) by (apply Rmult_le_pos; lra). lra. }
    specialize (A (fun k Hk => conj (proj1 (proj2 (K k Hk))) (A0 k Hk))). unfold inverse_root, inverse_tolerance. apply Rle_trans with (1 := A). clear A.
    set (Q := Sig n (fun k => Rabs (axis n v i k * axis n v j k / deviation vals k))) in *. assert (PQ : 0 <= Q) by (apply Sig_nonneg; intros; apply Rabs_pos).
    assert (ES : Sig n (fun k => 21 / 10 * / deviation vals k * eta + 21 / 10 * eta) = 21 / 10 * eta * Sig n (fun k => / deviation vals k + 1)). { rewrite <- Sig_mul_l. apply Sig_ext. intros; ring. } rewrite ES.
    set (Z := Sig n (fun k => / deviation vals k + 1)) in *. assert (PZ : 0 <= Z). { apply Sig_nonneg. intros k Hk. pose proof (Rinv_0_lt_compat _ (proj2 (proj2 (proj2 (K k Hk))))). lra. }
    change (bpow radix2 (-1074)) with eta. set (nu := INR n * uu) in *. replace ((4 * INR n + 12) / 2 ^ 53) with (4 * nu + 12 * uu) by (unfold nu; field).
    apply Rplus_le_compat.
    - apply Rmult_le_compat_r; [exact PQ|]. assert (nu * r <= nu * / 3000) by (apply Rmult_le_compat_l; lra). unfold r in *. lra.
    - assert (EZ : 0 <= eta * Z) by (apply Rmult_le_pos; lra). replace ((1 + 1001 / 1000 * nu) * (21 / 10 * eta * Z)) with ((1 + 1001 / 1000 * nu) * (21 / 10) * (eta * Z)) by ring. replace (3 * Z * eta) with (3 * (eta * Z)) by ring. apply Rmult_le_compat_r; lra.
  Qed.

  (* the same for the matrices at the start *)
  Lemma identity_B2R : forall i j, (i < n)%nat -> (j < n)%nat -> B2R (mnth (identity n) i j : f64) = delta i j /\ is_finite (mnth (identity n) i j : f64) = true.
  Proof.
    intros i j Hi Hj. unfold identity. rewrite mnth_mbuild by assumption. unfold delta. destruct (Nat.eqb i j); split; try reflexivity; exact (proj2 (is_B2R _ _ is1)).
  Qed.
  Lemma identity_length : forall j, (j < n)%nat -> euclid n (fun k => B2R (mnth (identity n) k j : f64)) = 1.
  Proof.
    intros j Hj. unfold euclid. rewrite (Sig_ext _ _ (fun k => delta k j * delta k j)) by (intros k Hk; rewrite (proj1 (identity_B2R k j Hk Hj)); reflexivity). rewrite (Sig_delta_r n (fun k => delta k j) j Hj). rewrite delta_eq. apply sqrt_1.
  Qed.
  Lemma identity_sound : sound_columns n (identity n).
  Proof. intros j Hj. split; [intros i Hi; apply (identity_B2R i j Hi Hj)|]. rewrite identity_length by exact Hj. lra. Qed.
  Lemma identity_axis : forall i j, (i < n)%nat -> (j < n)%nat -> axis n (identity n) i j = delta i j.
  Proof. intros i j Hi Hj. unfold axis. rewrite identity_length, (proj1 (identity_B2R i j Hi Hj)) by exact Hj. field. Qed.
  Lemma ones_deviation : forall j, (j < n)%nat -> deviation (repeat n1 n) j = 1 /\ positive_value (repeat n1 n) j.
  Proof.
    intros j Hj. unfold deviation, positive_value, fin_comp, comp. assert (Q : nth j (repeat (n1 : f64) n) n0 = n1) by (apply (repeat_spec n n1); apply nth_In; rewrite repeat_length; exact Hj). rewrite Q, (proj2 (is_B2R _ _ is1)). split; [apply sqrt_1|]. split; [reflexivity|lra].
  Qed.
  Lemma start_transform : from_start n cm v vals -> forall i j t, (i < n)%nat -> (j < n)%nat -> is (mnth (cm_transform cm) i j) t ->
    positive_value vals j /\ approx t (axis n v i j * deviation vals j) (104 / 100 * (INR n * uu) + 53 / 10 * uu) (101 / 100 * deviation vals j * eta + eta).
  Proof.
    intros [-> [-> [_ [_ ->]]]] i j t Hi Hj H. destruct (ones_deviation j Hj) as [E1 P]. split; [exact P|]. rewrite E1, identity_axis, Rmult_1_r by assumption. destruct (is_B2R _ _ H) as [_ <-]. rewrite (proj1 (identity_B2R i j Hi Hj)).
    eapply approx_weaken; [apply approx_refl| |]; pose proof (nu_small n Hn); pose proof eta_ok; lra.
  Qed.
  Lemma start_whitening : from_start n cm v vals -> forall i j x, (i < n)%nat -> (j < n)%nat -> is (mnth (cm_sqrt_inv cm) i j) x ->
    (forall k, (k < n)%nat -> positive_value vals k) /\ Rabs (x - inverse_root n v vals i j) <= inverse_tolerance n v vals i j.
  Proof.
    intros [-> [-> [_ [-> _]]]] i j x Hi Hj H. split; [intros k Hk; apply ones_deviation; exact Hk|]. destruct (is_B2R _ _ H) as [_ <-]. rewrite (proj1 (identity_B2R i j Hi Hj)). unfold inverse_root.
    rewrite (Sig_ext _ _ (fun k => delta i k * delta j k)). 2:{ intros k Hk. rewrite !identity_axis by assumption. rewrite (proj1 (ones_deviation k Hk)). field. }
    rewrite (Sig_delta n (fun k => delta j k) i Hi). rewrite (delta_sym j i), Rminus_diag_eq, Rabs_R0 by reflexivity. unfold inverse_tolerance. pose proof (bpow_gt_0 radix2 (-1074)) as Pb. set (b := bpow radix2 (-1074)) in *.
    apply Rplus_le_le_0_compat; apply Rmult_le_pos.
    - pose proof (pos_INR n). lra.
    - apply Sig_nonneg. intros. apply Rabs_pos.
    - apply Rmult_le_pos; [lra|]. apply Sig_nonneg. intros k Hk. rewrite (proj1 (ones_deviation k Hk)). lra.
    - lra.
  Qed.
End Entries.

Section FloatAxes.
  Context {L : Libm f64} {E : Env f64} {F : Type} (ev : F -> vec f64 -> outcome (f64 * F)).
  Let ev' := log_ev ev.
  Notation session := (cmaes f64 (F * list (Spec.entry f64))).

  (* v and vals are what the solver returned for the covariance matrix that the session c had at the last refresh, when e points had
     been evaluated; before the first refresh they are the unit vectors and ones, which describe the initial matrix *)
  Definition decomposition (o : options f64) (f : F) (e : N) (c : session) (v : mat f64) (vals : vec f64) : Prop :=
    exists b ops, reaches ev' o (f, []) b /\ steps ev' b ops = Ret c /\ function_evals b = e /\
      (eigen (covariance_matrix b) = Some (v, vals) \/ covariance_matrix b = identity (dims o) /\ v = identity (dims o) /\ vals = repeat n1 (dims o)).

  Lemma axes_kept : eigen_shape (T := f64) -> forall o f c, reaches ev' o (f, []) c ->
    exists v vals, decomposition o f (st_last_eigen (c_state c)) c v vals /\ (from_solver (dims o) (st_cov (c_state c)) v vals \/ from_start (dims o) (st_cov (c_state c)) v vals).
  Proof.
    intros He o f c Hr. pose proof Hr as [c0 [l [Hb Hst]]].
    assert (K : forall l c, steps ev' c0 l = Ret c -> reaches ev' o (f, []) c /\ exists v vals, decomposition o f (st_last_eigen (c_state c)) c v vals /\ (from_solver (dims o) (st_cov (c_state c)) v vals \/ from_start (dims o) (st_cov (c_state c)) v vals)); [|exact (proj2 (K l c Hst))].
    clear c Hr l Hst. intros l c Hst.
    refine (steps_invariant ev' (fun a => reaches ev' o (f, []) a /\ exists v vals, decomposition o f (st_last_eigen (c_state a)) a v vals /\ (from_solver (dims o) (st_cov (c_state a)) v vals \/ from_start (dims o) (st_cov (c_state a)) v vals)) _ _ l c0 c _ Hst).
    - intros a op b [Ha [v [vals [D X]]]] Hq Hs. split; [eapply reaches_step; eassumption|]. pose proof (quiet_core ev' _ _ _ Hq Hs) as [_ [_ [Co _]]]. exists v, vals. rewrite Co. split; [|exact X].
      destruct D as [b0 [ops [D1 [D2 D3]]]]. exists b0, (ops ++ [op]). split; [exact D1|]. split; [rewrite steps_app, D2; cbn [obind steps]; rewrite Hs; reflexivity|exact D3].
    - intros par tk a r b [Ha [v [vals [D X]]]] Hn. assert (Hs : step ev' a (ONext par tk) = Ret b) by (cbn [step]; rewrite Hn; reflexivity). assert (Hrb : reaches ev' o (f, []) b) by (eapply reaches_step; eassumption). split; [exact Hrb|].
      assert (D' : decomposition o f (st_last_eigen (c_state a)) b v vals). { destruct D as [b0 [ops [D1 [D2 D3]]]]. exists b0, (ops ++ [ONext par tk]). split; [exact D1|]. split; [rewrite steps_app, D2; cbn [obind steps]; rewrite Hs; reflexivity|exact D3]. }
      pose proof (next_outcome ev' _ _ _ _ _ Hn) as [[_ [_ [_ H2]]]|[inds [ok [_ [_ [_ [H4 _]]]]]]].
      { exists v, vals. assert (Es : c_state b = c_state a) by (rewrite H2; reflexivity). rewrite Es. split; [exact D'|exact X]. }
      apply state_update_inv in H4. destruct H4 as [yw [rm [cov U]]]. pose proof (up_set _ _ _ _ _ _ _ _ _ _ U) as H5. pose proof (up_last _ _ _ _ _ _ _ _ _ _ U) as Hl. clear U. unfold set_cov in H5.
      assert (Keep : forall cm, (ok && do_eigen_update (c_params a) (c_state a) (function_evals b))%bool = false -> Ret (ok, cm) = Ret (ok, st_cov (c_state b)) -> cm_sqrt_eigenvalues cm = cm_sqrt_eigenvalues (st_cov (c_state a)) -> cm_sqrt_inv cm = cm_sqrt_inv (st_cov (c_state a)) -> cm_transform cm = cm_transform (st_cov (c_state a)) ->
        exists v vals, decomposition o f (st_last_eigen (c_state b)) b v vals /\ (from_solver (dims o) (st_cov (c_state b)) v vals \/ from_start (dims o) (st_cov (c_state b)) v vals)).
      { intros cm E0 Hc E1 E2 E3. rewrite E0 in Hl. exists v, vals. rewrite Hl. split; [exact D'|]. apply Ret_inj in Hc. apply (f_equal snd) in Hc. cbn [snd] in Hc. rewrite <- Hc. unfold from_solver, from_start in *. rewrite E1, E2, E3. exact X. }
      destruct (do_eigen_update _ _ _) eqn:Ed.
      2:{ pose proof H5 as H6. apply Ret_inj in H6. apply (f_equal fst) in H6. cbn [fst] in H6. rewrite <- H6 in H5, Keep. eapply Keep; [reflexivity|exact H5|reflexivity|reflexivity|reflexivity]. }
      unfold update_eigendecomposition in H5. cbn [cm_cov] in H5. destruct (eigen (fill_lower cov)) as [[nv nvals]|] eqn:Ee.
      2:{ pose proof H5 as H6. apply Ret_inj in H6. apply (f_equal fst) in H6. cbn [fst] in H6. rewrite <- H6 in H5, Keep. eapply Keep; [reflexivity|exact H5|reflexivity|reflexivity|reflexivity]. }
      destruct (existsb (fun x => nleb x n0) nvals) eqn:Ex.
      { pose proof H5 as H6. apply Ret_inj in H6. apply (f_equal fst) in H6. cbn [fst] in H6. rewrite <- H6 in H5, Keep. eapply Keep; [reflexivity|exact H5|reflexivity|reflexivity|reflexivity]. }
      clear Keep.
      destruct (mmul_c _ (mmap _ _)) as [t| |] eqn:M1; cbn [obind] in H5; try discriminate H5. destruct (mmul_c t _) as [si| |] eqn:M2; cbn [obind] in H5; try discriminate H5. destruct (mmul_c _ (from_diagonal _)) as [tr| |] eqn:M3; cbn [obind] in H5; try discriminate H5.
      apply Ret_inj in H5. pose proof (f_equal fst H5) as Hok. apply (f_equal snd) in H5. cbn [fst snd] in H5, Hok. assert (Cb : covariance_matrix b = fill_lower cov) by (unfold covariance_matrix; rewrite <- H5; reflexivity).
      rewrite <- Hok in Hl. cbn [andb] in Hl.
      exists nv, nvals. split; [exists b, []; split; [exact Hrb|]; split; [reflexivity|]; split; [symmetry; exact Hl|left; rewrite Cb; exact Ee]|]. left.
      pose proof (ws_cov _ _ (wf_st _ _ (reaches_wf He ev' o (f, []) b Hrb))) as Sc. unfold covariance_matrix in Cb. rewrite Cb in Sc. destruct (He _ _ _ _ Sc Ee) as [S1 S2].
      split; [exact S1|]. split; [exact S2|]. split; [exact Ex|]. rewrite <- H5. cbn [cm_sqrt_eigenvalues cm_sqrt_inv cm_transform]. split; [reflexivity|]. exists t. split; [exact M1|]. split; [exact M2|exact M3].
    - split; [exists c0, []; split; [exact Hb|reflexivity]|]. exists (identity (dims o)), (repeat n1 (dims o)). pose proof Hb as [rs [now Hb']]. pose proof (cmaes_new_inv _ _ _ _ _ Hb') as C. cbv zeta in C. destruct C as [_ [C2 [_ [C4 _]]]]. split.
      + exists c0, []. split; [exists c0, []; split; [exact Hb|reflexivity]|]. split; [reflexivity|]. split; [unfold function_evals; rewrite C4; rewrite C2; reflexivity|]. right. unfold covariance_matrix. rewrite C4. repeat split; reflexivity.
      + right. rewrite C4. repeat split; reflexivity.
  Qed.

  Lemma transform_any : forall n cm v vals, (1 <= n)%nat -> INR n <= 1099511627776 -> from_solver n cm v vals \/ from_start n cm v vals -> sound_columns n v ->
    forall i j t, (i < n)%nat -> (j < n)%nat -> is (mnth (cm_transform cm) i j) t ->
    positive_value vals j /\ approx t (axis n v i j * deviation vals j) (104 / 100 * (INR n * uu) + 53 / 10 * uu) (101 / 100 * deviation vals j * eta + eta).
  Proof. intros n cm v vals H1 H2 [H|H] Hc i j t Hi Hj Ht; [eapply transform_entry; eassumption|eapply start_transform; eassumption]. Qed.

  (* one coordinate of mean + sigma * transform * z *)
  Lemma coordinate : forall n (s : state f64) v vals z i, (1 <= n)%nat -> INR n <= 1099511627776 -> from_solver n (st_cov s) v vals \/ from_start n (st_cov s) v vals -> sound_columns n v ->
    length (st_mean s) = n -> shape n n (cm_transform (st_cov s)) -> length z = n -> (i < n)%nat -> fin_comp (transformed s z) i ->
    fin_comp (st_mean s) i /\ is_finite (st_sigma s) = true /\ (forall j, (j < n)%nat -> fin_comp z j /\ positive_value vals j) /\
    Rabs (comp (transformed s z) i - drawn_point n v vals (comp (st_mean s) i) (B2R (st_sigma s)) (comp z) i) <= point_tolerance n v vals (comp (st_mean s) i) (B2R (st_sigma s)) (comp z) i.
  Proof.
    intros n s v vals z i Hn1 Hn Hd Hc Lm St Lz Hi Fi. pose proof (nu_small n Hn) as NU. pose proof eta_ok as ET.
    set (T := cm_transform (st_cov s)) in *. pose proof St as [LT RT]. assert (Ex : nth i (transformed s z) n0 = nadd (nth i (st_mean s) n0) (nmul (st_sigma s) (dot (nth i T []) z))).
    { unfold transformed. fold T. rewrite (Lib.nth_map2 nadd _ _ n0 (nmul (st_sigma s) (dot [] z)) n0) by (rewrite ?map_length; unfold mat, vec in *; lia). rewrite (map_nth (nmul (st_sigma s))), (map_nth (fun row => dot row z)). reflexivity. }
    assert (If : is (nth i (transformed s z) n0) (comp (transformed s z) i)) by (apply f2x_finite; exact Fi). rewrite Ex in If at 1.
    destruct (add_fin _ _ _ If) as [m [q [Im [Iq Er]]]]. destruct (mul_fin _ _ _ Iq) as [sg [S [Is [IS Eq]]]]. unfold dot, nsum in IS. destruct (fold_back _ _ _ IS) as [s0 [rs [I0 [Irs ES]]]]. assert (s0 = 0) by (eapply is_fun; [exact I0|exact is0]). subst s0.
    set (row := nth i T []) in *. assert (Lr : length row = n) by (apply shape_row; assumption).
    destruct (is_B2R _ _ Im) as [Fm Em]. destruct (is_B2R _ _ Is) as [Fs Es].
    assert (K : forall j, (j < n)%nat -> fin_comp z j /\ positive_value vals j /\ 0 <= deviation vals j /\ approx (nth j rs 0) (axis n v i j * deviation vals j * comp z j) (105 / 100 * (INR n * uu) + 632 / 100 * uu) ((102 / 100 * deviation vals j + 101 / 100) * Rabs (comp z j) * eta + eta) /\ generic_format radix2 fexp64 (nth j rs 0)).
    { intros j Hj. pose proof (PropFloatConj.Forall2_nth _ _ j Irs) as J. rewrite map2_length, Lr, Lz, Nat.min_id in J. specialize (J Hj). rewrite (Lib.nth_map2 nmul row z n0 n0 n0) in J by (rewrite ?Lr, ?Lz; exact Hj).
      destruct (mul_fin _ _ _ J) as [t [zj [It [Iz Ej]]]]. unfold row in It. rewrite <- mnth_in in It. destruct (transform_any n _ v vals Hn1 Hn Hd Hc i j t Hi Hj It) as [P A]. destruct (is_B2R _ _ Iz) as [Fz Ez]. unfold fin_comp, comp at 1 2. rewrite Ez. split; [exact Fz|]. split; [exact P|].
      assert (D0 : 0 <= deviation vals j) by (unfold deviation; apply sqrt_pos). split; [exact D0|]. split; [|rewrite Ej; apply rnd_format]. eapply (drawn_err (INR n * uu) eta NU ET); [exact A|exact D0|rewrite Ej; apply rnd_any]. }
    split; [exact Fm|]. split; [exact Fs|]. split; [intros j Hj; split; apply (K j Hj)|]. rewrite Er.
    assert (Em' : comp (st_mean s) i = m) by exact Em. rewrite Em', Es.
    assert (Ers : rs = map (fun k => nth k rs 0) (seq 0 n)) by (apply list_seq; [rewrite <- (Forall2_len _ _ _ Irs), map2_length, Lr, Lz; apply Nat.min_id|reflexivity]).
    set (x := fun j => axis n v i j * deviation vals j * comp z j) in *. set (r := 105 / 100 * (INR n * uu) + 632 / 100 * uu) in *. assert (Hr : 0 <= r <= / 3000) by (unfold r; lra). set (a := fun j => (102 / 100 * deviation vals j + 101 / 100) * Rabs (comp z j) * eta + eta) in *.
    assert (A0 : forall j, (j < n)%nat -> 0 <= a j <= 102 / 100 * (eta * ((deviation vals j + 1) * Rabs (comp z j) + 1))). { intros j Hj. pose proof (Rabs_pos (comp z j)) as Pz. assert (D0 : 0 <= deviation vals j) by (unfold deviation; apply sqrt_pos). unfold a. set (d := deviation vals j) in *. set (w := Rabs (comp z j)) in *. assert (0 <= d * w) by (apply Rmult_le_pos; assumption). assert (0 <= d * w * eta) by (apply Rmult_le_pos; lra). assert (0 <= w * eta) by (apply Rmult_le_pos; lra). split; [|]; nra. }
    pose proof (sum_approx n (fun k => nth k rs 0) x r a Hn ltac:(lra)) as A. rewrite <- Ers, <- ES in A. specialize (A (fun j Hj => proj2 (proj2 (proj2 (proj2 (K j Hj)))))). specialize (A (fun j Hj => conj (proj1 (proj2 (proj2 (proj2 (K j Hj))))) (proj1 (A0 j Hj)))).
    set (P := Sig n (fun j => Rabs (x j))) in *. assert (PP : 0 <= P) by (apply Sig_nonneg; intros; apply Rabs_pos). set (Aa := Sig n a) in *. assert (PA : 0 <= Aa) by (apply Sig_nonneg; intros j Hj; apply (A0 j Hj)).
    assert (A' : Rabs (S - Sig n x) <= (207 / 100 * (INR n * uu) + 633 / 100 * uu) * P + 1001 / 1000 * Aa).
    { apply Rle_trans with (1 := A). apply Rplus_le_compat; apply Rmult_le_compat_r; try assumption; [|lra]. assert (INR n * uu * r <= INR n * uu * / 3000) by (apply Rmult_le_compat_l; lra). unfold r in *. lra. }
    pose proof (point_err_any (INR n * uu) eta m sg S (Sig n x) P Aa q NU ET PA PP (Sig_abs _ _) (is_format _ _ Im) (is_format _ _ Iq) A' ltac:(rewrite Eq; apply rnd_any)) as B.
    unfold drawn_point, point_tolerance. apply Rle_trans with (1 := B). clear B.
    assert (EP : Sig n (fun j => Rabs (axis n v i j) * deviation vals j * Rabs (comp z j)) = P). { apply Sig_ext. intros j Hj. unfold x. rewrite !Rabs_mult, (Rabs_pos_eq (deviation vals j)) by (unfold deviation; apply sqrt_pos). reflexivity. } rewrite EP.
    set (Z := Sig n (fun j => (deviation vals j + 1) * Rabs (comp z j) + 1)). assert (EA : Aa <= 102 / 100 * (eta * Z)). { unfold Aa, Z. rewrite <- Sig_mul_l, <- Sig_mul_l. apply Sig_le. intros j Hj. apply (A0 j Hj). }
    change (bpow radix2 (-1074)) with eta. replace ((3 * INR n + 9) / 2 ^ 53) with (3 * (INR n * uu) + 9 * uu) by field. rewrite Rplus_assoc. apply Rplus_le_compat_l.
    pose proof (Rabs_pos sg) as Ps. replace ((2 * Rabs sg * Z + 2) * eta) with (2 * (Rabs sg * (eta * Z)) + 2 * eta) by ring. replace (101 / 100 * Rabs sg * Aa) with (101 / 100 * (Rabs sg * Aa)) by ring.
    assert (Rabs sg * Aa <= Rabs sg * (102 / 100 * (eta * Z))) by (apply Rmult_le_compat_l; assumption). assert (0 <= Rabs sg * (eta * Z)). { apply Rmult_le_pos; [exact Ps|]. apply Rmult_le_pos; [lra|]. apply Sig_nonneg. intros j Hj. pose proof (Rabs_pos (comp z j)). assert (0 <= deviation vals j) by (unfold deviation; apply sqrt_pos). nra. } nra.
  Qed.

  Lemma normals_length : forall k g d, length (normals (T := f64) d g k) = d.
  Proof. intros. unfold normals. rewrite map_length. apply seq_length. Qed.

  Lemma powi_square : forall (x : f64) r, is (powi x 2) r -> exists d, is x d /\ r = rnd64 (d * d).
  Proof.
    intros x r H. change (is (nmul n1 (nmul x x)) r) in H. destruct (mul_fin _ _ _ H) as [u [w [Hu [Hw E1]]]]. assert (u = 1) by (eapply is_fun; [exact Hu|exact is1]). subst u.
    destruct (mul_fin _ _ _ Hw) as [d [d' [Hd [Hd' E']]]]. assert (d' = d) by (eapply is_fun; eassumption). subst d'. exists d. split; [exact Hd|]. rewrite E1, Rmult_1_l, (rnd_id w (is_format _ _ Hw)). exact E'.
  Qed.


  Definition used_axes (o : options f64) (c : session) (v : mat f64) (vals : vec f64) : Prop :=
    from_solver (dims o) (st_cov (c_state c)) v vals \/ from_start (dims o) (st_cov (c_state c)) v vals.

  (* Every point that a call of next evaluates: the coordinates that are numbers are, up to rounding, those of
     mean + sigma * (axes scaled by the deviations) * z with a block z of the seeded generator's normal numbers. *)
  Lemma points_along : eigen_shape (T := f64) -> forall o f seed h c v vals, used ev o f seed h c -> dims_fit o -> used_axes o c v vals ->
    forall par tk r c', next ev' par tk c = Ret (r, c') -> sound_columns (dims o) v ->
    exists new, calls c' = calls c ++ new /\
    forall x y, In (x, y) new -> exists k, let z := normals (dims o) (rng_seed seed) k in
      length x = dims o /\ forall i, (i < dims o)%nat -> fin_comp x i ->
        fin_comp (mean c) i /\ is_finite (sigma c) = true /\ (forall j, (j < dims o)%nat -> fin_comp z j /\ positive_value vals j) /\
        Rabs (comp x i - drawn_point (dims o) v vals (comp (mean c) i) (B2R (sigma c)) (comp z) i) <= point_tolerance (dims o) v vals (comp (mean c) i) (B2R (sigma c)) (comp z) i.
  Proof.
    intros He o f seed h c v vals Hu Hdf X. pose proof (used_reaches ev o f seed h c Hu) as Hr. intros par tk r c' Hn Hc.
    destruct (C04_points f64 _ _ _ _ ev o f seed h c Hu) as [d [_ H4]]. destruct (H4 par tk r c' Hn) as [d' [ks [new [_ [Hnew [_ [_ [_ H5]]]]]]]]. cbv zeta in H5. exists new. split; [exact Hnew|]. intros x y Hin.
    pose proof (reaches_wf He ev' o (f, []) c Hr) as W. pose proof (wf_st _ _ W) as Ws. pose proof (ws_mean _ _ Ws) as Lm. pose proof (ws_transform _ _ Ws) as St.
    assert (Hx : In x (map (fun k => transformed (c_state c) (normals (length (o_initial_mean o)) (rng_seed seed) k)) ks)).
    { destruct (reports InvalidFunctionValue r).
      - destruct H5 as [rest [all [P1 [_ P2]]]]. apply (Permutation_in _ P1). rewrite P2. apply in_or_app. left. apply (in_map fst) in Hin. exact Hin.
      - destruct H5 as [P1 _]. apply (Permutation_in _ (Permutation_sym P1)). apply (in_map fst) in Hin. exact Hin. }
    apply in_map_iff in Hx. destruct Hx as [k [Hx _]]. exists k. cbv zeta. fold (dims o) in Hx. set (z := normals (dims o) (rng_seed seed) k) in *. assert (Lz : length z = dims o) by apply normals_length.
    assert (Lx : length x = dims o). { rewrite <- Hx. unfold transformed. rewrite map2_length, !map_length. rewrite Lm. destruct St as [St _]. unfold mat, vec in *. rewrite St. apply Nat.min_id. }
    split; [exact Lx|]. intros i Hi Fi. rewrite <- Hx in *. apply coordinate; try assumption; [exact (wf_dim _ _ W)|exact (dims_bound o Hdf)].
  Qed.

  (* The inverse square root matrix that C85 uses, in terms of the same decomposition. *)
  Lemma whitening_along : eigen_shape (T := f64) -> forall o f c v vals, reaches ev' o (f, []) c -> dims_fit o -> used_axes o c v vals ->
    (sound_columns (dims o) v -> (forall k, (k < dims o)%nat -> fin_comp vals k) ->
      forall i j, (i < dims o)%nat -> (j < dims o)%nat -> is_finite (mnth (whitening c) i j) = true ->
        (forall k, (k < dims o)%nat -> 0 < comp vals k) /\
        Rabs (B2R (mnth (whitening c) i j) - inverse_root (dims o) v vals i j) <= inverse_tolerance (dims o) v vals i j).
  Proof.
    intros He o f c v vals Hr Hdf X Hc Hv i j Hi Hj Fw. pose proof (wf_dim _ _ (reaches_wf He ev' o (f, []) c Hr)) as Hd. pose proof (dims_bound o Hdf) as Hb.
    apply f2x_finite in Fw. unfold whitening in *. destruct X as [X|X].
    - destruct (whitening_entry (dims o) Hd Hb _ v vals X Hc Hv i j _ Hi Hj Fw) as [P Q]. split; [intros k Hk; apply (P k Hk)|exact Q].
    - destruct (start_whitening (dims o) _ v vals X i j _ Hi Hj Fw) as [P Q]. split; [intros k Hk; apply (P k Hk)|exact Q].
  Qed.

  (* The reported eigenvalues. *)
  Lemma eigenvalues_along : eigen_shape (T := f64) -> forall o f c v vals, reaches ev' o (f, []) c -> used_axes o c v vals ->
    length (eigenvalues c) = dims o /\ forall j, (j < dims o)%nat -> fin_comp (eigenvalues c) j ->
      fin_comp vals j /\ 0 < comp vals j /\ Rabs (comp (eigenvalues c) j - comp vals j) <= 4 / 2 ^ 53 * comp vals j + bpow radix2 (-1074).
  Proof.
    intros He o f c v vals Hr X. unfold used_axes in X. pose proof (reaches_wf He ev' o (f, []) c Hr) as W. pose proof (ws_sqrt _ _ (wf_st _ _ W)) as Sq. set (cm := st_cov (c_state c)) in *.
    assert (Le : length (eigenvalues c) = dims o). { unfold eigenvalues, diagonal. rewrite !map_length, seq_length. apply Sq. } split; [exact Le|]. intros j Hj Fj.
    assert (En : nth j (eigenvalues c) n0 = powi (mnth (cm_sqrt_eigenvalues cm) j j) 2).
    { unfold eigenvalues, diagonal. fold cm. destruct Sq as [Lq _]. rewrite map_map, (nth_indep _ n0 ((fun i => powi (mnth (cm_sqrt_eigenvalues cm) i i) 2) 0%nat)) by (rewrite map_length, seq_length; unfold mat, vec in *; lia). rewrite (map_nth (fun i => powi (mnth (cm_sqrt_eigenvalues cm) i i) 2)), seq_nth by (unfold mat, vec in *; lia). reflexivity. }
    assert (Ij : is (nth j (eigenvalues c) n0) (comp (eigenvalues c) j)) by (apply f2x_finite; exact Fj). rewrite En in Ij at 1.
    assert (Sm : exists d, is (mnth (cm_sqrt_eigenvalues cm) j j) d /\ comp (eigenvalues c) j = rnd64 (d * d)).
    { set (x := mnth (cm_sqrt_eigenvalues cm) j j) in *. destruct (powi_square x _ Ij) as [d [Id Ed]]. exists d. split; assumption. }
    destruct Sm as [d [Id Ed]]. pose proof eta_ok as ET. rewrite Ed. destruct X as [X|[-> [-> [Xs _]]]].
    - pose proof X as [_ [Lv [_ [Xq _]]]]. rewrite Xq in Id. unfold from_diagonal in Id. rewrite map_length, Lv, mnth_mbuild, Nat.eqb_refl in Id by assumption. destruct (value_is (dims o) (wf_dim _ _ W) cm v vals X j d Hj Id) as [_ [[V1 V2] [_ [V3 [V4 _]]]]]. split; [exact V1|]. split; [exact V2|].
      unfold approx in V3. rewrite Rplus_0_r, (Rabs_pos_eq (deviation vals j)) in V3 by lra. assert (Sv : deviation vals j * deviation vals j = comp vals j) by (unfold deviation; apply sqrt_sqrt; lra). set (s := deviation vals j) in *. set (q := comp vals j) in *.
      pose proof (rnd_any (d * d)) as R0. rewrite (Rabs_pos_eq (d * d)) in R0 by nra. apply Rabs_le_inv in V3. assert (D1 : (1 - uu) * (1 - uu) * q <= d * d <= (1 + uu) * (1 + uu) * q). { rewrite <- Sv. split; [replace ((1 - uu) * (1 - uu) * (s * s)) with (((1 - uu) * s) * ((1 - uu) * s)) by ring|replace ((1 + uu) * (1 + uu) * (s * s)) with (((1 + uu) * s) * ((1 + uu) * s)) by ring]; apply Rmult_le_compat; nra. }
      change (bpow radix2 (-1074)) with eta. replace (4 / 2 ^ 53) with (4 * uu) by field. apply Rabs_le_inv in R0. apply Rabs_le. nra.
    - destruct (ones_deviation (dims o) j Hj) as [_ [P1 P2]]. split; [exact P1|]. split; [exact P2|]. rewrite Xs in Id. destruct (identity_B2R (dims o) j j Hj Hj) as [Q1 _]. destruct (is_B2R _ _ Id) as [_ Q2]. assert (d1 : d = 1) by (rewrite <- Q2, Q1; apply delta_eq). rewrite d1, Rmult_1_r, (rnd_id 1 (is_format _ _ is1)).
      assert (C1 : comp (repeat n1 (dims o)) j = 1). { unfold comp. rewrite (repeat_spec (dims o) n1 (nth j (repeat n1 (dims o)) n0)) by (apply nth_In; rewrite repeat_length; exact Hj). exact (proj2 (is_B2R _ _ is1)). } rewrite C1, Rminus_diag_eq, Rabs_R0 by reflexivity. change (bpow radix2 (-1074)) with eta. lra.
  Qed.

  (* In every session there is one decomposition, delivered by the solver for the covariance matrix at the last refresh (or the initial one), such that:
     the reported eigenvalues are its eigenvalues, the inverse square root matrix (used by C85) is the one of that decomposition,
     and the coordinates of every evaluated point are those of mean + sigma * (axes scaled by the deviations) * z
     with a block z of the seeded generator's normal numbers, each up to rounding and as far as the values are numbers. *)
  Theorem C87_axes : eigen_shape (T := f64) -> forall o f seed h c, used ev o f seed h c -> dims_fit o ->
    exists v vals, decomposition o f (last_refresh (o_population_size o) (evals_per_eigen_update (params_of_options o seed)) 0 0 h) c v vals /\
    (length (eigenvalues c) = dims o /\ forall j, (j < dims o)%nat -> fin_comp (eigenvalues c) j ->
      fin_comp vals j /\ 0 < comp vals j /\ Rabs (comp (eigenvalues c) j - comp vals j) <= 4 / 2 ^ 53 * comp vals j + bpow radix2 (-1074)) /\
    (sound_columns (dims o) v -> (forall k, (k < dims o)%nat -> fin_comp vals k) ->
      forall i j, (i < dims o)%nat -> (j < dims o)%nat -> is_finite (mnth (whitening c) i j) = true ->
        (forall k, (k < dims o)%nat -> 0 < comp vals k) /\
        Rabs (B2R (mnth (whitening c) i j) - inverse_root (dims o) v vals i j) <= inverse_tolerance (dims o) v vals i j) /\
    forall par tk r c', next ev' par tk c = Ret (r, c') -> sound_columns (dims o) v ->
    exists new, calls c' = calls c ++ new /\
    forall x y, In (x, y) new -> exists k, let z := normals (dims o) (rng_seed seed) k in
      length x = dims o /\ forall i, (i < dims o)%nat -> fin_comp x i ->
        fin_comp (mean c) i /\ is_finite (sigma c) = true /\ (forall j, (j < dims o)%nat -> fin_comp z j /\ positive_value vals j) /\
        Rabs (comp x i - drawn_point (dims o) v vals (comp (mean c) i) (B2R (sigma c)) (comp z) i) <= point_tolerance (dims o) v vals (comp (mean c) i) (B2R (sigma c)) (comp z) i.
  Proof.
    intros He o f seed h c Hu Hdf. pose proof (used_reaches ev o f seed h c Hu) as Hr. destruct (axes_kept He o f c Hr) as [v [vals [D X]]]. exists v, vals. split; [rewrite <- (used_last_refresh ev _ _ _ _ _ Hu); exact D|].
    split; [exact (eigenvalues_along He o f c v vals Hr X)|]. split; [exact (whitening_along He o f c v vals Hr Hdf X)|exact (points_along He o f seed h c v vals Hu Hdf X)].
  Qed.
End FloatAxes.
Print Assumptions C87_axes.


Lemma toy_sound : forall n m v vals, shape n n m -> eigen (Env := toy_env) m = Some (v, vals) -> sound_columns n v.
Proof. intros n m v vals [Lm _] H. cbn [eigen toy_env] in H. apply (f_equal (fun q => match q with Some p => fst p | None => v end)) in H. cbn [fst] in H. rewrite <- H, Lm. apply identity_sound. Qed.

(* A session after two calls of next, the second of which asked the solver: all eigenvalues and all entries of the inverse square root matrix are numbers,
   and the next call evaluates points whose coordinates are numbers. Every matrix of this solver has sound columns (toy_sound). *)
Example C87_case : eigen_shape (T := f64) (E := toy_env) /\ dims_fit c82_options /\
  (forall n m v vals, shape n n m -> eigen (Env := toy_env) m = Some (v, vals) -> sound_columns n v) /\
  exists (c c' : cmaes (E := toy_env) f64 (unit * list (Spec.entry f64))) seed h r,
    used (LT := rounded_libm) (E := toy_env) toy_sphere c82_options tt seed h c /\ next (LT := rounded_libm) (log_ev toy_sphere) false (c82_tick RLeaf) c = Ret (r, c') /\
    (0 < st_last_eigen (c_state c))%N /\ mnth (covariance_matrix c) 0 0 <> n1 /\
    (length (calls c') = length (calls c) + 4)%nat /\ (forall x y, In (x, y) (calls c') -> forall i, (i < 2)%nat -> fin_comp x i) /\
    (forall i j, (i < 2)%nat -> (j < 2)%nat -> is_finite (mnth (whitening c) i j) = true) /\ (forall j, (j < 2)%nat -> fin_comp (eigenvalues c) j).
Proof.
  split; [exact toy_eigen_shape|]. split; [vm_compute; discriminate|]. split; [exact toy_sound|].
  set (two := seq 0 2).
  destruct (holds_ex (after (LT := rounded_libm) (E := toy_env) (log_ev toy_sphere) (tt, []) c82_options [ONext false (c82_tick RLeaf); ONext false (c82_tick RLeaf)])
    (fun c => (0 <? st_last_eigen (c_state c))%N && negb (neqb (mnth (covariance_matrix c) 0 0) n1) &&
      forallb (fun i => forallb (fun j => is_finite (mnth (whitening c) i j)) two) two && forallb (fun j => is_finite (nth j (eigenvalues c) n0)) two &&
      holds (next (LT := rounded_libm) (E := toy_env) (log_ev toy_sphere) false (c82_tick RLeaf) c) (fun rc => Nat.eqb (length (calls (snd rc))) (length (calls c) + 4) && forallb (fun e => forallb (fun i => is_finite (nth i (fst e) n0)) two) (calls (snd rc))))) as [c [H1 H2]].
  { vm_compute. reflexivity. }
  unfold after in H1. destruct (cmaes_new _ _ _ _) as [[c0|e]| |] eqn:H0 in H1; cbn [obind] in H1; [|discriminate H1|discriminate H1|discriminate H1].
  destruct (steps_used toy_sphere _ _ _ _ _ _ _ H0 H1) as [h Hu].
  apply andb_prop in H2. destruct H2 as [H2 H3]. apply andb_prop in H2. destruct H2 as [H2 H4]. apply andb_prop in H2. destruct H2 as [H2 H5]. apply andb_prop in H2. destruct H2 as [H2 H6].
  apply holds_ex in H3. destruct H3 as [[r c'] [H3 K]]. cbn [snd] in K. apply andb_prop in K. destruct K as [K1 K2].
  assert (In2 : forall i, (i < 2)%nat -> In i two) by (intros i Hi; apply in_seq; lia).
  exists c, c', (match o_seed c82_options with Some s => s | None => 0%N end), h, r. split; [exact Hu|]. split; [exact H3|]. split; [apply N.ltb_lt; exact H2|]. split.
  { intros Q. rewrite Q in H6. discriminate H6. }
  split; [apply Nat.eqb_eq; exact K1|]. split.
  { intros x y Hin i Hi. rewrite forallb_forall in K2. specialize (K2 _ Hin). rewrite forallb_forall in K2. exact (K2 _ (In2 i Hi)). }
  split.
  { intros i j Hi Hj. rewrite forallb_forall in H5. specialize (H5 _ (In2 i Hi)). rewrite forallb_forall in H5. exact (H5 _ (In2 j Hj)). }
  intros j Hj. rewrite forallb_forall in H4. exact (H4 _ (In2 j Hj)).
Qed.
