(* Lower bounds that survive rounding, for the diagonal of the covariance matrix computed in binary64. *)
From Coq Require Import List NArith ZArith Bool Reals Lra Lia Arith Psatz.
From Flocq Require Import Core.
From Flocq Require Import IEEE754.BinarySingleNaN.
Require Import Verif.Lib Verif.Base Verif.Num Verif.F64 Verif.XReal Verif.LinAlg Verif.Mode Verif.Weights Verif.Options Verif.Params Verif.Env Verif.State Verif.Order Verif.F64Lemmas
  Verif.CeilLemmas Verif.XRound Verif.XLe Verif.F64Acc Verif.F64Weights Verif.F64Rates Verif.F64Mean Verif.F64Sigma Verif.PanicLemmas Verif.StateLemmas Verif.TermLemmas.
Import ListNotations.
Open Scope R_scope.

(* ---- entries of matrices, for any numbers ---- *)
Section Entries.
  Context {T : Type} {NT : Num T}.
  Lemma nth_map2 : forall {A B C} (f : A -> B -> C) a b i da db dc,
    (nth i (map2 f a b) dc = f (nth i a da) (nth i b db) /\ (i < length a)%nat /\ (i < length b)%nat) \/ (nth i (map2 f a b) dc = dc /\ (length (map2 f a b) <= i)%nat).
  Proof.
    intros A B C f a. induction a as [|x a IH]; intros b i da db dc; [right; destruct i; cbn; split; auto; lia|].
    destruct b as [|y b]; [right; destruct i; cbn; split; auto; lia|]. destruct i as [|i]; [left; cbn; split; [reflexivity|lia]|].
    cbn [map2 nth length]. destruct (IH b i da db dc) as [[H1 H2]|[H1 H2]]; [left; split; [exact H1|lia]|right; split; [exact H1|lia]].
  Qed.
  Lemma mnth_madd : forall (a b : mat T) i j, mnth (madd a b) i j = nadd (mnth a i j) (mnth b i j) \/
    mnth (madd a b) i j = n0 /\ ((length (madd a b) <= i)%nat \/ (length (nth i (madd a b) []) <= j)%nat).
  Proof.
    intros a b i j. unfold mnth, madd. unfold mat, vec in *. destruct (nth_map2 vadd a b i [] [] []) as [[H _]|[H1 H2]]; unfold vec in *.
    - rewrite H. unfold vadd. destruct (nth_map2 nadd (nth i a []) (nth i b []) j n0 n0 n0) as [[K _]|[K1 K2]]; [left; exact K|right; split; [exact K1|right; exact K2]].
    - right. rewrite H1. split; [destruct j; reflexivity|left; exact H2].
  Qed.
  Lemma mnth_mmap : forall f (m : mat T) i j, mnth (mmap f m) i j = f (mnth m i j) \/
    mnth (mmap f m) i j = n0 /\ ((length m <= i)%nat \/ (length (nth i m []) <= j)%nat).
  Proof.
    intros f m i j. unfold mnth, mmap. rewrite (map_nth (map f) m [] i : nth i (map (map f) m) [] = map f (nth i m [])).
    destruct (Nat.lt_ge_cases j (length (nth i m []))) as [H|H].
    - left. rewrite (nth_indep _ n0 (f n0)) by (rewrite map_length; exact H). apply map_nth.
    - right. rewrite nth_overflow by (rewrite map_length; exact H). split; [reflexivity|right; exact H].
  Qed.
  Lemma mnth_outer : forall (a b : vec T) i j, mnth (outer a b) i j = nmul (nth i a n0) (nth j b n0) \/ mnth (outer a b) i j = n0.
  Proof.
    intros a b i j. unfold mnth, outer. destruct (Nat.lt_ge_cases i (length a)) as [H|H].
    - rewrite (nth_indep _ [] ((fun x => map (fun y => nmul x y) b) n0)) by (rewrite map_length; exact H). rewrite (map_nth (fun x => map (fun y => nmul x y) b)).
      destruct (Nat.lt_ge_cases j (length b)) as [K|K].
      + left. rewrite (nth_indep _ n0 ((fun y => nmul (nth i a n0) y) n0)) by (rewrite map_length; exact K). apply (map_nth (fun y => nmul (nth i a n0) y)).
      + right. apply nth_overflow. rewrite map_length. exact K.
    - right. rewrite (nth_overflow (map _ a)) by (rewrite map_length; exact H). destruct j; reflexivity.
  Qed.
  Lemma nth_vscale : forall s (v : vec T) i, (i < length v)%nat -> nth i (vscale s v) n0 = nmul s (nth i v n0).
  Proof. intros s v i H. unfold vscale. rewrite (nth_indep _ n0 (nmul s n0)) by (rewrite map_length; exact H). apply map_nth. Qed.
  Lemma outer_scaled : forall s (v : vec T) i, mnth (outer (vscale s v) v) i i = nmul (nmul s (nth i v n0)) (nth i v n0) \/ mnth (outer (vscale s v) v) i i = n0.
  Proof.
    intros s v i. destruct (mnth_outer (vscale s v) v i i) as [H|H]; [|right; exact H]. destruct (Nat.lt_ge_cases i (length v)) as [K|K].
    - left. rewrite H, nth_vscale by exact K. reflexivity.
    - right. unfold mnth, outer. rewrite (nth_overflow (map _ (vscale s v))) by (unfold vscale; rewrite !map_length; exact K). destruct i; reflexivity.
  Qed.
  Lemma madd_c_inv : forall (a b m : mat T), madd_c a b = Ret m -> m = madd a b.
  Proof. intros a b m H. unfold madd_c, check in H. destruct (same_shape a b); [|discriminate H]. apply Ret_inj in H. symmetry. exact H. Qed.
  Lemma madd_c_shape : forall n (a b m : mat T), (1 <= n)%nat -> shape n n a -> madd_c a b = Ret m -> shape n n m.
  Proof.
    intros n a b m Hn Ha H. pose proof (madd_c_inv _ _ _ H) as ->. unfold madd_c, check in H. destruct (same_shape a b) eqn:Es; [|discriminate H].
    unfold same_shape in Es. apply andb_prop in Es. destruct Es as [Es _]. rewrite (shape_ncols _ _ _ Ha Hn) in Es. destruct Ha as [Hl Hr]. unfold mat, vec in *. rewrite Hl in Es.
    apply shape_is_shape in Es. apply shape_madd; [split; assumption|exact Es].
  Qed.
  Lemma shape_row : forall n (m : mat T) i, shape n n m -> (i < n)%nat -> length (nth i m []) = n.
  Proof. intros n m i [H1 H2] Hi. rewrite Forall_forall in H2. apply H2. apply nth_In. unfold mat, vec in *. rewrite H1. exact Hi. Qed.
End Entries.

(* ---- single operations ---- *)
Lemma low_zero : low (n0 : f64) 0.
Proof. right. change (f2x n0) with (f2x (n0 : f64)). rewrite is0. cbn. lra. Qed.
Lemma x_mul_swap : forall a b, x_mul a b = x_mul b a.
Proof. intros [|[]|x] [|[]|y]; cbn; try reflexivity. f_equal. apply Rmult_comm. Qed.
Lemma low_mul_swap : forall (a b : f64) r, low (nmul a b) r -> low (nmul b a) r.
Proof. intros a b r. unfold low. rewrite !f2x_mul, (x_mul_swap (f2x a)). auto. Qed.
(* adding something that is not negative loses nothing: the sum is rounded, but the other summand is a binary64 number *)
Lemma add_low : forall (a b : f64) r, low a r -> low b 0 -> low (nadd a b) r.
Proof.
  intros a b r Ha Hb. unfold low in *. rewrite f2x_add. destruct Ha as [->|Ha]; [left; reflexivity|].
  destruct (f2x a) as [|[]|x] eqn:Ea; cbn [xle] in Ha; try contradiction.
  - destruct Hb as [->|Hb]; [left; reflexivity|]. destruct (f2x b) as [|[]|y]; cbn [xle] in Hb; try contradiction; right; exact I.
  - destruct Hb as [->|Hb]; [left; reflexivity|]. assert (K : xround (x_add (XFin x) (f2x b)) = XNaN \/ xle (XFin x) (xround (x_add (XFin x) (f2x b)))).
    { pose proof (is_B2R _ _ Ea) as [_ Ex]. apply xround_low; [exact (is_format _ _ Ea)|rewrite <- Ex; apply abs_B2R_lt_emax|].
      right. destruct (f2x b) as [|[]|y]; cbn in *; try contradiction; [exact I|lra]. }
    destruct K as [K|K]; [left; exact K|right]. apply xle_trans with (XFin x); [exact Ha|exact K].
Qed.
Lemma scaled_low : forall (t x : f64) r, is t r -> 0 <= r -> low x 0 -> low (nmul t x) 0.
Proof.
  intros t x r Ht Hr Hx. unfold low. rewrite f2x_mul, Ht. apply xround_low; [exact (format_int 0 ltac:(lia))|exact (int_bound 0 ltac:(lia))|].
  destruct Hx as [->|Hx]; [left; reflexivity|]. destruct (f2x x) as [|[]|v]; cbn in *; try contradiction.
  - unfold x_signed_inf, Rltb. destruct (Rlt_dec 0 r); [right; exact I|]. destruct (Rlt_dec r 0); [lra|left; reflexivity].
  - right. nra.
Qed.
Lemma sq_low : forall (w x : f64) r, is w r -> 0 <= r -> low (nmul (nmul w x) x) 0.
Proof.
  intros w x r Hw Hr. unfold low. rewrite f2x_mul. apply xround_low; [exact (format_int 0 ltac:(lia))|exact (int_bound 0 ltac:(lia))|]. rewrite f2x_mul, Hw.
  destruct (f2x x) as [|s|v]; [left; reflexivity| |].
  - cbn [x_mul]. unfold x_signed_inf, Rltb. destruct (Rlt_dec 0 r); [right; destruct s; exact I|]. destruct (Rlt_dec r 0); [lra|left; reflexivity].
  - cbn [x_mul xround]. destruct (Rlt_bool (Rabs (rnd64 (r * v))) (bpow radix2 1024)) eqn:Eo.
    + right. cbn [x_mul xle]. destruct (Rle_or_lt 0 v) as [V|V].
      * apply Rmult_le_pos; [apply rnd_nonneg; nra|exact V].
      * assert (rnd64 (r * v) <= 0) by (apply rnd_nonpos; nra). nra.
    + unfold Rltb. destruct (Rlt_dec (r * v) 0) as [N|N]; cbn [x_mul]; unfold x_signed_inf, Rltb.
      * destruct (Rlt_dec 0 v); [nra|]. destruct (Rlt_dec v 0); [right; exact I|left; reflexivity].
      * destruct (Rlt_dec 0 v); [right; exact I|]. destruct (Rlt_dec v 0) as [V|V]; [|left; reflexivity]. destruct (Req_dec r 0) as [E0|E0]; [|nra].
        (* the product overflowed, so it is not zero *) exfalso. subst r. rewrite Rmult_0_l, rnd64_0, Rabs_R0, Rlt_bool_true in Eo; [discriminate Eo|apply bpow_gt_0].
Qed.

(* ---- the rank-mu part ---- *)
Definition diag_low (m : mat f64) : Prop := forall i, low (mnth m i i) 0.
Definition weight_ok (w : f64) : Prop := exists r, is w r /\ 0 <= r.

Lemma madd_diag : forall a b m : mat f64, madd_c a b = Ret m -> diag_low a -> diag_low b -> diag_low m.
Proof.
  intros a b m H Ha Hb i. rewrite (madd_c_inv _ _ _ H). destruct (mnth_madd a b i i) as [K|[K _]]; rewrite K; [apply add_low; auto|apply low_zero].
Qed.
Lemma msum_diag : forall l (acc m : mat f64), msum_from acc l = Ret m -> diag_low acc -> Forall diag_low l -> diag_low m.
Proof.
  induction l as [|x l IH]; intros acc m H Ha Hl; cbn [msum_from] in H; [apply Ret_inj in H; rewrite <- H; exact Ha|].
  oinv H. inversion Hl; subst. eapply IH; [exact H| |assumption]. eapply madd_diag; eauto.
Qed.
Lemma mzeros_diag : forall n, diag_low (mzeros n).
Proof.
  intros n i. destruct (Nat.lt_ge_cases i n) as [H|H].
  - unfold mzeros. rewrite mnth_mbuild by assumption. apply low_zero.
  - unfold mnth, mzeros, mbuild. rewrite (nth_overflow (map _ (seq 0 n))) by (rewrite map_length, seq_length; exact H). destruct i; apply low_zero.
Qed.
Lemma tree_diag : forall dim t (l : list (mat f64)) m, rank_mu_update_parallel dim t l = Ret m -> Forall diag_low l -> diag_low m.
Proof.
  intros dim t. induction t as [|k a IHa b IHb]; intros l m H Hl; cbn [rank_mu_update_parallel] in H.
  - eapply msum_diag; [exact H|apply mzeros_diag|exact Hl].
  - oinv H. oinv H. eapply madd_diag; [exact H| |].
    + eapply IHa; [eassumption|]. apply Forall_forall. intros x Hx. rewrite Forall_forall in Hl. apply Hl. rewrite <- (firstn_skipn k l). apply in_or_app. left. exact Hx.
    + eapply IHb; [eassumption|]. apply Forall_forall. intros x Hx. rewrite Forall_forall in Hl. apply Hl. rewrite <- (firstn_skipn k l). apply in_or_app. right. exact Hx.
Qed.
Lemma weight_not_neg : forall w, weight_ok w -> nltb w n0 = false.
Proof. intros w [r [H Hr]]. rewrite f2x_ltb, H, is0. cbn [x_ltb]. unfold Rltb. destruct (Rlt_dec r 0); [lra|reflexivity]. Qed.

Section Update.
  Context {L : Libm f64} {E : Env f64}.
  Lemma contributions_diag : forall (p : params f64) si inds l, Forall weight_ok (p_weights p) -> contributions p si inds = Ret l -> Forall diag_low l.
  Proof.
    intros p si inds l Hw. unfold contributions. set (k := combine _ _). assert (Hk : Forall (fun iw => weight_ok (snd iw)) k).
    { apply Forall_forall. intros [i w] Hx. unfold k in Hx. apply in_combine_r in Hx. rewrite Forall_forall in Hw. apply Hw. exact Hx. }
    clearbody k. revert l. induction Hk as [|[i w] k Hx Hk IH]; intros l H; cbn [omap] in H; [apply Ret_inj in H; rewrite <- H; constructor|].
    oinv H. oinv H. apply Ret_inj in H. rewrite <- H. constructor; [|apply IH; assumption]. cbn [fst snd] in *.
    unfold map_weights in *. rewrite (weight_not_neg w Hx) in *. cbn [obind] in *. match goal with X : _ = Ret a |- _ => oinv X; apply Ret_inj in X; rewrite <- X end.
    intros j. destruct Hx as [r [Hr R0]]. destruct (outer_scaled w (pt_step a1) j) as [K|K]; rewrite K; [eapply sq_low; eassumption|apply low_zero].
  Qed.
  Lemma rank_mu_diag : forall (p : params f64) tree s inds m, Forall weight_ok (p_weights p) -> calc_rank_mu p tree s inds = Ret m -> diag_low m.
  Proof.
    intros p tree s inds m Hw H. unfold calc_rank_mu in H. oinv H. match goal with X : contributions _ _ _ = _ |- _ => apply contributions_diag in X; [rename X into Hl|exact Hw] end.
    destruct (p_parallel_update p); [eapply tree_diag; eassumption|]. unfold rank_mu_update, msum_c in H. destruct a as [|x l]; [discriminate H|]. inversion Hl; subst. eapply msum_diag; eassumption.
  Qed.

  (* ---- the part of the old matrix that is kept ---- *)
  Lemma factor_low : forall (p : params f64) hs c1 cmu cc S e, hs = n0 \/ hs = n1 ->
    is (p_c1 p) c1 -> is (p_cmu p) cmu -> is (p_cc p) cc -> is (nsum (p_weights p)) S ->
    0 <= c1 <= 1 -> 0 <= cmu <= 1 -> 0 <= cc <= 1 -> 0 <= S <= 1 + e -> 0 <= e <= 1 ->
    exists k, is (cov_factor p hs) k /\ 1 - c1 - cmu - (e + 9 * uu) <= k <= 3.
  Proof.
    intros p hs c1 cmu cc S e Hh I1 Im Ic Is H1 Hm Hc HS He. unfold cov_factor.
    assert (Ih : exists h, is (nsub n1 hs) h /\ 0 <= h <= 1).
    { destruct Hh as [-> | ->].
      - exists (rnd64 (1 - 0)). split; [apply is_sub; [exact is1|exact is0|apply bigp; lra]|]. split; [apply rnd_nonneg; lra|apply (rnd_le_int 1); [lia|lra]].
      - exists (rnd64 (1 - 1)). split; [apply is_sub; [exact is1|exact is1|apply bigp; lra]|]. split; [apply rnd_nonneg; lra|apply (rnd_le_int 1); [lia|lra]]. }
    destruct Ih as [h [Ih Hh']]. clear Hh.
    assert (Ia : is (nmul (nsub n1 hs) (p_cc p)) (rnd64 (h * cc))) by (apply is_mul; [exact Ih|exact Ic|apply bigp; nra]).
    assert (Ha : 0 <= rnd64 (h * cc) <= 1) by (split; [apply rnd_nonneg; nra|apply (rnd_le_int 1); [lia|nra]]). set (a := rnd64 (h * cc)) in *. clearbody a.
    assert (Ib : is (nsub n2 (p_cc p)) (rnd64 (2 - cc))) by (apply is_sub; [exact is2|exact Ic|apply bigp; lra]).
    assert (Hb : 0 <= rnd64 (2 - cc) <= 2) by (split; [apply rnd_nonneg; lra|apply (rnd_le_int 2); [lia|lra]]). set (b := rnd64 (2 - cc)) in *. clearbody b.
    assert (Id : is (nmul (nmul (nsub n1 hs) (p_cc p)) (nsub n2 (p_cc p))) (rnd64 (a * b))) by (apply is_mul; [exact Ia|exact Ib|apply bigp; nra]).
    assert (Hd : 0 <= rnd64 (a * b) <= 2) by (split; [apply rnd_nonneg; nra|apply (rnd_le_int 2); [lia|nra]]). set (d := rnd64 (a * b)) in *. clearbody d.
    set (D := nmul (nmul (nsub n1 hs) (p_cc p)) (nsub n2 (p_cc p))) in *. clearbody D. clear Ia Ib Ih Ha Hb Hh' a b h.
    assert (Ie : is (nmul (p_c1 p) D) (rnd64 (c1 * d))) by (apply is_mul; [exact I1|exact Id|apply bigp; nra]).
    assert (He' : 0 <= rnd64 (c1 * d) <= 2) by (split; [apply rnd_nonneg; nra|apply (rnd_le_int 2); [lia|nra]]). set (g := rnd64 (c1 * d)) in *. clearbody g.
    assert (If : is (nadd n1 (nmul (p_c1 p) D)) (rnd64 (1 + g))) by (apply is_add; [exact is1|exact Ie|apply bigp; lra]).
    assert (Hf : 1 <= rnd64 (1 + g) <= 3).
    { split; [rewrite <- (is_round _ _ is1) at 1; apply rnd64_le; lra|apply (rnd_le_int 3); [lia|lra]]. }
    set (f := rnd64 (1 + g)) in *. clearbody f.
    assert (Ig : is (nsub (nadd n1 (nmul (p_c1 p) D)) (p_c1 p)) (rnd64 (f - c1))) by (apply is_sub; [exact If|exact I1|apply bigp; lra]).
    assert (Hg : 1 - c1 - uu - eta <= rnd64 (f - c1) <= 3).
    { split; [|apply (rnd_le_int 3); [lia|lra]]. apply Rle_trans with (rnd64 (1 - c1)); [|apply rnd64_le; lra]. pose proof (rnd_any (1 - c1)) as X. rewrite (Rabs_pos_eq (1 - c1)) in X by lra.
      apply Rabs_le_inv in X. nra. }
    set (u := rnd64 (f - c1)) in *. clearbody u.
    assert (Iw : is (nmul (p_cmu p) (nsum (p_weights p))) (rnd64 (cmu * S))) by (apply is_mul; [exact Im|exact Is|apply bigp; nra]).
    assert (Et : 0 < eta <= uu). { split; [apply eta_pos|]. unfold eta. change uu with (bpow radix2 (-53)). apply bpow_le. lia. }
    assert (CS : 0 <= cmu * S <= 2) by (split; nra). assert (CS2 : cmu * S <= cmu + e) by nra.
    assert (Hw : 0 <= rnd64 (cmu * S) <= cmu + e + 3 * uu).
    { split; [apply rnd_nonneg; lra|]. pose proof (rnd_any (cmu * S)) as X. rewrite (Rabs_pos_eq (cmu * S)) in X by lra. apply Rabs_le_inv in X. lra. }
    set (v := rnd64 (cmu * S)) in *. clearbody v.
    assert (Bx : Rabs (u - v) <= 3) by (apply Rabs_le; lra).
    exists (rnd64 (u - v)). split; [apply is_sub; [exact Ig|exact Iw|apply Rle_trans with (1 := Bx); rewrite <- (Rabs_pos_eq 3) by lra; apply bigp; lra]|].
    split; [|apply (rnd_le_int 3); [lia|lra]]. pose proof (rnd_any (u - v)) as X. apply Rabs_le_inv in X. set (y := Rabs (u - v)) in *. clearbody y. lra.
  Qed.

  (* ---- one update of a diagonal entry ---- *)
  Lemma hs_values : forall (p : params f64) g path, calc_hs p g path = n0 \/ calc_hs p g path = n1.
  Proof. intros p g path. unfold calc_hs. destruct (nltb _ _); auto. Qed.
  Lemma update_diag : forall tree evals (p : params f64) inds s ok s' n c1 cmu cc S e i v,
    state_update tree evals p inds s = Ret (ok, s') -> (1 <= n)%nat -> shape n n (cm_cov (st_cov s)) ->
    is (p_c1 p) c1 -> is (p_cmu p) cmu -> is (p_cc p) cc -> is (nsum (p_weights p)) S -> Forall weight_ok (p_weights p) ->
    0 <= c1 <= 1 -> 0 <= cmu <= 1 -> 0 <= cc <= 1 -> 0 <= S <= 1 + e -> 0 <= e <= 1 ->
    shape n n (cm_cov (st_cov s')) /\
    (0 < 1 - c1 - cmu - (e + 9 * uu) -> (i < n)%nat -> 0 <= v -> low (mnth (cm_cov (st_cov s)) i i) v ->
     low (mnth (cm_cov (st_cov s')) i i) (v * (1 - c1 - cmu - (e + 10 * uu)) - eta) /\ low (mnth (cm_cov (st_cov s')) i i) 0).
  Proof.
    intros tree evals p inds s ok s' n c1 cmu cc S e i v X Hn Hs I1 Im Ic Is Hw H1 Hm Hc HS He. apply state_update_inv in X. destruct X as [yw [rm [cov X]]].
    pose proof (up_set _ _ _ _ _ _ _ _ _ _ X) as Hset. apply set_cov_cov in Hset. rewrite Hset. pose proof (up_cov _ _ _ _ _ _ _ _ _ _ X) as Hcov.
    pose proof (rank_mu_diag _ _ _ _ _ Hw (up_rank _ _ _ _ _ _ _ _ _ _ X)) as Hrm. set (hs := calc_hs _ _ _) in Hcov. assert (Hh : hs = n0 \/ hs = n1) by apply hs_values. clearbody hs.
    unfold calc_cov in Hcov. oinv Hcov. match goal with X : madd_c _ _ = Ret a |- _ => rename X into Ha end.
    pose proof (madd_c_shape n _ _ _ Hn (shape_mscale _ _ _ _ Hs) Ha) as Sa. pose proof (madd_c_shape n _ _ _ Hn Sa Hcov) as Sc.
    assert (Lc : length cov = n) by apply Sc. split; [unfold fill_lower; unfold mat, vec in *; rewrite Lc; apply shape_mbuild|].
    intros Hk Hi Hv Hold. unfold fill_lower. rewrite mnth_mbuild by (unfold mat, vec in *; lia). rewrite Nat.ltb_irrefl.
    destruct (factor_low p hs c1 cmu cc S e Hh I1 Im Ic Is H1 Hm Hc HS He) as [k [Ik [K1 K2]]].
    assert (In : forall m : mat f64, shape n n m -> ~ ((length m <= i)%nat \/ (length (nth i m []) <= i)%nat)).
    { intros m Sm. rewrite (shape_row _ _ _ Sm Hi). destruct Sm as [Sm _]. unfold mat, vec in *. lia. }
    pose proof (madd_c_inv _ _ _ Hcov) as Ec. pose proof (madd_c_inv _ _ _ Ha) as Ea. pose proof (In _ Sc) as Nc. pose proof (In _ Sa) as Na. pose proof (In _ Hs) as No.
    rewrite Ec in Nc |- *. rewrite Ea in Na.
    destruct (mnth_madd a (mscale (p_cmu p) rm) i i) as [Q|[_ Q]]; [rewrite Q; clear Q|contradiction].
    rewrite Ea at 1 2. destruct (mnth_madd (mscale (cov_factor p hs) (cm_cov (st_cov s))) (outer (vscale (p_c1 p) (st_path_c s')) (st_path_c s')) i i) as [Q|[_ Q]]; [rewrite Q; clear Q|contradiction].
    assert (Z1 : low (mnth (outer (vscale (p_c1 p) (st_path_c s')) (st_path_c s')) i i) 0).
    { destruct (outer_scaled (p_c1 p) (st_path_c s') i) as [Q|Q]; rewrite Q; [eapply sq_low; [exact I1|lra]|apply low_zero]. }
    assert (Z2 : low (mnth (mscale (p_cmu p) rm) i i) 0).
    { destruct (mnth_mmap (nmul (p_cmu p)) rm i i) as [Q|[Q _]]; unfold mscale; rewrite Q; [eapply scaled_low; [exact Im|lra|apply Hrm]|apply low_zero]. }
    assert (Z3 : low (mnth (mscale (cov_factor p hs) (cm_cov (st_cov s))) i i) (v * (1 - c1 - cmu - (e + 10 * uu)) - eta) /\ low (mnth (mscale (cov_factor p hs) (cm_cov (st_cov s))) i i) 0).
    { destruct (mnth_mmap (nmul (cov_factor p hs)) (cm_cov (st_cov s)) i i) as [Q|[_ Q]]; [unfold mscale; rewrite Q|contradiction].
      assert (Lk : low (cov_factor p hs) k) by (right; rewrite Ik; cbn; lra). set (q := 1 - c1 - cmu - (e + 9 * uu)) in *.
      destruct (product_low _ _ v q Hold (low_mono _ _ _ Lk K1) Hv Hk) as [P1 P2]. split; apply low_mul_swap; [|exact P2].
      apply low_mono with (1 := P1). assert (q <= 1) by (unfold q; lra). replace (1 - c1 - cmu - (e + 10 * uu)) with (q - uu) by (unfold q; ring). clearbody q. nra. }
    destruct Z3 as [Z3 Z4]. split; apply add_low; try exact Z2; apply add_low; assumption.
  Qed.
End Update.
