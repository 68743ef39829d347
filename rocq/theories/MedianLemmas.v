(* Half the sum of two binary64 numbers lies between them when the sum is finite; the median of a ranked
   generation has half of the values on either side. *)
From Coq Require Import List NArith ZArith Bool Reals Lra Lia Sorted Arith.
From Flocq Require Import Core.
From Flocq Require Import IEEE754.BinarySingleNaN.
From Flocq Require Import Mult_error.
Require Import Verif.Base Verif.Num Verif.F64 Verif.XReal Verif.Mode Verif.Order Verif.Sort Verif.F64Lemmas Verif.CastLemmas
  Verif.CeilLemmas Verif.HistoryLemmas.
Import ListNotations.
Open Scope R_scope.

Lemma format_double : forall x, generic_format radix2 fexp64 x -> generic_format radix2 fexp64 (2 * x).
Proof.
  intros x H. rewrite Rmult_comm. change 2 with (bpow radix2 1).
  change fexp64 with (FLT_exp (-1074) 53) in *. apply mult_bpow_pos_exact_FLT; [exact H|lia].
Qed.

Lemma f64_add_finite : forall a b : f64, is_finite (f64_add a b) = true ->
  is_finite a = true /\ is_finite b = true /\ B2R (f64_add a b) = rnd64 (B2R a + B2R b).
Proof.
  intros a b H. assert (Fa : is_finite a = true) by (destruct a as [|[]| |], b as [|[]| |]; try reflexivity; discriminate).
  assert (Fb : is_finite b = true) by (destruct a as [|[]| |], b as [|[]| |]; try reflexivity; discriminate).
  split; [exact Fa|]. split; [exact Fb|].
  pose proof (Bplus_correct 53 1024 f64_prec f64_emax mode_NE a b Fa Fb) as Hc. cbv zeta in Hc.
  destruct (Rlt_bool _ _) eqn:Eb.
  - destruct Hc as [Hc _]. exact Hc.
  - destruct Hc as [Hc _]. exfalso. unfold f64_add in H.
    destruct (Bplus mode_NE a b); cbn in Hc, H; try discriminate; unfold binary_overflow in Hc; simpl in Hc; discriminate.
Qed.

Lemma two_f64 : is_finite (n2 : f64) = true /\ B2R (n2 : f64) = 2.
Proof. apply (f64_ofZ_exact 2). lia. Qed.

Lemma half_sum_between : forall (a b : f64) lo hi, is_finite (f64_add a b) = true ->
  generic_format radix2 fexp64 lo -> generic_format radix2 fexp64 hi ->
  lo <= B2R a <= hi -> lo <= B2R b <= hi -> Rabs lo < bpow radix2 1024 -> Rabs hi < bpow radix2 1024 ->
  is_finite (f64_div (f64_add a b) n2) = true /\ lo <= B2R (f64_div (f64_add a b) n2) <= hi.
Proof.
  intros a b lo hi Hf Glo Ghi Ha Hb Llo Lhi. destruct (f64_add_finite _ _ Hf) as [_ [_ Hs]].
  assert (Hs1 : 2 * lo <= B2R (f64_add a b) <= 2 * hi).
  { rewrite Hs. split.
    - rewrite <- (rnd64_id (2 * lo)) by (apply format_double; exact Glo). apply rnd64_le. lra.
    - apply Rle_trans with (rnd64 (2 * hi)); [apply rnd64_le; lra|].
      rewrite rnd64_id by (apply format_double; exact Ghi). apply Rle_refl. }
  destruct two_f64 as [F2 E2].
  pose proof (Bdiv_correct 53 1024 f64_prec f64_emax mode_NE (f64_add a b) (n2 (T := f64))) as Hd.
  rewrite E2 in Hd. assert (N2 : 2 <> 0) by lra. specialize (Hd N2). cbv zeta in Hd.
  assert (Hr : lo <= rnd64 (B2R (f64_add a b) / 2) <= hi).
  { split.
    - rewrite <- (rnd64_id lo) by exact Glo. apply rnd64_le. lra.
    - apply Rle_trans with (rnd64 hi); [apply rnd64_le; lra|]. rewrite rnd64_id by exact Ghi. apply Rle_refl. }
  rewrite Rlt_bool_true in Hd.
  - destruct Hd as [H1 [H2 _]]. unfold f64_div. rewrite H1, H2. auto.
  - apply Rabs_def2 in Llo. apply Rabs_def2 in Lhi. apply Rabs_def1; lra.
Qed.

(* not better = not strictly ahead *)
Lemma half_sum_better : forall m (a b : f64), is_finite (f64_add a b) = true -> is_better m b a = false ->
  let h := ndiv (nadd a b) n2 in nis_nan h = false /\ is_better m h a = false /\ is_better m b h = false.
Proof.
  intros m a b Hf Hb h. destruct (f64_add_finite _ _ Hf) as [Fa [Fb _]].
  assert (G : forall x y : f64, is_finite x = true -> is_finite y = true -> (nltb x y = false <-> B2R y <= B2R x)).
  { intros x y Fx Fy. rewrite f2x_ltb. destruct x, y; try discriminate; apply Rltb_false. }
  assert (Hab : is_finite h = true /\ match m with Minimize => B2R a <= B2R h <= B2R b | Maximize => B2R b <= B2R h <= B2R a end).
  { unfold h. change (ndiv (nadd a b) n2) with (f64_div (f64_add a b) n2).
    pose proof (abs_B2R_lt_emax 53 1024 a) as La. pose proof (abs_B2R_lt_emax 53 1024 b) as Lb.
    destruct m; unfold is_better, ngtb in Hb; apply G in Hb; auto; apply half_sum_between; auto using format_B2R; lra. }
  destruct Hab as [Fh Hh]. split; [destruct h; try discriminate; reflexivity|].
  destruct m; unfold is_better, ngtb; split; apply G; auto; lra.
Qed.

Section Halves.
  Variable m : mode.
  Let R := fun a b : f64 => is_better m b a = false.

  Lemma sorted_split : forall (l1 l2 : list f64), StronglySorted R (l1 ++ l2) -> Forall (fun a => Forall (fun b => R a b) l2) l1.
  Proof.
    induction l1 as [|x l1 IH]; simpl; intros l2 H; constructor.
    - inversion H; subst. apply Forall_app in H3. tauto.
    - inversion H; subst. apply IH. assumption.
  Qed.

  Lemma nth_split' : forall (s : list f64) i, (i < length s)%nat ->
    s = firstn i s ++ nth i s n0 :: skipn (S i) s.
  Proof.
    induction s as [|x s IH]; intros [|i] H; simpl in *; try lia; auto. f_equal. apply IH. lia.
  Qed.

  Lemma middle_halves : forall s : list f64, s <> [] -> Forall (fun x => nis_nan x = false) s -> StronglySorted R s ->
    (Nat.even (length s) = true ->
     is_finite (f64_add (nth (length s / 2 - 1) s n0) (nth (length s / 2) s n0)) = true) ->
    Forall (fun x => is_better m (middle s) x = false) (firstn ((length s + 1) / 2) s) /\
    Forall (fun x => is_better m x (middle s) = false) (skipn (length s / 2) s).
  Proof.
    intros s Hne Hn Hs Hf. unfold middle. set (n := length s) in *.
    assert (Hp : (0 < n)%nat) by (unfold n; destruct s; [contradiction|simpl; lia]).
    destruct (Nat.even n) eqn:Ev.
    - apply Nat.even_spec in Ev. destruct Ev as [k Hk]. specialize (Hf eq_refl).
      assert (Hd : (n / 2 = k)%nat) by (rewrite Hk, Nat.mul_comm; apply Nat.div_mul; lia).
      assert (Hd1 : ((n + 1) / 2 = k)%nat).
      { rewrite Hk. replace (2 * k + 1)%nat with (1 + k * 2)%nat by lia. rewrite Nat.div_add by lia. reflexivity. }
      rewrite Hd in *. rewrite Hd1. set (a := nth (k - 1) s n0) in *. set (b := nth k s n0) in *.
      assert (Ha : s = firstn (k - 1) s ++ a :: skipn k s).
      { rewrite (nth_split' s (k - 1)) at 1 by (fold n; lia). fold a. replace (S (k - 1)) with k by lia. reflexivity. }
      assert (Hb : s = firstn k s ++ b :: skipn (S k) s).
      { apply (nth_split' s k). fold n. lia. }
      assert (Hsk : skipn k s = b :: skipn (S k) s).
      { pose proof (firstn_skipn k s) as H. rewrite Hb in H at 3. apply app_inv_head in H. exact H. }
      assert (Hfk : firstn k s = firstn (k - 1) s ++ [a]).
      { pose proof (firstn_skipn k s) as H. rewrite Ha in H at 3.
        change (a :: skipn k s) with ([a] ++ skipn k s) in H. rewrite app_assoc in H. apply app_inv_tail in H. exact H. }
      assert (Na : nis_nan a = false) by (rewrite Ha in Hn; apply Forall_app in Hn; destruct Hn as [_ Hn]; inversion Hn; assumption).
      assert (Nb : nis_nan b = false) by (rewrite Hb in Hn; apply Forall_app in Hn; destruct Hn as [_ Hn]; inversion Hn; assumption).
      assert (Rab : is_better m b a = false).
      { rewrite Ha, Hsk in Hs. change (firstn (k - 1) s ++ a :: b :: skipn (S k) s) with (firstn (k - 1) s ++ [a] ++ (b :: skipn (S k) s)) in Hs.
        rewrite app_assoc in Hs. apply sorted_split in Hs. apply Forall_app in Hs. destruct Hs as [_ Hs].
        inversion Hs as [|? ? H1 _]; subst. inversion H1; assumption. }
      destruct (half_sum_better m a b Hf Rab) as [_ [H1 H2]]. change (nadd a b) with (f64_add a b) in *. split.
      + rewrite Hfk. apply Forall_app. split; [|constructor; [exact H1|constructor]].
        assert (G : Forall (fun x => R x a) (firstn (k - 1) s)).
        { rewrite Ha in Hs. apply sorted_split in Hs. eapply Forall_impl; [|exact Hs]. intros x Hx. inversion Hx; assumption. }
        eapply Forall_impl; [|exact G]. intros x Hx. exact (better_negtrans m _ a x Na H1 Hx).
      + rewrite Hsk. constructor; [exact H2|].
        assert (G : Forall (fun x => R b x) (skipn (S k) s)).
        { rewrite Hb in Hs. change (firstn k s ++ b :: skipn (S k) s) with (firstn k s ++ [b] ++ skipn (S k) s) in Hs.
          rewrite app_assoc in Hs. apply sorted_split in Hs. apply Forall_app in Hs. destruct Hs as [_ Hs]. inversion Hs; assumption. }
        eapply Forall_impl; [|exact G]. intros x Hx. exact (better_negtrans m x b _ Nb Hx H2).
    - assert (Ho : Nat.odd n = true) by (unfold Nat.odd; rewrite Ev; reflexivity). apply Nat.odd_spec in Ho. destruct Ho as [k Hk].
      assert (Hd : (n / 2 = k)%nat).
      { rewrite Hk. replace (2 * k + 1)%nat with (1 + k * 2)%nat by lia. rewrite Nat.div_add by lia. reflexivity. }
      assert (Hd1 : ((n + 1) / 2 = S k)%nat).
      { rewrite Hk. replace (2 * k + 1 + 1)%nat with ((S k) * 2)%nat by lia. apply Nat.div_mul. lia. }
      rewrite Hd, Hd1. clear Hf. set (b := nth k s n0).
      assert (Hb : s = firstn k s ++ b :: skipn (S k) s) by (apply (nth_split' s k); fold n; lia).
      assert (Hsk : skipn k s = b :: skipn (S k) s).
      { pose proof (firstn_skipn k s) as H. rewrite Hb in H at 3. apply app_inv_head in H. exact H. }
      assert (Hfk : firstn (S k) s = firstn k s ++ [b]).
      { pose proof (firstn_skipn (S k) s) as H. rewrite Hb in H at 3.
        change (b :: skipn (S k) s) with ([b] ++ skipn (S k) s) in H. rewrite app_assoc in H. apply app_inv_tail in H. exact H. }
      split.
      + rewrite Hfk. apply Forall_app. split; [|constructor; [apply better_irrefl|constructor]].
        rewrite Hb in Hs. apply sorted_split in Hs. eapply Forall_impl; [|exact Hs]. intros x Hx. inversion Hx; assumption.
      + rewrite Hsk. constructor; [apply better_irrefl|].
        rewrite Hb in Hs. change (firstn k s ++ b :: skipn (S k) s) with (firstn k s ++ [b] ++ skipn (S k) s) in Hs.
        rewrite app_assoc in Hs. apply sorted_split in Hs. apply Forall_app in Hs. destruct Hs as [_ Hs]. inversion Hs; assumption.
  Qed.
End Halves.
