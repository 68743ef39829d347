(* The termination criteria of the model meet TermSpec, in binary64. *)
From Coq Require Import List NArith ZArith Bool Arith Lia Permutation Sorted Reals Lra.
From Flocq Require Import Core.
From Flocq Require Import IEEE754.BinarySingleNaN.
Require Import Verif.Base Verif.Num Verif.F64 Verif.XReal Verif.LinAlg Verif.Mode Verif.Weights Verif.Options
  Verif.Params Verif.Env Verif.State Verif.Sampling Verif.History Verif.Termination Verif.Plot Verif.Cmaes
  Verif.Lib Verif.Order Verif.Sort Verif.NextInv Verif.Spec Verif.LogLemmas Verif.TraceLemmas Verif.BuildLemmas
  Verif.SamplingLemmas Verif.PanicLemmas Verif.NextSafe Verif.F64Lemmas Verif.CastLemmas Verif.CeilLemmas
  Verif.StateLemmas Verif.HistoryLemmas Verif.TermSpec.
Import ListNotations.
Open Scope nat_scope.

Lemma Ret_inj : forall {A} (a b : A), Ret a = Ret b -> a = b.
Proof. intros A a b H. congruence. Qed.

(* ---- equal up to the sign of zero ---- *)
Definition is_zero (a : f64) : bool := match a with B754_zero _ => true | _ => false end.
Definition same (a b : f64) : Prop := a = b \/ (is_zero a = true /\ is_zero b = true).

Lemma same_refl : forall a, same a a.
Proof. left. reflexivity. Qed.
Lemma same_sym : forall a b, same a b -> same b a.
Proof. intros a b [->|[H1 H2]]; [left; auto|right; auto]. Qed.
Ltac zeros H := destruct H as [->|[?Z1 ?Z2]];
  [|match goal with Z1 : is_zero ?a = true, Z2 : is_zero ?b = true |- _ =>
      destruct a as [?s|?s| |?s ?m ?e ?p]; try discriminate Z1; destruct b as [?s|?s| |?s ?m ?e ?p]; try discriminate Z2; clear Z1 Z2 end].
Lemma zero_lt_l : forall s s' (t : f64), nltb (B754_zero s : f64) t = nltb (B754_zero s' : f64) t.
Proof. intros s s' [| | |]; reflexivity. Qed.
Lemma zero_lt_r : forall s s' (t : f64), nltb t (B754_zero s : f64) = nltb t (B754_zero s' : f64).
Proof. intros s s' [| | |]; reflexivity. Qed.
Lemma same_lt : forall a a' b b', same a a' -> same b b' -> nltb a b = nltb a' b'.
Proof.
  intros a a' b b' H1 H2. transitivity (nltb a' b).
  - zeros H1; [reflexivity|apply zero_lt_l].
  - zeros H2; [reflexivity|apply zero_lt_r].
Qed.
Lemma same_better : forall m a a' b b', same a a' -> same b b' -> is_better m a b = is_better m a' b'.
Proof. intros [] a a' b b' H1 H2; unfold is_better, ngtb; apply same_lt; auto. Qed.

Lemma same_sub : forall a a' b b', same a a' -> same b b' -> same (nsub a b) (nsub a' b').
Proof.
  intros a a' b b' H1 H2. assert (H : same (nsub a b) (nsub a' b) /\ same (nsub a' b) (nsub a' b')).
  { split.
    - zeros H1; [apply same_refl|]. destruct b as [sb| | |]; try apply same_refl.
      right. destruct s, s0, sb; split; reflexivity.
    - zeros H2; [apply same_refl|]. destruct a' as [sb| | |]; try apply same_refl.
      right. destruct s, s0, sb; split; reflexivity. }
  destruct H as [[H|[Ha Hb]] [H'|[Ha' Hb']]]; [left; congruence| | |].
  - right. rewrite H. auto.
  - right. rewrite <- H'. auto.
  - right. auto.
Qed.
Lemma same_add : forall a a' b b', same a a' -> same b b' -> same (nadd a b) (nadd a' b').
Proof.
  intros a a' b b' H1 H2. assert (H : same (nadd a b) (nadd a' b) /\ same (nadd a' b) (nadd a' b')).
  { split.
    - zeros H1; [apply same_refl|]. destruct b as [sb| | |]; try apply same_refl.
      right. destruct s, s0, sb; split; reflexivity.
    - zeros H2; [apply same_refl|]. destruct a' as [sb| | |]; try apply same_refl.
      right. destruct s, s0, sb; split; reflexivity. }
  destruct H as [[H|[Ha Hb]] [H'|[Ha' Hb']]]; [left; congruence| | |].
  - right. rewrite H. auto.
  - right. rewrite <- H'. auto.
  - right. auto.
Qed.
Lemma same_div : forall a a' b, same a a' -> same (ndiv a b) (ndiv a' b).
Proof.
  intros a a' b H. zeros H; [apply same_refl|]. destruct b; try apply same_refl; right; split; reflexivity.
Qed.
Lemma same_mul_r : forall a b b', same b b' -> same (nmul a b) (nmul a b').
Proof.
  intros a b b' H. zeros H; [apply same_refl|]. destruct a; try apply same_refl; right; split; reflexivity.
Qed.

(* values that are not ordered either way are the same *)
Lemma unordered_same : forall a b : f64, nis_nan a = false -> nis_nan b = false ->
  nltb a b = false -> nltb b a = false -> same a b.
Proof.
  intros a b Na Nb H1 H2. rewrite f2x_ltb in H1, H2.
  destruct a as [sa|[]| |sa ma ea pa]; try discriminate Na; destruct b as [sb|[]| |sb mb eb pb]; try discriminate Nb;
    try discriminate H1; try discriminate H2; try (left; reflexivity); try (right; split; reflexivity).
  - exfalso. cbn [f2x] in *. apply Rltb_false in H1, H2. cbn [B2R] in *.
    assert (HF : F2R (Float radix2 (cond_Zopp sb (Zpos mb)) eb) = 0%R) by lra.
    apply eq_0_F2R in HF. destruct sb; discriminate.
  - exfalso. cbn [f2x] in *. apply Rltb_false in H1, H2. cbn [B2R] in *.
    assert (HF : F2R (Float radix2 (cond_Zopp sa (Zpos ma)) ea) = 0%R) by lra.
    apply eq_0_F2R in HF. destruct sa; discriminate.
  - left. apply B2R_inj; auto. cbn [f2x] in *. apply Rltb_false in H1, H2. lra.
Qed.

Lemma least_same : forall l a a', Forall (fun x : f64 => nis_nan x = false) l -> least l a -> least l a' -> same a a'.
Proof.
  intros l a a' Hn [H1 H2] [H3 H4]. rewrite Forall_forall in *. apply unordered_same; auto.
Qed.
Lemma greatest_same : forall l a a', Forall (fun x : f64 => nis_nan x = false) l -> greatest l a -> greatest l a' -> same a a'.
Proof.
  intros l a a' Hn [H1 H2] [H3 H4]. rewrite Forall_forall in *. apply unordered_same; auto.
Qed.

(* ---- range ---- *)
Lemma range_loop_spec : forall (l pre : list f64) mn mx r,
  Forall (fun x => nis_nan x = false) (pre ++ l) -> least pre mn -> greatest pre mx ->
  range_loop mn mx l = Some r -> least (pre ++ l) (fst r) /\ greatest (pre ++ l) (snd r).
Proof.
  induction l as [|x l IH]; intros pre mn mx r Hn Hl Hg H; cbn [range_loop] in H.
  - inversion H; subst. rewrite app_nil_r. auto.
  - pose proof Hn as Hn'. apply Forall_app in Hn'. destruct Hn' as [Np Nl]. inversion Nl as [|? ? Nx Nl']; subst.
    rewrite Nx in H. replace (pre ++ x :: l) with ((pre ++ [x]) ++ l) in * by (rewrite <- app_assoc; reflexivity).
    assert (Nmn : nis_nan mn = false) by (rewrite Forall_forall in Np; apply Np; apply Hl).
    assert (Nmx : nis_nan mx = false) by (rewrite Forall_forall in Np; apply Np; apply Hg).
    apply (IH (pre ++ [x])) in H; auto.
    + destruct Hl as [L1 L2]. destruct (partial_cmp x mn) eqn:Ec.
      2: { apply partial_cmp_Lt in Ec. split; [apply in_or_app; right; left; reflexivity|]. apply Forall_app. split.
           - rewrite Forall_forall in L2 |- *. intros y Hy. specialize (L2 y Hy).
             apply (ol_negtrans y mn x); auto. apply lt_asym. exact Ec.
           - repeat constructor. apply ol_irrefl. }
      1, 2: assert (Hx : nltb x mn = false)
              by (destruct (nltb x mn) eqn:E0; auto; apply partial_cmp_Lt in E0; congruence);
            (split; [apply in_or_app; left; exact L1|]); apply Forall_app; (split; [exact L2|]); repeat constructor; exact Hx.
    + destruct Hg as [L1 L2]. destruct (partial_cmp x mx) eqn:Ec.
      3: { apply partial_cmp_Gt in Ec. split; [apply in_or_app; right; left; reflexivity|]. apply Forall_app. split.
           - rewrite Forall_forall in L2 |- *. intros y Hy. specialize (L2 y Hy).
             apply (ol_negtrans x mx y); auto. apply lt_asym. exact Ec.
           - repeat constructor. apply ol_irrefl. }
      1, 2: assert (Hx : nltb mx x = false)
              by (destruct (nltb mx x) eqn:E0; auto; apply partial_cmp_Gt in E0; congruence);
            (split; [apply in_or_app; left; exact L1|]); apply Forall_app; (split; [exact L2|]); repeat constructor; exact Hx.
Qed.

Lemma range_spec : forall (l : list f64) r, Forall (fun x => nis_nan x = false) l -> range l = Some r ->
  exists a b, least l a /\ greatest l b /\ r = nsub b a.
Proof.
  intros [|x l] r Hn H; [discriminate|]. cbn [range] in H.
  destruct (range_loop x x l) as [[mn mx]|] eqn:E0; [|discriminate]. inversion H; subst.
  assert (H1 : least [x] x) by (split; [left; reflexivity|repeat constructor; apply ol_irrefl]).
  assert (H2 : greatest [x] x) by (split; [left; reflexivity|repeat constructor; apply ol_irrefl]).
  destruct (range_loop_spec l [x] x x (mn, mx) Hn H1 H2 E0) as [H3 H4]. exists mn, mx. auto.
Qed.

Lemma range_below : forall (l : list f64) r tol, Forall (fun x => nis_nan x = false) l -> range l = Some r ->
  (nltb r tol = true <-> spread_below l tol).
Proof.
  intros l r tol Hn H. destruct (range_spec l r Hn H) as [a [b [Ha [Hb ->]]]]. split.
  - intros Hr. exists a, b. auto.
  - intros [a' [b' [Ha' [Hb' Hr]]]]. rewrite <- Hr. apply same_lt; [|apply same_refl]. apply same_sub.
    + eapply greatest_same; eauto.
    + eapply least_same; eauto.
Qed.

(* ---- medians ---- *)
Lemma sorted_nth_le : forall (s : list f64) i j, StronglySorted (fun a b => nltb b a = false) s -> i <= j -> j < length s ->
  nltb (nth j s n0) (nth i s n0) = false.
Proof.
  intros s i j Hs. revert i j. induction Hs as [|x s Hs IH Hx]; intros i j Hij Hj; simpl in Hj; [lia|].
  destruct i as [|i], j as [|j]; try lia.
  - apply ol_irrefl.
  - cbn [nth]. rewrite Forall_forall in Hx. apply Hx. apply nth_In. lia.
  - cbn [nth]. apply IH; lia.
Qed.

Lemma firstn_filter_count : forall (P : f64 -> bool) (s : list f64) k, k <= length s ->
  (forall i, i < k -> P (nth i s n0) = true) -> k <= length (filter P s).
Proof.
  intros P s. induction s as [|x s IH]; intros k Hk H; simpl in *; [lia|]. destruct k as [|k]; [lia|].
  rewrite (H 0) by lia. simpl. apply le_n_S. apply IH; [lia|]. intros i Hi. apply (H (S i)). lia.
Qed.
Lemma skipn_filter_count : forall (P : f64 -> bool) (s : list f64) k,
  (forall i, k <= i -> i < length s -> P (nth i s n0) = false) -> length (filter P s) <= k.
Proof.
  intros P s. induction s as [|x s IH]; intros k H; simpl in *; [lia|].
  destruct k as [|k].
  - rewrite (H 0) by lia. apply IH. intros i H1 H2. apply (H (S i)); lia.
  - assert (length (filter P s) <= k) by (apply IH; intros i H1 H2; apply (H (S i)); lia).
    destruct (P x); simpl; lia.
Qed.
Lemma filter_perm : forall (P : f64 -> bool) (l l' : list f64), Permutation l l' -> length (filter P l) = length (filter P l').
Proof.
  intros P l l' H. induction H; simpl; auto; repeat match goal with |- context [P ?a] => destruct (P a) end; simpl; congruence.
Qed.

Lemma sorted_perm_lt : forall (s s' : list f64) k, Forall (fun x => nis_nan x = false) s -> Permutation s s' ->
  StronglySorted (fun a b => nltb b a = false) s -> StronglySorted (fun a b => nltb b a = false) s' ->
  k < length s -> nltb (nth k s n0) (nth k s' n0) = false.
Proof.
  intros s s' k Hn Hp Hs Hs' Hk. destruct (nltb (nth k s n0) (nth k s' n0)) eqn:E0; auto. exfalso.
  assert (Hk' : k < length s') by (rewrite <- (Permutation_length Hp); exact Hk).
  assert (Nk : nis_nan (nth k s n0) = false) by (rewrite Forall_forall in Hn; apply Hn, nth_In; exact Hk).
  assert (H1 : S k <= length (filter (fun y => negb (nltb (nth k s n0) y)) s)).
  { apply firstn_filter_count; [lia|]. intros i Hi. apply negb_true_iff. apply sorted_nth_le; auto; lia. }
  assert (H2 : length (filter (fun y => negb (nltb (nth k s n0) y)) s') <= k).
  { apply skipn_filter_count. intros i Hi Hl. apply negb_false_iff.
    pose proof (sorted_nth_le s' k i Hs' Hi Hl) as Hle.
    destruct (nltb (nth k s n0) (nth i s' n0)) eqn:E1; auto. exfalso.
    assert (Ni : nis_nan (nth i s' n0) = false).
    { assert (Hn' : Forall (fun x => nis_nan x = false) s') by (eapply Permutation_Forall; eauto).
      rewrite Forall_forall in Hn'. apply Hn', nth_In. exact Hl. }
    rewrite (ol_negtrans _ _ _ Ni E1 Hle) in E0. discriminate. }
  rewrite (filter_perm _ _ _ Hp) in H1. lia.
Qed.

Lemma sorted_perm_same : forall (s s' : list f64) k, Forall (fun x => nis_nan x = false) s -> Permutation s s' ->
  StronglySorted (fun a b => nltb b a = false) s -> StronglySorted (fun a b => nltb b a = false) s' ->
  same (nth k s n0) (nth k s' n0).
Proof.
  intros s s' k Hn Hp Hs Hs'. destruct (Nat.lt_ge_cases k (length s)) as [Hk|Hk].
  - assert (Hn' : Forall (fun x => nis_nan x = false) s') by (eapply Permutation_Forall; eauto).
    assert (Hk' : k < length s') by (rewrite <- (Permutation_length Hp); exact Hk).
    apply unordered_same.
    + rewrite Forall_forall in Hn. apply Hn, nth_In. exact Hk.
    + rewrite Forall_forall in Hn'. apply Hn', nth_In. exact Hk'.
    + apply sorted_perm_lt; auto.
    + apply sorted_perm_lt; auto. apply Permutation_sym. exact Hp.
  - rewrite !nth_overflow; auto; [apply same_refl|]. rewrite <- (Permutation_length Hp). exact Hk.
Qed.

Lemma median_of_same : forall (l : list f64) v v', Forall (fun x => nis_nan x = false) l ->
  median_of l v -> median_of l v' -> same v v'.
Proof.
  intros l v v' Hn [s [Hp [Hs ->]]] [s' [Hp' [Hs' ->]]].
  assert (Hns : Forall (fun x => nis_nan x = false) s) by (eapply Permutation_Forall; [apply Permutation_sym; exact Hp|auto]).
  assert (Hss : Permutation s s') by (eapply Permutation_trans; [exact Hp|apply Permutation_sym; exact Hp']).
  destruct (Nat.even (length l)).
  - apply same_div. apply same_add; apply sorted_perm_same; auto.
  - apply sorted_perm_same; auto.
Qed.

Lemma sort_sorted : forall l : list f64, Forall (fun x => nis_nan x = false) l ->
  StronglySorted (fun a b => nltb b a = false) (sort_by (fun a b => partial_cmp a b) l).
Proof.
  intros l Hn. pose proof (sort_ranked Minimize (fun x : f64 => x) l Hn) as H. exact H.
Qed.

Lemma median_spec : forall l : list f64, l <> [] -> Forall (fun x => nis_nan x = false) l -> median_of l (median l).
Proof.
  intros l Hl Hn. exists (sort_by (fun a b => partial_cmp a b) l). split; [apply Permutation_sym, sort_by_perm|].
  split; [apply sort_sorted; exact Hn|]. unfold median. destruct l; [congruence|]. reflexivity.
Qed.

(* 30% of the window, rounded down *)
Lemma third_multiples : forall j, (j <= 2000)%N -> nto_usize (nmul (nofN (T := f64) (10 * j)) (nlit 3 10)) = (3 * j)%N.
Proof.
  assert (H : forallb (fun w => N.eqb (nto_usize (nmul (nofN (T := f64) (10 * w)) (nlit 3 10))) (3 * w)%N)
                      (map N.of_nat (seq 0 (N.to_nat 2001))) = true) by (vm_cast_no_check (eq_refl true)).
  intros w Hw. rewrite forallb_forall in H. apply N.eqb_eq. apply H. apply in_map_iff. exists (N.to_nat w).
  split; [lia|]. apply in_seq. lia.
Qed.
Lemma third_exact : forall w, (w <= 20000)%N -> nto_usize (nmul (nofN (T := f64) w) (nlit 3 10)) = (3 * w / 10)%N.
Proof.
  intros w Hw. destruct (N.eq_dec (w mod 10) 0) as [Hm|Hm].
  - pose proof (N.div_mod w 10 ltac:(lia)) as Hd. rewrite Hm, N.add_0_r in Hd. rewrite Hd.
    assert (w / 10 <= 2000)%N by (apply N.div_le_upper_bound; lia).
    rewrite third_multiples by assumption. symmetry. rewrite N.mul_assoc, (N.mul_comm 3 10), <- N.mul_assoc, N.mul_comm. apply N.div_mul. lia.
  - set (q := (3 * w / 10)%N). pose proof (N.div_mod (3 * w) 10 ltac:(lia)) as Hd. fold q in Hd. clearbody q.
    pose proof (N.mod_lt (3 * w) 10 ltac:(lia)) as Hlt.
    assert (Hm3 : ((3 * w) mod 10 <> 0)%N).
    { intros X. apply Hm. pose proof (N.div_mod w 10 ltac:(lia)) as Hw'. pose proof (N.mod_lt w 10 ltac:(lia)) as Hw''.
      rewrite X in Hd. revert Hd Hw' Hw''. generalize (w mod 10)%N (w / 10)%N. clear. intros b a H1 H2 H3.

      assert (10 * (q - 3 * a) = 3 * b)%N by lia. assert (b = 0 \/ b = 1 \/ b = 2 \/ b = 3 \/ b = 4 \/ b = 5 \/ b = 6 \/ b = 7 \/ b = 8 \/ b = 9)%N by lia. lia. }
    assert (Hq : (10 * q + 1 <= 3 * w <= 10 * q + 9)%N).
    { revert Hd Hlt Hm3. generalize ((3 * w) mod 10)%N. clear. lia. }
    clear Hd Hlt Hm3 Hm.
    destruct (f64_ofZ_exact (Z.of_N w)) as [Fw Ew]; [lia|]. set (c := nlit (T := f64) 3 10).
    assert (Fc : is_finite c = true) by (vm_compute; reflexivity).
    assert (Ec : (3 / 10 - 1 / 1000000000 <= B2R c <= 3 / 10)%R).
    { assert (Hc : c = @B754_finite 53 1024 false 5404319552844595 (-54) eq_refl).
      { apply B2SF_inj. vm_compute. reflexivity. }
      rewrite Hc. unfold B2R, F2R. cbn [Fnum Fexp cond_Zopp]. 
      replace (bpow radix2 (-54)) with (/ 18014398509481984)%R by (simpl; lra). lra. }
    change (nmul (nofN w) c) with (f64_mul (f64_ofZ (Z.of_N w)) c).
    assert (Hw0 : (0 <= IZR (Z.of_N w) <= 20000)%R) by (split; apply IZR_le; lia).
    assert (Hqr : (10 * IZR (Z.of_N q) + 1 <= 3 * IZR (Z.of_N w) <= 10 * IZR (Z.of_N q) + 9)%R).
    { split; rewrite <- !mult_IZR, <- !plus_IZR; apply IZR_le; lia. }
    pose proof (Bmult_correct 53 1024 f64_prec f64_emax mode_NE (f64_ofZ (Z.of_N w)) c) as H. cbv zeta in H.
    rewrite Ew in H. set (x := (IZR (Z.of_N w) * B2R c)%R) in *.
    assert (Hx : (IZR (Z.of_N q) <= x <= IZR (16 * Z.of_N q + 15) * / 16)%R).
    { rewrite plus_IZR, mult_IZR. unfold x. split; nra. }
    change (round radix2 _ _ x) with (rnd64 x) in H.
    assert (Hr : (IZR (Z.of_N q) <= rnd64 x <= IZR (16 * Z.of_N q + 15) * / 16)%R).
    { split.
      - rewrite <- (rnd64_id (IZR (Z.of_N q))) by (apply format_IZR; lia). apply rnd64_le. apply Hx.
      - apply Rle_trans with (rnd64 (IZR (16 * Z.of_N q + 15) * / 16)); [apply rnd64_le; apply Hx|].
        apply Req_le. apply rnd64_id. change (/ 16)%R with (/ IZR (Z.pow_pos 2 4))%R.
        change fexp64 with (FLT_exp (-1074) 53). apply generic_format_FLT.
        exists (Float radix2 (16 * Z.of_N q + 15) (-4)); [reflexivity| |simpl; lia].
        change (Z.abs (16 * Z.of_N q + 15) < 9007199254740992)%Z. lia. }
    assert (Hb : (0 <= IZR (Z.of_N q) /\ IZR (16 * Z.of_N q + 15) * / 16 < 6001)%R).
    { split; [apply IZR_le; lia|]. assert (IZR (16 * Z.of_N q + 15) <= IZR 96015)%R by (apply IZR_le; lia). lra. }
    rewrite Rlt_bool_true in H.
    2: { rewrite Rabs_pos_eq by lra. apply Rlt_trans with 6001%R; [lra|].
         apply Rlt_trans with (bpow radix2 13); [simpl; lra|apply bpow_lt; lia]. }
    destruct H as [H1 [H2 _]]. rewrite Fw, Fc in H2. change (nto_usize (f64_mul (f64_ofZ (Z.of_N w)) c)) with (f64_to_usize (f64_mul (f64_ofZ (Z.of_N w)) c)).
    assert (Ht : Btrunc (f64_mul (f64_ofZ (Z.of_N w)) c) = Z.of_N q).
    { pose proof (Btrunc_correct 53 1024 f64_emax (f64_mul (f64_ofZ (Z.of_N w)) c)) as Hbt.
      assert (Hfix : forall r, round radix2 (FIX_exp 0) Ztrunc r = IZR (Ztrunc r)).
      { intros r. unfold round, scaled_mantissa, cexp, FIX_exp, F2R. simpl. rewrite !Rmult_1_r. reflexivity. }
      rewrite Hfix in Hbt. apply eq_IZR in Hbt. rewrite Hbt. unfold f64_mul. rewrite H1.
      rewrite Ztrunc_floor by lra. apply Zfloor_imp. split; [apply Hr|]. rewrite !plus_IZR, mult_IZR in *. lra. }
    change (is_finite (f64_mul (f64_ofZ (Z.of_N w)) c) = true) in H2. revert H2 Ht. clear -Hq Hw.
    generalize (f64_mul (f64_ofZ (Z.of_N w)) c). intros y H2 Ht. unfold f64_to_usize.
    destruct y; try discriminate; rewrite Ht; lia.
Qed.

Lemma regress_spec : forall {E : Env f64} m w (values : list f64) b, (w <= 20000)%N -> (w <= N.of_nat (length values))%N ->
  ((4 <= w)%N -> Forall (fun x => nis_nan x = false) values) ->
  did_values_regress m w values = Ret b -> (b = true <-> got_worse m (N.to_nat w) values).
Proof.
  intros E m w values b Hw Hl Hn H. unfold did_values_regress in H. rewrite third_exact in H by exact Hw.
  assert (Hk : (3 * w / 10 <= w)%N) by (apply N.div_le_upper_bound; lia).
  rewrite (proj2 (N.ltb_ge _ _)) in H by exact Hk. rewrite N.min_l in H by exact Hk.
  remember (3 * w / 10)%N as q eqn:Eq.
  unfold got_worse. assert (Hkk : 3 * N.to_nat w / 10 = N.to_nat q).
  { rewrite Eq, N2Nat.inj_div, N2Nat.inj_mul. reflexivity. }
  rewrite Hkk. rewrite N2Nat.inj_sub in H. set (k := N.to_nat q) in *.
  assert (Hkw : k <= N.to_nat w) by lia. rewrite firstn_firstn, Nat.min_l in H by exact Hkw.
  destruct (Nat.eq_dec k 0) as [K0|K0].
  - rewrite K0 in H |- *. split; [|intros [X _]; lia]. intros ->. exfalso.
    cbn [firstn] in H. destruct (data_median (skipn _ _)) as [a| |]; try discriminate. cbn in H. apply Ret_inj in H. revert H.
    rewrite better_nan_r by reflexivity. discriminate.
  - assert (Hn' : Forall (fun x => nis_nan x = false) values).
    { apply Hn. destruct (N.lt_ge_cases w 4) as [X|X]; [|exact X]. exfalso. apply K0. unfold k. rewrite Eq.
      rewrite N.div_small by lia. reflexivity. }
    clear Hn. rename Hn' into Hn.
    assert (N1 : Forall (fun x => nis_nan x = false) (firstn k values)).
    { rewrite <- (firstn_skipn k values) in Hn. apply Forall_app in Hn. tauto. }
    assert (N2 : Forall (fun x => nis_nan x = false) (skipn (N.to_nat w - k) (firstn (N.to_nat w) values))).
    { rewrite <- (firstn_skipn (N.to_nat w) values) in Hn. apply Forall_app in Hn. destruct Hn as [Hn _].
      rewrite <- (firstn_skipn (N.to_nat w - k) (firstn (N.to_nat w) values)) in Hn. apply Forall_app in Hn. tauto. }
    assert (Hvl : N.to_nat w <= length values) by lia.
    assert (E1 : firstn k values <> []).
    { intros X. apply (f_equal (@length f64)) in X. rewrite firstn_length in X. cbn [length] in X. lia. }
    assert (E2 : skipn (N.to_nat w - k) (firstn (N.to_nat w) values) <> []).
    { intros X. apply (f_equal (@length f64)) in X. rewrite skipn_length, firstn_length in X. cbn [length] in X. lia. }
    unfold data_median in H. rewrite !existsb_nan in H by assumption. cbn [obind] in H. apply Ret_inj in H. subst b.
    split.
    + intros Hb. split; [lia|]. exists (median (skipn (N.to_nat w - k) (firstn (N.to_nat w) values))), (median (firstn k values)).
      split; [apply median_spec; auto|]. split; [apply median_spec; auto|exact Hb].
    + intros [_ [a [c [Ha [Hc Hb]]]]]. rewrite <- Hb. apply same_better.
      * eapply median_of_same; [exact N2|apply median_spec; auto|exact Ha].
      * eapply median_of_same; [exact N1|apply median_spec; auto|exact Hc].
Qed.

(* ---- the window of the value tolerances ---- *)
Lemma f64_mul_exact : forall a b : Z, (0 <= a)%Z -> (0 <= b)%Z -> (a <= 9007199254740992)%Z -> (b <= 9007199254740992)%Z ->
  (a * b < 9007199254740992)%Z ->
  f64_mul (f64_ofZ a) (f64_ofZ b) = f64_ofZ (a * b).
Proof.
  intros a b Ha Hb La Lb Hab. assert (0 <= a * b)%Z by (apply Z.mul_nonneg_nonneg; auto).
  destruct (f64_ofZ_exact a) as [Fa Ea]; [lia|]. destruct (f64_ofZ_exact b) as [Fb Eb]; [lia|].
  destruct (f64_ofZ_exact (a * b)) as [Fc Ec]; [lia|].
  assert (Hm : is_finite (f64_mul (f64_ofZ a) (f64_ofZ b)) = true /\ B2R (f64_mul (f64_ofZ a) (f64_ofZ b)) = IZR (a * b) /\
               Bsign (f64_mul (f64_ofZ a) (f64_ofZ b)) = xorb (Bsign (f64_ofZ a)) (Bsign (f64_ofZ b))).
  { pose proof (Bmult_correct 53 1024 f64_prec f64_emax mode_NE (f64_ofZ a) (f64_ofZ b)) as H'. cbv zeta in H'.
    rewrite Ea, Eb in H'. rewrite <- mult_IZR in H'.
    change (round radix2 _ _ (IZR (a * b))) with (rnd64 (IZR (a * b))) in H'.
    rewrite rnd64_id in H' by (apply format_IZR; lia). rewrite Rlt_bool_true in H'.
    - destruct H' as [H1 [H2 H3]]. rewrite Fa, Fb in H2. unfold f64_mul. split; [exact H2|]. split; [exact H1|].
      apply H3. destruct (Bmult mode_NE (f64_ofZ a) (f64_ofZ b)); auto; discriminate.
    - rewrite Rabs_pos_eq by (apply IZR_le; lia).
      apply Rlt_trans with (IZR 9007199254740992); [apply IZR_lt; lia|].
      change 9007199254740992%Z with (Zpower radix2 53). rewrite IZR_Zpower by lia. apply bpow_lt. lia. }
  destruct Hm as [Fm [Em Sm]].
  assert (Hs : forall z, (0 <= z <= 9007199254740992)%Z -> Bsign (f64_ofZ z) = false).
  { intros z Hz. unfold f64_ofZ.
    pose proof (binary_normalize_correct 53 1024 f64_prec f64_emax mode_NE z 0 false) as H'. cbv zeta in H'.
    assert (Hf : F2R (Float radix2 z 0) = IZR z) by (unfold F2R; simpl; lra). rewrite Hf in H'.
    change (round radix2 _ _ (IZR z)) with (rnd64 (IZR z)) in H'. rewrite rnd64_id in H' by (apply format_IZR; lia).
    rewrite Rlt_bool_true in H'.
    - destruct H' as [_ [_ H']]. rewrite H'. destruct (Rcompare_spec (IZR z) 0) as [X|X|X]; auto.
      exfalso. assert (0 <= IZR z)%R by (apply IZR_le; lia). lra.
    - rewrite Rabs_pos_eq by (apply IZR_le; lia).
      apply Rle_lt_trans with (IZR 9007199254740992); [apply IZR_le; lia|].
      change 9007199254740992%Z with (Zpower radix2 53). rewrite IZR_Zpower by lia. apply bpow_lt. lia. }
  apply B2R_Bsign_inj; auto.
  - rewrite Em, Ec. reflexivity.
  - rewrite Sm, !Hs by lia. reflexivity.
Qed.

Lemma window_exact : forall (LT : Libm f64) (o : options f64) seed,
  (30 * N.of_nat (length (o_initial_mean o)) < 9007199254740992)%N -> (0 < o_population_size o < 9007199254740992)%N ->
  past_generations (params_of_options o seed) = tol_window o.
Proof.
  intros LT o seed H1 H2. unfold past_generations, tol_window. cbn [p_dim p_lambda params_of_options]. f_equal.
  set (dim := N.of_nat (length (o_initial_mean o))) in *.
  assert (Hm : nmul (nofZ 30) (nofN (T := f64) dim) = nofN (30 * dim)).
  { unfold nofN. change (f64_mul (f64_ofZ 30) (f64_ofZ (Z.of_N dim)) = f64_ofZ (Z.of_N (30 * dim))).
    rewrite f64_mul_exact by lia. f_equal. lia. }
  rewrite Hm. apply f64_ceil_div; auto.
Qed.

Lemma least_perm : forall (l l' : list f64) a, Permutation l l' -> least l a -> least l' a.
Proof. intros l l' a Hp [H1 H2]. split; [eapply Permutation_in|eapply Permutation_Forall]; eauto. Qed.
Lemma greatest_perm : forall (l l' : list f64) a, Permutation l l' -> greatest l a -> greatest l' a.
Proof. intros l l' a Hp [H1 H2]. split; [eapply Permutation_in|eapply Permutation_Forall]; eauto. Qed.
Lemma spread_perm : forall (l l' : list f64) tol, Permutation l l' -> spread_below l tol -> spread_below l' tol.
Proof.
  intros l l' tol Hp [a [b [H1 [H2 H3]]]]. exists a, b. split; [eapply least_perm; eauto|]. split; [eapply greatest_perm; eauto|exact H3].
Qed.

(* ---- reading matrices ---- *)
Lemma mget_nth : forall n (m : mat f64) i j, shape n n m -> i < n -> j < n -> mget_c m i j = Ret (nth j (nth i m []) n0).
Proof.
  intros n m i j [H1 H2] Hi Hj. unfold mget_c, index.
  destruct (nth_error m i) as [row|] eqn:E0; [|apply nth_error_None in E0; lia]. cbn [obind].
  rewrite (nth_error_nth m i [] E0). assert (Hr : length row = n) by (rewrite Forall_forall in H2; apply H2; eapply nth_error_In; eauto).
  destruct (nth_error row j) as [x|] eqn:E1; [|apply nth_error_None in E1; lia]. rewrite (nth_error_nth row j n0 E1). reflexivity.
Qed.
Lemma index_nth : forall (v : vec f64) i, i < length v -> index v i = Ret (nth i v n0).
Proof.
  intros v i Hi. unfold index. destruct (nth_error v i) as [x|] eqn:E0; [|apply nth_error_None in E0; lia].
  rewrite (nth_error_nth v i n0 E0). reflexivity.
Qed.

Lemma veqb_nth : forall a b : vec f64, length a = length b ->
  (veqb a b = true <-> forall k, k < length a -> neqb (nth k a n0) (nth k b n0) = true).
Proof.
  induction a as [|x a IH]; intros [|y b] H; simpl in H; try discriminate.
  - split; auto. intros _ k Hk. simpl in Hk. lia.
  - cbn [veqb]. rewrite andb_true_iff, IH by lia. split.
    + intros [H1 H2] [|k] Hk; cbn [nth]; [exact H1|]. apply H2. simpl in Hk. lia.
    + intros Hall. split; [apply (Hall 0); simpl; lia|]. intros k Hk. apply (Hall (S k)). simpl. lia.
Qed.
Lemma map2_nth : forall (f : f64 -> f64 -> f64) a b k, length a = length b -> k < length a ->
  nth k (map2 f a b) n0 = f (nth k a n0) (nth k b n0).
Proof.
  induction a as [|x a IH]; intros [|y b] k H Hk; simpl in H, Hk; try lia. destruct k as [|k]; cbn [map2 nth]; auto. apply IH; lia.
Qed.
Lemma map2_len : forall (f : f64 -> f64 -> f64) a b, length a = length b -> length (map2 f a b) = length a.
Proof. induction a as [|x a IH]; intros [|y b] H; simpl in *; try discriminate; auto. Qed.

Lemma nth_map_in : forall {A B} (f : A -> B) l k d d', k < length l -> nth k (map f l) d = f (nth k l d').
Proof. intros A B f l. induction l as [|x l IH]; intros [|k] d d' H; simpl in *; try lia; auto. apply IH. lia. Qed.

(* ---- the largest entry ---- *)
Lemma max_fold_greatest : forall (l pre : list f64) x, Forall (fun v => nis_nan v = false) (pre ++ l) -> greatest pre x ->
  greatest (pre ++ l) (fold_left (fun a b => match partial_cmp a b with Gt => a | _ => b end) l x).
Proof.
  induction l as [|y l IH]; intros pre x Hn Hg; cbn [fold_left].
  - rewrite app_nil_r. exact Hg.
  - replace (pre ++ y :: l) with ((pre ++ [y]) ++ l) in * by (rewrite <- app_assoc; reflexivity). apply IH; auto.
    pose proof Hn as Hn'. apply Forall_app in Hn'. destruct Hn' as [Hn' _]. apply Forall_app in Hn'. destruct Hn' as [Np Ny].
    inversion Ny as [|? ? Ny' _]; subst. destruct Hg as [G1 G2].
    assert (Nx : nis_nan x = false) by (rewrite Forall_forall in Np; apply Np; exact G1).
    destruct (partial_cmp x y) eqn:Ec.
    3: { apply partial_cmp_Gt in Ec. split; [apply in_or_app; left; exact G1|]. apply Forall_app. split; [exact G2|].
         repeat constructor. apply lt_asym. exact Ec. }
    1, 2: assert (Hx : nltb y x = false) by (destruct (nltb y x) eqn:E0; auto; apply partial_cmp_Gt in E0; congruence);
      split; [apply in_or_app; right; left; reflexivity|apply Forall_app; split; [|repeat constructor; apply ol_irrefl]];
      rewrite Forall_forall in G2 |- *; intros z Hz; specialize (G2 z Hz); apply (ol_negtrans y x z); auto.
Qed.
Lemma max_by_greatest : forall (l : list f64) d, Forall (fun v => nis_nan v = false) l -> max_by partial_cmp l = Some d -> greatest l d.
Proof.
  intros [|x l] d Hn H; [discriminate|]. cbn [max_by] in H. inversion H; subst.
  apply (max_fold_greatest l [x] x); auto. split; [left; reflexivity|repeat constructor; apply ol_irrefl].
Qed.

(* In x (concatenation of push_ifs) <-> the flag of x *)
Ltac pick_reason :=
  split;
  [ intros Hin; repeat match type of Hin with _ \/ _ => destruct Hin as [Hin|Hin] end;
    first [contradiction | exact Hin | (let X := fresh in destruct Hin as [Hin X]; first [exact Hin | discriminate X])]
  | intros Hin; first [contradiction |
      repeat first [left; split; [exact Hin|reflexivity] | left; exact Hin | split; [exact Hin|reflexivity] | right]] ].

(* ---- all criteria ---- *)
Section All.
  Context {LT : Libm f64} {E : Env f64} {F : Type}.
  Variables (o : options f64) (seed : N) (c : cmaes f64 F) (inds : list (point f64)) (values : list f64) (now : N).
  Hypothesis (Hw : wf o c) (Hp : c_params c = params_of_options o seed)
    (Hv : Permutation (map pt_value inds) values) (Hn : Forall (fun v => nis_nan v = false) values) (Hne : values <> [])
    (Hbest : (N.min (generation c / 5) 20000 <= N.of_nat (length (h_best_values (c_history c))))%N)
    (Hmed : (N.min (generation c / 5) 20000 <= N.of_nat (length (h_median_values (c_history c))))%N).
  Let dim := length (o_initial_mean o).
  Let p := params_of_options o seed.

  Lemma dim_p : p_dim p = N.of_nat dim.
  Proof. reflexivity. Qed.

  Lemma tol_fun_spec : forall l, check_tol_fun p (c_history c) inds = Ret l ->
    (30 * N.of_nat dim < 9007199254740992)%N -> (o_population_size o < 9007199254740992)%N ->
    (In TolFunHist l <-> condition o c values now TolFunHist) /\ (In TolFun l <-> condition o c values now TolFun) /\
    (In TolFunRel l <-> condition o c values now TolFunRel).
  Proof.
    intros l H Hd Hpop. unfold check_tol_fun, p in H.
    assert (Hpp : (0 < o_population_size o)%N) by (pose proof (wf_pop _ _ Hw); unfold pop in *; lia).
    rewrite window_exact in H by (unfold dim in *; auto). cbn [condition]. set (w := tol_window o) in *.
    destruct (N.leb_spec w (N.of_nat (length (h_best_values (c_history c))))) as [Hl|Hl].
    - destruct (range (firstn (N.to_nat w) (h_best_values (c_history c)))) as [rh|] eqn:R1; [|discriminate].
      cbn [unwrap obind] in H. destruct (range (map pt_value inds)) as [rc|] eqn:R2; [|discriminate].
      cbn [unwrap obind] in H. apply Ret_inj in H; subst.
      assert (Hh : Forall (fun x => nis_nan x = false) (firstn (N.to_nat w) (h_best_values (c_history c)))).
      { pose proof (wf_hist _ _ Hw) as Hh. unfold wf_history in Hh.
        rewrite <- (firstn_skipn (N.to_nat w) (h_best_values (c_history c))) in Hh. apply Forall_app in Hh. tauto. }
      assert (Hi : Forall (fun x => nis_nan x = false) (map pt_value inds)).
      { eapply Permutation_Forall; [apply Permutation_sym; exact Hv|exact Hn]. }
      assert (S1 : forall t, nltb rh t = true <-> spread_below (firstn (N.to_nat w) (h_best_values (c_history c))) t).
      { intros t. apply range_below; auto. }
      assert (S2 : forall t, nltb rc t = true <-> spread_below values t).
      { intros t. rewrite (range_below _ _ t Hi R2). split; apply spread_perm; auto. apply Permutation_sym. exact Hv. }
      rewrite !in_app_iff, !push_if_In. rewrite <- !S1, <- !S2. cbn [p_term params_of_options term_params_of_options tp_tol_fun tp_tol_fun_hist tp_tol_fun_rel].
      rewrite andb_true_iff.
      destruct (h_first_median (c_history c)) as [fm|], (h_best_median (c_history c)) as [bm|].
      + rewrite !push_if_In, andb_true_iff. repeat split; intros; intuition (try discriminate).
        * exists fm, bm. rewrite <- S1, <- S2. auto.
        * destruct H1 as [f' [b' [X1 [X2 [X3 X4]]]]]. injection X1 as <-. injection X2 as <-. apply S1 in X3. apply S2 in X4. auto.
      + cbn [In]. repeat split; intros; intuition (try discriminate). destruct H1 as [f' [b' [X1 [X2 _]]]]. discriminate.
      + cbn [In]. repeat split; intros; intuition (try discriminate). destruct H1 as [f' [b' [X1 [X2 _]]]]. discriminate.
      + cbn [In]. repeat split; intros; intuition (try discriminate). destruct H1 as [f' [b' [X1 [X2 _]]]]. discriminate.
    - apply Ret_inj in H; subst. cbn [In]. split; [|split]; (split; [intros []|]); intros [X _]; lia.
  Qed.

  Lemma tol_x_spec : forall b, check_tol_x p (c_state c) = Ret b -> (b = true <-> condition o c values now TolX).
  Proof.
    intros b H. unfold check_tol_x in H. change (N.to_nat (p_dim p)) with (N.to_nat (N.of_nat dim)) in H. rewrite Nat2N.id in H.
    change (tp_tol_x (p_term p)) with (tol_x_of o) in H. cbn [condition]. fold dim.
    assert (Hf : forall i, i < dim -> (c0 <- mget_c (cm_cov (st_cov (c_state c))) i i ;; Ret (nltb (nabs (nmul (st_sigma (c_state c)) c0)) (tol_x_of o)))
      = Ret (nltb (nabs (nmul (sigma c) (nth i (nth i (covariance_matrix c) []) n0))) (tol_x_of o))).
    { intros i Hi. rewrite (mget_nth dim); auto. apply (ws_cov _ _ (wf_st _ _ Hw)). }
    oinv H. apply Ret_inj in H; subst. rewrite andb_true_iff, forallb_forall.
    assert (Ha : a = true <-> forall i, i < dim -> nltb (nabs (nmul (sigma c) (nth i (nth i (covariance_matrix c) []) n0))) (tol_x_of o) = true).
    { split.
      - intros ->. intros i Hi. rewrite oall_true in Ho. specialize (Ho i). rewrite in_seq in Ho. specialize (Ho (ltac:(lia))).
        rewrite Hf in Ho by exact Hi. apply Ret_inj in Ho. exact Ho.
      - intros Hall. destruct a; auto. exfalso. enough (X : oall (fun i => c0 <- mget_c (cm_cov (st_cov (c_state c))) i i ;;
          Ret (nltb (nabs (nmul (st_sigma (c_state c)) c0)) (tol_x_of o))) (seq 0 dim) = Ret true) by congruence.
        apply oall_true. intros i Hi. apply in_seq in Hi. rewrite Hf by lia. f_equal. apply Hall. lia. }
    rewrite Ha. reflexivity.
  Qed.

  Lemma condition_cov_spec : check_condition_cov p (c_state c) = true <-> condition o c values now TolConditionCov.
  Proof.
    unfold check_condition_cov. cbn [condition]. cbv zeta. rewrite orb_true_iff, negb_true_iff. reflexivity.
  Qed.

  Lemma no_effect_axis_spec : forall b, check_no_effect_axis p (c_state c) = Ret b -> (b = true <-> condition o c values now NoEffectAxis).
  Proof.
    intros b H. unfold check_no_effect_axis in H. rewrite dim_p in H. pose proof (wf_dim _ _ Hw) as Hd.
    change (dims o) with dim in Hd. rewrite (proj2 (N.eqb_neq _ _)) in H by lia.
    cbn [condition]. fold dim. change (generation c) with (st_generation (c_state c)).
    set (i := N.to_nat (st_generation (c_state c) mod N.of_nat dim)) in *.
    assert (Hi : i < dim).
    { unfold i. assert (st_generation (c_state c) mod N.of_nat dim < N.of_nat dim)%N by (apply N.mod_lt; lia). lia. }
    pose proof (wf_st _ _ Hw) as Hs. change (dims o) with dim in Hs.
    rewrite (mget_nth dim) in H; auto; [|apply (ws_sqrt _ _ Hs)]. cbn [obind] in H.
    rewrite (shape_ncols dim dim _ (ws_vecs _ _ Hs) Hd) in H. rewrite (proj2 (Nat.leb_gt _ _)) in H by exact Hi.
    unfold vadd_c, check in H.
    assert (Hcl : length (column (cm_eigenvectors (st_cov (c_state c))) i) = dim).
    { unfold column. rewrite map_length. apply (ws_vecs _ _ Hs). }
    assert (Hlen : length (st_mean (c_state c)) = length (vscale (nmul (nmul (nlit 1 10) (st_sigma (c_state c)))
       (nth i (nth i (cm_sqrt_eigenvalues (st_cov (c_state c))) []) n0)) (column (cm_eigenvectors (st_cov (c_state c))) i))).
    { unfold vscale. rewrite map_length, Hcl. apply (ws_mean _ _ Hs). }
    rewrite (proj2 (Nat.eqb_eq _ _) Hlen) in H. cbn [obind] in H. apply Ret_inj in H; subst.
    unfold vadd. rewrite veqb_nth by (rewrite map2_len; auto). rewrite (ws_mean _ _ Hs). 
    split; intros H k Hk; specialize (H k Hk).
    - rewrite map2_nth in H; [|exact Hlen|rewrite (ws_mean _ _ Hs); exact Hk].
      unfold vscale in H. rewrite (nth_map_in _ _ k n0 n0) in H by (rewrite Hcl; exact Hk). unfold column in H.
      rewrite (nth_map_in _ _ k n0 []) in H by (rewrite (proj1 (ws_vecs _ _ Hs)); exact Hk). exact H.
    - rewrite map2_nth; [|exact Hlen|rewrite (ws_mean _ _ Hs); exact Hk].
      unfold vscale. rewrite (nth_map_in _ _ k n0 n0) by (rewrite Hcl; exact Hk). unfold column.
      rewrite (nth_map_in _ _ k n0 []) by (rewrite (proj1 (ws_vecs _ _ Hs)); exact Hk). exact H.
  Qed.

  Lemma no_effect_coord_spec : forall b, check_no_effect_coord p (c_state c) = Ret b -> (b = true <-> condition o c values now NoEffectCoord).
  Proof.
    intros b H. unfold check_no_effect_coord in H. change (N.to_nat (p_dim p)) with (N.to_nat (N.of_nat dim)) in H. rewrite Nat2N.id in H.
    cbn [condition]. fold dim. pose proof (wf_st _ _ Hw) as Hs. change (dims o) with dim in Hs.
    set (f := fun i => m <- index (st_mean (c_state c)) i ;; c0 <- mget_c (cm_cov (st_cov (c_state c))) i i ;;
                   Ret (neqb m (nadd m (nmul (nmul (nlit 2 10) (st_sigma (c_state c))) c0)))) in *.
    assert (Hf : forall i, i < dim -> f i = Ret (neqb (nth i (mean c) n0)
      (nadd (nth i (mean c) n0) (nmul (nmul (nlit 2 10) (sigma c)) (nth i (nth i (covariance_matrix c) []) n0))))).
    { intros i Hi. unfold f. rewrite index_nth by (rewrite (ws_mean _ _ Hs); exact Hi). cbn [obind].
      rewrite (mget_nth dim); auto. apply (ws_cov _ _ Hs). }
    rewrite (oany_true f _ b H).
    - split.
      + intros [i [Hi Ht]]. apply in_seq in Hi. exists i. split; [lia|]. rewrite Hf in Ht by lia. apply Ret_inj in Ht. exact Ht.
      + intros [i [Hi Ht]]. exists i. split; [apply in_seq; lia|]. rewrite Hf by exact Hi. rewrite Ht. reflexivity.
    - intros i Hi. apply in_seq in Hi. rewrite Hf by lia. eauto.
  Qed.

  Lemma tol_stagnation_spec : forall b, check_tol_stagnation p (c_state c) (c_history c) = Ret b ->
    ((tol_stagnation_of o <= N.min (generation c / 5) 20000)%N -> (4 <= N.min (generation c / 5) 20000)%N ->
     Forall (fun v => nis_nan v = false) (h_median_values (c_history c))) ->
    (b = true <-> condition o c values now TolStagnation).
  Proof.
    intros b H Hm. unfold check_tol_stagnation in H. change (tp_tol_stagnation (p_term p)) with (tol_stagnation_of o) in H.
    unfold tol_stagnation_generations in H. change max_history_length with 20000%N in H. cbn [condition]. cbv zeta.
    change (st_generation (c_state c)) with (generation c) in H. set (w := N.min (generation c / 5) 20000) in *.
    assert (Hw2 : (w <= 20000)%N) by (unfold w; lia).
    destruct (N.ltb_spec w (tol_stagnation_of o)) as [Hs|Hs].
    - apply Ret_inj in H; subst. split; [discriminate|]. intros [X _]. lia.
    - rewrite (proj2 (N.leb_le _ _) Hbest), (proj2 (N.leb_le _ _) Hmed) in H. cbn [andb] in H.
      destruct (did_values_regress (p_mode p) w (h_best_values (c_history c))) as [b1| |] eqn:E1; try discriminate. cbn [obind] in H.
      assert (S1 := regress_spec _ _ _ _ Hw2 Hbest (fun _ => wf_hist _ _ Hw) E1). change (p_mode p) with (o_mode o) in *.
      destruct b1.
      + assert (S2 := regress_spec _ _ _ _ Hw2 Hmed (Hm Hs) H). tauto.
      + apply Ret_inj in H; subst. split; [discriminate|]. intros [_ [X _]]. apply S1 in X. discriminate.
  Qed.

  Lemma tol_x_up_spec : forall b, check_tol_x_up p (c_state c) = Ret b ->
    Forall (fun v => nis_nan v = false) (map (fun i => nth i (nth i (cm_sqrt_eigenvalues (st_cov (c_state c))) []) n0) (seq 0 dim)) ->
    (b = true <-> condition o c values now TolXUp).
  Proof.
    intros b H Hd. unfold check_tol_x_up in H. cbn [condition]. fold dim.
    set (l := map (fun i => nth i (nth i (cm_sqrt_eigenvalues (st_cov (c_state c))) []) n0) (seq 0 dim)) in *.
    assert (Hl : diagonal (cm_sqrt_eigenvalues (st_cov (c_state c))) = l).
    { unfold diagonal, l, mnth. rewrite (proj1 (ws_sqrt _ _ (wf_st _ _ Hw))). reflexivity. }
    rewrite Hl in H. destruct (max_by partial_cmp l) as [d|] eqn:Em; [|discriminate]. cbn [unwrap obind] in H. apply Ret_inj in H; subst.
    apply max_by_greatest in Em; auto. split.
    - intros Hb. exists d. auto.
    - intros [d' [Hg Hb]]. rewrite <- Hb. unfold ngtb. apply same_lt; [apply same_refl|]. apply same_div, same_mul_r.
      eapply greatest_same; eauto.
  Qed.

  Lemma termination_spec : forall l, check_termination p (function_evals c) (c_created c) now (c_state c) (c_history c) inds = Ret l ->
    forall x, decidable_reason o c x -> (In x l <-> condition o c values now x).
  Proof.
    intros l H x Hx. apply check_termination_inv in H.
    destruct H as [l5 [tx [nea [nec [ts [txu [H5 [Htx [Hnea [Hnec [Hts [Htxu ->]]]]]]]]]]]].
    pose proof (check_tol_fun_inv _ _ _ _ H5) as [b1 [b2 [b3 E5]]].
    assert (Hnot : forall y, y <> TolFun -> y <> TolFunHist -> y <> TolFunRel -> ~ In y l5).
    { intros y Y1 Y2 Y3 Hin. rewrite E5, !in_app_iff, !push_if_In in Hin. intuition. }
    rewrite !in_app_iff, !push_if_In.
    destruct x; cbn [decidable_reason] in Hx;
      match goal with |- context [In ?x l5] => try (assert (Hx5 : ~ In x l5) by (apply Hnot; discriminate)) end.
    - transitivity (check_max_evals p (function_evals c) = true); [pick_reason|]. cbn [condition]. unfold check_max_evals.
      cbn [p_term p params_of_options term_params_of_options tp_max_function_evals].
      destruct (o_max_function_evals o) as [m|].
      + rewrite N.leb_le. split; [eauto|]. intros [m' [X1 X2]]. injection X1 as <-. exact X2.
      + split; [discriminate|]. intros [m' [X1 _]]. discriminate.
    - transitivity (check_max_generations p (c_state c) = true); [pick_reason|]. cbn [condition]. unfold check_max_generations.
      cbn [p_term p params_of_options term_params_of_options tp_max_generations].
      destruct (o_max_generations o) as [m|].
      + rewrite N.leb_le. split; [eauto|]. intros [m' [X1 X2]]. injection X1 as <-. exact X2.
      + split; [discriminate|]. intros [m' [X1 _]]. discriminate.
    - transitivity (check_max_time p (c_created c) now = true); [pick_reason|]. cbn [condition]. unfold check_max_time.
      cbn [p_term p params_of_options term_params_of_options tp_max_time].
      destruct (o_max_time o) as [m|].
      + rewrite N.leb_le. split; [eauto|]. intros [m' [X1 X2]]. injection X1 as <-. exact X2.
      + split; [discriminate|]. intros [m' [X1 _]]. discriminate.
    - transitivity (check_fun_target p inds = true); [pick_reason|]. cbn [condition]. unfold check_fun_target.
      cbn [p_term p p_mode params_of_options term_params_of_options tp_fun_target].
      destruct (o_fun_target o) as [t|].
      + rewrite existsb_exists. split.
        * intros [q [Q1 Q2]]. exists t, (pt_value q). split; auto. split; auto. eapply Permutation_in; [exact Hv|].
          apply in_map. exact Q1.
        * intros [t' [v [X1 [X2 X3]]]]. injection X1 as <-. eapply Permutation_in in X2; [|apply Permutation_sym; exact Hv].
          apply in_map_iff in X2. destruct X2 as [q [<- Q]]. eauto.
      + split; [discriminate|]. intros [t' [v [X1 _]]]. discriminate.
    - destruct Hx as [X1 X2]. destruct (tol_fun_spec l5 H5 X1 X2) as [_ [<- _]]. pick_reason.
    - destruct Hx as [X1 X2]. destruct (tol_fun_spec l5 H5 X1 X2) as [_ [_ <-]]. pick_reason.
    - destruct Hx as [X1 X2]. destruct (tol_fun_spec l5 H5 X1 X2) as [<- _]. pick_reason.
    - rewrite <- (tol_x_spec tx Htx). pick_reason.
    - rewrite <- (tol_stagnation_spec ts Hts Hx). pick_reason.
    - rewrite <- (tol_x_up_spec txu Htxu Hx). pick_reason.
    - rewrite <- (no_effect_axis_spec nea Hnea). pick_reason.
    - rewrite <- (no_effect_coord_spec nec Hnec). pick_reason.
    - rewrite <- condition_cov_spec. pick_reason.
    - cbn [condition]. pick_reason.
    - cbn [condition]. pick_reason.
  Qed.
End All.

(* ---- the reasons reported by a call ---- *)
Section Used.
  Context {LT : Libm f64} {E : Env f64} {F : Type} (ev : F -> vec f64 -> outcome (f64 * F)).

  Lemma traced_steps : forall c0 h c, traced ev c0 h c -> exists l, steps (log_ev ev) c0 l = Ret c.
  Proof.
    intros c0 h c H. induction H as [|h c op c' Ht [l Hl] Hq Hs|h c par tk r new c' Ht [l Hl] Hn Hc].
    - exists []. reflexivity.
    - exists (l ++ [op]). rewrite steps_app, Hl. cbn [obind steps]. rewrite Hs. reflexivity.
    - exists (l ++ [ONext par tk]). rewrite steps_app, Hl. cbn [obind steps step]. rewrite Hn. reflexivity.
  Qed.
  Lemma used_reaches : forall o f seed h c, used ev o f seed h c -> reaches (log_ev ev) o (f, []) c.
  Proof.
    intros o f seed h c [rs [now [c0 [H1 [_ H2]]]]]. apply traced_steps in H2. destruct H2 as [l H2].
    exists c0, l. split; auto. exists rs, now. exact H1.
  Qed.
  Lemma used_wf : eigen_shape (T := f64) -> forall o f seed h c, used ev o f seed h c -> wf o c.
  Proof. intros He o f seed h c Hu. eapply (reaches_wf He (log_ev ev)). eapply used_reaches; eauto. Qed.

  (* the histories are as long as the number of generations allows *)
  Lemma history_long : forall o f seed h c, used ev o f seed h c ->
    (N.min (generation c) 20000 <= N.of_nat (length (h_best_values (c_history c))))%N /\
    (N.min (generation c) 20000 <= N.of_nat (length (h_median_values (c_history c))))%N.
  Proof.
    intros o f seed h c Hu. destruct (used_recorded _ _ _ _ _ _ Hu) as [B [M H]].
    destruct (used_evals _ _ _ _ _ _ Hu) as [_ Hg].
    assert (L : (generation c <= N.of_nat (length (generations h)))%N).
    { rewrite Hg. unfold generations. rewrite map_length. clear. unfold valid.
      induction h as [|x h IH]; simpl; [lia|].
      destruct (reports InvalidFunctionValue (k_result x)); cbn [negb andb]; [exact IH|].
      destruct (reports PosDefCov (k_result x)); cbn [negb length] in *; lia. }
    destruct H as [_ H1 H2 H3 H4 _ _ _ _]. rewrite H3, H4.
    assert (L1 : length B = length (generations h)) by (symmetry; eapply Lib.Forall2_len; exact H1).
    assert (L2 : length M = length (generations h)) by (symmetry; eapply Lib.Forall2_len; exact H2).
    change max_history_length with 20000%N.
    assert (X : forall l : list f64, length l = length (generations h) ->
      (N.min (generation c) 20000 <= N.of_nat (length (firstn (N.to_nat 20000) l)))%N).
    { intros l Hl. rewrite firstn_length, Nat2N.inj_min, N2Nat.id, Hl. clear -L. lia. }
    split; apply X; rewrite rev_length; [rewrite map_length|]; assumption.
  Qed.

  Lemma reported_iff : eigen_shape (T := f64) -> forall o f seed h c par tk r c' new,
    used ev o f seed h c -> next (log_ev ev) par tk c = Ret (r, c') -> calls c' = calls c ++ new ->
    reports InvalidFunctionValue r = false -> reports PosDefCov r = false ->
    forall x, decidable_reason o c' x -> (reports x r = true <-> condition o c' (map snd new) (t_now tk) x).
  Proof.
    intros He o f seed h c par tk r c' new Hu Hn Hc R1 R2 x Hx.
    pose proof (used_next _ _ _ _ _ _ _ _ _ _ _ Hu Hn Hc) as Hu'.
    pose proof (used_wf He _ _ _ _ _ Hu') as Hw. destruct (used_setup _ _ _ _ _ _ Hu') as [Hp _].
    destruct (used_setup _ _ _ _ _ _ Hu) as [Hp0 _].
    apply next_log in Hn. destruct Hn as [cands [out [new' [_ [_ [_ [Hc' H]]]]]]].
    assert (new' = new) by (rewrite Hc in Hc'; apply app_inv_head in Hc'; auto). subst new'. rewrite R1 in H.
    destruct H as [Hnn [pts [Hout [[P1 _] [Hh [ok [Hs H]]]]]]].
    destruct H as [[_ [X _]]|[_ [_ [reasons [Hd Hr]]]]]; [congruence|].
    set (inds := sort_by _ pts) in *.
    assert (Hv : Permutation (map pt_value inds) (map snd new)).
    { apply Permutation_trans with (map snd (map pt_entry pts)).
      - rewrite map_map. change (fun x => snd (pt_entry x)) with (fun x : point f64 => pt_value x).
        apply Permutation_map. apply Permutation_sym, sort_by_perm.
      - apply Permutation_map. exact P1. }
    assert (Hne : map snd new <> []).
    { intros X. rewrite X in Hv. apply Permutation_sym, Permutation_nil in Hv.
      destruct inds as [|i l] eqn:Ei; [|discriminate]. unfold history_update in Hh. cbn in Hh. discriminate. }
    destruct (history_long _ _ _ _ _ Hu') as [L1 L2].
    assert (Hle : (N.min (generation c' / 5) 20000 <= N.min (generation c') 20000)%N).
    { apply N.min_le_compat_r. apply N.div_le_upper_bound; lia. }
    pose proof (nd_check _ _ _ _ _ Hd) as Hck. rewrite <- (nd_created _ _ _ _ _ Hd) in Hck.
    rewrite Hp0 in Hck.
    assert (Hcond : In x reasons <-> condition o c' (map snd new) (t_now tk) x).
    { eapply (termination_spec o _ c' inds (map snd new) (t_now tk)); eauto; try lia.
      rewrite Forall_map. exact Hnn. }
    rewrite <- Hcond, Hr. apply reports_done.
  Qed.
End Used.
