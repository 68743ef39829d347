(* C86: when the evolution path of the covariance matrix is stopped, in binary64. *)
From Coq Require Import List NArith ZArith Bool Reals Lra Lia Arith Psatz Permutation Sorted.
From Flocq Require Import Core.
From Flocq Require Import IEEE754.BinarySingleNaN.
Require Import Verif.Lib Verif.Base Verif.Num Verif.F64 Verif.XReal Verif.LinAlg Verif.Mode Verif.Weights Verif.Options
  Verif.Params Verif.Env Verif.State Verif.Sampling Verif.History Verif.Termination Verif.Plot Verif.Cmaes
  Verif.Spec Verif.Order Verif.Sort Verif.F64Lemmas Verif.BuildLemmas Verif.TraceLemmas Verif.CeilLemmas Verif.XRound Verif.XLe
  Verif.NextInv Verif.LogLemmas Verif.SamplingLemmas Verif.PanicLemmas Verif.NextSafe Verif.RSum
  Verif.F64Acc Verif.F64Weights Verif.F64Rates Verif.F64Final Verif.F64Raw Verif.Toy Verif.ToyLemmas Verif.StateLemmas Verif.TermLemmas Verif.PropRun Verif.PropPlot
  Verif.F64Rel Verif.F64Mean Verif.F64Sigma Verif.F64Cov Verif.F64CovErr Verif.F64Path Verif.F64Conj Verif.F64Stall Verif.PropFloatParams Verif.PropFloatMean Verif.PropFloatCov Verif.PropFloatCovErr Verif.PropFloatPath Verif.PropFloatStep Verif.PropFloatConj Verif.PropFloatSigma Verif.PropPanic.
Import ListNotations.
Open Scope R_scope.

(* ---- specification ---- *)
(* The path is stopped (h = 0) when the other path is longer than this (Hansen's tutorial, appendix A): cs is the rate of the
   other path, n the dimension, g the number of generations before the call. *)
Definition stall_limit (cs n : R) (g : nat) : R := sqrt (1 - (1 - cs) ^ (2 * (g + 1))) * ((14 / 10 + 2 / (n + 1)) * expected_length n).
(* how close to the limit the computed test can be wrong, as an exponent *)
Definition stall_tolerance (cs : R) : R := (4 / cs + 30) / 2 ^ 53.

Section FloatStall.
  Context {L : Libm f64} {E : Env f64} {F : Type} (ev : F -> vec f64 -> outcome (f64 * F)).
  Let ev' := log_ev ev.

  (* the path and the matrix after a call follow the published rules with this h (this is C83, with h as a parameter) *)
  Definition follows (o : options f64) (c c' : cmaes f64 (F * list (Spec.entry f64))) (h : R) : Prop :=
    let w := p_weights (c_params c) in let m := length w in let mu := N.to_nat (o_population_size o / 2) in
    exists new ranking (y : nat -> vec f64) c1 cmu cc mu_eff,
      calls c' = calls c ++ new /\ length new = N.to_nat (o_population_size o) /\ Permutation new ranking /\
      StronglySorted (fun a b => as_good (o_mode o) (snd a) (snd b)) ranking /\
      (* y k is the step leading to the point of rank k *)
      (forall k i d, (k < N.to_nat (o_population_size o))%nat -> (i < dims o)%nat -> nth i (fst (nth k ranking d)) n0 = nadd (nth i (mean c) n0) (nmul (sigma c) (nth i (y k) n0))) /\
      f2x (p_c1 (c_params c)) = XFin c1 /\ f2x (p_cmu (c_params c)) = XFin cmu /\ f2x (p_cc (c_params c)) = XFin cc /\ f2x (p_mu_eff (c_params c)) = XFin mu_eff /\ 0 < cc <= 1 /\ 0 < mu_eff /\
      length (path c') = dims o /\
      (forall i, (i < dims o)%nat -> fin_comp (path c') i ->
        fin_comp (path c) i /\ (forall k, (k < mu)%nat -> fin_comp (y k) i) /\
        Rabs (comp (path c') i - new_path cc mu_eff h (comp (path c) i) mu (weight w) (fun k => comp (y k) i))
        <= path_tolerance cc mu_eff h (comp (path c) i) mu (weight w) (fun k => comp (y k) i)) /\
      let b k := B2R (step_weight (dims o) (whitening c) (nth k w n0) (y k)) in
      forall i j Y, (i < dims o)%nat -> (j < dims o)%nat -> is_finite (entry c' i j) = true ->
        Rabs (comp (path c') i) <= Y -> Rabs (comp (path c') j) <= Y -> (forall k, (k < m)%nat -> Rabs (comp (y k) i) <= Y /\ Rabs (comp (y k) j) <= Y) ->
          Rabs (B2R (entry c' i j) - new_entry c1 cmu cc h (B2R (entry c i j)) (comp (path c') i) (comp (path c') j) m (weight w) b (fun k => comp (y k) i) (fun k => comp (y k) j))
          <= tolerance c1 cmu (B2R (entry c i j)) (comp (path c') i) (comp (path c') j) m (weight w) b (fun k => comp (y k) i) (fun k => comp (y k) j) Y.

  Lemma stall_rates : accurate_ln -> forall o f c, reaches ev' o (f, []) c -> sizes_fit o -> dims_fit o ->
    exists cs, is (p_cs (c_params c)) cs /\ / 1000000000000 <= cs < 1 /\ (1 <= N.of_nat (dims o) <= 1099511627776)%N /\ p_dim (c_params c) = N.of_nat (dims o).
  Proof.
    intros Hln o f c Hr Hf Hdf. destruct (setup ev' Hln o _ c Hr Hf) as [seed [rs [Hp [Hd [Hraw Hlen]]]]]. destruct (path_rates ev Hln o f c Hr Hf) as [_ [M [_ [IM [_ HM]]]]]. destruct (step_rates ev' Hln o _ c Hr Hf) as [cs [_ [_ [Ic [_ [Hc _]]]]]].
    unfold dims_fit, dims in *. exists cs. split; [exact Ic|]. split; [split; [|lra]|split; [lia|rewrite Hp; reflexivity]]. rewrite Hp in Ic, IM. cbn [params_of_options p_cs p_mu_eff] in Ic, IM. eapply (cs_low _ _ M); [| | | |exact Ic]; [lia|exact IM|lra|lra].
  Qed.
  Lemma wrap_small : forall z, (-2147483648 <= z < 2147483648)%Z -> i32_wrap z = z.
  Proof. intros z H. unfold i32_wrap. rewrite Z.mod_small by lia. lia. Qed.
  Lemma stall_exponent_low : forall g, (g < 1073741823)%N -> exists p, hs_exponent g = Zpos p /\ (Zpos p <= 2147483648)%Z /\ (2 <= Pos.to_nat p)%nat /\ Pos.to_nat p = (2 * (N.to_nat g + 1))%nat.
  Proof.
    intros g Hg. unfold hs_exponent. rewrite (wrap_small (Z.of_N g)), (wrap_small (Z.of_N g + 1)), (wrap_small (2 * _)) by lia. exists (Z.to_pos (2 * (Z.of_N g + 1))). rewrite Z2Pos.id by lia. split; [reflexivity|]. split; [lia|].
    assert (Q : Pos.to_nat (Z.to_pos (2 * (Z.of_N g + 1))) = (2 * (N.to_nat g + 1))%nat) by lia. rewrite Q. lia.
  Qed.
  Lemma wrapped_exponent_low : forall g, (1073741823 <= g < 2147483648)%N -> (hs_exponent g <= 0)%Z.
  Proof.
    intros g Hg. unfold hs_exponent. rewrite (wrap_small (Z.of_N g)) by lia. unfold i32_wrap. destruct (N.eq_dec g 2147483647) as [->|Hn]; [vm_compute; discriminate|].
    rewrite (Z.mod_small (Z.of_N g + 1 + 2147483648)) by lia. replace (2 * (Z.of_N g + 1 + 2147483648 - 2147483648) + 2147483648)%Z with (2 * (Z.of_N g + 1) - 2147483648 + 1 * 4294967296)%Z by lia. rewrite Z_mod_plus_full, Z.mod_small by lia. lia.
  Qed.

  Lemma wrap_plus : forall z k, i32_wrap (z + 4294967296 * k) = i32_wrap z.
  Proof. intros z k. unfold i32_wrap. replace (z + 4294967296 * k + 2147483648)%Z with (z + 2147483648 + k * 4294967296)%Z by lia. rewrite Z_mod_plus_full. reflexivity. Qed.
  Lemma wrap_shift : forall z, exists k, i32_wrap z = (z + 4294967296 * k)%Z.
  Proof. intros z. exists (- ((z + 2147483648) / 4294967296))%Z. unfold i32_wrap. pose proof (Z.div_mod (z + 2147483648) 4294967296 ltac:(lia)). lia. Qed.
  Lemma exponent_doubles : forall g, hs_exponent g = i32_wrap (2 * (Z.of_N g + 1)).
  Proof.
    intros g. unfold hs_exponent. destruct (wrap_shift (Z.of_N g)) as [a ->]. destruct (wrap_shift (Z.of_N g + 4294967296 * a + 1)) as [b ->].
    replace (2 * (Z.of_N g + 4294967296 * a + 1 + 4294967296 * b))%Z with (2 * (Z.of_N g + 1) + 4294967296 * (2 * a + 2 * b))%Z by lia. apply wrap_plus.
  Qed.
  (* the exponent depends on the number of generations modulo 2^31 only *)
  Lemma exponent_period : forall g, hs_exponent g = hs_exponent (g mod 2147483648).
  Proof.
    intros g. rewrite !exponent_doubles. pose proof (N.div_mod g 2147483648 ltac:(lia)) as D. rewrite D at 1. rewrite N2Z.inj_add, N2Z.inj_mul. set (q := Z.of_N (g / 2147483648)). set (r := Z.of_N (g mod 2147483648)).
    replace (2 * (Z.of_N 2147483648 * q + r + 1))%Z with (2 * (r + 1) + 4294967296 * q)%Z by lia. apply wrap_plus.
  Qed.
  Lemma stall_exponent : forall g, (g mod 2147483648 < 1073741823)%N -> exists p, hs_exponent g = Zpos p /\ (Zpos p <= 2147483648)%Z /\ (2 <= Pos.to_nat p)%nat /\ Pos.to_nat p = (2 * (N.to_nat (g mod 2147483648) + 1))%nat.
  Proof. intros g Hg. rewrite exponent_period. apply stall_exponent_low. exact Hg. Qed.
  Lemma wrapped_exponent : forall g, (1073741823 <= g mod 2147483648)%N -> (hs_exponent g <= 0)%Z.
  Proof. intros g Hg. rewrite exponent_period. apply wrapped_exponent_low. split; [exact Hg|]. apply N.mod_lt. discriminate. Qed.

  (* The test is right unless the length is extremely close to the limit, for the number of generations modulo 2^31 (the exponent
     is an i32) up to 2^30 - 1; a length that is not a number stops the path. *)
  Theorem C86_rule : accurate_ln -> forall o f c par tk r c', reaches ev' o (f, []) c -> sizes_fit o -> dims_fit o ->
    next ev' par tk c = Ret (r, c') -> reports InvalidFunctionValue r = false -> (generation c mod 2147483648 < 1073741823)%N ->
    exists h cs, follows o c c' h /\ f2x (p_cs (c_params c)) = XFin cs /\ / 1000000000000 <= cs < 1 /\
      let limit := stall_limit cs (INR (dims o)) (N.to_nat (generation c mod 2147483648)) in
      0 < limit /\
      (forall l, f2x (LinAlg.magnitude (conj_path c')) = XFin l -> (l * exp (stall_tolerance cs) < limit -> h = 1) /\ (limit * exp (stall_tolerance cs) < l -> h = 0)) /\
      (is_finite (LinAlg.magnitude (conj_path c')) = false -> h = 0).
  Proof.
    intros Hln o f c par tk r c' Hr Hf Hdf Hn Hi Hg.
    destruct (path_rule ev Hln o f c par tk r c' Hr Hf Hn Hi) as [new [ranking [y [c1 [cmu [cc [M [h [A1 [A2 [A3 [A4 [A5 [A6 [A7 [A8 [A9 [A10 [A11 [Eh [_ A]]]]]]]]]]]]]]]]]]]]].
    destruct (stall_rates Hln o f c Hr Hf Hdf) as [cs [Ic [Hc [Hd Ed]]]].
    exists h, cs. split; [exists new, ranking, y, c1, cmu, cc, M; repeat (split; [assumption|]); exact A|]. split; [exact Ic|]. split; [exact Hc|]. clear A A1 A2 A3 A4 A5 A6 A7 A8 A9 A10 A11 new ranking y c1 cmu cc M.
    unfold generation in *. set (g := st_generation (c_state c)) in *. destruct (stall_exponent g Hg) as [p [Ep [P1 [P2 P3]]]].
    unfold conj_path. set (v := st_path_sigma (c_state c')) in *. clearbody v. unfold calc_hs in Eh. rewrite Ep, Ed in Eh.
    change (nltb _ _) with (stall_test (N.of_nat (dims o)) (p_cs (c_params c)) (LinAlg.magnitude v) p) in Eh.
    assert (EN : INR (dims o) = IZR (Z.of_N (N.of_nat (dims o)))) by (rewrite INR_IZR_INZ; f_equal; lia).
    assert (K : forall (len : f64) l, is len l -> 0 <= l -> let limit := stall_limit cs (INR (dims o)) (N.to_nat (g mod 2147483648)) in 0 < limit /\
      (l * exp (stall_tolerance cs) < limit -> stall_test (N.of_nat (dims o)) (p_cs (c_params c)) len p = true) /\ (limit * exp (stall_tolerance cs) < l -> stall_test (N.of_nat (dims o)) (p_cs (c_params c)) len p = false)).
    { intros len l Il Hl. pose proof (stall_decision (N.of_nat (dims o)) (p_cs (c_params c)) len cs l p Hd Ic Hc P1 P2 Il Hl) as S. cbv zeta in S. rewrite P3 in S. unfold stall_limit, expected_length, stall_tolerance. rewrite EN.
      replace (IZR (Z.of_N (N.of_nat (dims o))) ^ 2) with (IZR (Z.of_N (N.of_nat (dims o))) * IZR (Z.of_N (N.of_nat (dims o)))) by ring. cbv zeta. rewrite (Rmult_comm (sqrt (1 - _))). replace ((4 / cs + 30) / 2 ^ 53) with ((4 / cs + 30) * uu) by (field; lra). exact S. }
    assert (Lm : low (LinAlg.magnitude v) 0) by exact (sqrt_low (norm2 v)).
    split; [exact (proj1 (K n0 0 is0 (Rle_refl _)))|]. split.
    - intros l Il. assert (Hl : 0 <= l) by (destruct Lm as [Q|Q]; rewrite Il in Q; [discriminate Q|exact Q]). destruct (K _ _ Il Hl) as [_ [K1 K2]]. split; intros H; [rewrite (K1 H) in Eh|rewrite (K2 H) in Eh]; rewrite Eh; [exact (proj2 (is_B2R _ _ is1))|exact (proj2 (is_B2R _ _ is0))].
    - intros Fv. rewrite (stall_infinite _ _ _ _ _ Hd Ic Hc P1 P2 Lm Fv) in Eh. rewrite Eh. exact (proj2 (is_B2R _ _ is0)).
  Qed.

  (* In the other half of the generations the exponent has wrapped around: the path is always stopped, whatever its length. *)
  Theorem C86_wrapped : accurate_ln -> forall o f c par tk r c', reaches ev' o (f, []) c -> sizes_fit o -> dims_fit o ->
    next ev' par tk c = Ret (r, c') -> reports InvalidFunctionValue r = false -> (1073741823 <= generation c mod 2147483648)%N ->
    follows o c c' 0.
  Proof.
    intros Hln o f c par tk r c' Hr Hf Hdf Hn Hi Hg.
    destruct (path_rule ev Hln o f c par tk r c' Hr Hf Hn Hi) as [new [ranking [y [c1 [cmu [cc [M [h [A1 [A2 [A3 [A4 [A5 [A6 [A7 [A8 [A9 [A10 [A11 [Eh [_ A]]]]]]]]]]]]]]]]]]]]].
    destruct (stall_rates Hln o f c Hr Hf Hdf) as [cs [Ic [Hc [Hd Ed]]]].
    assert (h = 0). { rewrite Eh. unfold calc_hs. unfold generation in Hg. rewrite (stall_wrapped (p_cs (c_params c)) (LinAlg.magnitude (st_path_sigma (c_state c'))) _ cs _ (wrapped_exponent _ Hg) Ic Hc (sqrt_low _)). exact (proj2 (is_B2R _ _ is0)). }
    subst h. rewrite H in A. exists new, ranking, y, c1, cmu, cc, M; repeat (split; [assumption|]); exact A.
  Qed.
End FloatStall.
Print Assumptions C86_rule.
Print Assumptions C86_wrapped.

(* A session after a first call of next: the length is below the limit by far, so the path goes on. *)
Lemma case_limit : forall cs l, 4 / 10 <= cs <= 5 / 10 -> 0 <= l <= 1 -> l * exp (stall_tolerance cs) < stall_limit cs (INR 2) 1.
Proof.
  intros cs l Hc Hl. unfold stall_tolerance, stall_limit, expected_length. change (INR 2) with 2. cbn [plus mult].
  assert (T : (4 / cs + 30) / 2 ^ 53 <= / 10). { assert (Q : / cs <= 10 / 4) by (replace (10 / 4) with (/ (4 / 10)) by lra; apply Rinv_le_contravar; lra). unfold Rdiv. lra. }
  set (t := (4 / cs + 30) / 2 ^ 53) in *. clearbody t. assert (X : exp t <= 2). { apply Rle_trans with (exp (/ 10)); [apply exp_mono; exact T|]. pose proof (F64Rel.exp_low (- / 10)) as A. pose proof (exp_neg (/ 10)) as B. pose proof (exp_pos (/ 10)). nra. }
  pose proof (exp_pos t) as Pt. assert (U : l * exp t <= 2) by nra. apply Rle_lt_trans with (1 := U).
  assert (P4 : (1 - cs) ^ 4 <= 13 / 100). { pose proof (pow_incr (1 - cs) (6 / 10) 4 ltac:(lra)) as Q. lra. }
  set (z := (1 - cs) ^ 4) in *. assert (Z0 : 0 <= z) by (apply pow_le; lra). clearbody z.
  assert (Z1 : 93 / 100 <= sqrt (1 - z)). { rewrite <- (sqrt_square (93 / 100)) by lra. apply sqrt_le_1; lra. }
  assert (Z2 : 14 / 10 <= sqrt 2). { rewrite <- (sqrt_square (14 / 10)) by lra. apply sqrt_le_1; lra. }
  assert (Y : 247 / 100 <= (14 / 10 + 2 / (2 + 1)) * (sqrt 2 * (1 - 1 / (4 * 2) + 1 / (21 * 2 ^ 2)))) by lra. nra.
Qed.
Example C86_case : accurate_ln (L := rounded_libm) /\ sizes_fit c82_options /\ dims_fit c82_options /\
  exists (c a : cmaes (E := toy_env) f64 (unit * list (Spec.entry f64))) r l cs,
    reaches (LT := rounded_libm) (log_ev toy_sphere) c82_options (tt, []) c /\ (0 < generation c < 1073741823)%N /\
    next (LT := rounded_libm) (log_ev toy_sphere) false (c82_tick (RNode 1 RLeaf RLeaf)) c = Ret (r, a) /\ reports InvalidFunctionValue r = false /\
    f2x (p_cs (c_params c)) = XFin cs /\ f2x (LinAlg.magnitude (conj_path a)) = XFin l /\ 0 < l /\ l * exp (stall_tolerance cs) < stall_limit cs (INR (dims c82_options)) (N.to_nat (generation c)).
Proof.
  split; [exact rounded_accurate|]. split; [split; [vm_compute; reflexivity|vm_compute; discriminate]|]. split; [vm_compute; discriminate|].
  destruct (holds_ex (after (LT := rounded_libm) (E := toy_env) (log_ev toy_sphere) (tt, []) c82_options [ONext false (c82_tick RLeaf)])
    (fun c => (generation c =? 1)%N && (nltb (nlit 41 100) (p_cs (c_params c)) && nltb (p_cs (c_params c)) (nlit 1 2)) &&
      holds (next (LT := rounded_libm) (E := toy_env) (log_ev toy_sphere) false (c82_tick (RNode 1 RLeaf RLeaf)) c) (fun rc => negb (reports InvalidFunctionValue (fst rc)) && (nltb (LinAlg.magnitude (conj_path (snd rc))) n1 && nltb n0 (LinAlg.magnitude (conj_path (snd rc))))))) as [c [H1 H2]].
  { vm_compute. reflexivity. }
  apply after_reaches in H1. destruct H1 as [c0 [H0 H1]]. apply andb_prop in H2. destruct H2 as [H2 H3]. apply andb_prop in H2. destruct H2 as [H2 H4]. apply N.eqb_eq in H2.
  apply holds_ex in H3. destruct H3 as [[r a] [H3 K]]. cbn [fst snd] in K. apply andb_prop in K. destruct K as [K1 K]. apply andb_prop in K. destruct K as [K2 K3]. apply andb_prop in H4. destruct H4 as [H4 H5].
  assert (Fin : forall x y z : f64, is_finite x = true -> is_finite z = true -> nltb x y = true -> nltb y z = true -> is y (B2R y)).
  { intros x y z Fx Fz X Z. apply f2x_finite. rewrite f2x_ltb in X, Z. rewrite (f2x_finite _ Fx) in X. rewrite (f2x_finite _ Fz) in Z. destruct y as [s|[]| |s m e Hb]; try reflexivity; try discriminate X; try discriminate Z. }
  assert (Il : is (LinAlg.magnitude (conj_path a)) (B2R (LinAlg.magnitude (conj_path a)))) by (refine (Fin _ _ _ _ _ K3 K2); reflexivity).
  assert (Ic : is (p_cs (c_params c)) (B2R (p_cs (c_params c)))) by (refine (Fin _ _ _ _ _ H4 H5); vm_compute; reflexivity).
  assert (I41 : is (nlit 41 100) (rnd64 (41 / 100))) by (unfold nlit; apply is_div; [apply is_ofZ; lia|apply is_ofZ; lia|lra|apply bigp; lra]). assert (I12 : is (nlit 1 2) (rnd64 (1 / 2))) by (unfold nlit; apply is_div; [apply is_ofZ; lia|apply is_ofZ; lia|lra|apply bigp; lra]).
  apply (proj1 (is_lt _ _ _ _ I41 Ic)) in H4. apply (proj1 (is_lt _ _ _ _ Ic I12)) in H5. apply (proj1 (is_lt _ _ _ _ is0 Il)) in K3. apply (proj1 (is_lt _ _ _ _ Il is1)) in K2.
  destruct (near (41 / 100)) as [N1 N2]; [lra|]. assert (N3 : rnd64 (1 / 2) <= 1 / 2). { replace (1 / 2) with (bpow radix2 (-1)) by (cbn; lra). right. apply round_generic; [apply valid_rnd_round_mode|]. apply generic_format_bpow. unfold SpecFloat.fexp, SpecFloat.emin. lia. }
  exists c, a, r, (B2R (LinAlg.magnitude (conj_path a))), (B2R (p_cs (c_params c))). split; [exists c0; eexists; split; [exact H0|exact H1]|]. split; [rewrite H2; lia|].
  split; [exact H3|]. split; [apply negb_true_iff; exact K1|]. split; [exact Ic|]. split; [exact Il|]. split; [exact K3|]. rewrite H2. change (dims c82_options) with 2%nat. apply case_limit; lra.
Qed.

(* Sessions in which the exponent has wrapped exist: on a constant function, with a decomposition that never fails, every
   number of generations is reached. *)
Definition unit_env : Env f64 := {|
  rng_t := N;
  rng_seed := fun s => s;
  rng_normal := fun g => (nth (N.to_nat (g mod 11)) toy_normals n0, (g + 1)%N);
  eigen := fun m => Some (identity (length m), repeat n1 (length m));
  nan_median := fun _ => Some nnan
|}.
Lemma unit_shape : eigen_shape (E := unit_env).
Proof.
  intros n m vecs vals Hm He. cbn [eigen unit_env] in He. injection He as <- <-. destruct Hm as [Hm _]. split; [rewrite Hm; apply shape_mbuild|]. rewrite repeat_length. exact Hm.
Qed.
Lemma ones_positive : forall n, existsb (fun x : f64 => nleb x n0) (repeat n1 n) = false.
Proof. induction n as [|n IH]; [reflexivity|]. cbn [repeat existsb]. rewrite IH. reflexivity. Qed.
Lemma unit_decomposes : forall (c : cov_matrix f64) new b r, set_cov (E := unit_env) c new b = Ret r -> fst r = true.
Proof.
  intros c new b r H. unfold set_cov in H. destruct b; [|apply Ret_inj in H; rewrite <- H; reflexivity]. unfold update_eigendecomposition in H. cbn [eigen unit_env cm_cov] in H. rewrite ones_positive in H.
  repeat match type of H with obind ?e _ = _ => destruct e; cbn [obind] in H; try discriminate H end. apply Ret_inj in H. rewrite <- H. reflexivity.
Qed.
Lemma flat_log : forall (s : state f64) ys u r u', evaluate_seq (log_ev flat) s ys u = Ret (r, u') -> r <> None.
Proof.
  intros s ys. induction ys as [|y ys IH]; intros u r u' H; cbn [evaluate_seq] in H.
  - apply Ret_inj in H. apply (f_equal fst) in H. cbn [fst] in H. rewrite <- H. discriminate.
  - unfold evaluate_point in H. destruct (to_point y (st_mean s) (st_sigma s)) as [p| |]; cbn [obind] in H; try discriminate H. unfold log_ev at 1 in H. cbn [obind flat] in H. change (nis_nan (n0 : f64)) with false in H. cbn [obind] in H.
    match type of H with context [evaluate_seq (log_ev flat) s ys ?v] => destruct (evaluate_seq (log_ev flat) s ys v) as [[q u2]| |] eqn:Eq end; cbn [obind] in H; try discriminate H. apply IH in Eq. apply Ret_inj in H. apply (f_equal fst) in H. cbn [fst] in H. rewrite <- H.
    destruct q; [discriminate|contradiction].
Qed.
Lemma flat_log_next : forall {L : Libm f64} {E : Env f64} tk c r c', next (E := E) (log_ev flat) false tk c = Ret (r, c') -> reports InvalidFunctionValue r = false.
Proof.
  intros L E0 tk c r c' H. apply next_outcome in H. destruct H as [[H _]|[inds [ok [_ [H _]]]]]; [|exact H]. exfalso. unfold sample in H.
  destruct (resample _ _ _ _ _ _ _ _ _) as [[ys g]| |]; cbn [obind] in H; try discriminate H.
  destruct (evaluate_seq (log_ev flat) (c_state c) ys (sm_objective (c_sampler c))) as [[q u]| |] eqn:Eq; cbn [obind] in H; try discriminate H. apply flat_log in Eq.
  destruct q; [|contradiction]. apply Ret_inj in H. apply (f_equal fst) in H. discriminate H.
Qed.
Example C86_wrapped_case : accurate_ln (L := c78_libm) /\
  forall dim w l, (1 <= dim <= 1000)%nat -> (2 <= l <= 1000000)%N -> sizes_fit (c75_options dim w l) /\ dims_fit (c75_options dim w l) /\
    forall k, exists (c c' : cmaes (E := unit_env) f64 (unit * list (Spec.entry f64))) r, reaches (LT := c78_libm) (log_ev flat) (c75_options dim w l) (tt, []) c /\ generation c = k /\
      next (LT := c78_libm) (log_ev flat) false toy_tick c = Ret (r, c') /\ reports InvalidFunctionValue r = false.
Proof.
  split; [exact c78_ln|]. intros dim w l Hd Hl. destruct C75_case as [_ H]. destruct (H dim w l Hd Hl) as [H1 _]. split; [exact H1|]. clear H.
  split. { unfold dims_fit, dims. unfold c75_options, toy_options. cbn [apply_setters fold_left apply_setter options_new o_initial_mean]. rewrite repeat_length. lia. }
  assert (Next : forall c : cmaes (E := unit_env) f64 (unit * list (Spec.entry f64)), reaches (LT := c78_libm) (log_ev flat) (c75_options dim w l) (tt, []) c -> exists r c', next (LT := c78_libm) (log_ev flat) false toy_tick c = Ret (r, c')).
  { intros c Hr. apply (C28_next_returns_partial c78_libm unit_env _ (log_ev flat) (c75_options dim w l) (tt, []) c false toy_tick); [exact unit_shape|left; intros; discriminate|exact Hr| | |cbn; lia|discriminate].
    - intros g x _. eexists. reflexivity.
    - reflexivity. }
  assert (All : forall k : nat, exists c : cmaes (E := unit_env) f64 (unit * list (Spec.entry f64)), reaches (LT := c78_libm) (log_ev flat) (c75_options dim w l) (tt, []) c /\ generation c = N.of_nat k).
  { induction k as [|k [c [IH1 IH2]]].
    - assert (V : validate (c75_options dim w l) = None).
      { destruct dim as [|dim]; [lia|]. unfold validate.
        cbn [c75_options toy_options apply_setters fold_left apply_setter options_new o_initial_mean o_population_size o_initial_step_size o_cm repeat length Nat.eqb].
        destruct (N.ltb_spec l 2); [lia|]. vm_compute. reflexivity. }
      pose proof (cmaes_new_outcome (LT := c78_libm) (E := unit_env) 0%N 0%N (tt, @nil (Spec.entry f64)) (c75_options dim w l)) as Hn. rewrite V in Hn. destruct Hn as [c Hn].
      exists c. split; [exists c, []; split; [exists 0%N, 0%N; exact Hn|reflexivity]|]. apply cmaes_new_inv in Hn. cbv zeta in Hn. destruct Hn as [_ [_ [_ [C3 _]]]].
      unfold generation. rewrite C3. reflexivity.
    - destruct (Next c IH1) as [r [c' Hn]]. exists c'. split.
      + destruct IH1 as [c0 [ops [B Sp]]]. exists c0, (ops ++ [ONext false toy_tick]). split; [exact B|]. rewrite steps_app, Sp. cbn [obind steps step]. rewrite Hn. reflexivity.
      + pose proof (flat_log_next _ _ _ _ Hn) as Hi. apply next_outcome in Hn. destruct Hn as [[_ [Hn _]]|[inds [ok [_ [_ [_ [Hs _]]]]]]]; [congruence|].
        apply state_update_inv in Hs. destruct Hs as [yw [rm [cov U]]]. pose proof (up_set _ _ _ _ _ _ _ _ _ _ U) as Hset. apply unit_decomposes in Hset. cbn [fst] in Hset. pose proof (up_gen _ _ _ _ _ _ _ _ _ _ U) as Hg. rewrite Hset in Hg.
        unfold generation in *. rewrite Hg, IH2. lia. }
  intros k. destruct (All (N.to_nat k)) as [c [A1 A2]]. destruct (Next c A1) as [r [c' Hn]]. exists c, c', r. split; [exact A1|]. split; [rewrite A2; lia|]. split; [exact Hn|exact (flat_log_next _ _ _ _ Hn)].
Qed.
