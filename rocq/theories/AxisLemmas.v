(* The axis ratio: quotient of the greatest and the least entry, and not below 1. *)
From Coq Require Import List NArith ZArith Bool Arith Lia Reals Lra Psatz.
From Flocq Require Import Core IEEE754.BinarySingleNaN.
Require Import Verif.Base Verif.Num Verif.F64 Verif.XReal Verif.LinAlg Verif.Mode Verif.State
  Verif.Order Verif.Sort Verif.Spec Verif.F64Lemmas Verif.CeilLemmas Verif.TermSpec.
Import ListNotations.
Open Scope nat_scope.

Lemma leb_not_lt : forall a b : f64, nis_nan a = false -> nis_nan b = false -> nleb a b = negb (nltb b a).
Proof.
  intros a b Ha Hb. rewrite ol_le, ol_eq, Ha, Hb. cbn [negb andb]. destruct (nltb a b) eqn:E; [|reflexivity].
  rewrite (lt_asym _ _ E). reflexivity.
Qed.

Lemma vmax_fold : forall (l pre : list f64) x, Forall (fun v => nis_nan v = false) (pre ++ l) -> greatest pre x ->
  greatest (pre ++ l) (fold_left (fun a b => if ngeb a b then a else b) l x).
Proof.
  induction l as [|y l IH]; intros pre x Hn Hg; cbn [fold_left].
  - rewrite app_nil_r. exact Hg.
  - replace (pre ++ y :: l) with ((pre ++ [y]) ++ l) in * by (rewrite <- app_assoc; reflexivity). apply IH; auto.
    pose proof Hn as Hn'. apply Forall_app in Hn'. destruct Hn' as [Hn' _]. apply Forall_app in Hn'. destruct Hn' as [Np Ny].
    inversion Ny as [|? ? Ny' _]; subst. destruct Hg as [G1 G2].
    assert (Nx : nis_nan x = false) by (rewrite Forall_forall in Np; apply Np; exact G1).
    unfold ngeb. rewrite leb_not_lt by assumption. destruct (nltb x y) eqn:Ec; cbn [negb].
    + split; [apply in_or_app; right; left; reflexivity|]. apply Forall_app; split; [|repeat constructor; apply ol_irrefl].
      rewrite Forall_forall in G2 |- *; intros z Hz; specialize (G2 z Hz). apply (ol_negtrans y x z); auto. apply lt_asym; auto.
    + split; [apply in_or_app; left; exact G1|]. apply Forall_app. split; [exact G2|]. repeat constructor. exact Ec.
Qed.
Lemma vmin_fold : forall (l pre : list f64) x, Forall (fun v => nis_nan v = false) (pre ++ l) -> least pre x ->
  least (pre ++ l) (fold_left (fun a b => if nleb a b then a else b) l x).
Proof.
  induction l as [|y l IH]; intros pre x Hn Hg; cbn [fold_left].
  - rewrite app_nil_r. exact Hg.
  - replace (pre ++ y :: l) with ((pre ++ [y]) ++ l) in * by (rewrite <- app_assoc; reflexivity). apply IH; auto.
    pose proof Hn as Hn'. apply Forall_app in Hn'. destruct Hn' as [Hn' _]. apply Forall_app in Hn'. destruct Hn' as [Np Ny].
    inversion Ny as [|? ? Ny' _]; subst. destruct Hg as [G1 G2].
    assert (Nx : nis_nan x = false) by (rewrite Forall_forall in Np; apply Np; exact G1).
    rewrite leb_not_lt by assumption. destruct (nltb y x) eqn:Ec; cbn [negb].
    + split; [apply in_or_app; right; left; reflexivity|]. apply Forall_app; split; [|repeat constructor; apply ol_irrefl].
      rewrite Forall_forall in G2 |- *; intros z Hz; specialize (G2 z Hz). apply (ol_negtrans z x y); auto. apply lt_asym; auto.
    + split; [apply in_or_app; left; exact G1|]. apply Forall_app. split; [exact G2|]. repeat constructor. exact Ec.
Qed.
Lemma vmax_greatest : forall l : list f64, l <> [] -> Forall (fun v => nis_nan v = false) l -> greatest l (vmax l).
Proof.
  intros [|x l] H Hn; [congruence|]. apply (vmax_fold l [x] x); auto. split; [left; reflexivity|]. repeat constructor. apply ol_irrefl.
Qed.
Lemma vmin_least : forall l : list f64, l <> [] -> Forall (fun v => nis_nan v = false) l -> least l (vmin l).
Proof.
  intros [|x l] H Hn; [congruence|]. apply (vmin_fold l [x] x); auto. split; [left; reflexivity|]. repeat constructor. apply ol_irrefl.
Qed.

(* the rounded quotient of positive finite numbers a <= b is at least 1 *)
Lemma div_ge_1 : forall a b : f64, is_finite a = true -> is_finite b = true -> nltb n0 a = true -> nltb b a = false ->
  nleb n1 (ndiv b a) = true.
Proof.
  intros a b Fa Fb Ha Hab.
  assert (Pa : (0 < B2R a)%R).
  { change (Bltb (B754_zero false : f64) a = true) in Ha. rewrite Bltb_correct in Ha by auto. cbn [B2R] in Ha.
    destruct (Rlt_bool_spec 0 (B2R a)); [assumption|discriminate]. }
  assert (Hle : (B2R a <= B2R b)%R).
  { change (Bltb b a = false) in Hab. rewrite Bltb_correct in Hab by auto.
    destruct (Rlt_bool_spec (B2R b) (B2R a)); [discriminate|assumption]. }
  pose proof (Bdiv_correct 53 1024 f64_prec f64_emax mode_NE b a (Rgt_not_eq _ _ Pa)) as H. cbv zeta in H.
  set (q := (B2R b / B2R a)%R) in *.
  assert (Hq : (1 <= q)%R).
  { unfold q. apply Rmult_le_reg_r with (B2R a); auto. unfold Rdiv. rewrite Rmult_assoc, Rinv_l by lra. lra. }
  assert (Hr : (1 <= rnd64 q)%R).
  { rewrite <- (rnd64_id 1) by (apply (format_IZR 1); simpl; lia). apply rnd64_le. exact Hq. }
  change (round radix2 (SpecFloat.fexp 53 1024) (round_mode mode_NE) q) with (rnd64 q) in H.
  change (Bleb n1 (f64_div b a) = true). change (Bdiv mode_NE b a) with (f64_div b a) in H. set (d := f64_div b a) in *. clearbody d q.
  destruct (Rlt_bool (Rabs (rnd64 q)) (bpow radix2 1024)).
  - destruct H as [H1 [H2 _]]. destruct (f64_ofZ_exact 1) as [F1 E1]; [simpl; lia|].
    change (n1 : f64) with (f64_ofZ 1). rewrite Bleb_correct; [|exact F1|rewrite H2; exact Fb]. rewrite E1, H1.
    apply Rle_bool_true. exact Hr.
  - assert (Sg : xorb (Bsign b) (Bsign a) = false).
    { assert (Sp : forall z : f64, (0 < B2R z)%R -> Bsign z = false).
      { intros [s|s| |s m e He] Hz; cbn [B2R] in Hz; try lra. destruct s; auto. exfalso.
        apply (Rlt_irrefl 0). apply Rlt_trans with (1 := Hz). apply F2R_lt_0. reflexivity. }
      rewrite !Sp by lra. reflexivity. }
    rewrite Sg in H. destruct d as [s|s| |s m e He]; try discriminate H. cbn in H. inversion H; subst s. vm_compute. reflexivity.
Qed.

Theorem axis_ratio_spec : forall (s : state f64), diagonal (cm_sqrt_eigenvalues (st_cov s)) <> [] ->
  Forall (fun x => is_finite x = true /\ nltb n0 x = true) (diagonal (cm_sqrt_eigenvalues (st_cov s))) ->
  exists a b, greatest (diagonal (cm_sqrt_eigenvalues (st_cov s))) b /\ least (diagonal (cm_sqrt_eigenvalues (st_cov s))) a /\
    axis_ratio s = ndiv b a /\ nleb n1 (axis_ratio s) = true.
Proof.
  intros s Hne Hf. unfold axis_ratio. set (l := diagonal _) in *.
  assert (Hn : Forall (fun v => nis_nan v = false) l).
  { eapply Forall_impl; [|exact Hf]. intros v [Hv _]. destruct v; try discriminate; reflexivity. }
  pose proof (vmax_greatest l Hne Hn) as Hg. pose proof (vmin_least l Hne Hn) as Hl.
  exists (vmin l), (vmax l). split; [exact Hg|]. split; [exact Hl|]. split; [reflexivity|].
  rewrite Forall_forall in Hf. destruct (Hf _ (proj1 Hg)) as [F1 _]. destruct (Hf _ (proj1 Hl)) as [F2 P2].
  apply div_ge_1; auto. destruct Hl as [_ Hl]. rewrite Forall_forall in Hl. apply Hl. exact (proj1 Hg).
Qed.

Lemma f64_mul_1_l : forall x : f64, nmul n1 x = x.
Proof.
  intros x. change (nmul n1 x) with (f64_mul (f64_ofZ 1) x). destruct (f64_ofZ_exact 1) as [F1 E1]; [simpl; lia|].
  destruct (is_finite x) eqn:Fx.
  2: { destruct x as [s|s| |s m e He]; try discriminate; [destruct s|]; reflexivity. }
  pose proof (Bmult_correct 53 1024 f64_prec f64_emax mode_NE (f64_ofZ 1) x) as H. cbv zeta in H. rewrite E1, Rmult_1_l in H.
  change (round radix2 (SpecFloat.fexp 53 1024) (round_mode mode_NE) (B2R x)) with (rnd64 (B2R x)) in H.
  rewrite rnd64_id in H by (apply generic_format_B2R).
  rewrite Rlt_bool_true in H by (apply (abs_B2R_lt_emax 53 1024)). destruct H as [H1 [H2 H3]].
  change (Bmult mode_NE (f64_ofZ 1) x) with (f64_mul (f64_ofZ 1) x) in *.
  rewrite F1, Fx in H2. apply B2R_Bsign_inj; auto. rewrite H3.
  - assert (S1 : Bsign (f64_ofZ 1) = false) by (vm_compute; reflexivity). rewrite S1. apply xorb_false_l.
  - destruct (f64_mul (f64_ofZ 1) x); try discriminate; reflexivity.
Qed.
