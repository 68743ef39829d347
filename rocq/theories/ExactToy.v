(* A concrete environment in exact arithmetic with an exact eigen solver for symmetric 2 x 2 matrices, for the examples. *)
From Coq Require Import List NArith ZArith Bool Arith Lia Reals Lra.
Require Import Verif.Base Verif.Num Verif.XReal Verif.XLe Verif.LinAlg Verif.Mode Verif.Weights Verif.Options Verif.Params Verif.Env
  Verif.State Verif.Sampling Verif.History Verif.Termination Verif.Plot Verif.Cmaes Verif.Lib Verif.Order
  Verif.NextInv Verif.Spec Verif.LogLemmas Verif.SamplingLemmas Verif.BuildLemmas Verif.TraceLemmas Verif.PanicLemmas Verif.NextSafe Verif.CastLemmas Verif.Session
  Verif.RSum Verif.WeightLemmas Verif.ExactStep Verif.ExactEigen Verif.ExactInv Verif.PropRun Verif.XToy.
Import ListNotations.
Open Scope nat_scope.

(* the matrix with rows (a, b) and (b, d) *)
Definition plane_eigen (a b d : R) : mat xreal * vec xreal :=
  if Req_EM_T b 0 then ([[XFin 1; XFin 0]; [XFin 0; XFin 1]], [XFin a; XFin d])
  else
    let l := ((a + d + sqrt ((a - d) * (a - d) + 4 * (b * b))) / 2)%R in
    let s := sqrt (b * b + (l - a) * (l - a)) in
    ([[XFin (b / s); XFin (- ((l - a) / s))]; [XFin ((l - a) / s); XFin (b / s)]], [XFin l; XFin (a + d - l)]).
(* normal numbers 1, 2, 3, 1, ... *)
Definition plane_env : Env xreal := {|
  rng_t := N;
  rng_seed := fun s => s;
  rng_normal := fun g => (XFin (IZR (Z.of_N (g mod 3) + 1)), (g + 1)%N);
  eigen := fun m => match m with
                    | [[XFin a; XFin b]; [_; XFin d]] => Some (plane_eigen a b d)
                    | _ => None
                    end;
  nan_median := fun _ => Some XNaN
|}.
Local Existing Instance plane_env.

Lemma plane_shape : eigen_shape (T := xreal).
Proof.
  intros n m vecs vals [H1 H2] He. cbn [eigen plane_env] in He.
  destruct m as [|[|[| |a] [|[| |b] [|]]] [|[|x [|[| |d] [|]]] [|]]]; try discriminate He. cbn [length] in H1. subst n.
  injection He as He. unfold plane_eigen in He. destruct (Req_EM_T b 0); cbv zeta in He; injection He as <- <-; (split; [|reflexivity]); split; try reflexivity; repeat constructor.
Qed.
Lemma rotation : forall A u w l1 l2, symmetric 2 A -> (u * u + w * w = 1)%R ->
  (A 0%nat 0%nat * u + A 0%nat 1%nat * w = u * l1)%R -> (A 0%nat 1%nat * u + A 1%nat 1%nat * w = w * l1)%R ->
  (- (A 0%nat 0%nat * w) + A 0%nat 1%nat * u = - w * l2)%R -> (- (A 0%nat 1%nat * w) + A 1%nat 1%nat * u = u * l2)%R ->
  exists V lam, fm 2 [[XFin u; XFin (- w)]; [XFin w; XFin u]] V /\ fv 2 [XFin l1; XFin l2] lam /\ orthogonal 2 V /\ diagonalizes 2 A V lam.
Proof.
  intros A u w l1 l2 Hs H1 H2 H3 H4 H5.
  exists (fun i j => match i, j with O, O => u | O, S _ => (- w)%R | S _, O => w | S _, S _ => u end), (fun i => match i with O => l1 | S _ => l2 end).
  pose proof (Hs 1 0 ltac:(lia) ltac:(lia)) as S10.
  assert (C : forall i, i < 2 -> i = 0 \/ i = 1) by (intros; lia).
  split; [|split; [|split]].
  - split; [reflexivity|]. intros i Hi. split; [destruct (C i Hi) as [-> | ->]; reflexivity|]. intros j Hj. destruct (C i Hi) as [-> | ->], (C j Hj) as [-> | ->]; reflexivity.
  - split; [reflexivity|]. intros i Hi. destruct (C i Hi) as [-> | ->]; reflexivity.
  - split; intros i j Hi Hj; destruct (C i Hi) as [-> | ->], (C j Hj) as [-> | ->]; unfold delta; cbn [Sig Nat.eqb]; lra.
  - intros i j Hi Hj. destruct (C i Hi) as [-> | ->], (C j Hj) as [-> | ->]; cbn [Sig]; rewrite ?S10; lra.
Qed.
Lemma plane_solver : exact_solver 2.
Proof.
  intros m A [H1 H2] Hs. destruct m as [|r0 [|r1 [|]]]; try discriminate H1.
  pose proof (H2 0 ltac:(lia)) as [L0 V0]. pose proof (H2 1 ltac:(lia)) as [L1 V1]. cbn [nth] in L0, V0, L1, V1.
  destruct r0 as [|x00 [|x01 [|]]]; try discriminate L0. destruct r1 as [|x10 [|x11 [|]]]; try discriminate L1.
  pose proof (V0 0 ltac:(lia)) as E00. pose proof (V0 1 ltac:(lia)) as E01. pose proof (V1 0 ltac:(lia)) as E10. pose proof (V1 1 ltac:(lia)) as E11. cbn [nth] in E00, E01, E10, E11.
  subst. cbn [eigen plane_env]. unfold plane_eigen. set (a := A 0 0). set (b := A 0 1). set (d := A 1 1).
  destruct (Req_EM_T b 0) as [Hb|Hb].
  - destruct (rotation A 1 0 a d Hs) as [V [lam [R1 [R2 [R3 R4]]]]]; fold a b d; try (rewrite ?Hb; lra).
    eexists _, _, V, lam. split; [reflexivity|]. rewrite Ropp_0 in R1. auto.
  - cbv zeta. set (q := sqrt ((a - d) * (a - d) + 4 * (b * b))). set (l := ((a + d + q) / 2)%R). set (s := sqrt (b * b + (l - a) * (l - a))).
    assert (Hq : (q * q = (a - d) * (a - d) + 4 * (b * b))%R) by (apply sqrt_sqrt; pose proof (Rle_0_sqr (a - d)) as Q1; pose proof (Rle_0_sqr b) as Q2; unfold Rsqr in Q1, Q2; lra).
    assert (Hl : ((l - a) * (l - d) = b * b)%R) by (unfold l; nra).
    assert (P : (0 < b * b + (l - a) * (l - a))%R). { assert (0 < b * b)%R by (destruct (Rtotal_order b 0) as [X|[X|X]]; [nra|contradiction|nra]). pose proof (Rle_0_sqr (l - a)) as Q. unfold Rsqr in Q. lra. }
    assert (Hs2 : (s * s = b * b + (l - a) * (l - a))%R) by (apply sqrt_sqrt; lra). assert (S0 : (0 < s)%R) by (apply sqrt_lt_R0; exact P).
    clearbody s l q. destruct (rotation A (b / s) ((l - a) / s) l (a + d - l) Hs) as [V [lam [R1 [R2 [R3 R4]]]]]; fold a b d.
    + replace (b / s * (b / s) + (l - a) / s * ((l - a) / s))%R with ((b * b + (l - a) * (l - a)) / (s * s))%R by (field; lra). rewrite Hs2. field. lra.
    + field. lra.
    + replace (b * (b / s) + d * ((l - a) / s))%R with ((b * b + d * (l - a)) / s)%R by (field; lra). rewrite <- Hl. field. lra.
    + replace (- (a * ((l - a) / s)) + b * (b / s))%R with ((b * b - a * (l - a)) / s)%R by (field; lra). rewrite <- Hl. field. lra.
    + field. lra.
    + eexists _, _, V, lam. split; [reflexivity|]. auto.
Qed.
Lemma rng_after_plane : forall k g, rng_after k g = (g + N.of_nat k)%N.
Proof. induction k as [|k IH]; intros g; cbn [rng_after]; [lia|]. cbn [rng_normal plane_env snd]. rewrite IH. lia. Qed.
Lemma plane_draws : forall n, 1 <= n -> nonzero_draws n.
Proof.
  intros n Hn g k. unfold normals.
  exists (fun i => IZR (Z.of_N ((g + N.of_nat (k * n + i)) mod 3) + 1)). split.
  - split; [rewrite map_length, seq_length; reflexivity|]. intros i Hi. rewrite (nth_indep _ _ (normal_at g 0)) by (rewrite map_length, seq_length; exact Hi).
    rewrite map_nth, seq_nth by exact Hi. unfold normal_at. rewrite rng_after_plane. reflexivity.
  - exists 0. split; [lia|]. generalize (((g + N.of_nat (k * n + 0)) mod 3)%N). intros z Hz. apply (eq_IZR _ 0) in Hz. lia.
Qed.

(* without constraints, or with a box that contains the candidates of the first generation *)
Definition plane_setters (w : weights_setting) (box : bool) : list (setter xreal) :=
  [SPopulationSize 6; SSeed 7; SWeights w] ++ (if box then [SBounds [XFin 0; XFin 0] [XFin 10; XInf false]; SMaxResamples None] else []).
Definition plane_options (w : weights_setting) (box : bool) : options xreal :=
  apply_setters (options_new [XFin 3; XFin 4] (XFin (1/2))) (plane_setters w box).
Lemma plane_valid : forall w b, validate (plane_options w b) = None.
Proof.
  intros w b. pose proof (xtoy_valid [XFin 3; XFin 4] ltac:(discriminate)) as V. unfold validate in *. destruct b;
    cbn [plane_options plane_setters app xtoy_options apply_setters fold_left apply_setter options_new o_initial_mean o_population_size o_initial_step_size o_cm length Nat.eqb N.ltb N.compare Pos.compare Pos.compare_cont] in *; exact V.
Qed.
Lemma plane_mean : fv 2 [XFin 3; XFin 4] (fun i => match i with O => 3%R | S _ => 4%R end).
Proof. split; [reflexivity|]. intros [|[|i]] Hi; [reflexivity|reflexivity|lia]. Qed.
Lemma plane_world : forall w b, world (plane_options w b).
Proof.
  intros w b. assert (D : dims (plane_options w b) = 2) by (destruct b; reflexivity). constructor.
  - apply plane_valid.
  - rewrite D. eexists. destruct b; exact plane_mean.
  - rewrite D. exact plane_solver.
  - rewrite D. intros g k. destruct (plane_draws 2 ltac:(lia) g k) as [z [Hz _]]. eauto.
  - intros _. rewrite D. apply plane_draws. lia.
Qed.
(* an objective that never returns NaN *)
Definition plane_sphere (_ : unit) (x : vec xreal) : outcome (xreal * unit) := Ret (if nis_nan (norm2 x) then XInf false else norm2 x, tt).
Definition plane_ev := log_ev plane_sphere.
Lemma plane_total : forall g x, exists r, plane_ev g x = Ret r /\ nis_nan (fst r) = false.
Proof. intros g x. eexists. split; [reflexivity|]. cbn [fst]. destruct (nis_nan (norm2 x)) eqn:E; [reflexivity|exact E]. Qed.
Lemma plane_evaluates : forall s ys f r f', evaluate_seq plane_ev s ys f = Ret (r, f') -> r <> None.
Proof.
  induction ys as [|y ys IH]; intros f r f' H; cbn [evaluate_seq] in H.
  - injection H as <- _. discriminate.
  - oinv H. destruct a as [q f1]. unfold evaluate_point in Ho. oinv Ho. oinv Ho. destruct (plane_total f a) as [z [Z1 Z2]]. rewrite Z1 in Ho1. injection Ho1 as ->. destruct a0 as [v g]. cbn [fst] in Z2. rewrite Z2 in Ho.
    injection Ho as <- <-. oinv H. destruct a0 as [r' f2]. specialize (IH _ _ _ Ho). destruct r'; [|congruence]. injection H as <- _. discriminate.
Qed.
Lemma plane_medians : medians_return (T := xreal).
Proof. intros l. discriminate. Qed.
Lemma plane_next : forall w c tk, reaches plane_ev (plane_options w false) (tt, []) c -> 1 <= t_fuel tk ->
  exists r c', next plane_ev false tk c = Ret (r, c') /\ reports InvalidFunctionValue r = false.
Proof.
  intros w c tk Hr Ht. pose proof (reaches_wf plane_shape plane_ev _ _ _ Hr) as Hw.
  assert (G : safe False False (fun r => wf (plane_options w false) (snd r)) (next plane_ev false tk c)).
  { apply (next_safe_wf plane_shape plane_ev False False _ c false tk Hw (or_intror (or_introl plane_medians))).
    - split; [|exact I]. intros g x _. destruct (plane_total g x) as [r [-> _]]. exact I.
    - right. split; [exact Ht|discriminate]. }
  apply safe_ret in G. destruct G as [[r c'] [G _]]. exists r, c'. split; [exact G|].
  destruct (next_outcome plane_ev _ _ _ _ _ G) as [[X _]|[inds [ok [_ [X _]]]]]; [|exact X]. exfalso.
  unfold sample in X. oinv X. destruct a as [ys g]. oinv X. destruct a as [q f]. apply plane_evaluates in Ho0. destruct q; [|congruence]. discriminate X.
Qed.

(* the candidates of the first round satisfy the constraints *)
Lemma first_round : forall fuel dim lambda meets (s : state xreal) g ys g',
  sample_steps lambda dim (Some meets) s g = Ret (ys, g') ->
  (forall k, k < lambda -> satisfies meets (transformed s (normals dim g k)) = true) ->
  resample (S fuel) dim lambda (Some meets) None s 0 [] g = Ret (ys, g').
Proof.
  intros fuel dim lambda meets s g ys g' H Ha. pose proof (sample_steps_spec _ _ _ _ _ _ _ H) as S. cbv zeta in S. destruct S as [S _].
  assert (L : length ys = lambda).
  { rewrite S. assert (X : forall l, (forall k, In k l -> k < lambda) -> length (filter (okb (Some meets) s) (map (fun k => map (fun row => dot row (normals dim g k)) (cm_transform (st_cov s))) l)) = length l).
    { induction l as [|k l IH]; intros Hl; [reflexivity|]. cbn [map filter]. assert (Y : okb (Some meets) s (map (fun row => dot row (normals dim g k)) (cm_transform (st_cov s))) = true) by (apply (Ha k); apply Hl; left; reflexivity).
      rewrite Y. cbn [length]. rewrite IH; [reflexivity|]. intros. apply Hl. right. assumption. }
    rewrite X; [apply seq_length|]. intros k Hk. apply in_seq in Hk. lia. }
  cbn [resample length Nat.ltb Nat.leb]. rewrite Nat.sub_0_r. destruct (lambda =? 0) eqn:E.
  - apply Nat.eqb_eq in E. rewrite E in *. destruct ys; [|discriminate L]. cbn in H. injection H as ->. reflexivity.
  - rewrite H. cbn [obind app]. destruct fuel; cbn [resample]; rewrite L, Nat.ltb_irrefl, Nat.sub_diag; reflexivity.
Qed.
Lemma plane_normals : forall g k, exists z0 z1, normals 2 g k = [XFin z0; XFin z1] /\ (1 <= z0 <= 3)%R /\ (1 <= z1 <= 3)%R.
Proof.
  intros g k. unfold normals. cbn [seq map]. unfold normal_at. cbn [rng_normal plane_env fst].
  assert (X : forall j : N, (1 <= IZR (Z.of_N (j mod 3) + 1) <= 3)%R).
  { intros j. pose proof (N.mod_lt j 3 ltac:(discriminate)) as M. generalize dependent (j mod 3)%N. intros z Hz. split; apply IZR_le; lia. }
  eexists _, _. split; [reflexivity|]. split; apply X.
Qed.
Lemma box_leb : forall l x, (l <= x)%R -> nleb (XFin l) (XFin x) = true.
Proof. intros l x H. change (x_leb (XFin l) (XFin x) = true). apply xle_leb. exact H. Qed.
Lemma plane_inside : forall w f c k, built (plane_options w true) f c ->
  satisfies (bounds_meets [XFin 0; XFin 0] [XFin 10; XInf false]) (transformed (c_state (F := unit * list (entry xreal)) c) (normals 2 7%N k)) = true.
Proof.
  intros w f c k [rs [now Hb]]. pose proof (cmaes_new_inv _ _ _ _ _ Hb) as C. cbv zeta in C. destruct C as [_ [_ [_ [C4 _]]]]. rewrite C4.
  destruct (plane_normals 7%N k) as [z0 [z1 [-> [Z0 Z1]]]].
  assert (Ht : transformed (state_new [XFin 3; XFin 4] (XFin (1 / 2))) [XFin z0; XFin z1] = [XFin (3 + 1 / 2 * z0); XFin (4 + 1 / 2 * z1)]).
  { unfold transformed. cbn [state_new st_mean st_sigma st_cov cm_transform length]. unfold identity, mbuild. cbn. repeat f_equal; lra. }
  cbn [plane_options plane_setters app apply_setters fold_left apply_setter options_new o_initial_mean o_initial_step_size]. rewrite Ht.
  unfold satisfies. rewrite (proj2 (bounds_true _ _ _)); [reflexivity|]. intros [|[|i]] Hi; cbn [length] in Hi; [| |lia]; eexists _, _, _; cbn [nth_error]; split; try reflexivity; split; try reflexivity; split; try reflexivity; split; try reflexivity; apply box_leb; lra.
Qed.
Lemma safe_fuel : forall {A} (Q : A -> Prop) (x : outcome A), safe False True Q x -> x <> NoFuel -> safe False False Q x.
Proof. intros A Q [a|p|] H N; cbn in *; auto. Qed.
Lemma plane_box : forall w c, built (plane_options w true) (tt, []) c -> exists r c', next plane_ev false (xtoy_tick RLeaf) c = Ret (r, c').
Proof.
  intros w c Hb. assert (Hr : reaches plane_ev (plane_options w true) (tt, []) c) by (exists c, []; split; [exact Hb|reflexivity]).
  set (o := plane_options w true) in *. pose proof (reaches_wf plane_shape plane_ev _ _ _ Hr) as Hw.
  assert (Dm : dims o = 2) by reflexivity. assert (Pp : pop o = 6) by reflexivity.
  set (meets := bounds_meets [XFin 0; XFin 0] [XFin 10; XInf false] : constraints xreal).
  assert (Hc : o_constraints o = Some meets) by reflexivity. assert (Hm : o_max_resamples o = None) by reflexivity.
  assert (Wm : forall nf, wf_meets 2 False nf (Some meets)).
  { intros nf x Hx. destruct x as [|a [|b [|]]]; try discriminate Hx. unfold meets, bounds_meets. cbn. repeat (match goal with |- context [if ?b then _ else _] => destruct b; cbn end); exact I. }
  assert (We : forall nf f x, length x = 2 -> safe False nf (fun _ => True) (plane_ev f x)).
  { intros nf f x _. destruct (plane_total f x) as [q [-> _]]. exact I. }
  pose proof Hb as [rs [now Hb']]. pose proof (cmaes_new_inv _ _ _ _ _ Hb') as C. cbv zeta in C. destruct C as [_ [Sm _]].
  assert (Rg : sm_rng (c_sampler c) = 7%N) by (rewrite Sm; reflexivity).
  assert (Ws : wf_state 2 (c_state c)) by (rewrite <- Dm; apply Hw).
  pose proof (sample_steps_safe 2 ltac:(lia) False False 6 (Some meets) (c_state c) 7%N Ws (Wm False)) as S0. apply safe_ret in S0. destruct S0 as [[ys g] [S1 [S2 _]]]. cbn [fst] in S2.
  pose proof (first_round 49 2 6 meets _ _ _ _ S1 (fun k _ => plane_inside w _ c k Hb)) as S4.
  pose proof (evaluate_seq_safe plane_ev 2 False False (We False) (c_state c) ys (sm_objective (c_sampler c)) Ws S2) as E0. apply safe_ret in E0. destruct E0 as [[r f] [E1 _]].
  assert (Sn : sample plane_ev false (xtoy_tick RLeaf) (c_state c) (p_mode (c_params c)) (c_sampler c) <> NoFuel).
  { unfold sample. cbn [t_fuel xtoy_tick]. rewrite (wf_sm_con _ _ Hw), (wf_sm_max _ _ Hw), (wf_sm_pop _ _ Hw), (wf_sm_dim _ _ Hw), Rg, Hc, Hm, Dm. fold (pop o). rewrite Pp, S4. cbn [obind]. rewrite E1. cbn [obind]. destruct r; discriminate. }
  assert (G : safe False False (fun r => wf o (snd r) /\ match fst r with Some inds => wf_inds (dims o) (pop o) inds | None => True end) (cmaes_sample plane_ev false (xtoy_tick RLeaf) c)).
  { unfold cmaes_sample. 
    pose proof (sample_safe plane_ev 2 ltac:(lia) False True (We True) false (xtoy_tick RLeaf) (c_state c) (p_mode (c_params c)) (c_sampler c) Ws ltac:(rewrite <- Dm; apply Hw) ltac:(rewrite (wf_sm_con _ _ Hw); apply Wm) (or_introl I)) as Hs.
    apply safe_fuel in Hs; [|exact Sn]. rewrite (wf_sm_pop _ _ Hw) in Hs. fold (pop o) in Hs. rewrite <- Dm in Hs.
    apply safe_ret in Hs. destruct Hs as [[r' sm] [Es Hs]]. rewrite Es. cbn [obind fst snd] in *.
    pose proof (sample_setup plane_ev false _ _ _ _ _ _ Es) as [Q1 [Q2 [Q3 Q4]]].
    destruct r' as [inds|].
    - eapply safe_bind; [eapply safe_weaken; [apply (history_safe (dims o) (wf_dim _ _ Hw) (pop o) (wf_pop _ _ Hw)); [exact Hs|apply Hw]|intros h Hh; exact Hh]|].
      intros h Hh. cbn [safe fst snd]. split; [|exact Hs]. clear Sm Hb'. clearbody o. destruct Hw. constructor; cbn [c_params c_sampler c_state c_history c_plot]; try assumption; congruence.
    - cbn [safe fst snd]. split; [|exact I]. clear Sm Hb'. clearbody o. destruct Hw. constructor; cbn [c_params c_sampler c_state c_history c_plot]; try assumption; congruence. }
  apply safe_ret in G. destruct G as [[r' c1] [G1 [G2 G3]]]. unfold next. rewrite G1. cbn [obind fst snd] in *. destruct r' as [inds|]; [|eauto].
  pose proof (next_internal_safe plane_shape False o c1 (xtoy_tick RLeaf) inds G2 G3 (or_intror (or_introl plane_medians))) as X. apply safe_ret in X. destruct X as [[q c2] [X _]]. rewrite X. eauto.
Qed.
