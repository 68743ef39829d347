(* Relating two executions: outcomes, evaluation, sampling. *)
From Coq Require Import List NArith ZArith Bool Arith Lia Permutation.
Require Import Verif.Base Verif.Num Verif.LinAlg Verif.Mode Verif.Weights Verif.Options Verif.Params Verif.Env
  Verif.State Verif.Sampling Verif.History Verif.Termination Verif.Plot Verif.Cmaes Verif.Lib Verif.Sort Verif.Spec.
Import ListNotations.

Definition out_rel {A B} (R : A -> B -> Prop) (x : outcome A) (y : outcome B) : Prop :=
  match x, y with
  | Ret a, Ret b => R a b
  | Panic p, Panic q => p = q
  | NoFuel, NoFuel => True
  | _, _ => False
  end.
(* as out_rel; if free holds, nothing is claimed unless both return *)
Definition out_relp (free : Prop) {A B} (R : A -> B -> Prop) (x : outcome A) (y : outcome B) : Prop :=
  match x, y with
  | Ret a, Ret b => R a b
  | Panic p, Panic q => p = q \/ free
  | NoFuel, NoFuel => True
  | _, _ => free
  end.
Lemma out_relp_bind : forall free {A B A' B'} (R : A -> B -> Prop) (R' : A' -> B' -> Prop) x y k k',
  out_relp free R x y -> (forall a b, R a b -> out_relp free R' (k a) (k' b)) -> out_relp free R' (obind x k) (obind y k').
Proof.
  intros free A B A' B' R R' [a|p|] [b|q|] k k' H1 H2; simpl in *; auto.
  - destruct (k a); simpl; auto.
  - destruct (k a); simpl; auto.
  - destruct (k' b); simpl; auto.
  - destruct (k' b); simpl; auto.
Qed.
Lemma out_relp_of : forall free {A B} (R : A -> B -> Prop) x y, out_rel R x y -> out_relp free R x y.
Proof. intros free A B R [a|p|] [b|q|] H; simpl in *; auto; contradiction. Qed.
Lemma out_relp_False : forall {A B} (R : A -> B -> Prop) x y, out_relp False R x y -> out_rel R x y.
Proof. intros A B R [a|p|] [b|q|] H; simpl in *; auto. destruct H; [auto|contradiction]. Qed.
Lemma out_relp_impl : forall free {A B} (R R' : A -> B -> Prop) x y,
  out_relp free R x y -> (forall a b, R a b -> R' a b) -> out_relp free R' x y.
Proof. intros free A B R R' [a|p|] [b|q|] H1 H2; simpl in *; auto. Qed.
Lemma out_relp_Ret : forall free {A B} (R : A -> B -> Prop) x y a b, out_relp free R x y -> x = Ret a -> y = Ret b -> R a b.
Proof. intros free A B R x y a b H -> ->. exact H. Qed.
Definition opt_rel {A B} (R : A -> B -> Prop) (x : option A) (y : option B) : Prop :=
  match x, y with Some a, Some b => R a b | None, None => True | _, _ => False end.

Lemma out_rel_bind : forall {A B A' B'} (R : A -> B -> Prop) (R' : A' -> B' -> Prop) x y k k',
  out_rel R x y -> (forall a b, R a b -> out_rel R' (k a) (k' b)) -> out_rel R' (obind x k) (obind y k').
Proof. intros A B A' B' R R' [a|p|] [b|q|] k k' H1 H2; simpl in *; try contradiction; auto. Qed.
Lemma out_rel_impl : forall {A B} (R R' : A -> B -> Prop) x y,
  out_rel R x y -> (forall a b, R a b -> R' a b) -> out_rel R' x y.
Proof. intros A B R R' [a|p|] [b|q|] H1 H2; simpl in *; try contradiction; auto. Qed.
Lemma out_rel_eq : forall {A} (x y : outcome A), out_rel eq x y <-> x = y.
Proof. intros A [a|p|] [b|q|]; simpl; split; try contradiction; try congruence; auto; discriminate. Qed.
Lemma out_rel_refl : forall {A} (R : A -> A -> Prop) (x : outcome A), (forall a, R a a) -> out_rel R x x.
Proof. intros A R [a|p|] H; simpl; auto. Qed.
Lemma out_rel_Ret : forall {A B} (R : A -> B -> Prop) x y a, out_rel R x y -> x = Ret a -> exists b, y = Ret b /\ R a b.
Proof. intros A B R x [b|q|] a H ->; simpl in H; try contradiction. eauto. Qed.
Lemma out_rel_Ret_r : forall {A B} (R : A -> B -> Prop) x y b, out_rel R x y -> y = Ret b -> exists a, x = Ret a /\ R a b.
Proof. intros A B R [a|q|] y b H ->; simpl in H; try contradiction. eauto. Qed.

Lemma insert_rel : forall {A B} (R : A -> B -> Prop) cmp1 cmp2 x1 x2 l1 l2,
  (forall a1 a2 b1 b2, R a1 a2 -> R b1 b2 -> cmp1 a1 b1 = cmp2 a2 b2) ->
  R x1 x2 -> Forall2 R l1 l2 -> Forall2 R (insert_by cmp1 x1 l1) (insert_by cmp2 x2 l2).
Proof.
  intros A B R cmp1 cmp2 x1 x2 l1 l2 Hc Hx H. induction H as [|a b l1 l2 Hab H IH]; simpl; auto.
  rewrite (Hc x1 x2 a b Hx Hab). destruct (cmp2 x2 b); auto.
Qed.
Lemma sort_rel : forall {A B} (R : A -> B -> Prop) cmp1 cmp2 l1 l2,
  (forall a1 a2 b1 b2, R a1 a2 -> R b1 b2 -> cmp1 a1 b1 = cmp2 a2 b2) ->
  Forall2 R l1 l2 -> Forall2 R (sort_by cmp1 l1) (sort_by cmp2 l2).
Proof. intros A B R cmp1 cmp2 l1 l2 Hc H. induction H; simpl; auto. apply insert_rel; auto. Qed.

Lemma Forall2_nth : forall {A B} (R : A -> B -> Prop) l1 l2 i, Forall2 R l1 l2 ->
  opt_rel R (nth_error l1 i) (nth_error l2 i).
Proof. intros A B R l1 l2 i H. revert i. induction H; intros [|i]; simpl; auto. Qed.
Lemma Forall2_firstn : forall {A B} (R : A -> B -> Prop) k l1 l2, Forall2 R l1 l2 -> Forall2 R (firstn k l1) (firstn k l2).
Proof. intros A B R k l1 l2 H. revert k. induction H; intros [|k]; simpl; auto. Qed.
Lemma Forall2_skipn : forall {A B} (R : A -> B -> Prop) k l1 l2, Forall2 R l1 l2 -> Forall2 R (skipn k l1) (skipn k l2).
Proof. intros A B R k l1 l2 H. revert k. induction H; intros [|k]; simpl; auto. Qed.
Lemma Forall2_length' : forall {A B} (R : A -> B -> Prop) l1 l2, Forall2 R l1 l2 -> length l1 = length l2.
Proof. intros A B R l1 l2 H. induction H; simpl; auto. Qed.
Lemma index_rel : forall {A B} (R : A -> B -> Prop) l1 l2 i, Forall2 R l1 l2 -> out_rel R (index l1 i) (index l2 i).
Proof.
  intros A B R l1 l2 i H. unfold index. apply (Forall2_nth R l1 l2 i) in H.
  destruct (nth_error l1 i), (nth_error l2 i); simpl in *; auto.
Qed.
Lemma omap_rel : forall {A A' B B'} (R : A -> A' -> Prop) (S : B -> B' -> Prop) f g l1 l2,
  Forall2 R l1 l2 -> (forall a b, R a b -> out_rel S (f a) (g b)) -> out_rel (Forall2 S) (omap f l1) (omap g l2).
Proof.
  intros A A' B B' R S f g l1 l2 H Hf. induction H; simpl; auto.
  eapply out_rel_bind; [apply Hf; eassumption|]. intros b b' Hb. eapply out_rel_bind; [exact IHForall2|].
  intros bs bs' Hbs. simpl. auto.
Qed.
Lemma omap_ext : forall {A B} (f g : A -> outcome B) l, (forall a, f a = g a) -> omap f l = omap g l.
Proof. intros A B f g l H. induction l; simpl; auto. rewrite H, IHl. reflexivity. Qed.
Lemma ofilter_ext : forall {A} (f g : A -> outcome bool) l, (forall a, f a = g a) -> ofilter f l = ofilter g l.
Proof. intros A f g l H. induction l; simpl; auto. rewrite H, IHl. reflexivity. Qed.

Section Rel.
  Context {T : Type} {NT : Num T} {LT : Libm T} {E : Env T}.
  Context {F1 F2 : Type} (ev1 : F1 -> vec T -> outcome (T * F1)) (ev2 : F2 -> vec T -> outcome (T * F2)).
  Context (Rf : F1 -> F2 -> Prop) (Rp : point T -> point T -> Prop).

  Definition pair_rel {A B} (R : A -> B -> Prop) (a : A * F1) (b : B * F2) : Prop := R (fst a) (fst b) /\ Rf (snd a) (snd b).

  Lemma resample_ext : forall (c1 c2 : option (constraints T)) s1 s2,
    cm_transform (st_cov s1) = cm_transform (st_cov s2) ->
    (forall y, ok_constraints c1 s1 y = ok_constraints c2 s2 y) ->
    forall fuel dim lambda mx i y g, resample fuel dim lambda c1 mx s1 i y g = resample fuel dim lambda c2 mx s2 i y g.
  Proof.
    intros c1 c2 s1 s2 Ht Hc.
    assert (Hs : forall k dim g (b : bool), sample_steps k dim (if b then None else c1) s1 g = sample_steps k dim (if b then None else c2) s2 g).
    { intros k dim g b. unfold sample_steps. rewrite Ht. destruct (draw_vecs k dim g) as [zs g1].
      destruct (omap _ zs) as [ys| |]; simpl; auto.
      rewrite (ofilter_ext (ok_constraints (if b then None else c1) s1) (ok_constraints (if b then None else c2) s2) ys); auto.
      intros y. destruct b; simpl; auto. }
    induction fuel as [|fuel IH]; intros dim lambda mx i y g; cbn [resample]; auto.
    assert (He : sample_steps (lambda - length y) dim (match mx with Some m => if (m <=? i)%N then None else c1 | None => c1 end) s1 g
               = sample_steps (lambda - length y) dim (match mx with Some m => if (m <=? i)%N then None else c2 | None => c2 end) s2 g).
    { destruct mx as [m|]; [destruct (m <=? i)%N; [apply (Hs _ _ _ true)|apply (Hs _ _ _ false)]|apply (Hs _ _ _ false)]. }
    rewrite He. destruct (_ <? _); auto. destruct (_ =? _); auto.
    destruct (sample_steps _ _ _ s2 g) as [[new g']| |]; simpl; auto.
  Qed.

  Context (s1 s2 : state T).
  Hypothesis Hev : forall y f1 f2, Rf f1 f2 ->
    out_rel (pair_rel (opt_rel Rp)) (evaluate_point ev1 s1 y f1) (evaluate_point ev2 s2 y f2).

  Lemma evaluate_seq_rel : forall ys f1 f2, Rf f1 f2 ->
    out_rel (pair_rel (opt_rel (Forall2 Rp))) (evaluate_seq ev1 s1 ys f1) (evaluate_seq ev2 s2 ys f2).
  Proof.
    induction ys as [|y ys IH]; intros f1 f2 Hf; simpl; [split; simpl; auto|].
    eapply out_rel_bind; [apply Hev; exact Hf|].
    intros [[p1|] g1] [[p2|] g2] [Hp Hg]; simpl in *; try contradiction; [|split; simpl; auto].
    eapply out_rel_bind; [apply IH; exact Hg|].
    intros [[l1|] h1] [[l2|] h2] [Hl Hh]; simpl in *; try contradiction; split; simpl; auto.
  Qed.

  Lemma evaluate_sched_rel : forall ys sched sl1 sl2 f1 f2, Rf f1 f2 -> Forall2 (opt_rel (opt_rel Rp)) sl1 sl2 ->
    out_rel (pair_rel (Forall2 (opt_rel (opt_rel Rp)))) (evaluate_sched ev1 s1 ys sched sl1 f1) (evaluate_sched ev2 s2 ys sched sl2 f2).
  Proof.
    intros ys sched. induction sched as [|i sched IH]; intros sl1 sl2 f1 f2 Hf Hs; cbn [evaluate_sched]; [split; simpl; auto|].
    destruct (nth_error ys i) as [y|]; [|simpl; auto].
    pose proof (Forall2_nth _ _ _ i Hs) as Hn.
    destruct (nth_error sl1 i) as [[r1|]|], (nth_error sl2 i) as [[r2|]|]; simpl in Hn; try contradiction; try (simpl; auto; fail).
    eapply out_rel_bind; [apply Hev; exact Hf|]. intros [r1 g1] [r2 g2] [Hr Hg]. simpl in Hr, Hg. apply IH; auto.
    apply Forall2_app; [apply Forall2_firstn; auto|]. apply Forall2_app; [constructor; auto|apply Forall2_skipn; auto].
  Qed.

  Lemma collect_rel : forall sl1 sl2, Forall2 (opt_rel (opt_rel Rp)) sl1 sl2 ->
    out_rel (Forall2 Rp) (collect_slots sl1) (collect_slots sl2).
  Proof.
    intros sl1 sl2 H. induction H as [|a b l1 l2 Hab H IH]; simpl; auto.
    destruct a as [[p1|]|], b as [[p2|]|]; simpl in *; try contradiction; auto.
    eapply out_rel_bind; [exact IH|]. intros. simpl. auto.
  Qed.

  Lemma evaluate_par_rel : forall sched ys f1 f2, Rf f1 f2 ->
    out_rel (pair_rel (opt_rel (Forall2 Rp))) (evaluate_par ev1 sched s1 ys f1) (evaluate_par ev2 sched s2 ys f2).
  Proof.
    intros sched ys f1 f2 Hf. unfold evaluate_par. eapply out_rel_bind.
    { apply evaluate_sched_rel; auto. generalize (length ys) as k. induction k; simpl; auto. constructor; simpl; auto. }
    intros [l1 g1] [l2 g2] [Hl Hg]. simpl in *.
    assert (He : existsb (fun r : option (option (point T)) => match r with Some None => true | _ => false end) l1
               = existsb (fun r : option (option (point T)) => match r with Some None => true | _ => false end) l2).
    { clear -Hl. induction Hl as [|a b l1 l2 Hab H IH]; simpl; auto. rewrite IH.
      destruct a as [[p1|]|], b as [[p2|]|]; simpl in *; try contradiction; auto. }
    rewrite He. destruct (existsb _ l2); [split; simpl; auto|].
    eapply out_rel_bind; [apply collect_rel; exact Hl|]. intros a b Hab. split; simpl; auto.
  Qed.

  (* samplers that differ only in the constraints and the objective *)
  Record sampler_rel (sm1 : sampler T F1) (sm2 : sampler T F2) : Prop := {
    sr_dim : sm_dim sm1 = sm_dim sm2;
    sr_max : sm_max_resamples sm1 = sm_max_resamples sm2;
    sr_pop : sm_population_size sm1 = sm_population_size sm2;
    sr_rng : sm_rng sm1 = sm_rng sm2;
    sr_evals : sm_function_evals sm1 = sm_function_evals sm2;
    sr_obj : Rf (sm_objective sm1) (sm_objective sm2)
  }.

  Lemma sample_rel : forall par tk m1 m2 sm1 sm2,
    cm_transform (st_cov s1) = cm_transform (st_cov s2) ->
    (forall y, ok_constraints (sm_constraints sm1) s1 y = ok_constraints (sm_constraints sm2) s2 y) ->
    (forall a1 a2 b1 b2, Rp a1 a2 -> Rp b1 b2 ->
       sort_cmp m1 (pt_value a1) (pt_value b1) = sort_cmp m2 (pt_value a2) (pt_value b2)) ->
    sampler_rel sm1 sm2 ->
    out_rel (fun r1 r2 => opt_rel (Forall2 Rp) (fst r1) (fst r2) /\ sampler_rel (snd r1) (snd r2) /\
                          sm_constraints (snd r1) = sm_constraints sm1 /\ sm_constraints (snd r2) = sm_constraints sm2)
      (sample ev1 par tk s1 m1 sm1) (sample ev2 par tk s2 m2 sm2).
  Proof.
    intros par tk m1 m2 sm1 sm2 Ht Hc Hm [H1 H2 H3 H4 H5 H6]. unfold sample. rewrite H1, H2, H3, H4.
    rewrite (resample_ext _ _ s1 s2 Ht Hc).
    destruct (resample _ _ _ (sm_constraints sm2) _ s2 _ _ _) as [[ys g]| |]; simpl; auto.
    assert (Hr : out_rel (pair_rel (opt_rel (Forall2 Rp)))
              (if par then evaluate_par ev1 (t_sched tk) s1 ys (sm_objective sm1) else evaluate_seq ev1 s1 ys (sm_objective sm1))
              (if par then evaluate_par ev2 (t_sched tk) s2 ys (sm_objective sm2) else evaluate_seq ev2 s2 ys (sm_objective sm2))).
    { destruct par; [apply evaluate_par_rel|apply evaluate_seq_rel]; exact H6. }
    eapply out_rel_bind; [exact Hr|].
    intros [[l1|] g1] [[l2|] g2] [Hl Hg]; simpl in *; try contradiction.
    - repeat split; simpl; auto.
      + apply sort_rel; auto.
      + rewrite H5, (Forall2_length' _ _ _ Hl). reflexivity.
    - repeat split; simpl; auto.
  Qed.
End Rel.

(* ---- what the state update uses of the individuals: their steps ---- *)
Section Update.
  Context {T : Type} {NT : Num T} {LT : Libm T} {E : Env T}.

  Definition same_step (a b : point T) : Prop := pt_step a = pt_step b.

  Lemma calc_yw_rel : forall p l1 l2, Forall2 same_step l1 l2 -> calc_yw p l1 = calc_yw p l2.
  Proof.
    intros p l1 l2 H. unfold calc_yw, weighted_steps. apply (Forall2_firstn _ (N.to_nat (p_mu p))) in H.
    revert H. generalize (firstn (N.to_nat (p_mu p)) l1) (firstn (N.to_nat (p_mu p)) l2). clear l1 l2. intros l1 l2 H.
    f_equal. rewrite (Forall2_length' _ _ _ H). generalize 0 at 1 2. generalize (length l2) as k.
    intros k. revert l1 l2 H. induction k as [|k IH]; intros l1 l2 H a; simpl; auto.
    destruct H as [|x y l1 l2 Hxy H]; simpl; auto. unfold same_step in Hxy. rewrite Hxy. rewrite (IH l1 l2 H). reflexivity.
  Qed.
  Lemma contributions_rel : forall p m l1 l2, Forall2 same_step l1 l2 -> contributions p m l1 = contributions p m l2.
  Proof.
    intros p m l1 l2 H. unfold contributions. apply omap_ext. intros [i w]. simpl. unfold map_weights.
    pose proof (index_rel _ _ _ i H) as Hi.
    destruct (index l1 i) as [a| |], (index l2 i) as [b| |]; simpl in Hi; try contradiction; auto;
      destruct (nltb w n0); simpl; auto; try congruence; unfold same_step in Hi; rewrite Hi; reflexivity.
  Qed.
  Lemma state_update_rel : forall tree evals p l1 l2 s, Forall2 same_step l1 l2 ->
    state_update tree evals p l1 s = state_update tree evals p l2 s.
  Proof.
    intros tree evals p l1 l2 s H. unfold state_update, calc_rank_mu.
    rewrite (calc_yw_rel p l1 l2 H), (contributions_rel p _ l1 l2 H). reflexivity.
  Qed.
End Update.

(* ---- two objectives that behave alike ---- *)
Section SameObjective.
  Context {T : Type} {NT : Num T} {LT : Libm T} {E : Env T}.
  Context {F1 F2 : Type} (ev1 : F1 -> vec T -> outcome (T * F1)) (ev2 : F2 -> vec T -> outcome (T * F2)).
  Context (Rf : F1 -> F2 -> Prop).
  Hypothesis Hev : forall x f1 f2, Rf f1 f2 -> out_rel (fun a b => fst a = fst b /\ Rf (snd a) (snd b)) (ev1 f1 x) (ev2 f2 x).

  (* everything but the objective state is equal *)
  Record alike (c1 : cmaes T F1) (c2 : cmaes T F2) : Prop := {
    al_sm : sampler_rel Rf (c_sampler c1) (c_sampler c2);
    al_con : sm_constraints (c_sampler c1) = sm_constraints (c_sampler c2);
    al_params : c_params c1 = c_params c2;
    al_state : c_state c1 = c_state c2;
    al_history : c_history c1 = c_history c2;
    al_plot : c_plot c1 = c_plot c2;
    al_gap : c_print_gap c1 = c_print_gap c2;
    al_last : c_last_print c1 = c_last_print c2;
    al_created : c_created c1 = c_created c2;
    al_out : c_out c1 = c_out c2
  }.

  Lemma evaluate_point_alike : forall s y f1 f2, Rf f1 f2 ->
    out_rel (pair_rel Rf (opt_rel eq)) (evaluate_point ev1 s y f1) (evaluate_point ev2 s y f2).
  Proof.
    intros s y f1 f2 Hf. unfold evaluate_point. destruct (to_point _ _ _) as [x| |]; simpl; auto.
    eapply out_rel_bind; [apply Hev; exact Hf|]. intros [v1 g1] [v2 g2] [Hv Hg]. simpl in *. subst.
    split; simpl; auto. destruct (nis_nan v2); simpl; auto.
  Qed.

  Lemma Forall2_eq : forall {A} (l1 l2 : list A), Forall2 eq l1 l2 -> l1 = l2.
  Proof. intros A l1 l2 H. induction H; congruence. Qed.

  Lemma cmaes_sample_alike : forall par tk c1 c2, alike c1 c2 ->
    out_rel (fun r1 r2 => fst r1 = fst r2 /\ alike (snd r1) (snd r2)) (cmaes_sample ev1 par tk c1) (cmaes_sample ev2 par tk c2).
  Proof.
    intros par tk c1 c2 [A1 A2 A3 A4 A5 A6 A7 A8 A9 A10]. unfold cmaes_sample. rewrite A3, A4, A5.
    eapply out_rel_bind.
    { apply (sample_rel ev1 ev2 Rf eq (c_state c2) (c_state c2) (evaluate_point_alike _) par tk (p_mode (c_params c2)) (p_mode (c_params c2))); auto.
      - intros y. rewrite A2. reflexivity.
      - intros; subst; reflexivity. }
    intros [[l1|] sm1] [[l2|] sm2] [Hl [Hs [Hc1 Hc2]]]; simpl in *; try contradiction.
    - apply Forall2_eq in Hl. subst. destruct (history_update _ l2 _) as [h| |]; simpl; auto. split; auto.
      constructor; simpl; auto. congruence.
    - split; auto. constructor; simpl; auto. congruence.
  Qed.

  Lemma alike_evals : forall c1 c2, alike c1 c2 -> function_evals c1 = function_evals c2.
  Proof. intros c1 c2 H. apply (al_sm _ _ H). Qed.

  Lemma emit_alike : forall c1 c2 l, alike c1 c2 -> alike (emit l c1) (emit l c2).
  Proof. intros c1 c2 l []. constructor; simpl; auto. congruence. Qed.
  Lemma last_alike : forall c1 c2 n, alike c1 c2 -> alike (set_last_print n c1) (set_last_print n c2).
  Proof. intros c1 c2 n []. constructor; simpl; auto. Qed.
  Lemma print_info_alike : forall c1 c2, alike c1 c2 -> alike (print_info c1) (print_info c2).
  Proof.
    intros c1 c2 H. unfold print_info, generation. rewrite (alike_evals _ _ H), (al_state _ _ H). apply emit_alike. auto.
  Qed.
  Lemma print_final_alike : forall l c1 c2, alike c1 c2 -> alike (print_final_info l c1) (print_final_info l c2).
  Proof.
    intros l c1 c2 H. unfold print_final_info. rewrite (alike_evals _ _ H), (al_last _ _ H).
    apply emit_alike. destruct (_ =? _)%N; auto. apply print_info_alike; auto.
  Qed.
  Lemma add_plot_alike : forall c1 c2, alike c1 c2 -> out_rel alike (add_plot_point c1) (add_plot_point c2).
  Proof.
    intros c1 c2 H. unfold add_plot_point. rewrite (alike_evals _ _ H), (al_plot _ _ H), (al_state _ _ H), (al_history _ _ H).
    destruct (c_plot c2); [|exact H]. destruct (plot_add_point _ _ _ _); simpl; auto. destruct H. constructor; simpl; auto.
  Qed.
  Lemma clear_alike : forall c1 c2, alike c1 c2 -> out_rel alike (clear_plot c1) (clear_plot c2).
  Proof.
    intros c1 c2 H. unfold clear_plot. rewrite (al_plot _ _ H).
    destruct (c_plot c2); [|exact H]. destruct (plot_clear _); simpl; auto. destruct H. constructor; simpl; auto.
  Qed.
  Lemma term_data_alike : forall c1 c2 l, alike c1 c2 -> get_termination_data c1 l = get_termination_data c2 l.
  Proof.
    intros c1 c2 l H. unfold get_termination_data, current_best_individual, overall_best_individual, mean.
    rewrite (al_history _ _ H), (al_state _ _ H). reflexivity.
  Qed.

  Lemma next_internal_alike : forall tk inds c1 c2, alike c1 c2 ->
    out_rel (fun r1 r2 => fst r1 = fst r2 /\ alike (snd r1) (snd r2)) (next_internal tk inds c1) (next_internal tk inds c2).
  Proof.
    intros tk inds c1 c2 H. unfold next_internal. rewrite (alike_evals _ _ H), (al_params _ _ H), (al_state _ _ H).
    destruct (state_update _ _ _ _ _) as [[ok st]| |]; cbn [obind out_rel]; auto.
    match goal with |- out_rel _ (if negb ok then Ret (_, ?d1) else _) (if negb ok then Ret (_, ?d2) else _) =>
      set (e1 := d1); set (e2 := d2) end.
    assert (He : alike e1 e2) by (destruct H; constructor; simpl; auto).
    destruct ok; cbn [negb].
    2: { cbn [out_rel]. split; auto. simpl. f_equal. apply term_data_alike. auto. }
    eapply (out_rel_bind alike).
    { rewrite (al_plot _ _ He). destruct (c_plot e2) as [p|]; [|exact He].
      unfold generation. rewrite (al_state _ _ He), (alike_evals _ _ He).
      destruct (_ || _); [apply add_plot_alike; auto|exact He]. }
    clearbody e1 e2. clear H He. intros d1 d2 Hd.
    match goal with |- out_rel _ (obind (check_termination (c_params ?k1) _ _ _ _ _ _) _) (obind (check_termination (c_params ?k2) _ _ _ _ _ _) _) =>
      set (g1 := k1); set (g2 := k2) end.
    assert (Hg : alike g1 g2).
    { subst g1 g2. rewrite (al_gap _ _ Hd). destruct (c_print_gap d2) as [gap|]; auto.
      rewrite (al_last _ _ Hd), (alike_evals _ _ Hd). unfold generation. rewrite (al_state _ _ Hd).
      destruct (wrapping_add (c_last_print d2) gap <=? _)%N; [apply last_alike, print_info_alike; auto|].
      destruct (_ <? _)%N; auto. apply print_info_alike; auto. }
    rewrite (alike_evals _ _ Hg), (al_params _ _ Hg), (al_created _ _ Hg), (al_state _ _ Hg), (al_history _ _ Hg).
    destruct (check_termination _ _ _ _ _ _ _) as [[|r rs]| |]; simpl; auto.
    split; auto. f_equal. apply (term_data_alike _ _ (r :: rs)). auto.
  Qed.

  Lemma next_alike : forall par tk c1 c2, alike c1 c2 ->
    out_rel (fun r1 r2 => fst r1 = fst r2 /\ alike (snd r1) (snd r2)) (next ev1 par tk c1) (next ev2 par tk c2).
  Proof.
    intros par tk c1 c2 H. unfold next. eapply out_rel_bind; [apply cmaes_sample_alike; exact H|].
    intros [r1 d1] [r2 d2] [Hr Hd]. simpl in *. subst. destruct r2 as [inds|].
    - apply next_internal_alike. auto.
    - simpl. split; auto. f_equal. apply term_data_alike. auto.
  Qed.
  Lemma run_alike : forall par fuel env c1 c2, alike c1 c2 ->
    out_rel (fun r1 r2 => fst r1 = fst r2 /\ alike (snd r1) (snd r2)) (run ev1 par fuel env c1) (run ev2 par fuel env c2).
  Proof.
    intros par fuel env c1 c2 H. unfold run. eapply (out_rel_bind (fun r1 r2 => fst r1 = fst r2 /\ alike (snd r1) (snd r2))).
    - revert env c1 c2 H. induction fuel as [|fuel IH]; intros env c1 c2 H; simpl; auto.
      eapply out_rel_bind; [apply next_alike; exact H|]. intros [r1 d1] [r2 d2] [Hr Hd]. simpl in *. subst.
      destruct r2; simpl; auto.
    - intros [r1 d1] [r2 d2] [Hr Hd]. simpl in *. subst. unfold run_internal.
      eapply (out_rel_bind alike).
      + eapply (out_rel_bind alike); [apply add_plot_alike; auto|]. intros e1 e2 He. simpl.
        rewrite (al_gap _ _ He). destruct (c_print_gap e2); auto. apply print_final_alike; auto.
      + intros e1 e2 He. simpl. auto.
  Qed.
  Lemma step_alike : forall c1 c2 o, alike c1 c2 -> out_rel alike (step ev1 c1 o) (step ev2 c2 o).
  Proof.
    intros c1 c2 o H. destruct o; simpl.
    - eapply out_rel_bind; [apply next_alike; exact H|]. intros [r1 d1] [r2 d2] [_ Hd]. exact Hd.
    - eapply out_rel_bind; [apply run_alike; exact H|]. intros [r1 d1] [r2 d2] [_ Hd]. exact Hd.
    - apply add_plot_alike; auto.
    - apply clear_alike; auto.
    - apply emit_alike; auto.
    - apply print_info_alike; auto.
    - apply print_final_alike; auto.
  Qed.
  Lemma steps_alike : forall l c1 c2, alike c1 c2 -> out_rel alike (steps ev1 c1 l) (steps ev2 c2 l).
  Proof.
    induction l as [|o l IH]; intros c1 c2 H; simpl; auto. eapply out_rel_bind; [apply step_alike; exact H|]. auto.
  Qed.
  Lemma new_alike : forall random_seed now f1 f2 o, Rf f1 f2 ->
    out_rel (fun r1 r2 => match r1, r2 with inl c1, inl c2 => alike c1 c2 | inr e1, inr e2 => e1 = e2 | _, _ => False end)
      (cmaes_new random_seed now f1 o) (cmaes_new random_seed now f2 o).
  Proof.
    intros rs now f1 f2 o Hf. unfold cmaes_new. destruct (validate o); [reflexivity|].
    eapply (out_rel_bind alike).
    - apply add_plot_alike. constructor; simpl; auto. constructor; simpl; auto.
    - intros c1 c2 H. simpl. rewrite (al_gap _ _ H). destruct (c_print_gap c2); auto. apply emit_alike. auto.
  Qed.
End SameObjective.

(* ---- recording the calls of the objective changes nothing ---- *)
Section Logging.
  Context {T : Type} {NT : Num T} {LT : Libm T} {E : Env T}.
  Context {F : Type} (ev : F -> vec T -> outcome (T * F)).

  Definition unlog (c : cmaes T (F * list (entry T))) (c' : cmaes T F) : Prop := alike (fun a b => fst a = b) c c'.

  Lemma log_ev_alike : forall x (f1 : F * list (entry T)) f2, fst f1 = f2 ->
    out_rel (fun a b => fst a = fst b /\ fst (snd a) = snd b) (log_ev ev f1 x) (ev f2 x).
  Proof. intros x [f l] f2 H. simpl in H. subst. unfold log_ev. simpl. destruct (ev f2 x) as [[v f']| |]; simpl; auto. Qed.

  (* whatever is done with an optimiser, doing it with the recording objective gives the same *)
  Lemma reaches_logged : forall o f c, reaches ev o f c ->
    exists random_seed now c0 l c', cmaes_new random_seed now (f, []) o = Ret (inl c0) /\
      steps (log_ev ev) c0 l = Ret c' /\ unlog c' c.
  Proof.
    intros o f c [c0 [l [[rs [now H1]] H2]]].
    destruct (out_rel_Ret_r _ _ _ _ (new_alike (fun (a : F * list (entry T)) b => fst a = b) rs now (f, []) f o eq_refl) H1) as [[d0|e] [N1 N2]]; [|contradiction].
    destruct (out_rel_Ret_r _ _ _ _ (steps_alike (log_ev ev) ev _ log_ev_alike l d0 c0 N2) H2) as [d [D1 D2]].
    exists rs, now, d0, l, d. auto.
  Qed.
  Lemma next_unlog : forall par tk d c, unlog d c ->
    out_rel (fun r1 r2 => fst r1 = fst r2 /\ unlog (snd r1) (snd r2)) (next (log_ev ev) par tk d) (next ev par tk c).
  Proof. intros par tk d c H. apply next_alike; auto. apply log_ev_alike. Qed.
End Logging.
