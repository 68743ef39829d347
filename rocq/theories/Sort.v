(* The ranking sort: permutation, order, stability. *)
From Coq Require Import List NArith ZArith Bool Arith Lia Permutation Sorted.
Require Import Verif.Base Verif.Num Verif.Mode Verif.Order Verif.Lib.
Import ListNotations.

Lemma insert_by_perm : forall {A} (cmp : A -> A -> comparison) x l, Permutation (x :: l) (insert_by cmp x l).
Proof.
  induction l as [|y l IH]; simpl; auto.
  destruct (cmp x y); auto. eapply perm_trans; [apply perm_swap|]. constructor. exact IH.
Qed.
Lemma sort_by_perm : forall {A} (cmp : A -> A -> comparison) l, Permutation l (sort_by cmp l).
Proof.
  induction l as [|x l IH]; simpl; auto.
  eapply perm_trans; [constructor; exact IH|]. apply insert_by_perm.
Qed.
Lemma sort_by_length : forall {A} (cmp : A -> A -> comparison) l, length (sort_by cmp l) = length l.
Proof. intros. symmetry. apply Permutation_length, sort_by_perm. Qed.

Lemma insert_by_ext : forall {A} (c d : A -> A -> comparison) x l,
  (forall y, In y l -> c x y = d x y) -> insert_by c x l = insert_by d x l.
Proof.
  induction l as [|y l IH]; simpl; intros H; auto.
  rewrite H by auto. destruct (d x y); auto. rewrite IH; auto.
Qed.
Lemma sort_by_ext : forall {A} (c d : A -> A -> comparison) l,
  (forall x y, In x l -> In y l -> c x y = d x y) -> sort_by c l = sort_by d l.
Proof.
  induction l as [|x l IH]; simpl; intros H; auto.
  rewrite IH by auto. apply insert_by_ext. intros y Hy. apply H; auto.
  right. eapply Permutation_in; [apply Permutation_sym, sort_by_perm|]; eauto.
Qed.
Lemma insert_by_map : forall {A B} (f : A -> B) (c : B -> B -> comparison) x l,
  insert_by c (f x) (map f l) = map f (insert_by (fun a b => c (f a) (f b)) x l).
Proof.
  induction l as [|y l IH]; simpl; auto. destruct (c (f x) (f y)); simpl; auto. rewrite IH; auto.
Qed.
Lemma sort_by_map : forall {A B} (f : A -> B) (c : B -> B -> comparison) l,
  sort_by c (map f l) = map f (sort_by (fun a b => c (f a) (f b)) l).
Proof. induction l as [|x l IH]; simpl; auto. rewrite IH. apply insert_by_map. Qed.

Section Sort.
  Context {T : Type} {NT : Num T} {OL : OrdLaws T}.
  Context (m : mode).

  Lemma better_irrefl : forall a, is_better m a a = false.
  Proof. intros a. destruct m; simpl; unfold ngtb; apply ol_irrefl. Qed.
  Lemma better_trans : forall a b c, is_better m a b = true -> is_better m b c = true -> is_better m a c = true.
  Proof. intros a b c. destruct m; simpl; unfold ngtb; intros; eapply ol_trans; eauto. Qed.
  Lemma better_negtrans : forall a b c, nis_nan b = false ->
    is_better m a b = false -> is_better m b c = false -> is_better m a c = false.
  Proof. intros a b c. destruct m; simpl; unfold ngtb; intros; eapply ol_negtrans; eauto. Qed.
  Lemma better_asym : forall a b, is_better m a b = true -> is_better m b a = false.
  Proof.
    intros a b H. destruct (is_better m b a) eqn:E; auto.
    rewrite <- (better_irrefl a). symmetry. eapply better_trans; eauto.
  Qed.
  (* a better than b, b not worse than c: a better than c *)
  Lemma better_trans_l : forall a b c, nis_nan c = false ->
    is_better m a b = true -> is_better m c b = false -> is_better m a c = true.
  Proof.
    intros a b c N H1 H2. destruct (is_better m a c) eqn:E; auto.
    assert (is_better m a b = false) by (eapply better_negtrans; [exact N|exact E|exact H2]). congruence.
  Qed.
  Lemma better_trans_r : forall a b c, nis_nan a = false ->
    is_better m b a = false -> is_better m b c = true -> is_better m a c = true.
  Proof.
    intros a b c N H1 H2. destruct (is_better m a c) eqn:E; auto.
    assert (is_better m b c = false) by (eapply better_negtrans; [exact N|exact H1|exact E]). congruence.
  Qed.

  Lemma lt_asym : forall a b : T, nltb a b = true -> nltb b a = false.
  Proof.
    intros a b H. destruct (nltb b a) eqn:E; auto.
    rewrite <- (ol_irrefl a). symmetry. eapply ol_trans; eauto.
  Qed.

  Lemma partial_cmp_Gt : forall a b : T, partial_cmp a b = Gt <-> nltb b a = true.
  Proof.
    intros a b. unfold partial_cmp, npartial_cmp.
    destruct (nltb a b) eqn:H1.
    - apply lt_asym in H1. rewrite H1. split; discriminate.
    - destruct (nltb b a) eqn:H2; [tauto|].
      destruct (neqb a b); split; discriminate.
  Qed.
  Lemma partial_cmp_Lt : forall a b : T, partial_cmp a b = Lt <-> nltb a b = true.
  Proof.
    intros a b. unfold partial_cmp, npartial_cmp.
    destruct (nltb a b) eqn:H1; [tauto|].
    destruct (nltb b a) eqn:H2; [split; discriminate|].
    destruct (neqb a b); split; discriminate.
  Qed.

  Lemma sort_cmp_Gt : forall a b, sort_cmp m a b = Gt <-> is_better m b a = true.
  Proof. intros a b. destruct m; simpl; rewrite partial_cmp_Gt; reflexivity. Qed.

  Context {A : Type} (v : A -> T).
  Let cmp := fun a b => sort_cmp m (v a) (v b).

  (* best first *)
  Definition ranked (l : list A) : Prop :=
    StronglySorted (fun a b => is_better m (v b) (v a) = false) l.

  Lemma insert_ranked : forall x l,
    nis_nan (v x) = false -> Forall (fun a => nis_nan (v a) = false) l ->
    ranked l -> ranked (insert_by cmp x l).
  Proof.
    intros x l Nx Nl Hs. induction Hs as [|y l Hs IH Hy]; simpl.
    - repeat constructor.
    - inversion Nl; subst.
      destruct (cmp x y) eqn:E.
      1,2: assert (Hb : is_better m (v y) (v x) = false)
            by (destruct (is_better m (v y) (v x)) eqn:Q; auto; apply sort_cmp_Gt in Q;
                unfold cmp in E; congruence);
          constructor; [constructor; assumption|];
          constructor; [assumption|];
          eapply Forall_impl; [|exact Hy]; simpl; intros a Ha;
          eapply better_negtrans; [|exact Ha|exact Hb]; assumption.
      apply sort_cmp_Gt in E. constructor; [apply IH; assumption|].
      eapply Permutation_Forall; [apply insert_by_perm|].
      constructor; [|assumption]. apply better_asym. assumption.
  Qed.

  Lemma sort_ranked : forall l, Forall (fun a => nis_nan (v a) = false) l -> ranked (sort_by cmp l).
  Proof.
    induction l as [|x l IH]; simpl; intros H; [constructor|].
    inversion H; subst. apply insert_ranked; auto.
    eapply Permutation_Forall; [apply sort_by_perm|]. assumption.
  Qed.

  (* elements whose value ties with x *)
  Definition ties (x : T) (a : A) : bool := negb (is_better m (v a) x) && negb (is_better m x (v a)).

  Lemma insert_ties : forall x y l, nis_nan y = false -> nis_nan (v x) = false ->
    filter (ties y) (insert_by cmp x l) = filter (ties y) (x :: l).
  Proof.
    intros x y l Ny Nx. induction l as [|z l IH]; simpl; auto.
    destruct (cmp x z) eqn:E; auto.
    apply sort_cmp_Gt in E. simpl in *. rewrite IH.
    destruct (ties y x) eqn:Tx; destruct (ties y z) eqn:Tz; auto.
    (* x and z both tie with y but z is strictly better than x *)
    unfold ties in *. apply andb_true_iff in Tx. apply andb_true_iff in Tz.
    destruct Tx as [T1 T2], Tz as [T3 T4].
    rewrite negb_true_iff in *.
    assert (is_better m (v z) (v x) = false) by (eapply better_negtrans; [exact Ny|exact T3|exact T2]).
    congruence.
  Qed.

  Lemma sort_ties : forall y l, nis_nan y = false -> Forall (fun a => nis_nan (v a) = false) l ->
    filter (ties y) (sort_by cmp l) = filter (ties y) l.
  Proof.
    intros y l Ny. induction l as [|x l IH]; simpl; intros H; auto.
    inversion H; subst. rewrite insert_ties by assumption. simpl. rewrite IH by assumption. reflexivity.
  Qed.

  (* p is the first of the best elements of l *)
  Definition first_best (l : list A) (p : A) : Prop :=
    exists l1 l2, l = l1 ++ p :: l2 /\
      Forall (fun q => is_better m (v p) (v q) = true) l1 /\
      Forall (fun q => is_better m (v q) (v p) = false) l2.

  Lemma sort_head : forall l, Forall (fun a => nis_nan (v a) = false) l ->
    forall p r, sort_by cmp l = p :: r -> first_best l p.
  Proof.
    induction l as [|x l IH]; simpl; intros H p r Hs; [discriminate|].
    inversion H as [|? ? Nx Nl]; subst.
    destruct (sort_by cmp l) as [|y s] eqn:Es; simpl in Hs.
    - inversion Hs; subst. exists [], l. simpl. repeat split; auto.
      assert (l = []) by (apply length_zero_iff_nil; rewrite <- (sort_by_length cmp l), Es; reflexivity).
      subst. constructor.
    - assert (Hy : first_best l y) by (eapply IH; eauto).
      destruct Hy as [l1 [l2 [Hl [H1 H2]]]].
      assert (Ny : nis_nan (v y) = false).
      { subst l. rewrite Forall_app in Nl. destruct Nl as [_ Nl]. inversion Nl; auto. }
      destruct (cmp x y) eqn:E.
      3: { inversion Hs; subst. apply sort_cmp_Gt in E. exists (x :: l1), l2. repeat split; auto. }
      all: inversion Hs; subst;
        assert (Hb : is_better m (v y) (v p) = false)
          by (destruct (is_better m (v y) (v p)) eqn:Q; auto; apply sort_cmp_Gt in Q;
              unfold cmp in E; congruence);
        exists [], (l1 ++ y :: l2); repeat split; auto;
        rewrite Forall_app; split;
        [ eapply Forall_impl; [|exact H1]; simpl; intros a Ha;
          apply better_asym in Ha; eapply better_negtrans; [exact Ny| exact Ha|exact Hb]
        | constructor; [exact Hb|]; eapply Forall_impl; [|exact H2]; simpl; intros a Ha;
          eapply better_negtrans; [exact Ny| exact Ha|exact Hb] ].
  Qed.
End Sort.
