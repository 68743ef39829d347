(* Lemmas about outcomes and lists used by the proofs. *)
From Coq Require Import List NArith ZArith Bool Arith Lia.
Require Import Verif.Base Verif.Num Verif.LinAlg.
Import ListNotations.

Lemma obind_Ret : forall {A B} (o : outcome A) (k : A -> outcome B) b,
  obind o k = Ret b -> exists a, o = Ret a /\ k a = Ret b.
Proof. intros A B [a|p|] k b H; simpl in H; try discriminate. eauto. Qed.

Lemma obind_Panic : forall {A B} (o : outcome A) (k : A -> outcome B) p,
  obind o k = Panic p -> o = Panic p \/ exists a, o = Ret a /\ k a = Panic p.
Proof. intros A B [a|q|] k p H; simpl in H; try discriminate; eauto. left; congruence. Qed.

(* Splits every bind in a hypothesis `obind .. = Ret ..` *)
Ltac oinv H :=
  lazymatch type of H with
  | obind _ _ = Ret _ =>
      let a := fresh "a" in let Ha := fresh "Ho" in
      apply obind_Ret in H; destruct H as [a [Ha H]]
  end.

Lemma index_Ret : forall {A} (l : list A) i a, index l i = Ret a <-> nth_error l i = Some a.
Proof.
  intros A l i a. unfold index. destruct (nth_error l i); split; intros H; inversion H; reflexivity.
Qed.

Lemma index_ok : forall {A} (l : list A) i, i < length l -> exists a, index l i = Ret a.
Proof.
  intros A l i H. unfold index. destruct (nth_error l i) eqn:E; eauto.
  apply nth_error_None in E. lia.
Qed.

Lemma unwrap_Ret : forall {A} (o : option A) a, unwrap o = Ret a <-> o = Some a.
Proof. intros A [x|] a; simpl; split; intros H; inversion H; reflexivity. Qed.

Lemma omap_Ret : forall {A B} (f : A -> outcome B) l r,
  omap f l = Ret r -> Forall2 (fun a b => f a = Ret b) l r.
Proof.
  induction l as [|a l IH]; simpl; intros r H.
  - inversion H; constructor.
  - oinv H. oinv H. inversion H; subst. constructor; auto.
Qed.

Lemma omap_ok : forall {A B} (f : A -> outcome B) l,
  (forall a, In a l -> exists b, f a = Ret b) -> exists r, omap f l = Ret r.
Proof.
  induction l as [|a l IH]; simpl; intros H; eauto.
  destruct (H a) as [b Hb]; auto. rewrite Hb. simpl.
  destruct IH as [r Hr]; auto. rewrite Hr. simpl. eauto.
Qed.

Lemma Forall2_len : forall {A B} (R : A -> B -> Prop) l m, Forall2 R l m -> length l = length m.
Proof. induction 1; simpl; congruence. Qed.

Lemma omap_length : forall {A B} (f : A -> outcome B) l r, omap f l = Ret r -> length r = length l.
Proof. intros. apply omap_Ret in H. symmetry. eapply Forall2_len; eauto. Qed.

Lemma ofilter_Ret : forall {A} (f : A -> outcome bool) l r,
  ofilter f l = Ret r ->
  exists bs, Forall2 (fun a b => f a = Ret b) l bs /\
             r = map fst (filter snd (combine l bs)).
Proof.
  induction l as [|a l IH]; simpl; intros r H.
  - inversion H; subst. exists []. split; constructor.
  - oinv H. oinv H. inversion H; subst. destruct (IH _ Ho0) as [bs [H1 H2]].
    exists (a0 :: bs). split; [constructor; auto|]. simpl. destruct a0; simpl; congruence.
Qed.

Lemma ofilter_ok : forall {A} (f : A -> outcome bool) l,
  (forall a, In a l -> exists b, f a = Ret b) -> exists r, ofilter f l = Ret r.
Proof.
  induction l as [|a l IH]; simpl; intros H; eauto.
  destruct (H a) as [b Hb]; auto. rewrite Hb. simpl.
  destruct IH as [r Hr]; auto. rewrite Hr. simpl. eauto.
Qed.

Lemma oall_ok : forall {A} (f : A -> outcome bool) l,
  (forall a, In a l -> exists b, f a = Ret b) -> exists r, oall f l = Ret r.
Proof.
  induction l as [|a l IH]; simpl; intros H; eauto.
  destruct (H a) as [b Hb]; auto. rewrite Hb. simpl. destruct b; eauto.
Qed.
Lemma oany_ok : forall {A} (f : A -> outcome bool) l,
  (forall a, In a l -> exists b, f a = Ret b) -> exists r, oany f l = Ret r.
Proof.
  induction l as [|a l IH]; simpl; intros H; eauto.
  destruct (H a) as [b Hb]; auto. rewrite Hb. simpl. destruct b; eauto.
Qed.

Lemma oall_true : forall {A} (f : A -> outcome bool) l,
  oall f l = Ret true <-> (forall a, In a l -> f a = Ret true).
Proof.
  induction l as [|a l IH]; simpl; split; intros H.
  - intros x [].
  - reflexivity.
  - oinv H. destruct a0; [|discriminate]. intros x [->|Hx]; auto. apply IH; auto.
  - rewrite (H a) by auto. simpl. apply IH. auto.
Qed.

Lemma oany_true : forall {A} (f : A -> outcome bool) l b,
  oany f l = Ret b -> (forall a, In a l -> exists c, f a = Ret c) ->
  b = true <-> (exists a, In a l /\ f a = Ret true).
Proof.
  induction l as [|a l IH]; simpl; intros b H Hok.
  - inversion H; subst. split; [discriminate|]. intros [x [[] _]].
  - oinv H. destruct a0.
    + inversion H; subst. split; auto. intros _. exists a. auto.
    + assert (Hok' : forall a, In a l -> exists c, f a = Ret c) by auto.
      rewrite (IH _ H Hok'). split.
      * intros [x [Hx Hf]]. eauto.
      * intros [x [[->|Hx] Hf]]; [congruence|eauto].
Qed.

Lemma check_Ret : forall {A} b (a x : A), check b a = Ret x <-> b = true /\ x = a.
Proof.
  intros A [] a x; simpl; split; intros H; try discriminate.
  - inversion H; auto.
  - destruct H; subst; auto.
  - destruct H; discriminate.
Qed.

Lemma map2_length : forall {A B C} (f : A -> B -> C) a b, length (map2 f a b) = Nat.min (length a) (length b).
Proof. induction a; destruct b; simpl; auto. Qed.

Lemma nth_map2 : forall {A B C} (f : A -> B -> C) a b da db dc i,
  i < length a -> i < length b -> nth i (map2 f a b) dc = f (nth i a da) (nth i b db).
Proof.
  induction a as [|x a IH]; destruct b as [|y b]; simpl; intros da db dc i H1 H2; try lia.
  destruct i; auto. apply IH; lia.
Qed.

Lemma Forall2_nth : forall {A B} (R : A -> B -> Prop) l m i a b,
  Forall2 R l m -> nth_error l i = Some a -> nth_error m i = Some b -> R a b.
Proof.
  intros A B R l m i a b H. revert i. induction H; intros [|i] H1 H2; simpl in *; try discriminate.
  - congruence.
  - eauto.
Qed.

Lemma Forall2_impl' : forall {A B} (R S : A -> B -> Prop) l m,
  (forall a b, In a l -> In b m -> R a b -> S a b) -> Forall2 R l m -> Forall2 S l m.
Proof. intros A B R S l m H HF. induction HF; constructor; auto with datatypes. Qed.

Lemma NoDup_app_intro : forall {A} (l m : list A),
  NoDup l -> NoDup m -> (forall x, In x l -> In x m -> False) -> NoDup (l ++ m).
Proof.
  induction l as [|a l IH]; simpl; intros m Hl Hm Hd; auto.
  inversion Hl; subst. constructor.
  - rewrite in_app_iff. intros [H|H]; [contradiction|eauto].
  - apply IH; auto. intros x Hx Hy. apply (Hd x); auto.
Qed.

Lemma flat_map_nth : forall {A} (l : list A),
  flat_map (fun i => match nth_error l i with Some y => [y] | None => [] end) (seq 0 (length l)) = l.
Proof.
  intros A l. assert (H : forall k m, k <= length l -> length l = k + m ->
    flat_map (fun i => match nth_error l i with Some y => [y] | None => [] end) (seq k m) = skipn k l).
  { intros k m. revert k. induction m as [|m IH]; intros k H1 H2; simpl.
    - rewrite skipn_all2 by lia. reflexivity.
    - rewrite IH by lia. destruct (nth_error l k) as [y|] eqn:E.
      + clear IH. revert l E H1 H2. induction k as [|k IHk]; intros l E H1 H2; destruct l as [|x l]; simpl in *; try discriminate.
        * congruence.
        * apply IHk; auto; lia.
      + apply nth_error_None in E. lia. }
  rewrite H by lia. reflexivity.
Qed.

Lemma app_inj_len : forall {A} (a b c d : list A), length a = length c -> a ++ b = c ++ d -> a = c /\ b = d.
Proof.
  induction a as [|x a IH]; destruct c as [|y c]; simpl; intros d Hl H; try discriminate; auto.
  inversion H; subst. injection Hl as Hl. destruct (IH _ _ _ Hl H2) as [-> ->]. auto.
Qed.

(* Case analysis on the first match scrutinee in a hypothesis *)
Ltac hdestruct H :=
  match type of H with
  | context [match ?x with _ => _ end] => destruct x eqn:?
  end.
