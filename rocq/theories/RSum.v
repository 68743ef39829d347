(* Finite sums of reals, and vectors and matrices over the extended reals whose entries are finite. No model code. *)
From Coq Require Import List NArith ZArith Bool Reals Lra Lia Arith.
Require Import Verif.Base Verif.Num Verif.XReal Verif.LinAlg.
Import ListNotations.
Open Scope nat_scope.

(* f 0 + ... + f (n - 1) *)
Fixpoint Sig (n : nat) (f : nat -> R) : R := match n with O => 0%R | S k => (Sig k f + f k)%R end.

Lemma Sig_ext : forall n f g, (forall i, i < n -> f i = g i) -> Sig n f = Sig n g.
Proof. induction n; intros f g H; cbn; [reflexivity|]. rewrite (IHn f g), (H n) by (intros; try apply H; lia). reflexivity. Qed.
Lemma Sig_0 : forall n, Sig n (fun _ => 0%R) = 0%R.
Proof. induction n; cbn; [reflexivity|]. rewrite IHn. lra. Qed.
Lemma Sig_zero : forall n f, (forall i, i < n -> f i = 0%R) -> Sig n f = 0%R.
Proof. intros n f H. rewrite (Sig_ext n f (fun _ => 0%R) H). apply Sig_0. Qed.
Lemma Sig_plus : forall n f g, Sig n (fun i => (f i + g i)%R) = (Sig n f + Sig n g)%R.
Proof. induction n; intros; cbn; [lra|]. rewrite IHn. lra. Qed.
Lemma Sig_mul_l : forall n c f, Sig n (fun i => (c * f i)%R) = (c * Sig n f)%R.
Proof. induction n; intros; cbn; [lra|]. rewrite IHn. lra. Qed.
Lemma Sig_mul_r : forall n c f, Sig n (fun i => (f i * c)%R) = (Sig n f * c)%R.
Proof. induction n; intros; cbn; [lra|]. rewrite IHn. lra. Qed.
Lemma Sig_const : forall n c, Sig n (fun _ => c) = (INR n * c)%R.
Proof. induction n; intros; [cbn; lra|]. rewrite S_INR. cbn [Sig]. rewrite IHn. lra. Qed.
Lemma Sig_le : forall n f g, (forall i, i < n -> (f i <= g i)%R) -> (Sig n f <= Sig n g)%R.
Proof. induction n; intros f g H; cbn; [lra|]. pose proof (IHn f g ltac:(intros; apply H; lia)). pose proof (H n ltac:(lia)). lra. Qed.
Lemma Sig_nonneg : forall n f, (forall i, i < n -> (0 <= f i)%R) -> (0 <= Sig n f)%R.
Proof. intros n f H. rewrite <- (Sig_0 n). apply Sig_le. exact H. Qed.
Lemma Sig_swap : forall n m (f : nat -> nat -> R), Sig n (fun i => Sig m (f i)) = Sig m (fun j => Sig n (fun i => f i j)).
Proof. induction n; intros; cbn; [symmetry; apply Sig_0|]. rewrite IHn, <- Sig_plus. reflexivity. Qed.
Lemma Sig_pos_term : forall n f k, (forall i, i < n -> (0 <= f i)%R) -> k < n -> (f k <= Sig n f)%R.
Proof.
  induction n; intros f k H Hk; [lia|]. cbn. destruct (Nat.eq_dec k n) as [-> |N].
  - pose proof (Sig_nonneg n f ltac:(intros; apply H; lia)). lra.
  - pose proof (IHn f k ltac:(intros; apply H; lia) ltac:(lia)). pose proof (H n ltac:(lia)). lra.
Qed.
Lemma Sig_pos : forall n f k, (forall i, i < n -> (0 <= f i)%R) -> k < n -> (0 < f k)%R -> (0 < Sig n f)%R.
Proof. intros n f k H Hk Hp. pose proof (Sig_pos_term n f k H Hk). lra. Qed.
Lemma Sig_split : forall a b f, Sig (a + b) f = (Sig a f + Sig b (fun i => f (a + i)%nat))%R.
Proof. induction b; intros f; [rewrite Nat.add_0_r; cbn; lra|]. rewrite Nat.add_succ_r. cbn. rewrite IHb. lra. Qed.
Definition delta (i j : nat) : R := if Nat.eqb i j then 1%R else 0%R.
Lemma delta_eq : forall i, delta i i = 1%R.
Proof. intros. unfold delta. rewrite Nat.eqb_refl. reflexivity. Qed.
Lemma delta_neq : forall i j, i <> j -> delta i j = 0%R.
Proof. intros. unfold delta. apply Nat.eqb_neq in H. rewrite H. reflexivity. Qed.
Lemma delta_sym : forall i j, delta i j = delta j i.
Proof. intros. unfold delta. rewrite Nat.eqb_sym. reflexivity. Qed.
Lemma Sig_delta : forall n f k, k < n -> Sig n (fun i => (delta k i * f i)%R) = f k.
Proof.
  induction n; intros f k H; [lia|]. cbn. destruct (Nat.eq_dec k n) as [-> |N].
  - rewrite delta_eq. rewrite Sig_zero; [lra|]. intros i Hi. rewrite delta_neq by lia. lra.
  - rewrite IHn by lia. rewrite delta_neq by lia. lra.
Qed.
Lemma Sig_delta_r : forall n f k, k < n -> Sig n (fun i => (f i * delta i k)%R) = f k.
Proof. intros n f k H. transitivity (Sig n (fun i => (delta k i * f i)%R)); [|apply Sig_delta; exact H]. apply Sig_ext. intros. rewrite delta_sym. lra. Qed.

(* Cauchy-Schwarz *)
Lemma Sig_cauchy : forall n x y, (Rsqr (Sig n (fun i => (x i * y i)%R)) <= Sig n (fun i => (x i * x i)%R) * Sig n (fun i => (y i * y i)%R))%R.
Proof.
  intros n x y. unfold Rsqr. set (a := Sig n (fun i => (x i * x i)%R)). set (b := Sig n (fun i => (x i * y i)%R)). set (c := Sig n (fun i => (y i * y i)%R)).
  assert (P : forall t, (0 <= a * t * t - 2 * b * t + c)%R).
  { intros t. replace (a * t * t - 2 * b * t + c)%R with (Sig n (fun i => ((x i * t - y i) * (x i * t - y i))%R)).
    - apply Sig_nonneg. intros i _. apply Rle_0_sqr.
    - unfold a, b, c. rewrite (Sig_ext n _ (fun i => ((t * t) * (x i * x i) + ((- 2 * t) * (x i * y i) + y i * y i))%R)) by (intros; lra).
      rewrite !Sig_plus, !Sig_mul_l. lra. }
  assert (A : (0 <= a)%R) by (apply Sig_nonneg; intros; apply Rle_0_sqr). assert (C : (0 <= c)%R) by (apply Sig_nonneg; intros; apply Rle_0_sqr).
  destruct (Req_dec a 0) as [Z|Z].
  - assert (b = 0)%R; [|nra]. destruct (Req_dec b 0) as [|Nb]; auto. exfalso. pose proof (P ((c + 1) / (2 * b))%R) as Q. rewrite Z in Q.
    assert (2 * b * ((c + 1) / (2 * b)) = c + 1)%R by (field; auto). lra.
  - pose proof (P (b / a)%R) as Q. assert (H : (a * (b / a) * (b / a) - 2 * b * (b / a) + c = (a * c - b * b) / a)%R) by (field; auto). rewrite H in Q.
    assert (Ha : (0 < a)%R) by lra. assert (0 <= ((a * c - b * b) / a) * a)%R by (apply Rmult_le_pos; lra).
    replace ((a * c - b * b) / a * a)%R with (a * c - b * b)%R in H0 by (field; auto). lra.
Qed.

(* ---- vectors and matrices with finite entries ---- *)
Ltac rlia := unfold vec, mat in *; lia.
Definition fv (n : nat) (v : vec xreal) (x : nat -> R) : Prop := length v = n /\ forall i, i < n -> nth i v n0 = XFin (x i).
Definition fm (n : nat) (m : mat xreal) (A : nat -> nat -> R) : Prop := length m = n /\ forall i, i < n -> fv n (nth i m []) (A i).

Lemma fv_ext : forall n v x y, (forall i, i < n -> x i = y i) -> fv n v x -> fv n v y.
Proof. intros n v x y H [L V]. split; [exact L|]. intros i Hi. rewrite <- H; auto. Qed.
Lemma fm_ext : forall n m A B, (forall i j, i < n -> j < n -> A i j = B i j) -> fm n m A -> fm n m B.
Proof. intros n m A B H [L V]. split; [exact L|]. intros i Hi. eapply fv_ext; [|apply V; exact Hi]. intros. apply H; auto. Qed.
Lemma fv_det : forall n v x y, fv n v x -> fv n v y -> forall i, i < n -> x i = y i.
Proof. intros n v x y [_ X] [_ Y] i Hi. specialize (X i Hi). specialize (Y i Hi). congruence. Qed.
Lemma fm_det : forall n v x y, fm n v x -> fm n v y -> forall i j, i < n -> j < n -> x i j = y i j.
Proof. intros n v x y [_ X] [_ Y] i j Hi Hj. eapply fv_det; eauto. Qed.
Lemma fm_nth : forall n m A i j, fm n m A -> i < n -> j < n -> mnth m i j = XFin (A i j).
Proof. intros n m A i j [_ H] Hi Hj. apply H; auto. Qed.
Lemma fv_eq : forall n (v w : vec xreal) x, fv n v x -> fv n w x -> v = w.
Proof.
  intros n v w x [L1 V] [L2 W]. apply (nth_ext v w n0 n0); [congruence|]. intros i Hi. rewrite L1 in Hi. rewrite V, W; auto.
Qed.
Lemma fm_eq : forall n (a b : mat xreal) A, fm n a A -> fm n b A -> a = b.
Proof.
  intros n a b A [L1 V] [L2 W]. apply (nth_ext a b [] []); [congruence|]. intros i Hi. rewrite L1 in Hi. eapply fv_eq; eauto.
Qed.
Lemma nth_map_seq : forall {A} (f : nat -> A) n i d, i < n -> nth i (map f (seq 0 n)) d = f i.
Proof.
  intros A f n i d H. rewrite (nth_indep _ d (f 0)) by (rewrite map_length, seq_length; exact H). rewrite map_nth, seq_nth; auto.
Qed.
Lemma fv_build : forall n f, fv n (map (fun i => XFin (f i)) (seq 0 n)) f.
Proof. intros n f. split; [rewrite map_length; apply seq_length|]. intros i Hi. apply (nth_map_seq (fun i => XFin (f i))). exact Hi. Qed.
Lemma fm_build : forall n f A, (forall i j, i < n -> j < n -> f i j = XFin (A i j)) -> fm n (mbuild n n f) A.
Proof.
  intros n f A H. unfold mbuild. split; [rewrite map_length; apply seq_length|]. intros i Hi.
  rewrite (nth_map_seq (fun i => map (fun j => f i j) (seq 0 n))) by exact Hi. split; [rewrite map_length; apply seq_length|].
  intros j Hj. rewrite (nth_map_seq (fun j => f i j)) by exact Hj. auto.
Qed.
Lemma fm_ncols : forall n m A, 1 <= n -> fm n m A -> ncols m = n.
Proof. intros n m A Hn [L V]. destruct m as [|r m]; cbn in *; [lia|]. apply (V 0). lia. Qed.
Lemma fv_nil : forall v x, fv 0 v x -> v = [].
Proof. intros v x [L _]. apply length_zero_iff_nil. exact L. Qed.

Lemma nsum_fv : forall n l f, fv n l f -> nsum l = XFin (Sig n f).
Proof.
  unfold nsum. intros n l. revert n. induction l as [|a l IH] using rev_ind; intros n f [L V].
  - cbn in L. subst n. reflexivity.
  - rewrite app_length in L. cbn in L. rewrite fold_left_app. destruct n as [|n]; [lia|]. assert (length l = n) by lia.
    rewrite (IH n f).
    + cbn [fold_left Sig]. specialize (V n ltac:(lia)). rewrite app_nth2 in V by lia. rewrite H, Nat.sub_diag in V. cbn in V. rewrite V. reflexivity.
    + split; [exact H|]. intros i Hi. specialize (V i ltac:(lia)). rewrite app_nth1 in V by lia. exact V.
Qed.
Lemma map2_len : forall {A B C} (f : A -> B -> C) a b, length a = length b -> length (map2 f a b) = length a.
Proof. induction a; destruct b; intros H; cbn in *; try lia. rewrite IHa; lia. Qed.
Lemma map2_nth : forall {A B C} (f : A -> B -> C) a b i da db dc, length a = length b -> i < length a ->
  nth i (map2 f a b) dc = f (nth i a da) (nth i b db).
Proof. induction a; destruct b; intros i da db dc H Hi; cbn in *; try lia. destruct i; [reflexivity|]. apply IHa; lia. Qed.
Lemma fv_map : forall n v x (f : xreal -> xreal) g, fv n v x -> (forall i, i < n -> f (XFin (x i)) = XFin (g i)) -> fv n (map f v) g.
Proof.
  intros n v x f g [L V] H. split; [rewrite map_length; exact L|]. intros i Hi. rewrite (nth_indep _ n0 (f n0)) by (rewrite map_length; rlia).
  rewrite map_nth, V by exact Hi. auto.
Qed.
Lemma fv_map2 : forall n a b x y (f : xreal -> xreal -> xreal) g, fv n a x -> fv n b y ->
  (forall i, i < n -> f (XFin (x i)) (XFin (y i)) = XFin (g i)) -> fv n (map2 f a b) g.
Proof.
  intros n a b x y f g [La A] [Lb B] H. split; [rewrite map2_len; lia|]. intros i Hi. rewrite (map2_nth f a b i n0 n0) by lia. rewrite A, B by exact Hi. auto.
Qed.
Lemma fv_add : forall n a b x y, fv n a x -> fv n b y -> vadd_c a b = Ret (vadd a b) /\ fv n (vadd a b) (fun i => (x i + y i)%R).
Proof.
  intros n a b x y A B. split.
  - unfold vadd_c, check. destruct A as [La _], B as [Lb _]. rewrite La, Lb, Nat.eqb_refl. reflexivity.
  - eapply fv_map2; eauto.
Qed.
Lemma fv_scale : forall n s v x, fv n v x -> fv n (vscale (XFin s) v) (fun i => (s * x i)%R).
Proof. intros. eapply fv_map; eauto. Qed.
Lemma fv_scale_r : forall n s v x, fv n v x -> fv n (vscale_r v (XFin s)) (fun i => (x i * s)%R).
Proof. intros. eapply fv_map; eauto. Qed.
Lemma fv_dot : forall n a b x y, fv n a x -> fv n b y -> dot a b = XFin (Sig n (fun i => (x i * y i)%R)).
Proof. intros. apply nsum_fv. eapply fv_map2; eauto. Qed.
Lemma fv_norm2 : forall n v x, fv n v x -> norm2 v = XFin (Sig n (fun i => (x i * x i)%R)).
Proof. intros. apply nsum_fv. eapply fv_map; eauto. Qed.
Lemma Rltb_false : forall a b, (b <= a)%R -> Rltb a b = false.
Proof. intros. unfold Rltb. destruct (Rlt_dec a b); [lra|reflexivity]. Qed.
Lemma Rltb_true : forall a b, (a < b)%R -> Rltb a b = true.
Proof. intros. unfold Rltb. destruct (Rlt_dec a b); [reflexivity|lra]. Qed.
Lemma Reqb_false : forall a b, a <> b -> Reqb a b = false.
Proof. intros. unfold Reqb. destruct (Req_EM_T a b); [contradiction|reflexivity]. Qed.
Lemma Reqb_true : forall a, Reqb a a = true.
Proof. intros. unfold Reqb. destruct (Req_EM_T a a); [reflexivity|contradiction]. Qed.
Lemma fv_magnitude : forall n v x, fv n v x -> magnitude v = XFin (sqrt (Sig n (fun i => (x i * x i)%R))).
Proof.
  intros n v x H. unfold magnitude. rewrite (fv_norm2 _ _ _ H). cbn. rewrite Rltb_false; [reflexivity|]. apply Sig_nonneg. intros. apply Rle_0_sqr.
Qed.
Lemma fv_zeros : forall n, fv n (vzeros n : vec xreal) (fun _ => 0%R).
Proof.
  intros n. unfold vzeros. split; [apply repeat_length|]. intros i Hi. exact (nth_repeat n0 n i).
Qed.

Lemma fm_rows : forall n m A, fm n m A -> rows_have n m = true.
Proof.
  intros n m A [L V]. unfold rows_have. apply forallb_forall. intros r Hr. apply (In_nth _ _ []) in Hr. destruct Hr as [i [Hi <-]].
  apply Nat.eqb_eq. apply V. lia.
Qed.
Lemma fm_rowwise : forall n m A (f : list xreal -> list xreal) B, fm n m A -> (forall i, i < n -> fv n (f (nth i m [])) (B i)) -> fm n (map f m) B.
Proof.
  intros n m A f B [L V] H. split; [rewrite map_length; exact L|]. intros i Hi. rewrite (nth_indep _ [] (f [])) by (rewrite map_length; rlia).
  rewrite map_nth. auto.
Qed.
Lemma fm_mvmul : forall n m A v x, fm n m A -> fv n v x -> mvmul_c m v = Ret (mvmul m v) /\ fv n (mvmul m v) (fun i => Sig n (fun j => (A i j * x j)%R)).
Proof.
  intros n m A v x M V. split.
  - unfold mvmul_c, check. destruct V as [-> _]. rewrite (fm_rows _ _ _ M). reflexivity.
  - unfold mvmul. destruct M as [L W]. split; [rewrite map_length; exact L|]. intros i Hi.
    rewrite (nth_indep _ n0 (dot [] v)) by (rewrite map_length; rlia). rewrite (map_nth (fun row => dot row v)). apply fv_dot; auto.
Qed.
Lemma fm_mmap : forall n m A f B, fm n m A -> (forall i j, i < n -> j < n -> f (XFin (A i j)) = XFin (B i j)) -> fm n (mmap f m) B.
Proof. intros n m A f B M H. eapply fm_rowwise; eauto. intros i Hi. eapply fv_map; [apply M; exact Hi|]. auto. Qed.
Lemma fm_scale : forall n s m A, fm n m A -> fm n (mscale (XFin s) m) (fun i j => (s * A i j)%R).
Proof. intros. eapply fm_mmap; eauto. Qed.
Lemma fm_add : forall n a b A B, 1 <= n -> fm n a A -> fm n b B -> madd_c a b = Ret (madd a b) /\ fm n (madd a b) (fun i j => (A i j + B i j)%R).
Proof.
  intros n a b A B Hn MA MB. split.
  - unfold madd_c, check, same_shape, is_shape. rewrite (fm_ncols _ _ _ Hn MA). rewrite (fm_rows _ _ _ MA), (fm_rows _ _ _ MB).
    destruct MA as [-> _], MB as [-> _]. rewrite Nat.eqb_refl. reflexivity.
  - destruct MA as [La VA], MB as [Lb VB]. unfold madd. split; [rewrite map2_len; rlia|]. intros i Hi. rewrite (map2_nth vadd a b i [] []) by rlia.
    apply fv_add; auto.
Qed.
Lemma fm_outer : forall n a b x y, fv n a x -> fv n b y -> fm n (outer a b) (fun i j => (x i * y j)%R).
Proof.
  intros n a b x y [La A] B. unfold outer. split; [rewrite map_length; exact La|]. intros i Hi.
  rewrite (nth_indep _ [] (map (fun y => nmul n0 y) b)) by (rewrite map_length; rlia).
  rewrite (map_nth (fun x => map (fun y => nmul x y) b)). rewrite A by exact Hi. eapply fv_map; eauto.
Qed.
Lemma fm_column : forall n m A j, fm n m A -> j < n -> fv n (column m j) (fun i => A i j).
Proof.
  intros n m A j [L V] Hj. unfold column. split; [rewrite map_length; exact L|]. intros i Hi.
  rewrite (nth_indep _ n0 (nth j [] n0)) by (rewrite map_length; rlia). rewrite (map_nth (fun r => nth j r n0)). apply V; auto.
Qed.
Lemma fm_transpose : forall n m A, 1 <= n -> fm n m A -> fm n (transpose m) (fun i j => A j i).
Proof.
  intros n m A Hn M. unfold transpose. rewrite (fm_ncols _ _ _ Hn M). destruct M as [L V]. rewrite L. apply fm_build. intros i j Hi Hj. apply V; auto.
Qed.
Lemma fm_mmul : forall n a b A B, 1 <= n -> fm n a A -> fm n b B ->
  mmul_c a b = Ret (mmul a b) /\ fm n (mmul a b) (fun i j => Sig n (fun k => (A i k * B k j)%R)).
Proof.
  intros n a b A B Hn MA MB. split.
  - unfold mmul_c, check. replace (length b) with n by (symmetry; apply MB). rewrite (fm_rows _ _ _ MA). reflexivity.
  - unfold mmul. rewrite (fm_ncols _ _ _ Hn MB). eapply fm_rowwise; eauto. intros i Hi. split; [rewrite map_length; apply seq_length|].
    intros j Hj. rewrite (nth_map_seq (fun j => dot (nth i a []) (column b j))) by exact Hj. apply fv_dot; [apply MA; exact Hi|]. apply fm_column; auto.
Qed.
Lemma fm_fill_lower : forall n m A, fm n m A -> fm n (fill_lower m) (fun i j => if Nat.ltb j i then A j i else A i j).
Proof.
  intros n m A [L V]. unfold fill_lower. rewrite L. apply fm_build. intros i j Hi Hj. destruct (Nat.ltb j i); apply V; auto.
Qed.
Lemma fm_identity : forall n, fm n (identity n : mat xreal) delta.
Proof. intros n. apply fm_build. intros i j Hi Hj. unfold delta. destruct (Nat.eqb i j); reflexivity. Qed.
Lemma fm_zeros : forall n, fm n (mzeros n : mat xreal) (fun _ _ => 0%R).
Proof. intros n. apply fm_build. intros; reflexivity. Qed.
Lemma fm_from_diagonal : forall n d x, fv n d x -> fm n (from_diagonal d) (fun i j => (delta i j * x i)%R).
Proof.
  intros n d x [L V]. unfold from_diagonal. rewrite L. apply fm_build. intros i j Hi Hj. unfold delta. destruct (Nat.eqb i j).
  - rewrite V by exact Hi. f_equal. lra.
  - cbn. f_equal. lra.
Qed.
Lemma fm_diagonal : forall n m A, fm n m A -> fv n (diagonal m) (fun i => A i i).
Proof.
  intros n m A M. unfold diagonal. assert (L : length m = n) by apply M. rewrite L. split; [rewrite map_length; apply seq_length|]. intros i Hi.
  rewrite (nth_map_seq (fun i => mnth m i i)) by exact Hi. eapply fm_nth; eauto.
Qed.
(* sum of a non-empty list of matrices *)
Lemma fm_msum_from : forall n l As acc A, 1 <= n -> fm n acc A -> length l = length As -> (forall k, k < length l -> fm n (nth k l []) (nth k As (fun _ _ => 0%R))) ->
  exists m, msum_from acc l = Ret m /\ fm n m (fun i j => (A i j + Sig (length l) (fun k => nth k As (fun _ _ => 0%R) i j))%R).
Proof.
  intros n l. induction l as [|x l IH]; intros As acc A Hn Hacc HL H.
  - exists acc. split; [reflexivity|]. eapply fm_ext; [|exact Hacc]. intros. cbn. lra.
  - destruct As as [|B As]; [discriminate|]. destruct (fm_add n acc x A B Hn Hacc (H 0 ltac:(cbn; lia))) as [E1 E2].
    destruct (IH As (madd acc x) (fun i j => (A i j + B i j)%R) Hn E2) as [m [M1 M2]]; [cbn in HL; lia|intros k Hk; apply (H (S k)); cbn; lia|].
    exists m. cbn [msum_from]. rewrite E1. cbn [obind]. split; [exact M1|]. eapply fm_ext; [|exact M2]. intros i j Hi Hj. cbn beta.
    change (length (x :: l)) with (1 + length l). rewrite Sig_split. cbn. lra.
Qed.
Lemma fv_vsum_from : forall n l xs acc x, fv n acc x -> length l = length xs -> (forall k, k < length l -> fv n (nth k l []) (nth k xs (fun _ => 0%R))) ->
  exists v, vsum_from acc l = Ret v /\ fv n v (fun i => (x i + Sig (length l) (fun k => nth k xs (fun _ => 0%R) i))%R).
Proof.
  intros n l. induction l as [|y l IH]; intros xs acc x Hacc HL H.
  - exists acc. split; [reflexivity|]. eapply fv_ext; [|exact Hacc]. intros. cbn. lra.
  - destruct xs as [|z xs]; [discriminate|]. destruct (fv_add n acc y x z Hacc (H 0 ltac:(cbn; lia))) as [E1 E2].
    destruct (IH xs (vadd acc y) (fun i => (x i + z i)%R) E2) as [m [M1 M2]]; [cbn in HL; lia|intros k Hk; apply (H (S k)); cbn; lia|].
    exists m. cbn [vsum_from]. rewrite E1. cbn [obind]. split; [exact M1|]. eapply fv_ext; [|exact M2]. intros i Hi. cbn beta.
    change (length (y :: l)) with (1 + length l). rewrite Sig_split. cbn. lra.
Qed.

(* ---- quadratic forms ---- *)
Definition quad (n : nat) (A : nat -> nat -> R) (x : nat -> R) : R := Sig n (fun i => Sig n (fun j => (x i * A i j * x j)%R)).
Definition dotR (n : nat) (x y : nat -> R) : R := Sig n (fun i => (x i * y i)%R).
Lemma quad_ext : forall n A B x, (forall i j, i < n -> j < n -> A i j = B i j) -> quad n A x = quad n B x.
Proof. intros n A B x H. unfold quad. apply Sig_ext. intros. apply Sig_ext. intros. rewrite H; auto. Qed.
Lemma quad_plus : forall n A B x, quad n (fun i j => (A i j + B i j)%R) x = (quad n A x + quad n B x)%R.
Proof.
  intros. unfold quad. rewrite <- Sig_plus. apply Sig_ext. intros. rewrite <- Sig_plus. apply Sig_ext. intros. lra.
Qed.
Lemma quad_scale : forall n c A x, quad n (fun i j => (c * A i j)%R) x = (c * quad n A x)%R.
Proof.
  intros. unfold quad. rewrite <- Sig_mul_l. apply Sig_ext. intros. rewrite <- Sig_mul_l. apply Sig_ext. intros. lra.
Qed.
Lemma quad_outer : forall n c y x, quad n (fun i j => (c * y i * y j)%R) x = (c * (dotR n x y * dotR n x y))%R.
Proof.
  intros. unfold quad, dotR. rewrite <- Sig_mul_r, <- Sig_mul_l. apply Sig_ext. intros i Hi. rewrite <- Sig_mul_l, <- Sig_mul_l. apply Sig_ext. intros. lra.
Qed.
Lemma quad_Sig : forall n m (As : nat -> nat -> nat -> R) x, quad n (fun i j => Sig m (fun k => As k i j)) x = Sig m (fun k => quad n (As k) x).
Proof.
  intros n m As x. induction m; cbn [Sig].
  - unfold quad. apply Sig_zero. intros. apply Sig_zero. intros. lra.
  - rewrite <- IHm, <- quad_plus. reflexivity.
Qed.
Lemma quad_zero_vec : forall n A x, (forall i, i < n -> x i = 0%R) -> quad n A x = 0%R.
Proof. intros n A x H. unfold quad. apply Sig_zero. intros i Hi. apply Sig_zero. intros. rewrite (H i Hi). lra. Qed.
Definition nonzero (n : nat) (x : nat -> R) : Prop := exists i, i < n /\ x i <> 0%R.
Lemma dotR_pos : forall n x, nonzero n x -> (0 < dotR n x x)%R.
Proof.
  intros n x [i [Hi Hx]]. unfold dotR. apply (Sig_pos n _ i); auto; [intros; apply Rle_0_sqr|]. apply Rsqr_pos_lt in Hx. exact Hx.
Qed.
Lemma dotR_nonneg : forall n x, (0 <= dotR n x x)%R.
Proof. intros. apply Sig_nonneg. intros. apply Rle_0_sqr. Qed.
Lemma dotR_zero : forall n x, dotR n x x = 0%R -> forall i, i < n -> x i = 0%R.
Proof.
  intros n x H i Hi. pose proof (Sig_pos_term n (fun i => (x i * x i)%R) i ltac:(intros; apply Rle_0_sqr) Hi) as P. unfold dotR in H. rewrite H in P.
  pose proof (Rle_0_sqr (x i)). unfold Rsqr in *. nra.
Qed.
