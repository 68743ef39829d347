(* Orthogonal matrices and exact eigendecompositions over the reals. Lemmas only. *)
From Coq Require Import List NArith ZArith Bool Arith Lia Reals Lra.
Require Import Verif.Base Verif.Num Verif.XReal Verif.LinAlg Verif.Params Verif.Env Verif.State Verif.Lib Verif.RSum Verif.WeightLemmas.
Import ListNotations.
Open Scope nat_scope.

Ltac dcase i j := destruct (Nat.eq_dec i j) as [?E|?E]; [subst; rewrite ?delta_eq|rewrite ?(delta_neq i j), ?(delta_neq j i) by auto].

Definition orthogonal (n : nat) (V : nat -> nat -> R) : Prop :=
  (forall i j, i < n -> j < n -> Sig n (fun k => (V k i * V k j)%R) = delta i j) /\
  (forall i j, i < n -> j < n -> Sig n (fun k => (V i k * V j k)%R) = delta i j).
Definition symmetric (n : nat) (A : nat -> nat -> R) : Prop := forall i j, i < n -> j < n -> A i j = A j i.
(* the columns of V are eigenvectors *)
Definition diagonalizes (n : nat) (A V : nat -> nat -> R) (lam : nat -> R) : Prop :=
  forall i j, i < n -> j < n -> Sig n (fun k => (A i k * V k j)%R) = (V i j * lam j)%R.
(* V diag(e) V^T *)
Definition compose (n : nat) (V : nat -> nat -> R) (e : nat -> R) (i j : nat) : R := Sig n (fun k => (V i k * e k * V j k)%R).
(* coordinates with respect to the columns of V *)
Definition co (n : nat) (V : nat -> nat -> R) (x : nat -> R) (k : nat) : R := Sig n (fun i => (V i k * x i)%R).
Definition posdef (n : nat) (A : nat -> nat -> R) : Prop := forall x, nonzero n x -> (0 < quad n A x)%R.

Section Orth.
  Variables (n : nat) (V : nat -> nat -> R).
  Hypothesis HV : orthogonal n V.

  Lemma co_ext : forall x y k, (forall i, i < n -> x i = y i) -> co n V x k = co n V y k.
  Proof. intros x y k H. apply Sig_ext. intros i Hi. rewrite (H i Hi). reflexivity. Qed.
  Lemma parseval : forall x y, dotR n x y = Sig n (fun k => (co n V x k * co n V y k)%R).
  Proof.
    intros x y. unfold co, dotR. symmetry.
    transitivity (Sig n (fun k => Sig n (fun i => Sig n (fun j => (x i * y j * (V i k * V j k))%R)))).
    { apply Sig_ext. intros k _. rewrite <- Sig_mul_r. apply Sig_ext. intros i _. rewrite <- Sig_mul_l. apply Sig_ext. intros. ring. }
    rewrite Sig_swap. apply Sig_ext. intros i Hi. rewrite Sig_swap.
    transitivity (Sig n (fun j => (x i * y j * delta i j)%R)).
    { apply Sig_ext. intros j Hj. rewrite Sig_mul_l. rewrite (proj2 HV i j Hi Hj). reflexivity. }
    rewrite (Sig_ext _ _ (fun j => (delta i j * (x i * y j))%R)) by (intros; ring). rewrite (Sig_delta n (fun j => (x i * y j)%R) i Hi). reflexivity.
  Qed.
  (* the coordinates of V diag(e) V^T x *)
  Lemma co_compose : forall e x k, k < n -> co n V (fun i => Sig n (fun j => (compose n V e i j * x j)%R)) k = (e k * co n V x k)%R.
  Proof.
    intros e x k Hk. unfold co, compose.
    transitivity (Sig n (fun i => Sig n (fun l => (V i k * V i l * (e l * co n V x l))%R))).
    { apply Sig_ext. intros i _. rewrite <- Sig_mul_l. transitivity (Sig n (fun j => Sig n (fun l => (V i k * V i l * e l * V j l * x j)%R))).
      - apply Sig_ext. intros j _. rewrite <- Sig_mul_r, <- Sig_mul_l. apply Sig_ext. intros. ring.
      - rewrite Sig_swap. apply Sig_ext. intros l _. unfold co. rewrite <- !Sig_mul_l. apply Sig_ext. intros. ring. }
    rewrite Sig_swap. transitivity (Sig n (fun l => (delta k l * (e l * co n V x l))%R)).
    { apply Sig_ext. intros l Hl. rewrite Sig_mul_r. rewrite (proj1 HV k l Hk Hl). reflexivity. }
    rewrite (Sig_delta n (fun l => (e l * co n V x l)%R) k Hk). reflexivity.
  Qed.
  Lemma quad_compose : forall e x, quad n (compose n V e) x = Sig n (fun k => (e k * (co n V x k * co n V x k))%R).
  Proof.
    intros e x. transitivity (dotR n x (fun i => Sig n (fun j => (compose n V e i j * x j)%R))).
    { unfold quad, dotR. apply Sig_ext. intros i _. rewrite <- Sig_mul_l. apply Sig_ext. intros. ring. }
    rewrite parseval. apply Sig_ext. intros k Hk. rewrite co_compose by exact Hk. ring.
  Qed.
  Lemma co_nonzero : forall x, nonzero n x -> nonzero n (co n V x).
  Proof.
    intros x Hx. pose proof (dotR_pos n x Hx) as P. rewrite parseval in P.
    destruct (Classical_Prop.classic (nonzero n (co n V x))) as [H|H]; [exact H|]. exfalso.
    rewrite Sig_zero in P; [lra|]. intros k Hk. destruct (Req_EM_T (co n V x k) 0) as [Z|Z]; [rewrite Z; ring|]. exfalso. apply H. exists k. auto.
  Qed.
  Lemma posdef_compose : forall e, (forall k, k < n -> (0 < e k)%R) -> posdef n (compose n V e).
  Proof.
    intros e He x Hx. rewrite quad_compose. destruct (co_nonzero x Hx) as [k [Hk Hz]]. apply (Sig_pos _ _ k); [|exact Hk|].
    - intros i Hi. apply Rmult_le_pos; [left; apply He; exact Hi|apply Rle_0_sqr].
    - apply Rmult_lt_0_compat; [apply He; exact Hk|]. nra.
  Qed.
  (* (y.x)^2 <= |V diag(1/d) V^T y|^2 * x^T V diag(d^2) V^T x *)
  Lemma weighted_cauchy : forall d x y, (forall k, k < n -> (0 < d k)%R) ->
    let Sy i := Sig n (fun j => (compose n V (fun k => / d k)%R i j * y j)%R) in
    (dotR n x y * dotR n x y <= dotR n Sy Sy * quad n (compose n V (fun k => d k * d k)%R) x)%R.
  Proof.
    intros d x y Hd Sy. rewrite (parseval x y), (parseval Sy Sy), quad_compose.
    pose proof (Sig_cauchy n (fun k => co n V Sy k) (fun k => (d k * co n V x k)%R)) as C. unfold Rsqr in C.
    replace (Sig n (fun k => co n V x k * co n V y k))%R with (Sig n (fun k => (co n V Sy k * (d k * co n V x k))%R)).
    - eapply Rle_trans; [exact C|]. apply Req_le. f_equal. apply Sig_ext. intros. ring.
    - apply Sig_ext. intros k Hk. unfold Sy. rewrite co_compose by exact Hk. field. apply Rgt_not_eq, Hd, Hk.
  Qed.
  (* V z has the length of z *)
  Lemma orth_norm : forall z, dotR n (fun i => Sig n (fun l => (V i l * z l)%R)) (fun i => Sig n (fun l => (V i l * z l)%R)) = dotR n z z.
  Proof.
    intros z. rewrite parseval. unfold dotR. apply Sig_ext. intros k Hk.
    assert (X : co n V (fun i => Sig n (fun l => (V i l * z l)%R)) k = z k); [|rewrite X; reflexivity].
    unfold co. transitivity (Sig n (fun l => (delta k l * z l)%R)).
    - transitivity (Sig n (fun i => Sig n (fun l => (V i k * V i l * z l)%R))).
      { apply Sig_ext. intros i _. rewrite <- Sig_mul_l. apply Sig_ext. intros. ring. }
      rewrite Sig_swap. apply Sig_ext. intros l Hl. rewrite Sig_mul_r, (proj1 HV k l Hk Hl). reflexivity.
    - apply (Sig_delta n z k Hk).
  Qed.
  (* V diag(1/d) V^T (V diag(d)) z = V z *)
  Lemma whiten : forall d z i, (forall k, k < n -> (0 < d k)%R) -> i < n ->
    Sig n (fun j => (compose n V (fun k => / d k)%R i j * Sig n (fun l => (V j l * d l * z l)%R))%R) = Sig n (fun l => (V i l * z l)%R).
  Proof.
    intros d z i Hd Hi. unfold compose.
    transitivity (Sig n (fun k => Sig n (fun l => (V i k * / d k * (d l * z l) * Sig n (fun j => V j k * V j l))%R))).
    - transitivity (Sig n (fun j => Sig n (fun k => Sig n (fun l => (V i k * / d k * (d l * z l) * (V j k * V j l))%R)))).
      { apply Sig_ext. intros j _. rewrite <- Sig_mul_r. apply Sig_ext. intros k _. rewrite <- Sig_mul_l. apply Sig_ext. intros. ring. }
      rewrite Sig_swap. apply Sig_ext. intros k _. rewrite Sig_swap. apply Sig_ext. intros l _. rewrite Sig_mul_l. reflexivity.
    - apply Sig_ext. intros k Hk. transitivity (Sig n (fun l => (delta k l * (V i k * / d k * (d l * z l)))%R)).
      { apply Sig_ext. intros l Hl. rewrite (proj1 HV k l Hk Hl). ring. }
      rewrite (Sig_delta n (fun l => (V i k * / d k * (d l * z l))%R) k Hk). field. apply Rgt_not_eq, Hd, Hk.
  Qed.
  Lemma compose_symm : forall e, symmetric n (compose n V e).
  Proof. intros e i j _ _. unfold compose. apply Sig_ext. intros. ring. Qed.
  (* product of two matrices with the same eigenvectors *)
  Lemma compose_mul : forall e f i j, i < n -> j < n ->
    Sig n (fun k => (compose n V e i k * compose n V f k j)%R) = compose n V (fun k => (e k * f k)%R) i j.
  Proof.
    intros e f i j Hi Hj. unfold compose.
    transitivity (Sig n (fun a => Sig n (fun b => (V i a * e a * f b * V j b * Sig n (fun k => V k a * V k b))%R))).
    - transitivity (Sig n (fun k => Sig n (fun a => Sig n (fun b => (V i a * e a * f b * V j b * (V k a * V k b))%R)))).
      { apply Sig_ext. intros k _. rewrite <- Sig_mul_r. apply Sig_ext. intros a _. rewrite <- Sig_mul_l. apply Sig_ext. intros. ring. }
      rewrite Sig_swap. apply Sig_ext. intros a _. rewrite Sig_swap. apply Sig_ext. intros b _. rewrite Sig_mul_l. reflexivity.
    - apply Sig_ext. intros a Ha. transitivity (Sig n (fun b => (delta a b * (V i a * e a * f b * V j b))%R)).
      { apply Sig_ext. intros b Hb. rewrite (proj1 HV a b Ha Hb). ring. }
      rewrite (Sig_delta n (fun b => (V i a * e a * f b * V j b)%R) a Ha). ring.
  Qed.
  Lemma compose_one : forall i j, i < n -> j < n -> compose n V (fun _ => 1%R) i j = delta i j.
  Proof. intros i j Hi Hj. rewrite <- (proj2 HV i j Hi Hj). unfold compose. apply Sig_ext. intros. ring. Qed.

  Variables (A : nat -> nat -> R) (lam : nat -> R).
  Hypothesis HA : diagonalizes n A V lam.
  Lemma spectral : forall i j, i < n -> j < n -> A i j = compose n V lam i j.
  Proof.
    intros i j Hi Hj. unfold compose. transitivity (Sig n (fun k => (Sig n (fun m => A i m * V m k) * V j k)%R)).
    - transitivity (Sig n (fun m => (delta j m * A i m)%R)); [symmetry; apply (Sig_delta n (A i) j Hj)|].
      transitivity (Sig n (fun k => Sig n (fun m => (A i m * (V m k * V j k))%R))).
      + rewrite Sig_swap. apply Sig_ext. intros m Hm. rewrite Sig_mul_l. rewrite (proj2 HV m j Hm Hj). dcase j m; ring.
      + apply Sig_ext. intros k _. rewrite <- Sig_mul_r. apply Sig_ext. intros. ring.
    - apply Sig_ext. intros k Hk. rewrite (HA i k Hi Hk). reflexivity.
  Qed.
  Lemma eigenvalue_quad : forall k, k < n -> quad n A (fun i => V i k) = lam k.
  Proof.
    intros k Hk. rewrite (quad_ext n A (compose n V lam)) by (intros; apply spectral; auto). rewrite quad_compose.
    transitivity (Sig n (fun l => (delta k l * lam l)%R)); [|apply (Sig_delta n lam k Hk)]. apply Sig_ext. intros l Hl.
    assert (X : co n V (fun i => V i k) l = delta k l).
    { unfold co. rewrite <- (proj1 HV k l Hk Hl). apply Sig_ext. intros. ring. }
    rewrite X. dcase k l; ring.
  Qed.
  Lemma column_nonzero : forall k, k < n -> nonzero n (fun i => V i k).
  Proof.
    intros k Hk. destruct (Classical_Prop.classic (nonzero n (fun i => V i k))) as [H|H]; [exact H|]. exfalso.
    pose proof (proj1 HV k k Hk Hk) as D. rewrite Sig_zero in D.
    - rewrite delta_eq in D. lra.
    - intros i Hi. destruct (Req_EM_T (V i k) 0) as [Z|Z]; [rewrite Z; ring|]. exfalso. apply H. exists i. auto.
  Qed.
  Lemma posdef_eigenvalues : posdef n A <-> forall k, k < n -> (0 < lam k)%R.
  Proof.
    split.
    - intros H k Hk. rewrite <- (eigenvalue_quad k Hk). apply H. apply column_nonzero. exact Hk.
    - intros H x Hx. rewrite (quad_ext n A (compose n V lam)) by (intros; apply spectral; auto). apply posdef_compose; auto.
  Qed.
End Orth.

Lemma orth_delta : forall n, orthogonal n delta.
Proof.
  intros n. split; intros i j Hi Hj.
  - rewrite (Sig_ext _ _ (fun k => (delta i k * delta k j)%R)).
    + rewrite (Sig_delta n (fun k => delta k j) i Hi). reflexivity.
    + intros k _. rewrite (delta_sym k i). ring.
  - rewrite (Sig_delta n (fun k => delta j k) i Hi). apply delta_sym.
Qed.

(* ---- the solver ---- *)
Section Solver.
  Context {E : Env xreal}.
  (* On every finite symmetric matrix of dimension n the solver returns an orthogonal matrix of eigenvectors and
     the eigenvalues. *)
  Definition exact_solver (n : nat) : Prop := forall m A, fm n m A -> symmetric n A ->
    exists vecs vals V lam, eigen m = Some (vecs, vals) /\ fm n vecs V /\ fv n vals lam /\ orthogonal n V /\ diagonalizes n A V lam.

  Lemma normalize_exact : forall n vecs V, 1 <= n -> fm n vecs V -> orthogonal n V -> fm n (normalize_columns vecs) V.
  Proof.
    intros n vecs V Hn H Ho. unfold normalize_columns. rewrite (fm_ncols n _ _ Hn H). rewrite (proj1 H). apply fm_build.
    intros i j Hi Hj. rewrite (fm_nth n _ _ i j H Hi Hj), (fv_magnitude n _ _ (fm_column n _ _ j H Hj)). rewrite (proj1 Ho j j Hj Hj).
    rewrite delta_eq, sqrt_1, fin_div by lra. f_equal. lra.
  Qed.

  Lemma update_eigen_exact : forall n (c : cov_matrix xreal) C, 1 <= n -> exact_solver n -> fm n (cm_cov c) C -> symmetric n C ->
    exists V lam, orthogonal n V /\ diagonalizes n C V lam /\
      if existsb (fun k => if Rle_dec (lam k) 0 then true else false) (seq 0 n)
      then update_eigendecomposition c = Ret (false, c)
      else exists c', update_eigendecomposition c = Ret (true, c') /\ cm_cov c' = cm_cov c /\ fm n (cm_eigenvectors c') V /\
             fm n (cm_sqrt_eigenvalues c') (fun i j => (delta i j * sqrt (lam i))%R) /\
             fm n (cm_sqrt_inv c') (compose n V (fun k => / sqrt (lam k))%R) /\
             fm n (cm_transform c') (fun i j => (V i j * sqrt (lam j))%R).
  Proof.
    intros n c C Hn Hsol HC Sy. destruct (Hsol _ _ HC Sy) as [vecs [vals [V [lam [E1 [E2 [E3 [E4 E5]]]]]]]].
    exists V, lam. split; [exact E4|]. split; [exact E5|]. unfold update_eigendecomposition. rewrite E1.
    assert (X : existsb (fun x => nleb x n0) vals = existsb (fun k => if Rle_dec (lam k) 0 then true else false) (seq 0 n)).
    { destruct E3 as [L N]. apply eq_true_iff_eq. rewrite !existsb_exists. split.
      - intros [x [Hx Hb]]. apply (In_nth _ _ n0) in Hx. destruct Hx as [k [Hk <-]]. rewrite L in Hk. exists k. split; [apply in_seq; lia|].
        rewrite N in Hb by exact Hk. cbn in Hb. unfold x_leb in Hb. cbn in Hb. unfold Rltb, Reqb in Hb.
        destruct (Rle_dec (lam k) 0) as [Q|Q]; [reflexivity|]. destruct (Rlt_dec (lam k) 0), (Req_EM_T (lam k) 0); cbn in Hb; try lra; discriminate Hb.
      - intros [k [Hk Hb]]. apply in_seq in Hk. exists (nth k vals n0). split; [apply nth_In; rewrite L; lia|]. rewrite N by lia. cbn. unfold x_leb. cbn. unfold Rltb, Reqb.
        destruct (Rle_dec (lam k) 0) as [Q|Q]; [|discriminate Hb]. destruct (Rlt_dec (lam k) 0), (Req_EM_T (lam k) 0); cbn; auto; lra. }
    rewrite X. destruct (existsb _ (seq 0 n)) eqn:Ex; [reflexivity|].
    assert (P : forall k, k < n -> (0 < lam k)%R).
    { intros k Hk. destruct (Rle_dec (lam k) 0) as [Q|Q]; [|lra]. exfalso. assert (true = false); [|discriminate]. rewrite <- Ex. symmetry. apply existsb_exists.
      exists k. split; [apply in_seq; lia|]. destruct (Rle_dec (lam k) 0); [reflexivity|lra]. }
    pose proof (normalize_exact n vecs V Hn E2 E4) as N1.
    assert (SD : fv n (map nsqrt vals) (fun k => sqrt (lam k))).
    { eapply fv_map; [exact E3|]. intros k Hk. cbn. rewrite Rltb_false by (left; apply P; exact Hk). reflexivity. }
    pose proof (fm_from_diagonal n _ _ SD) as FD.
    assert (FI : fm n (mmap (fun d => if ngtb d n0 then ndiv n1 d else d) (from_diagonal (map nsqrt vals))) (fun i j => (delta i j * / sqrt (lam i))%R)).
    { eapply fm_mmap; [exact FD|]. intros i j Hi Hj. pose proof (sqrt_lt_R0 _ (P i Hi)) as SP. unfold ngtb. cbn [nltb Num_xreal x_ltb n0 nofZ]. unfold n0. cbn [nofZ Num_xreal x_ltb]. 
      dcase i j.
      - rewrite !Rmult_1_l. rewrite (Rltb_true 0) by exact SP. unfold n1. cbn [nofZ Num_xreal]. rewrite fin_div by lra. f_equal. unfold Rdiv. ring.
      - rewrite !Rmult_0_l. rewrite Rltb_false by lra. reflexivity. }
    destruct (fm_mmul n _ _ _ _ Hn N1 FI) as [A1 B1]. rewrite A1. cbn [obind].
    destruct (fm_mmul n _ _ _ _ Hn B1 (fm_transpose n _ _ Hn N1)) as [A2 B2]. rewrite A2. cbn [obind].
    destruct (fm_mmul n _ _ _ _ Hn N1 FD) as [A3 B3]. rewrite A3. cbn [obind]. eexists. split; [reflexivity|]. cbn [cm_cov cm_eigenvectors cm_sqrt_eigenvalues cm_sqrt_inv cm_transform].
    split; [reflexivity|]. split; [exact N1|]. split; [exact FD|]. split.
    - eapply fm_ext; [|exact B2]. intros i j Hi Hj. unfold compose. apply Sig_ext. intros k Hk. f_equal.
      rewrite (Sig_ext _ _ (fun l => (delta k l * (V i l * / sqrt (lam l)))%R)).
      + apply (Sig_delta n (fun l => (V i l * / sqrt (lam l))%R) k Hk).
      + intros l _. rewrite (delta_sym l k). dcase k l; ring.
    - eapply fm_ext; [|exact B3]. intros i j Hi Hj. cbn beta. rewrite (Sig_ext _ _ (fun l => (delta j l * (V i l * sqrt (lam l)))%R)).
      + apply (Sig_delta n (fun l => (V i l * sqrt (lam l))%R) j Hj).
      + intros l _. rewrite (delta_sym l j). dcase j l; ring.
  Qed.
End Solver.
