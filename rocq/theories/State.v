(* Model of /repo/src/matrix.rs and /repo/src/state.rs. *)
From Coq Require Import List NArith ZArith Bool.
Require Import Verif.Base Verif.Num Verif.LinAlg Verif.Mode Verif.Weights Verif.Options Verif.Params Verif.Env.
Import ListNotations.

Section State.
  Context {T : Type} {NT : Num T} {LT : Libm T} {E : Env T}.

  (* matrix.rs lines 10-22 *)
  Record cov_matrix := mkCov {
    cm_cov : mat T;
    cm_eigenvectors : mat T;
    cm_sqrt_eigenvalues : mat T;
    cm_sqrt_inv : mat T;
    cm_transform : mat T
  }.

  (* matrix.rs lines 26-34 *)
  Definition cov_new (dim : nat) : cov_matrix :=
    mkCov (identity dim) (identity dim) (identity dim) (identity dim) (identity dim).

  (* matrix.rs lines 82-84: every column is divided by its norm *)
  Definition normalize_columns (m : mat T) : mat T :=
    mbuild (length m) (ncols m) (fun i j => ndiv (mnth m i j) (magnitude (column m j))).

  (* matrix.rs lines 63-100; the boolean is true for Ok *)
  Definition update_eigendecomposition (c : cov_matrix) : outcome (bool * cov_matrix) :=
    match eigen (cm_cov c) with
    | None => Ret (false, c)
    | Some (vecs, vals) =>
        let vecs := normalize_columns vecs in
        if existsb (fun x => nleb x n0) vals then Ret (false, c)
        else
          let sqrt_eigenvalues := from_diagonal (map nsqrt vals) in
          t <- mmul_c vecs (mmap (fun d => if ngtb d n0 then ndiv n1 d else d) sqrt_eigenvalues) ;;
          sqrt_inv <- mmul_c t (transpose vecs) ;;
          transform <- mmul_c vecs sqrt_eigenvalues ;;
          Ret (true, mkCov (cm_cov c) vecs sqrt_eigenvalues sqrt_inv transform)
    end.

  (* matrix.rs lines 44-58 *)
  Definition set_cov (c : cov_matrix) (new : mat T) (update_eigen : bool) : outcome (bool * cov_matrix) :=
    let c := mkCov (fill_lower new) (cm_eigenvectors c) (cm_sqrt_eigenvalues c) (cm_sqrt_inv c)
                   (cm_transform c) in
    if update_eigen then update_eigendecomposition c else Ret (true, c).

  (* sampling.rs lines 208-217: EvaluatedPoint *)
  Record point := mkPoint {
    pt_point : vec T;
    pt_step : vec T;
    pt_value : T
  }.

  (* state.rs lines 11-26 *)
  Record state := mkState {
    st_generation : N;
    st_mean : vec T;
    st_cov : cov_matrix;
    st_sigma : T;
    st_path_c : vec T;
    st_path_sigma : vec T;
    st_last_eigen : N
  }.

  (* state.rs lines 30-47 *)
  Definition state_new (initial_mean : vec T) (initial_sigma : T) : state :=
    let dim := length initial_mean in
    mkState 0 initial_mean (cov_new dim) initial_sigma (vzeros dim) (vzeros dim) 0.

  (* state.rs lines 68-73 *)
  Definition weighted_steps (weights : list T) (individuals : list point) : outcome (list (vec T)) :=
    omap (fun ip => w <- index weights (fst ip) ;; Ret (vscale_r (pt_step (snd ip)) w))
         (combine (seq 0 (length individuals)) individuals).
  Definition calc_yw (p : params T) (individuals : list point) : outcome (vec T) :=
    l <- weighted_steps (p_weights p) (firstn (N.to_nat (p_mu p)) individuals) ;;
    vsum_c l.

  (* state.rs line 74 *)
  Definition calc_mean (p : params T) (s : state) (yw : vec T) : outcome (vec T) :=
    vadd_c (st_mean s) (vscale (nmul (p_cm p) (st_sigma s)) yw).

  (* state.rs lines 79-80 *)
  Definition calc_path_sigma (p : params T) (s : state) (yw : vec T) : outcome (vec T) :=
    let cs := p_cs p in
    v <- mvmul_c (mscale (nsqrt (nmul (nmul cs (nsub n2 cs)) (p_mu_eff p))) (cm_sqrt_inv (st_cov s))) yw ;;
    vadd_c (vscale (nsub n1 cs) (st_path_sigma s)) v.

  (* state.rs lines 83-84 *)
  Definition chi_n (dim : N) : T :=
    nmul (nsqrt (nofN dim))
         (nadd (nsub n1 (ndiv n1 (nmul (nofZ 4) (nofN dim))))
               (ndiv n1 (nmul (nofZ 21) (nofN (dim * dim))))).

  (* state.rs line 87: 2 * (generation as i32 + 1) in wrapping i32 arithmetic (release build) *)
  Definition i32_wrap (z : Z) : Z := ((z + 2147483648) mod 4294967296 - 2147483648)%Z.
  Definition hs_exponent (generation : N) : Z :=
    i32_wrap (2 * i32_wrap (i32_wrap (Z.of_N generation) + 1)).

  (* state.rs lines 86-93 *)
  Definition calc_hs (p : params T) (generation : N) (path_sigma : vec T) : T :=
    let dim := p_dim p in
    if nltb (ndiv (magnitude path_sigma)
                  (nsqrt (nsub n1 (powi (nsub n1 (p_cs p)) (hs_exponent generation)))))
            (nmul (nadd (nlit 14 10) (ndiv n2 (nadd (nofN dim) n1))) (chi_n dim))
    then n1 else n0.

  (* state.rs line 95 *)
  Definition calc_path_c (p : params T) (s : state) (hs : T) (yw : vec T) : outcome (vec T) :=
    let cc := p_cc p in
    vadd_c (vscale (nsub n1 cc) (st_path_c s))
           (vscale (nmul hs (nsqrt (nmul (nmul cc (nsub n2 cc)) (p_mu_eff p)))) yw).

  (* state.rs line 98 *)
  Definition calc_sigma (p : params T) (s : state) (path_sigma : vec T) : T :=
    nmul (st_sigma s)
         (lm_exp (nmul (ndiv (p_cs p) (p_damp_s p))
                       (nsub (ndiv (magnitude path_sigma) (chi_n (p_dim p))) n1))).

  (* state.rs lines 103-114: contribution of the individual of rank i *)
  Definition map_weights (p : params T) (sqrt_inv : mat T) (individuals : list point) (i : nat) (w : T)
    : outcome (mat T) :=
    wc <- (if nltb w n0 then
             ind <- index individuals i ;;
             y <- mvmul_c sqrt_inv (pt_step ind) ;;
             Ret (nmul w (ndiv (nofN (p_dim p)) (powi (magnitude y) 2)))
           else Ret w) ;;
    ind <- index individuals i ;;
    Ret (outer (vscale wc (pt_step ind)) (pt_step ind)).
  Definition contributions (p : params T) (sqrt_inv : mat T) (individuals : list point)
    : outcome (list (mat T)) :=
    omap (fun iw => map_weights p sqrt_inv individuals (fst iw) (snd iw))
         (combine (seq 0 (length (p_weights p))) (p_weights p)).

  (* state.rs lines 215-220 *)
  Definition rank_mu_update (l : list (mat T)) : outcome (mat T) := msum_c l.

  (* state.rs lines 223-234: rayon's map/reduce with identity zeros(dim, dim), for a reduction tree *)
  Fixpoint rank_mu_update_parallel (dim : nat) (t : rtree) (l : list (mat T)) : outcome (mat T) :=
    match t with
    | RLeaf => msum_from (mzeros dim) l
    | RNode k a b =>
        x <- rank_mu_update_parallel dim a (firstn k l) ;;
        y <- rank_mu_update_parallel dim b (skipn k l) ;;
        madd_c x y
    end.

  (* state.rs lines 115-121 *)
  Definition calc_rank_mu (p : params T) (tree : rtree) (s : state) (individuals : list point)
    : outcome (mat T) :=
    l <- contributions p (cm_sqrt_inv (st_cov s)) individuals ;;
    if p_parallel_update p then rank_mu_update_parallel (N.to_nat (p_dim p)) tree l
    else rank_mu_update l.

  (* state.rs lines 123-127 *)
  Definition cov_factor (p : params T) (hs : T) : T :=
    let delta_hs := nmul (nmul (nsub n1 hs) (p_cc p)) (nsub n2 (p_cc p)) in
    nsub (nsub (nadd n1 (nmul (p_c1 p) delta_hs)) (p_c1 p)) (nmul (p_cmu p) (nsum (p_weights p))).
  Definition calc_cov (p : params T) (s : state) (hs : T) (path_c : vec T) (rank_mu : mat T)
    : outcome (mat T) :=
    m <- madd_c (mscale (cov_factor p hs) (cm_cov (st_cov s)))
                (outer (vscale (p_c1 p) path_c) path_c) ;;
    madd_c m (mscale (p_cmu p) rank_mu).

  (* state.rs lines 186-190 *)
  Definition evals_per_eigen_update (p : params T) : N :=
    nto_usize (nceil (ndiv (nmul (nmul (nlit 1 2) (nofN (p_dim p))) (nofN (p_lambda p)))
                           (nmul (nadd (p_c1 p) (p_cmu p)) (nofN (p_dim p * p_dim p))))).

  (* state.rs lines 131-133 *)
  Definition do_eigen_update (p : params T) (s : state) (function_evals : N) : bool :=
    (st_last_eigen s + evals_per_eigen_update p <=? function_evals)%N.

  (* state.rs lines 50-144; the boolean is true for Ok. On Err everything up to line 135 has already been
     assigned, only last_eigen_update_evals and generation have not. *)
  Definition state_update (tree : rtree) (function_evals : N) (p : params T) (individuals : list point)
    (s : state) : outcome (bool * state) :=
    yw <- calc_yw p individuals ;;
    mean <- calc_mean p s yw ;;
    path_sigma <- calc_path_sigma p s yw ;;
    let hs := calc_hs p (st_generation s) path_sigma in
    path_c <- calc_path_c p s hs yw ;;
    let sigma := calc_sigma p s path_sigma in
    rank_mu <- calc_rank_mu p tree s individuals ;;
    cov <- calc_cov p s hs path_c rank_mu ;;
    let eig := do_eigen_update p s function_evals in
    ' (ok, cm) <- set_cov (st_cov s) cov eig ;;
    if ok : bool then
      Ret (true, mkState (st_generation s + 1) mean cm sigma path_c path_sigma
                         (if eig then function_evals else st_last_eigen s))
    else
      Ret (false, mkState (st_generation s) mean cm sigma path_c path_sigma (st_last_eigen s)).

  (* state.rs lines 172-175 *)
  Definition axis_ratio (s : state) : T :=
    let d := diagonal (cm_sqrt_eigenvalues (st_cov s)) in
    ndiv (vmax d) (vmin d).
End State.
Arguments cov_matrix : clear implicits.
Arguments point : clear implicits.
Arguments state : clear implicits.
