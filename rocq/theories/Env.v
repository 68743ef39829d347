(* The parts of the environment the model takes as given: random generators, the eigen solver, the clock,
   and the scheduling done by rayon. All are arbitrary; theorems quantify over them. *)
From Coq Require Import List NArith ZArith Bool.
Require Import Verif.Base Verif.Num Verif.LinAlg.
Import ListNotations.

Class Env (T : Type) := {
  (* rand_chacha::ChaCha12Rng used by sampling.rs lines 52, 74 *)
  rng_t : Type;
  rng_seed : N -> rng_t;
  (* statrs Normal(0,1).sample, sampling.rs lines 92, 100 *)
  rng_normal : rng_t -> T * rng_t;
  (* nalgebra::SymmetricEigen::try_new, matrix.rs lines 79-80: eigenvectors (columns) and eigenvalues *)
  eigen : mat T -> option (mat T * vec T);
  (* statrs Data::median, termination.rs lines 247-248, on values among which there is a NaN: any result,
     or a panic (None). For values without NaN see Termination.data_median. *)
  nan_median : list T -> option T
}.

(* How rayon splits a parallel reduction: a leaf is folded sequentially starting from the identity, a
   node splits off the first k items. *)
Inductive rtree := RLeaf | RNode (k : nat) (l r : rtree).

(* What the environment does during one call of next/next_parallel. *)
Record tick := mkTick {
  t_now : N;            (* clock reading (nanoseconds) at the termination check *)
  t_tree : rtree;       (* reduction tree used by parallel_update *)
  t_sched : list nat;   (* order in which threads evaluate the points (parallel evaluation only) *)
  t_fuel : nat          (* bound on the number of resampling rounds followed by the model *)
}.
