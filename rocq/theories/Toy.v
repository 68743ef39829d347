(* A concrete environment in binary64 for the examples: a table of "normal" numbers, an eigen solver for
   diagonal matrices, and series for ln and exp. It is only used in examples and in counterexamples; the
   theorems quantify over all environments. *)
From Coq Require Import List NArith ZArith Bool.
Require Import Verif.Base Verif.Num Verif.F64 Verif.LinAlg Verif.Mode Verif.Weights Verif.Options Verif.Params
  Verif.Env Verif.State Verif.Sampling Verif.History Verif.Termination Verif.Plot Verif.Cmaes Verif.Spec.
Import ListNotations.
Open Scope Z_scope.

Definition lit (p q : Z) : f64 := nlit p q.

(* ln x = 2 artanh((x-1)/(x+1)) *)
Fixpoint artanh_loop (n : nat) (k : Z) (t t2 acc : f64) : f64 :=
  match n with
  | O => acc
  | S n' => artanh_loop n' (k + 2) (nmul t t2) t2 (nadd acc (ndiv t (nofZ k)))
  end.
Definition toy_ln (x : f64) : f64 :=
  let t := ndiv (nsub x n1) (nadd x n1) in
  nmul n2 (artanh_loop 30 1 t (nmul t t) n0).
Fixpoint exp_loop (n : nat) (k : Z) (t x acc : f64) : f64 :=
  match n with
  | O => acc
  | S n' => exp_loop n' (k + 1) (ndiv (nmul t x) (nofZ k)) x (nadd acc t)
  end.
Definition toy_exp (x : f64) : f64 := exp_loop 25 1 n1 x n0.
Definition toy_powf (x y : f64) : f64 := toy_exp (nmul y (toy_ln x)).

#[export] Instance toy_libm : Libm f64 := {| lm_ln := toy_ln; lm_exp := toy_exp; lm_powf := toy_powf |}.

Definition toy_normals : list f64 :=
  [lit 1 2; lit (-5) 4; lit 3 10; lit 7 4; lit (-3) 5; lit 1 10; lit (-1) 5; lit 9 10; lit (-11) 10; lit 1 4;
   lit 2 5].

#[export] Instance toy_env : Env f64 := {|
  rng_t := N;
  rng_seed := fun s => s;
  rng_normal := fun g => (nth (N.to_nat (g mod 11)) toy_normals n0, (g + 1)%N);
  eigen := fun m => Some (identity (length m), diagonal m);
  nan_median := fun _ => Some nnan
|}.

(* objectives (stateless) *)
Definition toy_sphere (_ : unit) (x : vec f64) : outcome (f64 * unit) := Ret (norm2 x, tt).
Definition pure_ev (f : vec f64 -> f64) (_ : unit) (x : vec f64) : outcome (f64 * unit) := Ret (f x, tt).

Definition toy_tick : tick := mkTick 0 RLeaf [] 50.
Definition toy_env_of (k : nat) : tick := toy_tick.

Definition toy_options (dim : nat) : options f64 :=
  apply_setters (options_new (repeat (lit 3 2) dim) (lit 1 2)) [SPopulationSize 4; SSeed 7].

(* run n calls of next, collecting the results *)
Fixpoint nexts {F} (ev : F -> vec f64 -> outcome (f64 * F)) (tks : list (bool * tick)) (c : cmaes f64 F)
  : outcome (list (option (term_data f64)) * cmaes f64 F) :=
  match tks with
  | [] => Ret ([], c)
  | (par, tk) :: l =>
      ' (r, c) <- next ev par tk c ;;
      ' (rs, c) <- nexts ev l c ;;
      Ret (r :: rs, c)
  end.

(* build and then call next n times with the logged sphere function *)
Definition toy_built (o : options f64) : outcome (cmaes f64 (unit * list (entry f64))) :=
  b <- cmaes_new 0 0 (tt, []) o ;; match b with inl c => Ret c | inr _ => Panic PUnwrap end.
Definition toy_after (ev : unit -> vec f64 -> outcome (f64 * unit)) (o : options f64) (n : nat) :=
  c <- toy_built o ;; nexts (log_ev ev) (repeat (false, toy_tick) n) c.

(* for the examples: computing a boolean avoids normalising the proofs inside floats *)
Definition is_built {A B} (r : outcome (A + B)) : bool := match r with Ret (inl _) => true | _ => false end.
Lemma is_built_ex : forall {A B} (r : outcome (A + B)), is_built r = true -> exists c, r = Ret (inl c).
Proof. intros A B [[c|e]| |] H; try discriminate. eauto. Qed.
Definition is_ret {A} (r : outcome A) : bool := match r with Ret _ => true | _ => false end.
Lemma is_ret_ex : forall {A} (r : outcome A), is_ret r = true -> exists c, r = Ret c.
Proof. intros A [c| |] H; try discriminate. eauto. Qed.
Definition error_of {A B} (r : outcome (A + B)) : option B := match r with Ret (inr e) => Some e | _ => None end.
Lemma error_of_eq : forall {A B} (r : outcome (A + B)) e, error_of r = Some e -> r = Ret (inr e).
Proof. intros A B [[c|e']| |] e H; inversion H. reflexivity. Qed.
