(* Model of /repo/src/sampling.rs. *)
From Coq Require Import List NArith ZArith Bool.
Require Import Verif.Base Verif.Num Verif.LinAlg Verif.Mode Verif.Options Verif.Params Verif.Env Verif.State.
Import ListNotations.

Section Sampling.
  Context {T : Type} {NT : Num T} {LT : Libm T} {E : Env T}.
  (* objective_function.rs: an objective is a state machine; evaluate may panic *)
  Context {F : Type} (ev : F -> vec T -> outcome (T * F)).

  (* sampling.rs lines 42-58. F is the state of the objective function. *)
  Record sampler := mkSampler {
    sm_dim : nat;
    sm_constraints : option (constraints T);
    sm_max_resamples : option N;
    sm_population_size : N;
    sm_rng : rng_t;
    sm_objective : F;
    sm_function_evals : N
  }.

  (* sampling.rs lines 61-78 *)
  Definition sampler_new (dim : nat) (c : option (constraints T)) (max_resamples : option N)
    (population_size : N) (f : F) (seed : N) : sampler :=
    mkSampler dim c max_resamples population_size (rng_seed seed) f 0.

  (* sampling.rs lines 219-221 *)
  Definition to_point (step mean : vec T) (sigma : T) : outcome (vec T) :=
    vadd_c mean (vscale sigma step).

  (* sampling.rs lines 98-101: one vector of dim normal numbers, drawn in order *)
  Fixpoint draw_vec (dim : nat) (g : rng_t) : vec T * rng_t :=
    match dim with
    | O => ([], g)
    | S d =>
        let (z, g) := rng_normal g in
        let (v, g) := draw_vec d g in
        (z :: v, g)
    end.
  (* sampling.rs lines 96-103 *)
  Fixpoint draw_vecs (n dim : nat) (g : rng_t) : list (vec T) * rng_t :=
    match n with
    | O => ([], g)
    | S n' =>
        let (v, g) := draw_vec dim g in
        let (l, g) := draw_vecs n' dim g in
        (v :: l, g)
    end.

  (* sampling.rs lines 106-111 *)
  Definition ok_constraints (c : option (constraints T)) (s : state T) (y : vec T) : outcome bool :=
    match c with
    | Some meets => x <- to_point y (st_mean s) (st_sigma s) ;; meets x
    | None => Ret true
    end.

  (* sampling.rs lines 95-124: draws n steps and keeps the acceptable ones. The parallel branch
     (113-117) collects in index order, so it is the same function. *)
  Definition sample_steps (n dim : nat) (c : option (constraints T)) (s : state T) (g : rng_t)
    : outcome (list (vec T) * rng_t) :=
    let (zs, g) := draw_vecs n dim g in
    ys <- omap (mvmul_c (cm_transform (st_cov s))) zs ;;
    ys <- ofilter (ok_constraints c s) ys ;;
    Ret (ys, g).

  (* sampling.rs lines 129-147: the resampling loop, i = number of rounds done *)
  Fixpoint resample (fuel : nat) (dim lambda : nat) (c : option (constraints T)) (max : option N)
    (s : state T) (i : N) (y : list (vec T)) (g : rng_t) : outcome (list (vec T) * rng_t) :=
    if (lambda <? length y)%nat then Panic PUnderflow
    else if (lambda - length y =? 0)%nat then Ret (y, g)
    else
      match fuel with
      | O => NoFuel
      | S fuel' =>
          let c' := match max with
                    | Some m => if (m <=? i)%N then None else c
                    | None => c
                    end in
          ' (new, g') <- sample_steps (lambda - length y) dim c' s g ;;
          resample fuel' dim lambda c max s (i + 1) (y ++ new) g'
      end.

  (* sampling.rs lines 228-247: EvaluatedPoint::new; None = InvalidFunctionValueError *)
  Definition evaluate_point (s : state T) (y : vec T) (f : F) : outcome (option (point T) * F) :=
    x <- to_point y (st_mean s) (st_sigma s) ;;
    ' (v, f') <- ev f x ;;
    Ret (if nis_nan v then None else Some (mkPoint x y v), f').

  (* sampling.rs lines 175-183: in order, stopping at the first error *)
  Fixpoint evaluate_seq (s : state T) (ys : list (vec T)) (f : F) : outcome (option (list (point T)) * F) :=
    match ys with
    | [] => Ret (Some [], f)
    | y :: ys' =>
        ' (r, f1) <- evaluate_point s y f ;;
        match r with
        | None => Ret (None, f1)
        | Some p =>
            ' (r', f2) <- evaluate_seq s ys' f1 ;;
            Ret (match r' with Some l => Some (p :: l) | None => None end, f2)
        end
    end.

  (* sampling.rs lines 195-203: rayon evaluates the points in some order (possibly skipping points once
     an error was seen) and collects them by index. `slots` holds the result for each index.
     Simplification: evaluations are atomic with respect to the objective's shared state. *)
  Fixpoint evaluate_sched (s : state T) (ys : list (vec T)) (sched : list nat)
    (slots : list (option (option (point T)))) (f : F)
    : outcome (list (option (option (point T))) * F) :=
    match sched with
    | [] => Ret (slots, f)
    | i :: sched' =>
        match nth_error ys i, nth_error slots i with
        | Some y, Some None =>
            ' (r, f1) <- evaluate_point s y f ;;
            evaluate_sched s ys sched' (firstn i slots ++ [Some r] ++ skipn (S i) slots) f1
        | _, _ => NoFuel     (* not an execution: no such point, or evaluated already *)
        end
    end.
  (* collect::<Result<Vec<_>, _>>: Err if any evaluation failed; all points must have been evaluated
     otherwise (NoFuel: not an execution of rayon) *)
  Fixpoint collect_slots (slots : list (option (option (point T)))) : outcome (list (point T)) :=
    match slots with
    | [] => Ret []
    | Some (Some p) :: l => r <- collect_slots l ;; Ret (p :: r)
    | _ => NoFuel
    end.
  Definition evaluate_par (sched : list nat) (s : state T) (ys : list (vec T)) (f : F)
    : outcome (option (list (point T)) * F) :=
    ' (slots, f') <- evaluate_sched s ys sched (repeat None (length ys)) f ;;
    if existsb (fun r => match r with Some None => true | _ => false end) slots then Ret (None, f')
    else l <- collect_slots slots ;; Ret (Some l, f').

  (* sampling.rs lines 81-152 with the evaluation strategy of `sample` (169-184, par = false) or
     `sample_parallel` (189-204, par = true). None = InvalidFunctionValueError. *)
  Definition sample (par : bool) (tk : tick) (s : state T) (m : mode) (sm : sampler)
    : outcome (option (list (point T)) * sampler) :=
    ' (ys, g) <- resample (t_fuel tk) (sm_dim sm) (N.to_nat (sm_population_size sm)) (sm_constraints sm)
                          (sm_max_resamples sm) s 0 [] (sm_rng sm) ;;
    ' (r, f) <- (if par then evaluate_par (t_sched tk) s ys (sm_objective sm)
                 else evaluate_seq s ys (sm_objective sm)) ;;
    match r with
    | None =>
        Ret (None, mkSampler (sm_dim sm) (sm_constraints sm) (sm_max_resamples sm) (sm_population_size sm)
                             g f (sm_function_evals sm))
    | Some points =>
        Ret (Some (sort_by (fun a b => sort_cmp m (pt_value a) (pt_value b)) points),
             mkSampler (sm_dim sm) (sm_constraints sm) (sm_max_resamples sm) (sm_population_size sm)
                       g f (sm_function_evals sm + N.of_nat (length points)))
    end.
End Sampling.
Arguments sampler : clear implicits.
Arguments sampler T {E} F.
