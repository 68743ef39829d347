(* Specification of the termination criteria: for every reason, the condition under which it is to be reported,
   written with the values visible after the generation and not with the functions of Termination.v. *)
From Coq Require Import List NArith ZArith Bool Arith Permutation Sorted.
Require Import Verif.Base Verif.Num Verif.LinAlg Verif.Mode Verif.Weights Verif.Options Verif.Params Verif.Env
  Verif.State Verif.Sampling Verif.History Verif.Termination Verif.Plot Verif.Cmaes Verif.Spec.
Import ListNotations.
Open Scope nat_scope.

Section Values.
  Context {T : Type} {NT : Num T}.

  Definition least (l : list T) (a : T) : Prop := In a l /\ Forall (fun x => nltb x a = false) l.
  Definition greatest (l : list T) (b : T) : Prop := In b l /\ Forall (fun x => nltb b x = false) l.
  (* the difference between the largest and the smallest value *)
  Definition spread_below (l : list T) (tol : T) : Prop :=
    exists a b, least l a /\ greatest l b /\ nltb (nsub b a) tol = true.

  (* the middle value, or half the sum of the two middle values *)
  Definition median_of (l : list T) (v : T) : Prop :=
    exists s, Permutation s l /\ StronglySorted (fun a b => nltb b a = false) s /\
      v = if Nat.even (length l) then ndiv (nadd (nth (length l / 2 - 1) s n0) (nth (length l / 2) s n0)) n2
          else nth (length l / 2) s n0.

  (* values: most recent first. The oldest 30% of the last w values are strictly better (by their median)
     than the newest 30%. *)
  Definition got_worse (m : mode) (w : nat) (values : list T) : Prop :=
    let k := 3 * w / 10 in
    1 <= k /\ exists old new, median_of (skipn (w - k) (firstn w values)) old /\ median_of (firstn k values) new /\
      is_better m old new = true.
End Values.

Section Conditions.
  Context {T : Type} {NT : Num T} {LT : Libm T} {E : Env T} {F : Type}.

  (* number of generations looked at by the value tolerances: 10 + ceil(30 dim / population_size) *)
  Definition tol_window (o : options T) : N :=
    let dim := N.of_nat (length (o_initial_mean o)) in
    (10 + (30 * dim + o_population_size o - 1) / o_population_size o)%N.

  Definition tol_x_of (o : options T) : T :=
    match o_tol_x o with Some x => x | None => nmul (nlit 1 1000000000000) (o_initial_step_size o) end.
  Definition tol_stagnation_of (o : options T) : N :=
    match o_tol_stagnation o with
    | Some n => n
    | None => let dim := N.of_nat (length (o_initial_mean o)) in
              (100 + nto_usize (nceil (ndiv (nmul (nofZ 100) (lm_powf (nofN dim) (nlit 3 2)))
                                            (nofN (o_population_size o)))))%N
    end.

  Section After.
    (* options, optimiser after the generation, values of the generation, clock at the end of the generation *)
    Variables (o : options T) (c : cmaes T F) (values : list T) (now : N).
    Let dim := length (o_initial_mean o).
    Let best := h_best_values (c_history c).
    Let medians := h_median_values (c_history c).
    Let cov (i : nat) := nth i (nth i (covariance_matrix c) []) n0.
    Let axis (i : nat) := nth i (nth i (cm_sqrt_eigenvalues (st_cov (c_state c))) []) n0.
    Let eigenvector (i k : nat) := nth i (nth k (cm_eigenvectors (st_cov (c_state c))) []) n0.

    Definition condition (x : reason) : Prop :=
      match x with
      | MaxFunctionEvals => exists m, o_max_function_evals o = Some m /\ (m <= function_evals c)%N
      | MaxGenerations => exists m, o_max_generations o = Some m /\ (m <= generation c)%N
      | MaxTime => exists m, o_max_time o = Some m /\ (m <= now - c_created c)%N
      | FunTarget => exists t v, o_fun_target o = Some t /\ In v values /\ is_better (o_mode o) v t = true
      | TolFunHist =>
          (tol_window o <= N.of_nat (length best))%N /\
          spread_below (firstn (N.to_nat (tol_window o)) best) (o_tol_fun_hist o)
      | TolFun =>
          (tol_window o <= N.of_nat (length best))%N /\
          spread_below (firstn (N.to_nat (tol_window o)) best) (o_tol_fun o) /\ spread_below values (o_tol_fun o)
      | TolFunRel =>
          (tol_window o <= N.of_nat (length best))%N /\
          exists first best_median, h_first_median (c_history c) = Some first /\
            h_best_median (c_history c) = Some best_median /\
            let tol := nmul (o_tol_fun_rel o) (nabs (nsub first best_median)) in
            spread_below (firstn (N.to_nat (tol_window o)) best) tol /\ spread_below values tol
      | TolX =>
          (forall i, i < dim -> nltb (nabs (nmul (sigma c) (cov i))) (tol_x_of o) = true) /\
          (forall x, In x (st_path_c (c_state c)) -> nltb (nabs (nmul (sigma c) x)) (tol_x_of o) = true)
      | TolConditionCov =>
          let q := powi (cmaes_axis_ratio c) 2 in
          nis_normal q = false \/ nltb (o_tol_condition_cov o) q = true
      | NoEffectAxis =>
          let i := N.to_nat (generation c mod N.of_nat dim) in
          forall k, k < dim ->
            neqb (nth k (mean c) n0)
                 (nadd (nth k (mean c) n0) (nmul (nmul (nmul (nlit 1 10) (sigma c)) (axis i)) (eigenvector i k))) = true
      | NoEffectCoord =>
          exists i, i < dim /\
            neqb (nth i (mean c) n0) (nadd (nth i (mean c) n0) (nmul (nmul (nlit 2 10) (sigma c)) (cov i))) = true
      | TolStagnation =>
          let w := N.min (generation c / 5) 20000 in
          (tol_stagnation_of o <= w)%N /\ got_worse (o_mode o) (N.to_nat w) best /\
          got_worse (o_mode o) (N.to_nat w) medians
      | TolXUp =>
          exists d, greatest (map axis (seq 0 dim)) d /\
            nltb (o_tol_x_up o) (ndiv (nmul (sigma c) d) (o_initial_step_size o)) = true
      | InvalidFunctionValue | PosDefCov => False
      end.

    (* what has to be known for the condition to be the exact one *)
    Definition decidable_reason (x : reason) : Prop :=
      match x with
      | TolFun | TolFunHist | TolFunRel =>
          (30 * N.of_nat dim < 9007199254740992)%N /\ (o_population_size o < 9007199254740992)%N
      | TolStagnation =>
          (tol_stagnation_of o <= N.min (generation c / 5) 20000)%N -> (4 <= N.min (generation c / 5) 20000)%N ->
          Forall (fun v => nis_nan v = false) medians
      | TolXUp => Forall (fun v => nis_nan v = false) (map axis (seq 0 dim))
      | _ => True
      end.
  End After.
End Conditions.
