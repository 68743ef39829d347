(* Vocabulary for the statements: what an observer of the objective function sees, the stream of random
   numbers, the candidates drawn from it, and histories of use. Nothing here is part of the code; the model
   functions used are only the public operations (next, step, cmaes_new) and field names. *)
From Coq Require Import List NArith ZArith Bool.
Require Import Verif.Base Verif.Num Verif.LinAlg Verif.Mode Verif.Weights Verif.Options Verif.Params Verif.Env
  Verif.State Verif.Sampling Verif.History Verif.Termination Verif.Plot Verif.Cmaes.
Import ListNotations.

Definition reason_eq_dec : forall a b : reason, {a = b} + {a <> b}.
Proof. decide equality. Defined.

Section Spec.
  Context {T : Type} {NT : Num T} {LT : Libm T} {E : Env T}.
  Context {F : Type} (ev : F -> vec T -> outcome (T * F)).

  (* one call of the objective: the argument and the returned value *)
  Definition entry := (vec T * T)%type.

  (* The same objective, keeping a record of its calls (oldest first). *)
  Definition log_ev (s : F * list entry) (x : vec T) : outcome (T * (F * list entry)) :=
    ' (v, f) <- ev (fst s) x ;; Ret (v, (f, snd s ++ [(x, v)])).

  (* all calls the objective has received so far *)
  Definition calls (c : cmaes T (F * list entry)) : list entry := snd (into_objective_function c).

  (* does the result of a call of next contain this reason? *)
  Definition reports (x : reason) (r : option (term_data T)) : bool :=
    match r with
    | Some d => if in_dec reason_eq_dec x (td_reasons d) then true else false
    | None => false
    end.

  (* ---- random numbers ---- *)
  Fixpoint rng_after (n : nat) (g : rng_t) : rng_t :=
    match n with O => g | S n' => rng_after n' (snd (rng_normal g)) end.
  (* the n-th number of the stream *)
  Definition normal_at (g : rng_t) (n : nat) : T := fst (rng_normal (rng_after n g)).
  (* the k-th block of dim consecutive numbers *)
  Definition normals (dim : nat) (g : rng_t) (k : nat) : vec T := map (normal_at g) (seq (k * dim) dim).

  (* mean + sigma * (transform * z) *)
  Definition transformed (s : state T) (z : vec T) : vec T :=
    map2 nadd (st_mean s) (map (nmul (st_sigma s)) (map (fun row => dot row z) (cm_transform (st_cov s)))).

  (* ---- resampling: rounds of candidates ----
     In round k (starting at 0) as many candidates are drawn as points are missing; those accepted in that
     round are kept. `rounds k have cands out`: continuing from round k with `have` points, the candidates
     of the following rounds are `cands` and the points kept from them are `out`. *)
  Inductive rounds (accept : N -> vec T -> bool) (lambda : nat) : N -> nat -> list (list (vec T)) -> list (vec T) -> Prop :=
  | R_done : forall k, rounds accept lambda k lambda [] []
  | R_round : forall k have cand rest out,
      (have < lambda)%nat ->
      length cand = (lambda - have)%nat ->
      rounds accept lambda (k + 1) (have + length (filter (accept k) cand))%nat rest out ->
      rounds accept lambda k have (cand :: rest) (filter (accept k) cand ++ out).

  (* what the options say about the acceptance of a candidate in round k *)
  Definition satisfies (meets : constraints T) (x : vec T) : bool :=
    match meets x with Ret b => b | _ => false end.
  Definition acceptance (c : option (constraints T)) (max_resamples : option N) (k : N) (x : vec T) : bool :=
    match c, max_resamples with
    | None, _ => true
    | Some meets, None => satisfies meets x
    | Some meets, Some m => if (m <=? k)%N then true else satisfies meets x
    end.

  (* ---- histories of use ---- *)
  Record call := mkCall { k_result : option (term_data T); k_evals : list entry }.

  Definition quiet (o : op) : Prop :=
    match o with ONext _ _ | ORun _ _ _ => False | _ => True end.

  (* `traced c0 h c`: starting with c0, the calls of next (or next_parallel, or those made by run) were h,
     oldest first, with other public calls in between, and led to c. *)
  Inductive traced (c0 : cmaes T (F * list entry)) : list call -> cmaes T (F * list entry) -> Prop :=
  | Tr_start : traced c0 [] c0
  | Tr_quiet : forall h c o c',
      traced c0 h c -> quiet o -> step log_ev c o = Ret c' -> traced c0 h c'
  | Tr_next : forall h c par tk r new c',
      traced c0 h c -> next log_ev par tk c = Ret (r, c') -> calls c' = calls c ++ new ->
      traced c0 (h ++ [mkCall r new]) c'.

  (* the optimiser was built from these options and the objective state f, and used in some way *)
  Definition built (o : options T) (f : F) (c0 : cmaes T F) : Prop :=
    exists random_seed now, cmaes_new random_seed now f o = Ret (inl c0).
  Definition reaches (o : options T) (f : F) (c : cmaes T F) : Prop :=
    exists c0 l, built o f c0 /\ steps ev c0 l = Ret c.

  (* The optimiser was built from the options o with the objective state f (seed: the one given, or the
     random one), the calls of next so far were h, and it is now c. SamplingLemmas.steps_used: every optimiser
     that can be obtained through the public operations is used in this sense. *)
  Definition used (o : options T) (f : F) (seed : N) (h : list call) (c : cmaes T (F * list entry)) : Prop :=
    exists random_seed now c0,
      cmaes_new random_seed now (f, []) o = Ret (inl c0) /\
      seed = match o_seed o with Some s => s | None => random_seed end /\
      traced c0 h c.

  (* generations that were completed: no NaN *)
  Definition valid (k : call) : bool := negb (reports InvalidFunctionValue (k_result k)).
  Definition generations (h : list call) : list (list entry) := map k_evals (filter valid h).
End Spec.
Arguments call : clear implicits.
Arguments entry : clear implicits.
