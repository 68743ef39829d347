(* Model of /repo/src/parameters/weights.rs. *)
From Coq Require Import List NArith ZArith Bool.
Require Import Verif.Base Verif.Num.
Import ListNotations.

(* weights.rs lines 9-19 *)
Inductive weights_setting := WPositive | WNegative | WUniform.

Section Weights.
  Context {T : Type} {NT : Num T} {LT : Libm T}.

  (* weights.rs lines 29-33 *)
  Record initial_weights := mkIW {
    iw_weights : list T;
    iw_setting : weights_setting;
    iw_mu : N
  }.

  (* weights.rs lines 44 and 48: ln((lambda + 1) / 2) - ln(i) *)
  Definition raw_weight (lambda i : N) : T :=
    nsub (lm_ln (ndiv (nadd (nofN lambda) n1) n2)) (lm_ln (nofN i)).

  (* the range 1..=n *)
  Definition one_to (n : N) : list N := map N.of_nat (seq 1 (N.to_nat n)).

  (* weights.rs lines 37-58 *)
  Definition iw_new (lambda : N) (setting : weights_setting) : initial_weights :=
    let mu := (lambda / 2)%N in
    let weights :=
      match setting with
      | WUniform => repeat n1 (N.to_nat mu)
      | WPositive => map (raw_weight lambda) (one_to mu)
      | WNegative => map (raw_weight lambda) (one_to lambda)
      end in
    mkIW weights setting mu.

  (* weights.rs lines 66-75 *)
  Definition iw_mu_eff (iw : initial_weights) : T :=
    let sel := firstn (N.to_nat (iw_mu iw)) (iw_weights iw) in
    ndiv (powi (nsum sel) 2) (nsum (map (fun w => powi w 2) sel)).

  (* weights.rs lines 79-93 *)
  Definition iw_mu_eff_minus (iw : initial_weights) : option T :=
    if (iw_mu iw <? N.of_nat (length (iw_weights iw)))%N then
      let rest := skipn (N.to_nat (iw_mu iw)) (iw_weights iw) in
      Some (ndiv (powi (nsum rest) 2) (nsum (map (fun w => powi w 2) rest)))
    else None.

  (* weights.rs lines 97-134; returns the final weights (the setting is kept by the caller) *)
  Definition iw_finalize (iw : initial_weights) (dim : N) (c1 cmu : T) : list T :=
    let mu_eff := iw_mu_eff iw in
    let mu_eff_minus := iw_mu_eff_minus iw in
    let weights := iw_weights iw in
    let sum_positive := nsum (filter (fun w => ngtb w n0) weights) in
    let weights := map (fun w => if ngtb w n0 then ndiv w sum_positive else w) weights in
    match mu_eff_minus with
    | Some mm =>
        let a_mu := nadd n1 (ndiv c1 cmu) in
        let a_mu_eff := nadd n1 (ndiv (nmul n2 mm) (nadd mu_eff n2)) in
        let a_pos_def := ndiv (nsub (nsub n1 c1) cmu) (nmul (nofN dim) cmu) in
        let a := nmin a_mu (nmin a_mu_eff a_pos_def) in
        let sum_negative := nabs (nsum (filter (fun w => nltb w n0) weights)) in
        map (fun w => if nltb w n0 then ndiv (nmul w a) sum_negative else w) weights
    | None => weights
    end.
End Weights.
Arguments initial_weights : clear implicits.
