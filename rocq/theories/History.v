(* Model of /repo/src/history.rs. *)
From Coq Require Import List NArith ZArith Bool.
Require Import Verif.Base Verif.Num Verif.LinAlg Verif.Mode Verif.State.
Import ListNotations.

(* history.rs line 10 *)
Definition max_history_length : N := 20000.

Section History.
  Context {T : Type} {NT : Num T}.

  (* lib.rs lines 150-159 *)
  Record individual := mkIndividual { i_point : vec T; i_value : T }.

  (* history.rs lines 14-28; the front of the deques is the head of the list *)
  Record history := mkHistory {
    h_best_values : list T;
    h_median_values : list T;
    h_current_best : option individual;
    h_overall_best : option individual;
    h_first_median : option T;
    h_best_median : option T
  }.

  (* history.rs lines 31-40 *)
  Definition history_new : history := mkHistory [] [] None None None None.

  (* history.rs lines 81-84 and 87-90: push_front, then pop_back when longer than the maximum *)
  Definition push_bounded (x : T) (l : list T) : list T :=
    let l' := x :: l in
    if (max_history_length <? N.of_nat (length l'))%N then removelast l' else l'.

  (* history.rs lines 139-147 *)
  Definition get_median_value (individuals : list (point T)) : outcome T :=
    let n := length individuals in
    if Nat.even n then
      match (n / 2)%nat with
      | O => Panic PUnderflow
      | S k =>
          a <- index individuals k ;;
          b <- index individuals (n / 2) ;;
          Ret (ndiv (nadd (pt_value a) (pt_value b)) n2)
      end
    else
      a <- index individuals (n / 2) ;; Ret (pt_value a).

  (* history.rs lines 103-114 *)
  Definition update_overall_best (m : mode) (overall : option individual) (current : individual)
    : option individual :=
    match overall with
    | Some o => if is_better m (i_value current) (i_value o) then Some current else Some o
    | None => Some current
    end.

  (* history.rs lines 78-100 *)
  Definition history_update (m : mode) (individuals : list (point T)) (h : history) : outcome history :=
    best <- index individuals 0 ;;
    median_value <- get_median_value individuals ;;
    let current := mkIndividual (pt_point best) (pt_value best) in
    Ret {| h_best_values := push_bounded (pt_value best) (h_best_values h);
           h_median_values := push_bounded median_value (h_median_values h);
           h_current_best := Some current;
           h_overall_best := update_overall_best m (h_overall_best h) current;
           h_first_median := match h_first_median h with Some x => Some x | None => Some median_value end;
           h_best_median := match h_best_median h with
                            | Some x => Some (choose_best m x median_value)
                            | None => Some median_value
                            end |}.
End History.
Arguments individual : clear implicits.
Arguments history : clear implicits.
