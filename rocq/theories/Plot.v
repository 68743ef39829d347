(* Model of /repo/src/plotting/{mod,data,utils}.rs (data recording; for drawing see Draw.v). *)
From Coq Require Import List NArith ZArith Bool.
Require Import Verif.Base Verif.Num Verif.LinAlg Verif.Mode Verif.Options Verif.State Verif.History.
Import ListNotations.

Section Plot.
  Context {T : Type} {NT : Num T}.

  (* plotting/data.rs lines 10-22 *)
  Record plot_data := mkPlotData {
    pd_function_evals : list N;
    pd_best : list T;
    pd_median : list T;
    pd_sigma : list T;
    pd_axis_ratio : list T;
    pd_mean : list (list T);
    pd_sqrt_eigenvalues : list (list T);
    pd_coord_scales : list (list T)
  }.

  (* plotting/data.rs lines 26-37 *)
  Definition plot_data_new (dimensions : nat) : plot_data :=
    mkPlotData [] [] [] [] [] (repeat [] dimensions) (repeat [] dimensions) (repeat [] dimensions).

  (* plotting/utils.rs lines 4-11 (1e20 is a double, so the quotient is the correctly rounded literal
     1e-20) *)
  Definition plot_offset : T := nlit 1 100000000000000000000.
  Definition apply_offset (x : T) : T := if ngeb x n0 then nadd x plot_offset else nsub x plot_offset.

  (* for (i, x) in xs.enumerate() { hs[i].push(x) } : panics if there are more values than histories *)
  Fixpoint push_each (hs : list (list T)) (xs : list T) : outcome (list (list T)) :=
    match xs, hs with
    | [], _ => Ret hs
    | _ :: _, [] => Panic PIndex
    | x :: xs', h :: hs' => r <- push_each hs' xs' ;; Ret ((h ++ [x]) :: r)
    end.

  (* history.rs lines 62-64 *)
  Definition current_median (h : history T) : option T := hd_error (h_median_values h).

  (* plotting/data.rs lines 87-132 *)
  Definition data_add_point (evals : N) (s : state T) (h : history T) (d : plot_data) : outcome plot_data :=
    let best := match h_current_best h with Some i => i_value i | None => nnan end in
    let median := match current_median h with Some x => x | None => nnan end in
    mean <- push_each (pd_mean d) (st_mean s) ;;
    sq <- push_each (pd_sqrt_eigenvalues d)
                    (map apply_offset
                         (sort_by (fun a b => partial_cmp a b)
                                  (diagonal (cm_sqrt_eigenvalues (st_cov s))))) ;;
    cs <- push_each (pd_coord_scales d)
                    (map (fun x => apply_offset (nsqrt x)) (diagonal (cm_cov (st_cov s)))) ;;
    Ret {| pd_function_evals := pd_function_evals d ++ [evals];
           pd_best := pd_best d ++ [apply_offset best];
           pd_median := pd_median d ++ [apply_offset median];
           pd_sigma := pd_sigma d ++ [apply_offset (st_sigma s)];
           pd_axis_ratio := pd_axis_ratio d ++ [apply_offset (axis_ratio s)];
           pd_mean := mean;
           pd_sqrt_eigenvalues := sq;
           pd_coord_scales := cs |}.

  (* plotting/data.rs lines 137-141: data.swap(0, len - 1); data.truncate(1) *)
  Definition clear_vec {A} (l : list A) : outcome (list A) :=
    match l with
    | [] => Panic PUnderflow
    | x :: l' => Ret [last l' x]
    end.
  (* plotting/data.rs lines 136-163 *)
  Definition data_clear (d : plot_data) : outcome plot_data :=
    fe <- clear_vec (pd_function_evals d) ;;
    b <- clear_vec (pd_best d) ;;
    m <- clear_vec (pd_median d) ;;
    sg <- clear_vec (pd_sigma d) ;;
    ar <- clear_vec (pd_axis_ratio d) ;;
    mean <- omap clear_vec (pd_mean d) ;;
    cs <- omap clear_vec (pd_coord_scales d) ;;
    sq <- omap clear_vec (pd_sqrt_eigenvalues d) ;;
    Ret (mkPlotData fe b m sg ar mean sq cs).

  (* plotting/mod.rs lines 74-84 *)
  Record plot := mkPlot {
    pl_data : plot_data;
    pl_options : plot_options;
    pl_mode : mode;
    pl_last_evals : option N;
    pl_last_generation : option N
  }.

  (* plotting/mod.rs lines 88-96 *)
  Definition plot_new (dimensions : nat) (o : plot_options) (m : mode) : plot :=
    mkPlot (plot_data_new dimensions) o m None None.

  (* plotting/mod.rs lines 99-104. The usize addition wraps as in a release build (a build with overflow
     checks panics instead when min_gap_evals is close to usize::MAX). *)
  Definition next_data_point_evals (p : plot) : N :=
    match pl_last_evals p with
    | Some e => wrapping_add e (po_min_gap_evals (pl_options p))
    | None => 0%N
    end.

  (* plotting/mod.rs lines 107-123 *)
  Definition plot_add_point (evals : N) (s : state T) (h : history T) (p : plot) : outcome plot :=
    let already_added := match pl_last_generation p with
                         | Some g => (g =? st_generation s)%N
                         | None => false
                         end in
    if already_added then Ret p
    else
      d <- data_add_point evals s h (pl_data p) ;;
      Ret (mkPlot d (pl_options p) (pl_mode p) (Some evals) (Some (st_generation s))).

  (* plotting/mod.rs lines 167-169 *)
  Definition plot_len (p : plot) : nat := length (pd_function_evals (pl_data p)).

  (* plotting/mod.rs lines 184-186 *)
  Definition plot_clear (p : plot) : outcome plot :=
    d <- data_clear (pl_data p) ;;
    Ret (mkPlot d (pl_options p) (pl_mode p) (pl_last_evals p) (pl_last_generation p)).
End Plot.
Arguments plot_data : clear implicits.
Arguments plot : clear implicits.
