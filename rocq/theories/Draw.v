(* Model of /repo/src/plotting/draw.rs and of save_to_file and build_plot of /repo/src/plotting/mod.rs: the axes
   and the points handed to the drawing library. Not modelled: the drawing library itself, colours, fonts,
   captions, axis labels other than their number, the directories created and the file written. *)
From Coq Require Import List NArith ZArith Bool.
Require Import Verif.Base Verif.Num Verif.LinAlg Verif.Mode Verif.Options Verif.State Verif.History Verif.Termination Verif.Plot.
Import ListNotations.

(* functions of f64 that are used for drawing only *)
Class DrawLib (T : Type) := {
  lm_log10 : T -> T;      (* f64::log10 *)
  lm_round : T -> T       (* f64::round *)
}.

Section Draw.
  Context {T : Type} {NT : Num T} {LT : Libm T} {DT : DrawLib T}.

  (* draw.rs lines 50-58 *)
  Inductive axis_kind := KLog | KLinear (scientific_notation : bool).
  (* draw.rs lines 30-37 *)
  Record y_axis := mkYAxis { ya_start : T; ya_end : T; ya_labels : N; ya_kind : axis_kind }.

  (* what is drawn in one of the four areas: draw.rs lines 324-338 and the calls of draw_series and draw *)
  Record chart := mkChart {
    ch_x : N * N;                       (* the x range, lines 351-353 *)
    ch_y : y_axis;
    ch_lines : list (list (N * T));     (* the points of each LineSeries *)
    ch_marks : list (N * T);            (* the points marked by a Cross *)
    ch_legend : bool
  }.

  (* Iterator::min_by: the first of the minimal elements *)
  Definition min_by {A} (cmp : A -> A -> comparison) (l : list A) : option A :=
    match l with
    | [] => None
    | x :: l' => Some (fold_left (fun a b => match cmp a b with Gt => b | _ => a end) l' x)
    end.

  Definition not_nan (y : T) : bool := negb (nis_nan y).

  (* draw.rs lines 409-418 *)
  Definition get_points (xs : list N) (ys : list T) : list (N * T) := filter (fun p => not_nan (snd p)) (combine xs ys).

  (* draw.rs lines 422-439 *)
  Definition get_log_y_axis (l : list T) : outcome y_axis :=
    let margin := nlit 4 10 in
    mn <- unwrap (min_by partial_cmp l) ;;
    let log_min := nsub (lm_log10 mn) margin in
    mx <- unwrap (max_by partial_cmp l) ;;
    let log_max := nadd (lm_log10 mx) margin in
    Ret (mkYAxis (lm_powf (nofZ 10) log_min) (lm_powf (nofZ 10) log_max)
                 (N.min (nto_usize (lm_round (nsub log_max log_min))) 26) KLog).

  (* draw.rs lines 445-474 *)
  Definition get_linear_y_axis (l : list T) (scientific_notation : bool) : outcome y_axis :=
    mn <- unwrap (min_by partial_cmp l) ;;
    mx <- unwrap (max_by partial_cmp l) ;;
    let margin := nmul (nsub mx mn) (nlit 15 100) in
    let margin := if neqb margin n0 then (if neqb mx n0 then nlit 15 100 else nmul mx (nlit 15 100)) else margin in
    Ret (mkYAxis (nsub mn margin) (nadd mx margin) 26 (KLinear scientific_notation)).

  (* draw.rs lines 351-353 *)
  Definition x_range (evals : list N) : outcome (N * N) :=
    first <- unwrap (hd_error evals) ;;
    last <- unwrap (hd_error (rev evals)) ;;
    Ret (first, nto_usize (nmul (nofN last) (nlit 105 100))).

  (* draw.rs lines 350-398: configure_area *)
  Definition configure_area (evals : list N) (legend : bool) (y : y_axis) (lines : list (list (N * T))) (marks : list (N * T))
    : outcome chart :=
    x <- x_range evals ;; Ret (mkChart x y lines marks legend).

  (* draw.rs lines 68-74 *)
  Definition overall_best (m : mode) (d : plot_data T) : option (nat * T) :=
    min_by (fun a b => sort_cmp m (snd a) (snd b))
           (filter (fun p => not_nan (snd p)) (combine (seq 0 (length (pd_best d))) (pd_best d))).
  (* draw.rs lines 78-83 *)
  Definition best_count (best : T) (d : plot_data T) : nat := length (filter (fun y => neqb y best) (pd_best d)).
  (* draw.rs lines 86-90 *)
  Definition dist_to_best (best : T) (d : plot_data T) : list T := map (fun y => apply_offset (nabs (nsub y best))) (pd_best d).

  (* draw.rs lines 92-115 *)
  Definition single_dimensioned_values (m : mode) (d : plot_data T) : list T :=
    filter not_nan
      (map nabs (pd_best d) ++ map nabs (pd_median d) ++ pd_sigma d ++ pd_axis_ratio d ++
       match overall_best m d with
       | Some (best_index, best) =>
           let dist := dist_to_best best d in
           map snd (filter (fun p => (1 <? best_count best d)%nat || negb (fst p =? best_index)%nat)
                           (combine (seq 0 (length dist)) dist))
       | None => []
       end).

  (* draw.rs lines 62-203 *)
  Definition draw_single_dimensioned (m : mode) (d : plot_data T) : outcome chart :=
    let evals := pd_function_evals d in
    y <- get_log_y_axis (single_dimensioned_values m d) ;;
    ' (dist_lines, marks) <-
      match overall_best m d with
      | Some (best_index, best) =>
          let dist := dist_to_best best d in
          let num_left := if (1 <? best_count best d)%nat then S best_index else best_index in
          e <- index evals best_index ;;
          Ret ([get_points (firstn num_left evals) (firstn num_left dist);
                get_points (skipn (S best_index) evals) (skipn (S best_index) dist)],
               if nis_nan best then [] else [(e, nabs best)])
      | None => Ret ([], [])
      end ;;
    configure_area evals true y
      (dist_lines ++ [get_points evals (map nabs (pd_best d)); get_points evals (map nabs (pd_median d));
                      get_points evals (pd_sigma d); get_points evals (pd_axis_ratio d)]) marks.

  (* draw.rs line 27 *)
  Definition max_legend_values : nat := 18.
  (* draw.rs lines 206-247 *)
  Definition draw_mean (o : plot_options) (d : plot_data T) : outcome chart :=
    y <- get_linear_y_axis (concat (pd_mean d)) (po_scientific_notation o) ;;
    configure_area (pd_function_evals d) (length (pd_mean d) <=? max_legend_values)%nat y
      (map (get_points (pd_function_evals d)) (pd_mean d)) [].
  (* draw.rs lines 250-278 *)
  Definition draw_sqrt_eigenvalues (d : plot_data T) : outcome chart :=
    y <- get_log_y_axis (concat (pd_sqrt_eigenvalues d)) ;;
    configure_area (pd_function_evals d) false y (map (get_points (pd_function_evals d)) (pd_sqrt_eigenvalues d)) [].
  (* draw.rs lines 281-321 *)
  Definition draw_coord_axis_scales (d : plot_data T) : outcome chart :=
    y <- get_log_y_axis (concat (pd_coord_scales d)) ;;
    configure_area (pd_function_evals d) (length (pd_coord_scales d) <=? max_legend_values)%nat y
      (map (get_points (pd_function_evals d)) (pd_coord_scales d)) [].

  (* the four areas of the image: plotting/mod.rs lines 143-164, called by save_to_file (lines 127-141) *)
  Record image := mkImage { im_values : chart; im_mean : chart; im_axes : chart; im_scales : chart }.
  Definition build_plot (p : plot T) : outcome image :=
    a <- draw_single_dimensioned (pl_mode p) (pl_data p) ;;
    b <- draw_mean (pl_options p) (pl_data p) ;;
    c <- draw_sqrt_eigenvalues (pl_data p) ;;
    d <- draw_coord_axis_scales (pl_data p) ;;
    Ret (mkImage a b c d).
End Draw.
Arguments y_axis : clear implicits.
Arguments chart : clear implicits.
Arguments image : clear implicits.
