(** QP_SOLVE with the text it prints, src/qpSWIFT.c:473-644.  [MSolver.QP_SOLVE] only reads the values that are printed;
    here they are collected.  A line is its arguments; formats are left out, and so are the lines with times.  The
    opening lines are not printed when compiled for MATLAB (MATLAB_MEX_FILE). *)
From Coq Require Import ZArith List.
From RecordUpdate Require Import RecordUpdate.
From Verif Require Import Res Arith MSparse MSolver.
Import ListNotations.
Open Scope Z_scope.
Open Scope res_scope.

Inductive line (F : Type) : Type :=
| Banner                                         (* 486-487 *)
| Progress (it : Z) (pcost rx ry rz mu : F)      (* 515 *)
| Steps (primal dual : F)                        (* 600 *)
| Found (it : Z)                                 (* 617, 621 *)
| Limit (it : Z)                                 (* 625, 629 *)
| Unknown                                        (* 634 *)
| LdlFail.                                       (* 639 *)
Arguments Banner {F}.
Arguments Progress {F}.
Arguments Steps {F}.
Arguments Found {F}.
Arguments Limit {F}.
Arguments Unknown {F}.
Arguments LdlFail {F}.

Section WithArith.
Variable A : Arith.
Notation F := (car A).

(** src/qpSWIFT.c:513-516 *)
Definition progress (q : qp F) : res (list (line F)) :=
  if 0 <? verbose (q_options q) then
    fv <- use (fval (q_stats q)) ;;
    rx <- use (n_rx (q_stats q)) ;;
    ry <- use (n_ry (q_stats q)) ;;
    rz <- use (n_rz (q_stats q)) ;;
    mu <- use (n_mu (q_stats q)) ;;
    Ok [Progress (IterationCount (q_stats q)) fv rx ry rz mu]
  else Ok [].

(** src/qpSWIFT.c:598-601 *)
Definition steps_line (q : qp F) : list (line F) :=
  if 0 <? verbose (q_options q) then [Steps (alpha_p (q_stats q)) (alpha_d (q_stats q))] else [].

(** src/qpSWIFT.c:505-602: the pass through the loop body of [solve_iter], with its text. *)
Definition solve_iter_text (q : qp F) : res (qp F * bool * list (line F)) :=
  q <- computeresiduals A q ;;
  '(fv, temp) <- obj_value A (q_P q) (q_c q) (q_x q) (q_temp q) ;;
  let q := q <| q_temp := temp |> <| q_stats := (q_stats q) <| fval := Some fv |> |> in
  l <- progress q ;;
  stop <- stop_test A q ;;
  if stop : bool then Ok (q <| q_stats := (q_stats q) <| Flag := QP_OPTIMAL |> |>, true, l)
  else
    lambda <- formlambda A (q_lambda q) (q_s q) (q_z q) (q_m q) ;;
    ip <- innerproduct A lambda lambda (q_m q) ;;
    mu <- fdiv A ip (fofZ A (q_m q)) ;;
    let q := q <| q_lambda := lambda |> <| q_mu := Some mu |> in
    '(ok, q) <- (if flt A (q_sigma_d q) (sigma (q_options q)) then predictor_branch A q
                 else q <- centering_branch A q ;; Ok (true, q)) ;;
    if ok : bool then
      q <- take_step A q ;;
      Ok (q, false, l ++ steps_line q)
    else Ok (q, true, l).

(** src/qpSWIFT.c:484-488 *)
Definition opening (q : qp F) : list (line F) := if 0 <? verbose (q_options q) then [Banner] else [].

(** src/qpSWIFT.c:613-641 *)
Definition closing (q : qp F) : list (line F) :=
  if 0 <? verbose (q_options q) then
    (if Flag (q_stats q) =? QP_OPTIMAL then [Found (IterationCount (q_stats q))] else []) ++
    (if Flag (q_stats q) =? QP_MAXIT then [Limit (IterationCount (q_stats q))] else []) ++
    (if Flag (q_stats q) =? QP_FATAL then [Unknown] else []) ++
    (if Flag (q_stats q) =? QP_KKTFAIL then [LdlFail] else [])
  else [].

Definition QP_SOLVE_text (q : qp F) : res (Z * qp F * list (line F)) :=
  if Flag (q_stats q) =? QP_KKTFAIL then Ok (Flag (q_stats q), q, opening q ++ closing q)
  else
    '(q', _, l) <- for_ 0 (maxit (q_options q)) (fun _ st =>
        let '(q, stopped, l) := st in
        if stopped : bool then Ok (q, true, l)
        else '(q, stopped, l') <- solve_iter_text q ;; Ok (q, stopped, l ++ l')) (q, false, opening q) ;;
    let q := if IterationCount (q_stats q') =? maxit (q_options q')
             then q' <| q_stats := (q_stats q') <| Flag := QP_MAXIT |> |> else q' in
    Ok (Flag (q_stats q), q, l ++ closing q).
End WithArith.
