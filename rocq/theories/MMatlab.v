(** Model of the MATLAB interface (matlab/qpSWIFT_mex.c) and of the Simulink blocks (simulink/qpSWIFT_sfunc.c,
    simulink/qpSWIFT_sfunc_e.c). *)
From Coq Require Import ZArith Reals List Bool String.
From Flocq Require Import Core.Raux IEEE754.BinarySingleNaN.
From RecordUpdate Require Import RecordUpdate.
From Verif Require Import Res Arith MSparse MLdl MSolver Session MIface.
Import ListNotations.
Open Scope Z_scope.
Open Scope res_scope.

(** ** Conversion of a double to qp_int (long): truncation toward zero; undefined (C11 6.3.1.4) for a NaN, an infinity
    or a value that a long cannot hold. *)
Definition to_long (z : Z) : res Z := if (- 2 ^ 63 <=? z) && (z <? 2 ^ 63) then Ok z else Ub Undef.
Definition trunc_FA (x : car FA) : res Z := if is_finite x then to_long (Btrunc x) else Ub Undef.
Definition trunc_RA (x : car RA) : res Z := to_long (Ztrunc x).

Section Mex.
Variable A : Arith.
Notation F := (car A).
Variable trunc : F -> res Z.

(** ** Values of the workspace *)

(** A mxArray: its class (mxIsDouble, mxIsSparse, mxIsComplex), the first two dimensions (no other is read), and what
    mxGetPr, mxGetIr, mxGetJc point to.  A null mxGetPr (empty array, or not of class double) is an empty array:
    it cannot be read. *)
Record mxarr : Type := mkMx {
  mx_double : bool; mx_sparse : bool; mx_complex : bool; mx_rows : Z; mx_cols : Z;
  mx_pr : arr F; mx_ir : arr Z; mx_jc : arr Z
}.

(** An argument: also its fields if it is a struct (mxGetField of element 0; [None] is NULL). *)
Record mxval : Type := mkVal { v_arr : mxarr; v_field : string -> option mxarr }.

(** The arguments by role, lines 194-247. *)
Record mexargs : Type := mkMexargs {
  ma_P : mxarr; ma_c : mxarr; ma_eq : option (mxarr * mxarr); ma_G : mxarr; ma_h : mxarr; ma_opts : option mxval
}.

Definition parse (prhs : list mxval) : option mexargs :=
  match prhs with
  | [vP; vc; vG; vh] => Some (mkMexargs (v_arr vP) (v_arr vc) None (v_arr vG) (v_arr vh) None)
  | [vP; vc; vG; vh; o] => Some (mkMexargs (v_arr vP) (v_arr vc) None (v_arr vG) (v_arr vh) (Some o))
  | [vP; vc; vA; vb; vG; vh] => Some (mkMexargs (v_arr vP) (v_arr vc) (Some (v_arr vA, v_arr vb)) (v_arr vG) (v_arr vh) None)
  | [vP; vc; vA; vb; vG; vh; o] => Some (mkMexargs (v_arr vP) (v_arr vc) (Some (v_arr vA, v_arr vb)) (v_arr vG) (v_arr vh) (Some o))
  | _ => None                                                                                            (* lines 111-112 *)
  end.

(** Lines 250-260. *)
Definition longest (a : mxarr) : Z := Z.max (mx_rows a) (mx_cols a).
Definition dim_p (w : mexargs) : Z := match ma_eq w with Some (_, b) => longest b | None => 0 end.

(** "X should be a real sparse matrix", "x should be a real dense vector" and "... column vector". *)
Definition real_sparse (a : mxarr) : bool := mx_double a && mx_sparse a && negb (mx_complex a).
Definition real_dense (a : mxarr) : bool := mx_double a && negb (mx_sparse a) && negb (mx_complex a).
Definition narrow (a : mxarr) : bool := Z.min (mx_rows a) (mx_cols a) =? 1.

(** Lines 264-313; [false] is a call of mexErrMsgTxt. *)
Definition checks (w : mexargs) : bool :=
  let n := longest (ma_c w) in let m := longest (ma_h w) in let p := dim_p w in
  real_sparse (ma_P w) && (mx_rows (ma_P w) =? mx_cols (ma_P w)) && (mx_rows (ma_P w) =? n) &&
  real_sparse (ma_G w) && (mx_rows (ma_G w) =? m) && (mx_cols (ma_G w) =? n) &&
  match ma_eq w with Some (a, _) => real_sparse a && (mx_rows a =? p) && (mx_cols a =? n) | None => true end &&
  real_dense (ma_c w) && narrow (ma_c w) && real_dense (ma_h w) && narrow (ma_h w) &&
  match ma_eq w with Some (_, b) => real_dense b && narrow b | None => true end.

(** A field of the options, by its upper or its lower case name, lines 315-349. *)
Definition field (w : mexargs) (up low : string) : option mxarr :=
  match ma_opts w with
  | None => None
  | Some v => match v_field v up with Some f => Some f | None => v_field v low end
  end.

(** Lines 351-363 and 403-422: the permutation that is passed on ([Ok None] is a call of mexErrMsgTxt). *)
Definition permutation_option (w : mexargs) : res (option (option (arr Z))) :=
  let N := longest (ma_h w) + longest (ma_c w) + dim_p w in
  match field w "PERMUT" "permut" with
  | None => Ok (Some None)
  | Some a =>
      if negb (real_dense a && narrow a && (longest a =? N)) then Ok None
      else
        P <- for_ 0 N (fun i P => x <- rd (mx_pr a) i ;; z <- trunc (fsub A x (fofZ A 1)) ;; wr P i z) (malloc Z N) ;;
        ok <- LDL_valid_perm N (Some P) (Some (malloc Z N)) ;;
        Ok (if ok =? 0 then None else Some (Some P))
  end.

(** One option, lines 441-481: [bad] is the condition under which mexErrMsgTxt is called. *)
Definition set_option (f : option mxarr) (bad : F -> bool) (upd : F -> settings F -> res (settings F)) (o : settings F) : res (option (settings F)) :=
  match f with
  | None => Ok (Some o)
  | Some a => x <- rd (mx_pr a) 0 ;; if bad x then Ok None else o' <- upd x o ;; Ok (Some o')
  end.
Definition seq_option (m : res (option (settings F))) (f : settings F -> res (option (settings F))) : res (option (settings F)) :=
  r <- m ;; match r with Some o => f o | None => Ok None end.

Definition set_options (w : mexargs) (o : settings F) : res (option (settings F)) :=
  let lt0 x := flt A x (fofZ A 0) in
  seq_option (set_option (field w "MAXITER" "maxiter") (fun x => lt0 x || flt A (fofZ A 200) x)
                (fun x o => z <- trunc x ;; Ok (o <| maxit := z |>)) o) (fun o =>                              (* 441-448 *)
  seq_option (set_option (field w "ABSTOL" "abstol") (fun x => lt0 x || flt A (fofZ A 1) x)
                (fun x o => Ok (o <| abstol := x |>)) o) (fun o =>                                           (* 450-457 *)
  seq_option (set_option (field w "RELTOL" "reltol") (fun x => lt0 x || flt A (fofZ A 1) x)
                (fun x o => Ok (o <| reltol := x |>)) o) (fun o =>                                           (* 458-465 *)
  seq_option (set_option (field w "SIGMA" "sigma") lt0 (fun x o => Ok (o <| sigma := x |>)) o) (fun o =>       (* 467-472 *)
  set_option (field w "VERBOSE" "verbose") lt0 (fun x o => z <- trunc x ;; Ok (o <| verbose := z |>)) o)))).   (* 474-481 *)

(** The outputs, lines 513-593: x; ExitFlag and Iterations; Fval, y, z, s (the times are not modelled). *)
Record mexresult : Type := mkMexresult {
  mr_x : list F;
  mr_basic : option (Z * Z);
  mr_adv : option (F * option (list F) * list F * list F)
}.
Inductive mexout : Type := Help | MexError | Outputs (r : mexresult).

(** mexFunction, lines 102-606. *)
Definition mexFunction (amd : amd_t) (nlhs : Z) (prhs : list mxval) : res mexout :=
  if nlhs =? 0 then Ok Help else                                                                            (* 105-109 *)
  match parse prhs with
  | None => Ok MexError
  | Some w =>
      if (nlhs <? 0) || (3 <? nlhs) then Ok MexError else                                                    (* 115-116 *)
      if negb (checks w) then Ok MexError else
      let n := longest (ma_c w) in let m := longest (ma_h w) in let p := dim_p w in
      perm <- permutation_option w ;;
      match perm with
      | None => Ok MexError
      | Some perm =>
          q <- match ma_eq w with                                                                            (* 428-435 *)
               | Some (a, b) => QP_SETUP A amd n m p (mx_jc (ma_P w)) (mx_ir (ma_P w)) (mx_pr (ma_P w))
                     (Some (mx_jc a)) (Some (mx_ir a)) (Some (mx_pr a)) (mx_jc (ma_G w)) (mx_ir (ma_G w)) (mx_pr (ma_G w))
                     (mx_pr (ma_c w)) (mx_pr (ma_h w)) (Some (mx_pr b)) (fofZ A 0) perm
               | None => QP_SETUP A amd n m 0 (mx_jc (ma_P w)) (mx_ir (ma_P w)) (mx_pr (ma_P w))
                     None None None (mx_jc (ma_G w)) (mx_ir (ma_G w)) (mx_pr (ma_G w))
                     (mx_pr (ma_c w)) (mx_pr (ma_h w)) None (fofZ A 0) perm
               end ;;
          r <- set_options w (q_options q) ;;
          match r with
          | None => Ok MexError
          | Some o =>
              '(code, q) <- QP_SOLVE A (q <| q_options := o |>) ;;                                            (* 505-508 *)
              x <- copy A (q_x q) n ;;
              let basic := Some (code, IterationCount (q_stats q)) in
              if nlhs =? 1 then Ok (Outputs (mkMexresult x None None))
              else if nlhs =? 2 then Ok (Outputs (mkMexresult x basic None))
              else
                y <- (if p =? 0 then Ok None else y <- copy A (q_y q) p ;; Ok (Some y)) ;;
                fv <- use (fval (q_stats q)) ;;
                z <- copy A (q_z q) m ;;
                s <- copy A (q_s q) m ;;
                Ok (Outputs (mkMexresult x basic (Some (fv, y, z, s))))
          end
      end
  end.

(** ** Simulink *)

(** What a block puts on its output ports (the times are not modelled): x, exitflag, iter. *)
Record blockout : Type := mkBlockout { bo_x : list F; bo_exit : Z; bo_iter : Z }.

(** NV, line 13 of both files. *)
Definition NV : Z := 3.

(** mdlOutputs of qpSWIFT_sfunc_e.c, lines 101-179.  A port is the array of its samples, assumed contiguous as the code
    does; its width is ssGetInputPortWidth.  (QP_SETUP_dense never returns NULL, so lines 166-177 are not reached.) *)
Definition mdlOutputs_e (amd : amd_t) (iP ic iA ib iG ih : arr F) : res blockout :=
  q <- QP_SETUP_dense A amd (zlen ic) (zlen ih) (zlen ib) iP (Some iA) iG ic ih (Some ib) None COLUMN_MAJOR_ORDERING ;;
  '(code, q) <- QP_SOLVE A q ;;
  x <- copy A (q_x q) NV ;;
  Ok (mkBlockout x code (IterationCount (q_stats q))).

(** mdlOutputs of qpSWIFT_sfunc.c, lines 98-180. *)
Definition mdlOutputs (amd : amd_t) (iP ic iG ih : arr F) : res blockout :=
  q <- QP_SETUP_dense A amd (zlen ic) (zlen ih) 0 iP None iG ic ih None None COLUMN_MAJOR_ORDERING ;;
  '(code, q) <- QP_SOLVE A q ;;
  x <- copy A (q_x q) NV ;;
  Ok (mkBlockout x code (IterationCount (q_stats q))).
End Mex.
Arguments mkMx {A}. Arguments mx_double {A}. Arguments mx_sparse {A}. Arguments mx_complex {A}. Arguments mx_rows {A}.
Arguments mx_cols {A}. Arguments mx_pr {A}. Arguments mx_ir {A}. Arguments mx_jc {A}.
Arguments mkVal {A}. Arguments v_arr {A}. Arguments v_field {A}.
Arguments mkMexargs {A}. Arguments ma_P {A}. Arguments ma_c {A}. Arguments ma_eq {A}. Arguments ma_G {A}. Arguments ma_h {A}. Arguments ma_opts {A}.
Arguments mkMexresult {A}. Arguments mr_x {A}. Arguments mr_basic {A}. Arguments mr_adv {A}.
Arguments Help {A}. Arguments MexError {A}. Arguments Outputs {A}.
Arguments mkBlockout {A}. Arguments bo_x {A}. Arguments bo_exit {A}. Arguments bo_iter {A}.
Arguments longest {A}. Arguments dim_p {A}. Arguments field {A}.
