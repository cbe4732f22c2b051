(** Model of the timer (src/timer.c) and of the Python interface (python/pyqpSWIFT.c). *)
From Coq Require Import ZArith List Bool.
From RecordUpdate Require Import RecordUpdate.
From Verif Require Import Res Arith MSparse MSolver Session.
Import ListNotations.
Open Scope Z_scope.
Open Scope res_scope.

(** ** Timer *)

Record timespec : Type := mkTs { tv_sec : Z; tv_nsec : Z }.

(** toc, src/timer.c:53-68: the difference of the two readings [tic], [toc] as a timespec ... *)
Definition ts_diff (tic toc : timespec) : timespec :=
  if tv_nsec toc - tv_nsec tic <? 0
  then mkTs (tv_sec toc - tv_sec tic - 1) (1000000000 + tv_nsec toc - tv_nsec tic)
  else mkTs (tv_sec toc - tv_sec tic) (tv_nsec toc - tv_nsec tic).

(** ... and the returned number, line 67. *)
Definition toc (A : Arith) (t0 t1 : timespec) : res (car A) :=
  let temp := ts_diff t0 t1 in
  q <- fdiv A (fofZ A (tv_nsec temp)) (fofZ A 1000000000) ;;
  Ok (fadd A (fofZ A (tv_sec temp)) q).

(** toc on Windows, src/timer.c:13-17, for the two counter readings and the frequency that tic stored. The 64-bit difference is
    converted to double by the division. *)
Definition toc_windows (A : Arith) (t0 t1 freq : Z) : res (car A) := fdiv A (fofZ A (t1 - t0)) (fofZ A freq).

(** toc on macOS, src/timer.c:27-39: [duration] is a uint64_t, so every operation is modulo 2^64; numer and denom are those of
    mach_timebase_info. *)
Definition u64 (z : Z) : Z := z mod 2 ^ 64.
Definition mach_duration (t0 t1 numer denom : Z) : res Z :=
  if denom =? 0 then Ub Undef else Ok (u64 (u64 (t1 - t0) * numer) / denom).
Definition toc_macos (A : Arith) (t0 t1 numer denom : Z) : res (car A) :=
  d <- mach_duration t0 t1 numer denom ;; fdiv A (fofZ A d) (fofZ A 1000000000).

(** ** Python objects *)

Section Py.
Variable A : Arith.
Notation F := (car A).

(** The values an option may have: an int (bool included), a float, anything else. *)
Inductive pyobj : Type := PyInt (z : Z) | PyFloat (x : F) | PyOther.

(** A numpy array: is its type a floating type, its dimensions, its elements in C order as doubles (what
    PyArray_GETCONTIGUOUS and PyArray_Cast deliver, lines 15-35). *)
Record pyarr : Type := mkPyarr { pa_float : bool; pa_dims : list Z; pa_data : arr F }.

Inductive key : Type := K_MAXITER | K_ABSTOL | K_RELTOL | K_SIGMA | K_VERBOSE | K_OUTPUT.

(** PyDict_GetItemString. *)
Definition pydict : Type := key -> option pyobj.

(** PyLong_AsLong: -1 if the value does not fit a long. *)
Definition AsLong (z : Z) : Z := if (- 2 ^ 63 <=? z) && (z <? 2 ^ 63) then z else -1.

(** Outcome of the call: an exception, or the values that are handed to QP_SETUP_dense and QP_SOLVE. *)
Inductive checked : Type :=
  | Raise
  | Accept (o : settings F) (output : Z).

(** An optional entry of the dictionary: absent, rejected, or accepted with its value. *)
Definition opt_int (d : pydict) (k : key) (good : Z -> bool) (f : Z -> settings F -> settings F) (o : settings F) : option (settings F) :=
  match d k with
  | None => Some o
  | Some (PyInt z) => if good (AsLong z) then Some (f (AsLong z) o) else None
  | Some _ => None
  end.
Definition opt_float (d : pydict) (k : key) (good : F -> bool) (f : F -> settings F -> settings F) (o : settings F) : option (settings F) :=
  match d k with
  | None => Some o
  | Some (PyFloat x) => if good x then Some (f x o) else None
  | Some _ => None
  end.

Definition one : F := fofZ A 1.
Definition zero : F := fofZ A 0.
Definition obind {X Y} (m : option X) (f : X -> option Y) : option Y := match m with Some x => f x | None => None end.

(** Lines 184-289. *)
Definition check_options (opts : option pydict) : checked :=
  let o := default_settings A in                                              (* lines 176-181 *)
  match opts with
  | None => Accept o 10
  | Some d =>
      let r :=
        obind (opt_int d K_MAXITER (fun z => (z <? 200) && (0 <? z)) (fun z o => o <| maxit := z |>) o) (fun o =>          (* 186-201 *)
        obind (opt_float d K_ABSTOL (fun x => flt A x one && flt A zero x) (fun x o => o <| abstol := x |>) o) (fun o =>   (* 203-218 *)
        obind (opt_float d K_RELTOL (fun x => flt A x one && flt A zero x) (fun x o => o <| reltol := x |>) o) (fun o =>   (* 220-235 *)
        obind (opt_float d K_SIGMA (fun x => flt A zero x) (fun x o => o <| sigma := x |>) o) (fun o =>                    (* 237-252 *)
        opt_int d K_VERBOSE (fun z => 0 <=? z) (fun z o => o <| verbose := z |>) o)))) in                                  (* 254-270 *)
      match r with
      | None => Raise
      | Some o =>
          Accept o (match d K_OUTPUT with                                    (* 272-288: a bad value only gives a warning *)
                    | Some (PyInt z) => if 0 <=? AsLong z then AsLong z else 10
                    | _ => 10
                    end)
      end
  end.

(** PyArray_DIMS(a)[0]: a zero-dimensional array has no dimensions to read. *)
Definition dim0 (a : pyarr) : res Z := match pa_dims a with d :: _ => Ok d | [] => Ub NullPtr end.

Definition is_vector (a : pyarr) : bool := pa_float a && match pa_dims a with [_] => true | _ => false end.
Definition is_matrix (a : pyarr) : bool := pa_float a && match pa_dims a with [_; _] => true | _ => false end.
Definition has_shape (a : pyarr) (r c : Z) : bool := match pa_dims a with [x; y] => (x =? r) && (y =? c) | _ => false end.

(** The arguments of the call, lines 37-100. *)
Record pycall : Type := mkPycall {
  py_c : pyarr; py_h : pyarr; py_P : pyarr; py_G : pyarr; py_A : option pyarr; py_b : option pyarr; py_opts : option pydict
}.

(** Equality constraints are used if both A and b are given. *)
Definition py_eqs (w : pycall) : option (pyarr * pyarr) :=
  match py_b w, py_A w with Some b, Some a => Some (a, b) | _, _ => None end.

(** Lines 87-171: dimensions and shape checks; [Ok None] is an exception. *)
Definition check_arrays (w : pycall) : res (option (Z * Z * Z)) :=
  n <- dim0 (py_c w) ;;
  m <- dim0 (py_h w) ;;
  p <- match py_eqs w with Some (_, b) => dim0 b | None => Ok 0 end ;;
  Ok (if negb (is_vector (py_c w)) then None
      else if negb (is_vector (py_h w)) then None
      else if negb match py_eqs w with
                   | Some (a, b) => is_vector b && (is_matrix a && has_shape a p n)
                   | None => true
                   end then None
      else if negb (is_matrix (py_G w)) then None
      else if negb (has_shape (py_G w) m n) then None
      else if negb (is_matrix (py_P w)) then None
      else if negb (has_shape (py_P w) n n) then None
      else Some (n, m, p)).

(** The dictionary that is returned, lines 344-442. *)
Record pyresult : Type := mkPyresult {
  r_sol : list F;
  r_basic : option (Z * Z);                                     (* ExitFlag, Iterations (the times are not modelled) *)
  r_adv : option (F * option (list F) * list F * list F)          (* fval, y, z, s *)
}.

(** Copying the first [k] elements of a vector of the handle, e.g. lines 347-350. *)
Definition copy (v : arr F) (k : Z) : res (list F) :=
  l <- for_ 0 k (fun i l => x <- rd v i ;; Ok (x :: l)) [] ;; Ok (rev l).

Inductive pyout : Type := Exception | Return (r : pyresult).

(** method_qpSWIFT, lines 37-463. *)
Definition method_qpSWIFT (amd : amd_t) (w : pycall) : res pyout :=
  dims <- check_arrays w ;;
  match dims with
  | None => Ok Exception
  | Some (n, m, p) =>
      match check_options (py_opts w) with
      | Raise => Ok Exception
      | Accept o output =>
          q <- QP_SETUP_dense A amd n m p (pa_data (py_P w)) (match py_eqs w with Some (a, _) => Some (pa_data a) | None => None end)
                 (pa_data (py_G w)) (pa_data (py_c w)) (pa_data (py_h w))
                 (match py_eqs w with Some (_, b) => Some (pa_data b) | None => None end) None ROW_MAJOR_ORDERING ;;     (* 316 *)
          '(code, q) <- QP_SOLVE A (q <| q_options := o |>) ;;                                                        (* 319-342 *)
          x <- copy (q_x q) (q_n q) ;;
          if output =? 1 then Ok (Return (mkPyresult x (Some (code, IterationCount (q_stats q))) None))
          else if output =? 2 then
            y <- match py_eqs w with Some _ => y <- copy (q_y q) (q_p q) ;; Ok (Some y) | None => Ok None end ;;
            z <- copy (q_z q) (q_m q) ;;
            s <- copy (q_s q) (q_m q) ;;
            fv <- use (fval (q_stats q)) ;;
            Ok (Return (mkPyresult x (Some (code, IterationCount (q_stats q))) (Some (fv, y, z, s))))
          else Ok (Return (mkPyresult x None None))
      end
  end.
End Py.
Arguments PyInt {A}. Arguments PyFloat {A}. Arguments PyOther {A}.
Arguments Exception {A}. Arguments Return {A}. Arguments Raise {A}. Arguments Accept {A}.
Arguments mkPyresult {A}. Arguments r_sol {A}. Arguments r_basic {A}. Arguments r_adv {A}.
Arguments mkPyarr {A}. Arguments pa_float {A}. Arguments pa_dims {A}. Arguments pa_data {A}.
Arguments mkPycall {A}. Arguments py_c {A}. Arguments py_h {A}. Arguments py_P {A}. Arguments py_G {A}. Arguments py_A {A}.
Arguments py_b {A}. Arguments py_opts {A}. Arguments py_eqs {A}.
