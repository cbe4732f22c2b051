(** Reference counts in the Python interface (python/pyqpSWIFT.c).

    A second, coarser model of method_qpSWIFT: which objects are alive, who owns how many references, and whether an
    exception is pending.  The arrays' contents and the solver are in MIface.v; QP_SETUP_dense, QP_SOLVE and
    QP_CLEANUP_dense touch no Python object.  Creating an object always succeeds. *)
From Coq Require Import ZArith List Bool.
From Verif Require Import Res Arith MSparse MSolver MIface.
Import ListNotations.
Open Scope Z_scope.
Open Scope res_scope.

(** ** Objects *)

(** Objects are numbered in the order of their creation; [cnt] is the reference count (0: deallocated), [kids] the
    references an object owns (the values of a dictionary), [pend] whether an exception is set. *)
Record pyheap : Type := mkPyheap { cnt : Z -> Z; kids : Z -> list Z; next : Z; pend : bool }.

Definition set_cnt (h : pyheap) (o c : Z) : pyheap := mkPyheap (fun i => if i =? o then c else cnt h i) (kids h) (next h) (pend h).
Definition set_error (h : pyheap) : pyheap := mkPyheap (cnt h) (kids h) (next h) true.

(** Py_INCREF; using a deallocated object is undefined. *)
Definition incref (o : Z) (h : pyheap) : res pyheap := if 0 <? cnt h o then Ok (set_cnt h o (cnt h o + 1)) else Ub Undef.

(** Py_DECREF; the last reference deallocates the object and drops the references it owns. *)
Fixpoint decref_ (fuel : nat) (o : Z) (h : pyheap) : res pyheap :=
  match fuel with
  | O => NoFuel
  | S fuel =>
      if negb (0 <? cnt h o) then Ub Undef
      else if cnt h o =? 1 then
        (fix all l h := match l with [] => Ok h | k :: l => h <- decref_ fuel k h ;; all l h end) (kids h o) (set_cnt h o 0)
      else Ok (set_cnt h o (cnt h o - 1))
  end.
Definition decref (o : Z) (h : pyheap) : res pyheap := decref_ (S (Z.to_nat (next h))) o h.

(** A new object owning the references [l], with one reference, which the caller owns. *)
Definition new_obj (l : list Z) (h : pyheap) : Z * pyheap :=
  (next h, mkPyheap (fun i => if i =? next h then 1 else cnt h i) (fun i => if i =? next h then l else kids h i) (next h + 1) (pend h)).

(** Py_BuildValue with "O" items: a dictionary with a reference of its own to each of them. *)
Fixpoint increfs (l : list Z) (h : pyheap) : res pyheap := match l with [] => Ok h | o :: l => h <- incref o h ;; increfs l h end.
Definition build_value (l : list Z) (h : pyheap) : res (Z * pyheap) := h <- increfs l h ;; Ok (new_obj l h).

(** getptr, lines 15-35. PyArray_GETCONTIGUOUS returns a new reference, to the array itself if it is contiguous, else
    to a copy; PyArray_Cast makes a new array. *)
Definition getptr (contiguous : Z -> bool) (o : Z) (h : pyheap) : res (Z * pyheap) :=
  '(tmp_arr, h) <- (if contiguous o then h <- incref o h ;; Ok (o, h) else Ok (new_obj [] h)) ;;
  let '(new_owner, h) := new_obj [] h in
  h <- decref tmp_arr h ;;
  Ok (new_owner, h).

(** The argument objects: arrays, dictionary, and the values in the dictionary. *)
Record pyids : Type := mkPyids { id_c : Z; id_h : Z; id_P : Z; id_G : Z; id_A : Z; id_b : Z; id_value : key -> Z }.

Section Run.
Variable A : Arith.
Notation F := (car A).

(** Does the code accept the value of this option? Lines 191, 208, 225, 242, 259 (OUTPUT is never rejected). *)
Definition accepts (k : key) (v : pyobj A) : bool :=
  match k, v with
  | K_MAXITER, PyInt z => (AsLong z <? 200) && (0 <? AsLong z)
  | K_ABSTOL, PyFloat x => flt A x (one A) && flt A (zero A) x
  | K_RELTOL, PyFloat x => flt A x (one A) && flt A (zero A) x
  | K_SIGMA, PyFloat x => flt A (zero A) x
  | K_VERBOSE, PyInt z => 0 <=? AsLong z
  | K_OUTPUT, PyInt z => 0 <=? AsLong z
  | _, _ => false
  end.

(** PyLong_AsLong sets OverflowError when the value does not fit. *)
Definition overflows (v : pyobj A) : bool := match v with PyInt z => negb ((- 2 ^ 63 <=? z) && (z <? 2 ^ 63)) | _ => false end.

(** One of the first five options, e.g. lines 186-201: [false] is the return of NULL in the else branch. *)
Definition option_refs (d : pydict A) (ids : pyids) (k : key) (h : pyheap) : res (bool * pyheap) :=
  match d k with
  | None => Ok (true, h)
  | Some v =>
      h <- incref (id_value ids k) h ;;
      if accepts k v then h <- decref (id_value ids k) h ;; Ok (true, h) else Ok (false, set_error h)
  end.

Fixpoint options_refs (d : pydict A) (ids : pyids) (l : list key) (h : pyheap) : res (bool * pyheap) :=
  match l with
  | [] => Ok (true, h)
  | k :: l => '(go, h) <- option_refs d ids k h ;; if go then options_refs d ids l h else Ok (false, h)
  end.

(** OUTPUT, lines 272-288: a bad value only gives a warning. [warn]: warnings are turned into errors (PyErr_WarnEx
    sets an exception and returns -1, which is not looked at). *)
Definition output_refs (warn : bool) (d : pydict A) (ids : pyids) (h : pyheap) : res pyheap :=
  match d K_OUTPUT with
  | None => Ok h
  | Some v =>
      h <- incref (id_value ids K_OUTPUT) h ;;
      let h := if overflows v then set_error h else h in
      let h := if accepts K_OUTPUT v then h else if warn then set_error h else h in
      decref (id_value ids K_OUTPUT) h
  end.

Definition decref_opt (o : option Z) (h : pyheap) : res pyheap := match o with Some o => decref o h | None => Ok h end.

(** Lines 293-463, after the checks: [eqs] is b && A, [output] the level. *)
Definition solve_refs (contiguous : Z -> bool) (ids : pyids) (eqs : bool) (output : Z) (h : pyheap) : res (Z * pyheap) :=
  '(ctemp, h) <- getptr contiguous (id_c ids) h ;;
  '(htemp, h) <- getptr contiguous (id_h ids) h ;;
  '(btemp, Atemp, h) <- (if eqs then '(bt, h) <- getptr contiguous (id_b ids) h ;; '(at_, h) <- getptr contiguous (id_A ids) h ;; Ok (Some bt, Some at_, h)
                         else Ok (None, None, h)) ;;
  '(Ptemp, h) <- getptr contiguous (id_P ids) h ;;
  '(Gtemp, h) <- getptr contiguous (id_G ids) h ;;
  let '(sol_x, h) := new_obj [] h in                                         (* 345 *)
  '(result, h) <-
    (if output =? 1 then                                                     (* 354-367 *)
       '(basic_info, h) <- build_value [] h ;;
       '(result, h) <- build_value [sol_x; basic_info] h ;;
       h <- decref basic_info h ;; Ok (result, h)
     else if output =? 2 then                                                (* 368-436 *)
       '(basic_info, h) <- build_value [] h ;;
       let '(sol_y, h) := if eqs then (let '(y, h) := new_obj [] h in (Some y, h)) else (None, h) in
       let '(sol_z, h) := new_obj [] h in
       let '(sol_s, h) := new_obj [] h in
       '(adv_info, h) <- build_value (match sol_y with Some y => [y; sol_z; sol_s] | None => [sol_z; sol_s] end) h ;;
       '(result, h) <- build_value [sol_x; basic_info; adv_info] h ;;
       h <- decref basic_info h ;;
       h <- decref adv_info h ;;
       h <- decref_opt sol_y h ;;
       h <- decref sol_z h ;;
       h <- decref sol_s h ;; Ok (result, h)
     else build_value [sol_x] h) ;;                                          (* 437-441 *)
  h <- decref sol_x h ;;                                                     (* 444 *)
  h <- decref Ptemp h ;;
  h <- decref ctemp h ;;
  h <- decref Gtemp h ;;
  h <- decref htemp h ;;
  h <- decref_opt Atemp h ;;
  h <- decref_opt btemp h ;;
  Ok (result, h).

(** method_qpSWIFT: the object that is returned, [None] for NULL. *)
Definition method_refs (contiguous : Z -> bool) (warn : bool) (w : pycall A) (ids : pyids) (h : pyheap) : res (option Z * pyheap) :=
  dims <- check_arrays A w ;;
  match dims with
  | None => Ok (None, set_error h)
  | Some _ =>
      '(go, h) <- match py_opts w with
                  | None => Ok (true, h)
                  | Some d =>
                      '(go, h) <- options_refs d ids [K_MAXITER; K_ABSTOL; K_RELTOL; K_SIGMA; K_VERBOSE] h ;;
                      if go then h <- output_refs warn d ids h ;; Ok (true, h) else Ok (false, h)
                  end ;;
      if go then
        let output := match check_options A (py_opts w) with Accept _ output => output | Raise => 10 end in
        '(result, h) <- solve_refs contiguous ids (match py_eqs w with Some _ => true | None => false end) output h ;;
        Ok (Some result, h)
      else Ok (None, h)
  end.
End Run.
