(** Model of src/qpSWIFT.c (QP_SETUP, QP_SETUP_dense, QP_SOLVE) and of the QP-level routines of
    src/Auxilary.c (kkt_initialize, ldlinitialsolve, kktsolve_1, kktsolve_2, computeresiduals).

    Not modelled: time statistics (tsetup, tsolve, kkt_time, ldl_numeric) and the text that is
    printed.  Cleanup is modelled in Ledger.v. *)
From Coq Require Import ZArith List Bool.
From RecordUpdate Require Import RecordUpdate.
From Verif Require Import Res Arith MSparse MLdl.
Import ListNotations.
Open Scope Z_scope.
Open Scope res_scope.

(** Exit codes, include/GlobalOptions.h:54-57, and orderings, lines 59-60. *)
Definition QP_OPTIMAL : Z := 0.
Definition QP_KKTFAIL : Z := 1.
Definition QP_MAXIT : Z := 2.
Definition QP_FATAL : Z := 3.
Definition ROW_MAJOR_ORDERING : Z := 20.
Definition COLUMN_MAJOR_ORDERING : Z := 30.

(** Use of a scalar field; [None] = never assigned. *)
Definition use {T : Type} (o : option T) : res T :=
  match o with
  | Some v => Ok v
  | None => Ub Uninit
  end.

(** Use of a pointer; [None] = NULL. *)
Definition deref {T : Type} (o : option T) : res T :=
  match o with
  | Some v => Ok v
  | None => Ub NullPtr
  end.

(** struct kkt, include/Auxilary.h:31-50. *)
Record kkt (F : Type) : Type := mkKkt {
  k_mat : smat F;
  k_b : arr F;
  k_Parent : arr Z;
  k_Flag : arr Z;
  k_Lnz : arr Z;
  k_Li : arr Z;
  k_Lp : arr Z;
  k_Lti : arr Z;
  k_Ltp : arr Z;
  k_Pattern : arr Z;
  k_UPattern : arr Z;
  k_Y : arr F;
  k_Lx : arr F;
  k_D : arr F;
  k_P : arr Z;
  k_Pinv : arr Z
}.
Arguments mkKkt {F}.
Arguments k_mat {F}. Arguments k_b {F}. Arguments k_Parent {F}. Arguments k_Flag {F}.
Arguments k_Lnz {F}. Arguments k_Li {F}. Arguments k_Lp {F}. Arguments k_Lti {F}.
Arguments k_Ltp {F}. Arguments k_Pattern {F}. Arguments k_UPattern {F}. Arguments k_Y {F}.
Arguments k_Lx {F}. Arguments k_D {F}. Arguments k_P {F}. Arguments k_Pinv {F}.

#[export] Instance eta_kkt {F} : Settable (kkt F) :=
  settable! (@mkKkt F) <k_mat; k_b; k_Parent; k_Flag; k_Lnz; k_Li; k_Lp; k_Lti; k_Ltp; k_Pattern;
                        k_UPattern; k_Y; k_Lx; k_D; k_P; k_Pinv>.

(** struct stats, include/Auxilary.h:55-84, without the times.  Fields that QP_SETUP leaves
    unassigned are options. *)
Record stats (F : Type) : Type := mkStats {
  IterationCount : Z;
  n_rx : option F;
  n_ry : option F;
  n_rz : option F;
  n_mu : option F;
  alpha_p : F;
  alpha_d : F;
  fval : option F;
  Flag : Z;
  AMD_RESULT : Z;
  resolve_kkt : option Z
}.
Arguments mkStats {F}.
Arguments IterationCount {F}. Arguments n_rx {F}. Arguments n_ry {F}. Arguments n_rz {F}.
Arguments n_mu {F}. Arguments alpha_p {F}. Arguments alpha_d {F}. Arguments fval {F}.
Arguments Flag {F}. Arguments AMD_RESULT {F}. Arguments resolve_kkt {F}.

#[export] Instance eta_stats {F} : Settable (stats F) :=
  settable! (@mkStats F) <IterationCount; n_rx; n_ry; n_rz; n_mu; alpha_p; alpha_d; fval; Flag;
                          AMD_RESULT; resolve_kkt>.

(** struct settings, include/Auxilary.h:89-100. *)
Record settings (F : Type) : Type := mkSettings {
  maxit : Z;
  reltol : F;
  abstol : F;
  sigma : F;
  verbose : Z
}.
Arguments mkSettings {F}.
Arguments maxit {F}. Arguments reltol {F}. Arguments abstol {F}. Arguments sigma {F}.
Arguments verbose {F}.

#[export] Instance eta_settings {F} : Settable (settings F) :=
  settable! (@mkSettings F) <maxit; reltol; abstol; sigma; verbose>.

(** struct QP, include/Auxilary.h:106-151.  y, ry, delta_y are never allocated without equality
    constraints; such a block is the empty array here (any access is out of bounds). *)
Record qp (F : Type) : Type := mkQp {
  q_n : Z;
  q_m : Z;
  q_p : Z;
  q_sigma_d : F;
  q_mu : option F;
  q_rho : option F;
  q_x : arr F;
  q_y : arr F;
  q_z : arr F;
  q_s : arr F;
  q_rx : arr F;
  q_ry : arr F;
  q_rz : arr F;
  q_delta : arr F;
  q_delta_x : arr F;
  q_delta_y : arr F;
  q_delta_z : arr F;
  q_delta_s : arr F;
  q_ds : arr F;
  q_lambda : arr F;
  q_temp : arr F;
  q_P : smat F;
  q_c : arr F;
  q_G : smat F;
  q_h : arr F;
  q_A : option (smat F);
  q_b : option (arr F);
  q_At : option (smat F);
  q_Gt : smat F;
  q_kkt : kkt F;
  q_options : settings F;
  q_stats : stats F
}.
Arguments mkQp {F}.
Arguments q_n {F}. Arguments q_m {F}. Arguments q_p {F}. Arguments q_sigma_d {F}.
Arguments q_mu {F}. Arguments q_rho {F}. Arguments q_x {F}. Arguments q_y {F}. Arguments q_z {F}.
Arguments q_s {F}. Arguments q_rx {F}. Arguments q_ry {F}. Arguments q_rz {F}. Arguments q_delta {F}.
Arguments q_delta_x {F}. Arguments q_delta_y {F}. Arguments q_delta_z {F}. Arguments q_delta_s {F}.
Arguments q_ds {F}. Arguments q_lambda {F}. Arguments q_temp {F}. Arguments q_P {F}. Arguments q_c {F}.
Arguments q_G {F}. Arguments q_h {F}. Arguments q_A {F}. Arguments q_b {F}. Arguments q_At {F}.
Arguments q_Gt {F}. Arguments q_kkt {F}. Arguments q_options {F}. Arguments q_stats {F}.

#[export] Instance eta_qp {F} : Settable (qp F) :=
  settable! (@mkQp F) <q_n; q_m; q_p; q_sigma_d; q_mu; q_rho; q_x; q_y; q_z; q_s; q_rx; q_ry; q_rz;
    q_delta; q_delta_x; q_delta_y; q_delta_z; q_delta_s; q_ds; q_lambda; q_temp; q_P; q_c; q_G; q_h;
    q_A; q_b; q_At; q_Gt; q_kkt; q_options; q_stats>.

Section WithArith.
Variable A : Arith.
Notation F := (car A).
Notation zero := (f0 A).
Notation one := (f1 A).

(** MAX and MIN as qpSWIFT.c sees them: include/amd_internal.h:124-125 (that header #undef's the
    macros of GlobalOptions.h and is included after it). *)
Definition MAX (a b : F) : F := if flt A b a then a else b.
Definition MIN (a b : F) : F := if flt A a b then a else b.

(** ** Linear solves *)

(** LDL_perm; LDL_lsolve; LDL_dsolve; LDL_ltsolve; LDL_permt as called in src/Auxilary.c:488-492,
    535-539 and 614-618.  Returns (delta, kkt->b). *)
Definition ldl_solve (k : kkt F) (delta : arr F) : res (arr F * arr F) :=
  let n := sn (k_mat k) in
  delta <- LDL_perm A n delta (k_b k) (k_P k) ;;
  delta <- LDL_lsolve A n delta (k_Lp k) (k_Li k) (k_Lx k) ;;
  delta <- LDL_dsolve A n delta (k_D k) ;;
  delta <- LDL_ltsolve A n delta (k_Lp k) (k_Li k) (k_Lx k) ;;
  b <- LDL_permt A n (k_b k) delta (k_P k) ;;
  Ok (delta, b).

(** The call of LDL_numeric in src/Auxilary.c:478, 532 and 604. *)
Definition kkt_numeric (k : kkt F) : res (Z * kkt F) :=
  let M := k_mat k in
  '(d, w) <- LDL_numeric A (sn M) (jc M) (ir M) (pr M) (k_Lp k) (k_Parent k)
               (mkNum A (k_Lnz k) (k_Li k) (k_Lx k) (k_D k) (k_Y k) (k_Pattern k) (k_Flag k))
               (Some (k_P k)) (Some (k_Pinv k)) ;;
  Ok (d, k <| k_Lnz := nLnz A w |> <| k_Li := nLi A w |> <| k_Lx := nLx A w |> <| k_D := nD A w |>
           <| k_Y := nY A w |> <| k_Pattern := nPattern A w |> <| k_Flag := nFlag A w |>).

(** delta_s[i] = (ds[i] - s[i]*delta_z[i]) / z[i], src/Auxilary.c:508-511 and 559-562. *)
Definition recover_ds (delta_s ds s delta_z z : arr F) (m : Z) : res (arr F) :=
  for_ 0 m (fun i delta_s =>
    d <- rd ds i ;;
    si <- rd s i ;;
    dz <- rd delta_z i ;;
    zi <- rd z i ;;
    v <- fdiv A (fsub A d (fmul A si dz)) zi ;;
    wr delta_s i v) delta_s.

(** Copy src[lo..hi-1] to dst[0..], e.g. src/Auxilary.c:502-505, 541-556, 1030-1039. *)
Definition copy_block (dst src : arr F) (lo hi : Z) : res (arr F) :=
  for_ lo hi (fun i dst => v <- rd src i ;; wr dst (i - lo) v) dst.

(** kktsolve_1, src/Auxilary.c:471-515. *)
Definition kktsolve_1 (q : qp F) : res (bool * qp F) :=
  let n := sn (k_mat (q_kkt q)) in
  '(d, k) <- kkt_numeric (q_kkt q) ;;
  if d =? n then
    '(delta, b) <- ldl_solve k (q_delta q) ;;
    delta_z <- copy_block (q_delta_z q) b (q_n q + q_p q) (q_n q + q_p q + q_m q) ;;
    delta_s <- recover_ds (q_delta_s q) (q_ds q) (q_s q) delta_z (q_z q) (q_m q) ;;
    Ok (true, q <| q_kkt := k <| k_b := b |> |> <| q_delta := delta |> <| q_delta_z := delta_z |>
               <| q_delta_s := delta_s |>)
  else Ok (false, q <| q_kkt := k |>).

(** kktsolve_2, src/Auxilary.c:524-564 (the return value of LDL_numeric is ignored). *)
Definition kktsolve_2 (q : qp F) : res (qp F) :=
  rk <- use (resolve_kkt (q_stats q)) ;;
  k <- (if negb (rk =? 0) then '(_, k) <- kkt_numeric (q_kkt q) ;; Ok k else Ok (q_kkt q)) ;;
  '(delta, b) <- ldl_solve k (q_delta q) ;;
  delta_x <- copy_block (q_delta_x q) b 0 (q_n q) ;;
  delta_y <- copy_block (q_delta_y q) b (q_n q) (q_n q + q_p q) ;;
  delta_z <- copy_block (q_delta_z q) b (q_n q + q_p q) (q_n q + q_p q + q_m q) ;;
  delta_s <- recover_ds (q_delta_s q) (q_ds q) (q_s q) delta_z (q_z q) (q_m q) ;;
  Ok (q <| q_kkt := k <| k_b := b |> |> <| q_delta := delta |> <| q_delta_x := delta_x |>
        <| q_delta_y := delta_y |> <| q_delta_z := delta_z |> <| q_delta_s := delta_s |>).

(** ldlinitialsolve, src/Auxilary.c:578-625.  Allocates and fills the factorisation arrays. *)
Definition ldlinitialsolve (k : kkt F) (delta : arr F) : res (bool * kkt F * arr F) :=
  let M := k_mat k in
  let n := sn M in
  '(Lp, Parent, Lnz, Flag, Pinv) <-
     LDL_symbolic n (jc M) (ir M) (malloc Z (n + 1)) (malloc Z n) (malloc Z n) (malloc Z n)
                  (Some (k_P k)) (Some (k_Pinv k)) ;;
  Pinv <- deref Pinv ;;
  lnz <- rd Lp n ;;
  let k := k <| k_Lp := Lp |> <| k_Parent := Parent |> <| k_Lnz := Lnz |> <| k_Flag := Flag |>
             <| k_Pinv := Pinv |> <| k_Y := malloc F n |> <| k_D := malloc F n |>
             <| k_Pattern := malloc Z n |> <| k_Li := malloc Z (lnz + 1) |>
             <| k_Lx := malloc F (lnz + 1) |> in
  '(d, k) <- kkt_numeric k ;;
  '(Lti, Ltp) <- Transpose_Row_Count n n (k_Li k) (k_Lp k) (malloc Z lnz) (malloc Z (n + 1)) ;;
  let k := k <| k_Lti := Lti |> <| k_Ltp := Ltp |> in
  if d =? n then
    '(delta, b) <- ldl_solve k delta ;;
    Ok (true, k <| k_b := b |>, delta)
  else Ok (false, k, delta).

(** kkt_initialize, src/Auxilary.c:992-1089. *)
Definition kkt_initialize (q : qp F) : res (bool * qp F) :=
  let n := q_n q in
  let m := q_m q in
  let p := q_p q in
  b <- for_ 0 n (fun i b => v <- rd (q_c q) i ;; wr b i (fopp A v)) (k_b (q_kkt q)) ;;
  b <- for_ n (n + p) (fun i b => bb <- deref (q_b q) ;; v <- rd bb (i - n) ;; wr b i v) b ;;
  b <- for_ (n + p) (n + p + m) (fun i b => v <- rd (q_h q) (i - n - p) ;; wr b i v) b ;;
  '(ok, k, delta) <- ldlinitialsolve (q_kkt q <| k_b := b |>) (q_delta q) ;;
  let q := q <| q_kkt := k |> <| q_delta := delta |> in
  if ok : bool then
    x <- copy_block (q_x q) (k_b k) 0 n ;;
    y <- copy_block (q_y q) (k_b k) n (n + p) ;;
    zi <- SparseMatrixMultiply A (q_G q) x (malloc F m) true ;;
    zi <- updatevariables A zi (q_h q) one m ;;
    '(mn, mx) <- findminmax A zi m ;;
    let ap := fopp A mn in
    let ad := mx in
    s <- (if flt A ap zero then for_ 0 m (fun i s => v <- rd zi i ;; wr s i v) (q_s q)
          else for_ 0 m (fun i s => v <- rd zi i ;; wr s i (fadd A v (fadd A one ap))) (q_s q)) ;;
    z <- (if flt A ad zero then for_ 0 m (fun i z => v <- rd zi i ;; wr z i (fopp A v)) (q_z q)
          else for_ 0 m (fun i z => v <- rd zi i ;; wr z i (fadd A (fopp A v) (fadd A one ad))) (q_z q)) ;;
    Ok (true, q <| q_x := x |> <| q_y := y |> <| q_s := s |> <| q_z := z |>)
  else Ok (false, q).

(** ** Setup *)

(** Default settings, src/qpSWIFT.c:70-75 with include/GlobalOptions.h:46-50. *)
Definition default_settings : settings F :=
  mkSettings 100 (fdec A 1 1000000) (fdec A 1 1000000) (fofZ A 100) 0.

(** Initial statistics, src/qpSWIFT.c:79-83. *)
Definition initial_stats : stats F :=
  mkStats 0 None None None None zero zero None QP_FATAL 0 None.

(** The ordering package, a parameter: n, Ap, Ai and the (uninitialised) output array give a status
    and the output array.  See MAmd*.v for the model of amd_l_order. *)
Definition amd_t : Type := Z -> arr Z -> arr Z -> arr Z -> res (Z * arr Z).

(** Transpose as set up in src/qpSWIFT.c:117-122, 125-130 (dense: 339-344, 347-352). *)
Definition setup_transpose (M : smat F) : res (smat F) :=
  SparseMatrixTranspose A M
    (SparseMatrixSetup A (sn M) (sm M) (nnz M) (malloc Z (sm M + 1)) (malloc Z (nnz M)) (malloc F (nnz M))).

(** Choice of the permutation, src/qpSWIFT.c:194-219 (dense: 416-441): (kkt->P, AMD_RESULT).
    [nf] is the bound n + m + p of the fallback loop, with the caller's p. *)
Definition setup_perm (amd : amd_t) (K : smat F) (np nf : Z) (Permut : option (arr Z))
  : res (arr Z * Z) :=
  match Permut with
  | Some P => Ok (P, -3)
  | None =>
      '(st, P) <- amd (sn K) (jc K) (ir K) (malloc Z np) ;;
      if st <? 0 then
        P <- for_ 0 nf (fun idx P => wr P idx idx) P ;;
        Ok (P, st)
      else Ok (P, st)
  end.

(** src/qpSWIFT.c:106-233 after the matrices are known (dense: 332-455, same statements).
    [p_arg] is the caller's p, [p] the field myQP->p. *)
Definition setup_core (amd : amd_t) (n m p_arg : Z) (P G : smat F) (AM : option (smat F))
  (c h : arr F) (b : option (arr F)) (sigma_d : F) (Permut : option (arr Z)) : res (qp F) :=
  let p := match AM with Some _ => p_arg | None => 0 end in
  At <- match AM with
        | Some M => Mt <- setup_transpose M ;; Ok (Some Mt)
        | None => Ok None
        end ;;
  Gt <- setup_transpose G ;;
  let vecp := match AM with Some _ => malloc F p | None => [] end in
  let '(kkt_nnz, kkt_m) :=
    match AM with
    | Some M => (nnz P + 2 * nnz G + sm G + 2 * nnz M, sn P + sm M + sm G)
    | None => (nnz P + 2 * nnz G + sm G, sn P + sm G)
    end in
  K <- formkktmatrix_full A P G
         (match AM, At with Some M, Some Mt => Some (M, Mt) | _, _ => None end) Gt
         (SparseMatrixSetup A kkt_m kkt_m kkt_nnz (malloc Z (kkt_m + 1)) (malloc Z kkt_nnz)
                            (malloc F kkt_nnz)) ;;
  '(Pm, amd_result) <- setup_perm amd K (m + n + p) (n + m + p_arg) Permut ;;
  let k := mkKkt K (malloc F (m + n + p)) [] [] [] [] [] [] [] [] (malloc Z (m + n + p)) [] [] []
                 Pm (malloc Z (m + n + p)) in
  let q := mkQp n m p sigma_d None None
             (malloc F n) vecp (malloc F m) (malloc F m)
             (malloc F n) vecp (malloc F m)
             (malloc F (n + m + p)) (malloc F n) vecp (malloc F m) (malloc F m)
             (malloc F m) (malloc F m) (malloc F n)
             P c G h AM b At Gt k default_settings
             (initial_stats <| AMD_RESULT := amd_result |>) in
  '(ok, q) <- kkt_initialize q ;;
  Ok (if ok : bool then q
      else q <| q_stats := (q_stats q) <| Flag := QP_KKTFAIL |> |>).

(** QP_SETUP, src/qpSWIFT.c:60-234.  Pointers that may be NULL are options.
    Simplification: the blocks of myQP are allocated in one place; their order is immaterial. *)
Definition QP_SETUP (amd : amd_t) (n m p : Z) (Pjc Pir : arr Z) (Ppr : arr F)
  (Ajc Air : option (arr Z)) (Apr : option (arr F)) (Gjc Gir : arr Z) (Gpr : arr F)
  (c h : arr F) (b : option (arr F)) (sigma_d : F) (Permut : option (arr Z)) : res (qp F) :=
  AM <- match Apr, Ajc, Air, b with
        | Some apr, Some ajc, Some air, Some _ =>
            if negb (p =? 0) then
              nz <- rd ajc n ;;
              Ok (Some (SparseMatrixSetup A p n nz ajc air apr))
            else Ok None
        | _, _, _, _ => Ok None
        end ;;
  nzP <- rd Pjc n ;;
  nzG <- rd Gjc n ;;
  setup_core amd n m p (SparseMatrixSetup A n n nzP Pjc Pir Ppr) (SparseMatrixSetup A m n nzG Gjc Gir Gpr)
             AM c h (match AM with Some _ => b | None => None end) sigma_d Permut.

(** The choice of conversion routine, src/qpSWIFT.c:297-304 etc. *)
Definition dense_conv (ordering m n : Z) (p : arr F) : res (smat F) :=
  if ordering =? COLUMN_MAJOR_ORDERING then densetosparse A m n p else densetosparse_ROWMAJOR A m n p.

(** QP_SETUP_dense, src/qpSWIFT.c:260-456. *)
Definition QP_SETUP_dense (amd : amd_t) (n m p : Z) (Ppr : arr F) (Apr : option (arr F)) (Gpr : arr F)
  (c h : arr F) (b : option (arr F)) (Permut : option (arr Z)) (ordering : Z) : res (qp F) :=
  AM <- match Apr, b with
        | Some apr, Some _ =>
            if negb (p =? 0) then M <- dense_conv ordering p n apr ;; Ok (Some M) else Ok None
        | _, _ => Ok None
        end ;;
  P <- dense_conv ordering n n Ppr ;;
  G <- dense_conv ordering m n Gpr ;;
  setup_core amd n m p P G AM c h (match AM with Some _ => b | None => None end) zero Permut.

(** ** Iteration *)

(** computeresiduals, src/Auxilary.c:745-786. *)
Definition computeresiduals (q : qp F) : res (qp F) :=
  rx <- SparseMatrixMultiply A (q_P q) (q_x q) (q_rx q) true ;;
  rx <- SparseMatrixTransMultiply A (q_G q) (q_z q) rx false ;;
  rx <- (if negb (q_p q =? 0) then
           M <- deref (q_A q) ;; SparseMatrixTransMultiply A M (q_y q) rx false
         else Ok rx) ;;
  rx <- updatevariables A rx (q_c q) (fopp A one) (q_n q) ;;
  nrx <- norm A rx (q_n q) ;;
  let q := q <| q_rx := rx |> <| q_stats := (q_stats q) <| n_rx := Some nrx |> |> in
  q <- (if negb (q_p q =? 0) then
          M <- deref (q_A q) ;;
          ry <- SparseMatrixMultiply A M (q_x q) (q_ry q) true ;;
          bb <- deref (q_b q) ;;
          ry <- updatevariables A ry bb one (q_p q) ;;
          nry <- norm A ry (q_p q) ;;
          Ok (q <| q_ry := ry |> <| q_stats := (q_stats q) <| n_ry := Some nry |> |>)
        else Ok q) ;;
  rz <- SparseMatrixMultiply A (q_G q) (q_x q) (q_rz q) true ;;
  rz <- for_ 0 (q_m q) (fun i rz =>
          r <- rd rz i ;;
          hi <- rd (q_h q) i ;;
          si <- rd (q_s q) i ;;
          wr rz i (fadd A r (fsub A hi si))) rz ;;
  nrz <- norm A rz (q_m q) ;;
  ip <- innerproduct A (q_s q) (q_z q) (q_m q) ;;
  nmu <- fdiv A ip (fofZ A (q_m q)) ;;
  Ok (q <| q_rz := rz |> <| q_stats := (q_stats q) <| n_rz := Some nrz |> <| n_mu := Some nmu |> |>).

(** The values a progress line prints, src/qpSWIFT.c:513-516: all must have been assigned. *)
Definition print_line (q : qp F) : res unit :=
  if 0 <? verbose (q_options q) then
    _ <- use (fval (q_stats q)) ;;
    _ <- use (n_rx (q_stats q)) ;;
    _ <- use (n_ry (q_stats q)) ;;
    _ <- use (n_rz (q_stats q)) ;;
    _ <- use (n_mu (q_stats q)) ;;
    Ok tt
  else Ok tt.

(** The stopping test, src/qpSWIFT.c:519-534. *)
Definition stop_test (q : qp F) : res bool :=
  let st := q_stats q in
  r3 <- fsqrt A (fofZ A 3) ;;
  tol <- fdiv A (reltol (q_options q)) r3 ;;
  nrx <- use (n_rx st) ;;
  nrz <- use (n_rz st) ;;
  nmu <- use (n_mu st) ;;
  if negb (q_p q =? 0) then
    nry <- use (n_ry st) ;;
    Ok (flt A nrx tol && flt A nrz tol && flt A nry tol && flt A nmu (abstol (q_options q)))
  else
    Ok (flt A nrx tol && flt A nrz tol && flt A nmu (abstol (q_options q))).

(** updatekktmatrix with indicator 0 on the handle, src/qpSWIFT.c:546/550/576. *)
Definition do_update_kkt (q : qp F) : res (qp F) :=
  K <- updatekktmatrix A (k_mat (q_kkt q)) (q_s q) (q_z q) (q_delta_s q) (q_delta_z q)
         (alpha_p (q_stats q)) (alpha_d (q_stats q)) (q_m q) (q_n q) (q_p q) 0 ;;
  Ok (q <| q_kkt := (q_kkt q) <| k_mat := K |> |>).

(** updatekktmatrix_b on the handle, src/qpSWIFT.c:552/569/577. *)
Definition do_update_b (q : qp F) : res (qp F) :=
  b <- updatekktmatrix_b A (k_b (q_kkt q)) (q_rx q) (q_ry q) (q_rz q) (q_ds q) (q_z q)
         (q_n q) (q_m q) (q_p q) ;;
  Ok (q <| q_kkt := (q_kkt q) <| k_b := b |> |>).

(** form_ds on the handle. *)
Definition do_form_ds (q : qp F) (selector : Z) : res (qp F) :=
  mu <- use (q_mu q) ;;
  ds <- form_ds A (q_ds q) (q_lambda q) (q_delta_s q) (q_delta_z q) (sigma (q_options q)) mu (q_m q) selector ;;
  Ok (q <| q_ds := ds |>).

(** The two branches of src/qpSWIFT.c:540-579, up to but not including kktsolve_2.
    The boolean is the value of Flag_kkt; false means QP_KKTFAIL and break. *)
Definition predictor_branch (q : qp F) : res (bool * qp F) :=
  q <- do_form_ds q QP_PURE_NEWTON_STEP ;;
  q <- do_update_kkt q ;;
  q <- do_update_b q ;;
  '(ok, q) <- kktsolve_1 q ;;
  if ok : bool then
    '(ap, ad) <- findsteplength A (q_s q) (q_delta_s q) (q_z q) (q_delta_z q) (q_m q) ;;
    let q := q <| q_stats := (q_stats q) <| alpha_p := ap |> <| alpha_d := ad |> |> in
    rho <- formrho A (q_s q) (q_delta_s q) (q_z q) (q_delta_z q) ap ad (q_m q) ;;
    let r := MIN one rho in
    let sg := MAX (q_sigma_d q) (fmul A (fmul A r r) r) in
    let q := q <| q_rho := Some rho |> <| q_options := (q_options q) <| sigma := sg |> |> in
    q <- do_form_ds q QP_CENTERING_CORRECTOR_STEP ;;
    q <- do_update_b q ;;
    Ok (true, q <| q_stats := (q_stats q) <| resolve_kkt := Some 0 |> |>)
  else Ok (false, q <| q_stats := (q_stats q) <| Flag := QP_KKTFAIL |> |>).

Definition centering_branch (q : qp F) : res (qp F) :=
  let q := q <| q_options := (q_options q) <| sigma := q_sigma_d q |> |> in
  q <- do_form_ds q QP_CENTERING_STEP ;;
  q <- do_update_kkt q ;;
  q <- do_update_b q ;;
  Ok (q <| q_stats := (q_stats q) <| resolve_kkt := Some 1 |> |>).

(** src/qpSWIFT.c:583-601: solve, step length, update. *)
Definition take_step (q : qp F) : res (qp F) :=
  q <- kktsolve_2 q ;;
  '(ap, ad) <- findsteplength A (q_s q) (q_delta_s q) (q_z q) (q_delta_z q) (q_m q) ;;
  let ap := MIN (fmul A (fdec A 99 100) ap) one in
  let ad := MIN (fmul A (fdec A 99 100) ad) one in
  x <- updatevariables A (q_x q) (q_delta_x q) ap (q_n q) ;;
  y <- updatevariables A (q_y q) (q_delta_y q) ad (q_p q) ;;
  s <- updatevariables A (q_s q) (q_delta_s q) ap (q_m q) ;;
  z <- updatevariables A (q_z q) (q_delta_z q) ad (q_m q) ;;
  Ok (q <| q_x := x |> <| q_y := y |> <| q_s := s |> <| q_z := z |>
        <| q_stats := (q_stats q) <| alpha_p := ap |> <| alpha_d := ad |>
                        <| IterationCount := IterationCount (q_stats q) + 1 |> |>).

(** One pass through the loop body, src/qpSWIFT.c:505-601; [true] = break. *)
Definition solve_iter (q : qp F) : res (qp F * bool) :=
  q <- computeresiduals q ;;
  '(fv, temp) <- obj_value A (q_P q) (q_c q) (q_x q) (q_temp q) ;;
  let q := q <| q_temp := temp |> <| q_stats := (q_stats q) <| fval := Some fv |> |> in
  _ <- print_line q ;;
  stop <- stop_test q ;;
  if stop : bool then Ok (q <| q_stats := (q_stats q) <| Flag := QP_OPTIMAL |> |>, true)
  else
    lambda <- formlambda A (q_lambda q) (q_s q) (q_z q) (q_m q) ;;
    ip <- innerproduct A lambda lambda (q_m q) ;;
    mu <- fdiv A ip (fofZ A (q_m q)) ;;
    let q := q <| q_lambda := lambda |> <| q_mu := Some mu |> in
    '(ok, q) <- (if flt A (q_sigma_d q) (sigma (q_options q)) then predictor_branch q
                 else q <- centering_branch q ;; Ok (true, q)) ;;
    if ok : bool then
      q <- take_step q ;;
      Ok (q, false)
    else Ok (q, true).

(** QP_SOLVE, src/qpSWIFT.c:473-644; returns (exit code, handle). *)
Definition QP_SOLVE (q : qp F) : res (Z * qp F) :=
  if Flag (q_stats q) =? QP_KKTFAIL then Ok (Flag (q_stats q), q)
  else
    '(q, _) <- for_ 0 (maxit (q_options q)) (fun _ st =>
        let '(q, stopped) := st in
        if stopped : bool then Ok (q, true) else solve_iter q) (q, false) ;;
    let q := if IterationCount (q_stats q) =? maxit (q_options q)
             then q <| q_stats := (q_stats q) <| Flag := QP_MAXIT |> |> else q in
    Ok (Flag (q_stats q), q).

End WithArith.
