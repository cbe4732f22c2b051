(** Model of the sparse-matrix and vector routines of src/Auxilary.c.

    One Gallina function per C function, same loops, same order of reads and writes, over an
    arbitrary arithmetic [A].  Arrays that the C function receives from its caller are arguments,
    arrays it writes are results. *)
From Coq Require Import ZArith List Bool.
From Verif Require Import Res Arith.
Import ListNotations.
Open Scope Z_scope.
Open Scope res_scope.

(** struct smat, include/Auxilary.h:18-26.  [sn] is the number of columns and [sm] the number of rows
    (the comments on the C fields n and m are swapped; the code uses n for columns). *)
Record smat (F : Type) : Type := mkSmat {
  jc : arr Z;
  ir : arr Z;
  pr : arr F;
  sn : Z;
  sm : Z;
  nnz : Z
}.
Arguments mkSmat {F}.
Arguments jc {F}. Arguments ir {F}. Arguments pr {F}.
Arguments sn {F}. Arguments sm {F}. Arguments nnz {F}.

Section WithArith.
Variable A : Arith.
Notation F := (car A).
Notation zero := (f0 A).

(** C  x != 0.0 *)
Definition fneq0 (x : F) : bool := negb (feqb A x zero).

(** SparseMatrixSetup, src/Auxilary.c:660-669. *)
Definition SparseMatrixSetup (m n nz : Z) (jc0 ir0 : arr Z) (pr0 : arr F) : smat F :=
  mkSmat jc0 ir0 pr0 n m nz.

(** updatevariables, src/Auxilary.c:246-254:  x[i] += delta_x[i] * alpha. *)
Definition updatevariables (x delta_x : arr F) (alpha : F) (count : Z) : res (arr F) :=
  for_ 0 count (fun i x =>
    xi <- rd x i ;;
    di <- rd delta_x i ;;
    wr x i (fadd A xi (fmul A di alpha))) x.

(** norm, src/Auxilary.c:430-440. *)
Definition norm (p : arr F) (n : Z) : res F :=
  k <- for_ 0 n (fun i k =>
         pi <- rd p i ;;
         Ok (fadd A k (fmul A pi pi))) zero ;;
  fsqrt A k.

(** innerproduct, src/Auxilary.c:451-462. *)
Definition innerproduct (x y : arr F) (n : Z) : res F :=
  for_ 0 n (fun i sum =>
    xi <- rd x i ;;
    yi <- rd y i ;;
    Ok (fadd A sum (fmul A xi yi))) zero.

(** formlambda, src/Auxilary.c:638-646:  lambda[i] = sqrt(s[i] * z[i]). *)
Definition formlambda (lambda s z : arr F) (n : Z) : res (arr F) :=
  for_ 0 n (fun i lambda =>
    si <- rd s i ;;
    zi <- rd z i ;;
    l <- fsqrt A (fmul A si zi) ;;
    wr lambda i l) lambda.

(** SparseMatrixTransMultiply, src/Auxilary.c:802-823:  y = y - A'x  (y cleared first if start). *)
Definition SparseMatrixTransMultiply (M : smat F) (x y : arr F) (start : bool) : res (arr F) :=
  y <- (if start then for_ 0 (sn M) (fun i y => wr y i zero) y else Ok y) ;;
  for_ 0 (sn M) (fun j y =>
    lo <- rd (jc M) j ;;
    hi <- rd (jc M) (j + 1) ;;
    for_ lo hi (fun k y =>
      yj <- rd y j ;;
      v <- rd (pr M) k ;;
      r <- rd (ir M) k ;;
      xr <- rd x r ;;
      wr y j (fsub A yj (fmul A v xr))) y) y.

(** SparseMatrixMultiply, src/Auxilary.c:839-860:  y = y - A x  (y cleared first if start). *)
Definition SparseMatrixMultiply (M : smat F) (x y : arr F) (start : bool) : res (arr F) :=
  y <- (if start then for_ 0 (sm M) (fun i y => wr y i zero) y else Ok y) ;;
  for_ 0 (sn M) (fun i y =>
    lo <- rd (jc M) i ;;
    hi <- rd (jc M) (i + 1) ;;
    for_ lo hi (fun j y =>
      r <- rd (ir M) j ;;
      yr <- rd y r ;;
      xi <- rd x i ;;
      v <- rd (pr M) j ;;
      wr y r (fsub A yr (fmul A xi v))) y) y.

(** The two counting loops shared by SparseMatrixTranspose (src/Auxilary.c:907-934) and
    Transpose_Row_Count (src/Auxilary.c:689-716): count the entries of each row, turn the counts
    into row pointers [Tp], reset the counters.  [m] rows, [n] columns. *)
Definition row_pointers (m n : Z) (Mi Mp : arr Z) (Tp : arr Z) : res (arr Z * arr Z) :=
  let count := malloc Z m in
  count <- for_ 0 m (fun j count => wr count j 0) count ;;
  count <- for_ 0 n (fun i count =>
             lo <- rd Mp i ;;
             hi <- rd Mp (i + 1) ;;
             for_ lo hi (fun j count =>
               k <- rd Mi j ;;
               ck <- rd count k ;;
               wr count k (ck + 1)) count) count ;;
  Tp <- wr Tp 0 0 ;;
  Tp <- for_ 0 m (fun j Tp =>
          tj <- rd Tp j ;;
          cj <- rd count j ;;
          wr Tp (j + 1) (tj + cj)) Tp ;;
  count <- for_ 0 m (fun j count => wr count j 0) count ;;
  Ok (Tp, count).

(** SparseMatrixTranspose, src/Auxilary.c:901-951.  [At] is passed with its arrays allocated. *)
Definition SparseMatrixTranspose (M At : smat F) : res (smat F) :=
  '(Tp, count) <- row_pointers (sm M) (sn M) (ir M) (jc M) (jc At) ;;
  '(Ti, Tx, count) <- for_ 0 (sn M) (fun i st =>
      lo <- rd (jc M) i ;;
      hi <- rd (jc M) (i + 1) ;;
      for_ lo hi (fun j st =>
        let '(Ti, Tx, count) := st in
        k <- rd (ir M) j ;;
        tk <- rd Tp k ;;
        ck <- rd count k ;;
        let index := tk + ck in
        Ti <- wr Ti index i ;;
        v <- rd (pr M) j ;;
        Tx <- wr Tx index v ;;
        count <- wr count k (ck + 1) ;;
        Ok (Ti, Tx, count)) st) (ir At, pr At, count) ;;
  Ok (mkSmat Tp Ti Tx (sn At) (sm At) (nnz At)).

(** Transpose_Row_Count, src/Auxilary.c:683-732 (pattern only). *)
Definition Transpose_Row_Count (m n : Z) (Li Lp Lti Ltp : arr Z) : res (arr Z * arr Z) :=
  '(Ltp, count) <- row_pointers m n Li Lp Ltp ;;
  '(Lti, count) <- for_ 0 n (fun i st =>
      lo <- rd Lp i ;;
      hi <- rd Lp (i + 1) ;;
      for_ lo hi (fun j st =>
        let '(Lti, count) := st in
        k <- rd Li j ;;
        tk <- rd Ltp k ;;
        ck <- rd count k ;;
        let index := tk + ck in
        Lti <- wr Lti index i ;;
        count <- wr count k (ck + 1) ;;
        Ok (Lti, count)) st) (Lti, count) ;;
  Ok (Lti, Ltp).

(** findminmax, src/Auxilary.c:962-979. *)
Definition findminmax (z : arr F) (n : Z) : res (F * F) :=
  z0 <- rd z 0 ;;
  for_ 1 n (fun i st =>
    let '(mn, mx) := st in
    zi <- rd z i ;;
    let mn := if flt A zi mn then zi else mn in
    let mx := if flt A mx zi then zi else mx in
    Ok (mn, mx)) (z0, z0).

(** obj_value, src/Auxilary.c:1133-1141.  Returns the value and the clobbered workspace. *)
Definition obj_value (P : smat F) (c x temp : arr F) : res (F * arr F) :=
  temp <- SparseMatrixMultiply P x temp true ;;
  a <- innerproduct temp x (sn P) ;;
  b <- innerproduct c x (sn P) ;;
  Ok (fadd A (fmul A (fopp A (fdec A 1 2)) a) b, temp).

(** densetosparse, src/Auxilary.c:1154-1206 (column-major buffer). *)
Definition densetosparse (m n : Z) (p : arr F) : res (smat F) :=
  let Ap := malloc Z (n + 1) in
  Ap <- for_ 0 (n + 1) (fun i Ap => wr Ap i 0) Ap ;;
  '(Ap, count) <- for_ 0 n (fun j st =>
      let '(Ap, count) := st in
      count <- for_ 0 m (fun i count =>
                 v <- rd p (j * m + i) ;;
                 Ok (if fneq0 v then count + 1 else count)) count ;;
      Ap <- wr Ap (j + 1) count ;;
      Ok (Ap, count)) (Ap, 0) ;;
  let Ai := malloc Z count in
  let Ax := malloc F count in
  '(Ai, Ax, count) <- for_ 0 n (fun j st =>
      for_ 0 m (fun i st =>
        let '(Ai, Ax, count) := st in
        v <- rd p (j * m + i) ;;
        if fneq0 v then
          Ai <- wr Ai count i ;;
          Ax <- wr Ax count v ;;
          Ok (Ai, Ax, count + 1)
        else Ok (Ai, Ax, count)) st) (Ai, Ax, 0) ;;
  Ok (mkSmat Ap Ai Ax n m count).

(** densetosparse_ROWMAJOR, src/Auxilary.c:1219-1273 (row-major buffer). *)
Definition densetosparse_ROWMAJOR (m n : Z) (p : arr F) : res (smat F) :=
  let Ap := malloc Z (n + 1) in
  Ap <- for_ 0 (n + 1) (fun i Ap => wr Ap i 0) Ap ;;
  '(Ap, count) <- for_ 0 m (fun i st =>
      for_ 0 n (fun j st =>
        let '(Ap, count) := st in
        v <- rd p (i * n + j) ;;
        if fneq0 v then
          a <- rd Ap (j + 1) ;;
          Ap <- wr Ap (j + 1) (a + 1) ;;
          Ok (Ap, count + 1)
        else Ok (Ap, count)) st) (Ap, 0) ;;
  let Ai := malloc Z count in
  let Ax := malloc F count in
  '(Ap, (Ai, Ax, count)) <- for_ 0 n (fun j st =>
      let '(Ap, st) := st in
      st <- for_ 0 m (fun i st =>
        let '(Ai, Ax, count) := st in
        temp <- rd p (i * n + j) ;;
        if fneq0 temp then
          Ai <- wr Ai count i ;;
          Ax <- wr Ax count temp ;;
          Ok (Ai, Ax, count + 1)
        else Ok (Ai, Ax, count)) st ;;
      a1 <- rd Ap (j + 1) ;;
      a0 <- rd Ap j ;;
      Ap <- wr Ap (j + 1) (a1 + a0) ;;
      Ok (Ap, st)) (Ap, (Ai, Ax, 0)) ;;
  Ok (mkSmat Ap Ai Ax n m count).

(** ** KKT assembly *)

(** One of the copy loops of formkktmatrix_full (e.g. src/Auxilary.c:84-89, 91-96, 98-103): append
    column [i] of [M], row indices shifted by [off], at position [k].
    Simplification: pr and ir are written in a fixed order (they are distinct blocks). *)
Definition append_col (M : smat F) (i off : Z) (st : arr Z * arr F * Z) : res (arr Z * arr F * Z) :=
  lo <- rd (jc M) i ;;
  hi <- rd (jc M) (i + 1) ;;
  for_ lo hi (fun j st =>
    let '(kir, kpr, k) := st in
    v <- rd (pr M) j ;;
    kpr <- wr kpr k v ;;
    r <- rd (ir M) j ;;
    kir <- wr kir k (off + r) ;;
    Ok (kir, kpr, k + 1)) st.

(** The G' / -I loop body (src/Auxilary.c:121-132, 166-177): append column [i] of [Gt]; right after
    its last entry append the entry (off + i, -1.0).  A column without entries gets no -1.0. *)
Definition append_col_diag (Gt : smat F) (i off : Z) (st : arr Z * arr F * Z)
  : res (arr Z * arr F * Z) :=
  lo <- rd (jc Gt) i ;;
  hi <- rd (jc Gt) (i + 1) ;;
  for_ lo hi (fun j st =>
    let '(kir, kpr, k) := st in
    r <- rd (ir Gt) j ;;
    kir <- wr kir k r ;;
    v <- rd (pr Gt) j ;;
    kpr <- wr kpr k v ;;
    let k := k + 1 in
    if j =? hi - 1 then
      kir <- wr kir k (off + i) ;;
      kpr <- wr kpr k (fopp A (f1 A)) ;;
      Ok (kir, kpr, k + 1)
    else Ok (kir, kpr, k)) st.

(** formkktmatrix_full, src/Auxilary.c:71-181.  [AAt] is [Some (A, At)] when both pointers are
    non-NULL.  [K] is passed with its arrays allocated. *)
Definition formkktmatrix_full (P G : smat F) (AAt : option (smat F * smat F)) (Gt K : smat F)
  : res (smat F) :=
  kjc <- wr (jc K) 0 0 ;;
  match AAt with
  | Some (M, Mt) =>
      (* lines 82-105 *)
      '(kjc, st) <- for_ 0 (sn P) (fun i st =>
          let '(kjc, st) := st in
          st <- append_col P i 0 st ;;
          st <- append_col M i (sm P) st ;;
          st <- append_col G i (sm P + sm M) st ;;
          a <- rd (jc P) (i + 1) ;;
          b <- rd (jc G) (i + 1) ;;
          c <- rd (jc M) (i + 1) ;;
          kjc <- wr kjc (i + 1) (a + b + c) ;;
          Ok (kjc, st)) (kjc, (ir K, pr K, 0)) ;;
      (* lines 108-117 *)
      '(kjc, st) <- for_ 0 (sn Mt) (fun i st =>
          let '(kjc, st) := st in
          '(kir, kpr, k) <- append_col Mt i 0 st ;;
          kjc <- wr kjc (i + 1 + sn P) k ;;
          Ok (kjc, (kir, kpr, k))) (kjc, st) ;;
      (* lines 119-134 *)
      '(kjc, (kir, kpr, k)) <- for_ 0 (sn Gt) (fun i st =>
          let '(kjc, st) := st in
          '(kir, kpr, k) <- append_col_diag Gt i (sm P + sm M) st ;;
          kjc <- wr kjc (i + 1 + sn P + sn Mt) k ;;
          Ok (kjc, (kir, kpr, k))) (kjc, st) ;;
      Ok (mkSmat kjc kir kpr (sn K) (sm K) (nnz K))
  | None =>
      (* lines 145-161 *)
      '(kjc, st) <- for_ 0 (sn P) (fun i st =>
          let '(kjc, st) := st in
          st <- append_col P i 0 st ;;
          st <- append_col G i (sm P) st ;;
          a <- rd (jc P) (i + 1) ;;
          b <- rd (jc G) (i + 1) ;;
          kjc <- wr kjc (i + 1) (a + b) ;;
          Ok (kjc, st)) (kjc, (ir K, pr K, 0)) ;;
      (* lines 164-179 *)
      '(kjc, (kir, kpr, k)) <- for_ 0 (sn Gt) (fun i st =>
          let '(kjc, st) := st in
          '(kir, kpr, k) <- append_col_diag Gt i (sm P) st ;;
          kjc <- wr kjc (i + 1 + sn P) k ;;
          Ok (kjc, (kir, kpr, k))) (kjc, st) ;;
      Ok (mkSmat kjc kir kpr (sn K) (sm K) (nnz K))
  end.

(** updatekktmatrix, src/Auxilary.c:205-233, all three indicator values (the solver only uses 0). *)
Definition updatekktmatrix (K : smat F) (s z delta_s delta_z : arr F) (alpha_p alpha_d : F)
  (m n p : Z) (indicator : Z) : res (smat F) :=
  let loop (val : Z -> res F) (kpr : arr F) :=
    for_ (n + p) (n + m + p) (fun i kpr =>
      e <- rd (jc K) (i + 1) ;;
      v <- val (i - n - p) ;;
      wr kpr (e - 1) v) kpr in
  kpr <- (if indicator =? 0 then
            loop (fun t => st <- rd s t ;; zt <- rd z t ;; fdiv A (fopp A st) zt) (pr K)
          else Ok (pr K)) ;;
  kpr <- (if indicator =? 1 then
            loop (fun t => st <- rd s t ;; zt <- rd z t ;; q <- fdiv A st zt ;;
                           Ok (fopp A (fsub A q (f1 A)))) kpr
          else Ok kpr) ;;
  kpr <- (if indicator =? 2 then
            loop (fun t => st <- rd s t ;; zt <- rd z t ;; q <- fdiv A st zt ;;
                           dst <- rd delta_s t ;; dzt <- rd delta_z t ;;
                           q2 <- fdiv A (fsub A st (fmul A alpha_p dst)) (fsub A zt (fmul A alpha_d dzt)) ;;
                           Ok (fopp A (fsub A q q2))) kpr
          else Ok kpr) ;;
  Ok (mkSmat (jc K) (ir K) kpr (sn K) (sm K) (nnz K)).

(** updatekktmatrix_b, src/Auxilary.c:274-295. *)
Definition updatekktmatrix_b (b rx ry rz ds z : arr F) (n m p : Z) : res (arr F) :=
  b <- for_ 0 n (fun i b => v <- rd rx i ;; wr b i v) b ;;
  b <- for_ n (n + p) (fun i b => v <- rd ry (i - n) ;; wr b i v) b ;;
  for_ (n + p) (n + m + p) (fun i b =>
    r <- rd rz (i - n - p) ;;
    d <- rd ds (i - n - p) ;;
    zi <- rd z (i - n - p) ;;
    q <- fdiv A d zi ;;
    wr b i (fsub A r q)) b.

(** Selectors of form_ds, include/GlobalOptions.h:62-64. *)
Definition QP_PURE_NEWTON_STEP : Z := 0.
Definition QP_CENTERING_CORRECTOR_STEP : Z := 1.
Definition QP_CENTERING_STEP : Z := 2.

(** form_ds, src/Auxilary.c:315-345. *)
Definition form_ds (ds lambda delta_s delta_z : arr F) (sigma mu : F) (m selector : Z) : res (arr F) :=
  ds <- (if selector =? QP_PURE_NEWTON_STEP then
           for_ 0 m (fun i ds =>
             l <- rd lambda i ;;
             wr ds i (fmul A (fopp A l) l)) ds
         else Ok ds) ;;
  ds <- (if selector =? QP_CENTERING_CORRECTOR_STEP then
           for_ 0 m (fun i ds =>
             l <- rd lambda i ;;
             a <- rd delta_s i ;;
             b <- rd delta_z i ;;
             wr ds i (fadd A (fsub A (fopp A (fmul A l l)) (fmul A a b)) (fmul A sigma mu))) ds
         else Ok ds) ;;
  if selector =? QP_CENTERING_STEP then
    for_ 0 m (fun i ds =>
      l <- rd lambda i ;;
      wr ds i (fadd A (fopp A (fmul A l l)) (fmul A sigma mu))) ds
  else Ok ds.

(** One of the two ratio tests of findsteplength (src/Auxilary.c:370-374, 375-379): state is the
    current minimum and the Flag; the quotient is evaluated only if the direction is negative. *)
Definition ratio_step (v d : F) (st : F * bool) : res (F * bool) :=
  if flt A d zero then
    q <- fdiv A (fopp A v) d ;;
    if flt A q (fst st) then
      q' <- fdiv A v d ;;
      Ok (fopp A q', true)
    else Ok st
  else Ok st.

(** findsteplength, src/Auxilary.c:359-393; returns (alpha_p, alpha_d). *)
Definition findsteplength (s delta_s z delta_z : arr F) (m : Z) : res (F * F) :=
  let big := fofZ A 10000000000 in
  '(sp, sd) <- for_ 0 m (fun i st =>
      let '(sp, sd) := st in
      dsi <- rd delta_s i ;;
      si <- rd s i ;;
      sp <- ratio_step si dsi sp ;;
      dzi <- rd delta_z i ;;
      zi <- rd z i ;;
      sd <- ratio_step zi dzi sd ;;
      Ok (sp, sd)) ((big, false), (big, false)) ;;
  Ok (if snd sp then fst sp else f1 A, if snd sd then fst sd else f1 A).

(** checksign, src/Auxilary.c:404-420 (not called by the solver). *)
Definition checksign (x delta_x : arr F) (alpha : F) (count : Z) : res bool :=
  for_ 0 count (fun i found =>
    if found : bool then Ok true   (* break *)
    else
      xi <- rd x i ;;
      di <- rd delta_x i ;;
      Ok (flt A xi (fmul A (fopp A alpha) di))) false.

(** formrho, src/Auxilary.c:879-892. *)
Definition formrho (s delta_s z delta_z : arr F) (alpha_p alpha_d : F) (n : Z) : res F :=
  sum <- for_ 0 n (fun i sum =>
    si <- rd s i ;;
    dsi <- rd delta_s i ;;
    zi <- rd z i ;;
    dzi <- rd delta_z i ;;
    Ok (fadd A sum (fmul A (fadd A si (fmul A alpha_p dsi)) (fadd A zi (fmul A alpha_d dzi))))) zero ;;
  ip <- innerproduct s z n ;;
  fdiv A sum ip.

End WithArith.
