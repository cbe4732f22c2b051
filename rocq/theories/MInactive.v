(** Model of the functions that the library contains but never calls ("Status: Inactive" in the sources):
    partial refactorisation (src/ldl.c:342-489), its update marks (src/Auxilary.c:1104-1118) and the
    upper-triangular KKT assembly (src/Auxilary.c:14-54). *)
From Coq Require Import ZArith List Bool.
From Verif Require Import Res Arith MSparse MLdl.
Import ListNotations.
Open Scope Z_scope.
Open Scope res_scope.

(** ** test_reach, src/Auxilary.c:1104-1118 *)

(** The inner loop, lines 1113-1116.  The condition reads UPattern[i] before it looks at i != -1.
    C has no bound on this loop; running out of fuel is the outcome [NoFuel]. *)
Fixpoint reach_walk (fuel : nat) (Parent : arr Z) (top i : Z) (U : arr Z) : res (arr Z) :=
  u <- rd U i ;;
  if negb (u =? top) && negb (i =? -1) then
    match fuel with
    | O => NoFuel
    | S fuel' =>
        U <- wr U i top ;;
        i' <- rd Parent i ;;
        reach_walk fuel' Parent top i' U
    end
  else Ok U.

(** Whole function; returns UPattern.  The fuel is one more than the number of cells of UPattern. *)
Definition test_reach (Parent Pinv U : arr Z) (n m p : Z) : res (arr Z) :=
  let top := n + m + p in
  U <- wr U (n + m + p - 1) top ;;
  for_ (n + p) (n + p + m) (fun j U =>
    i <- rd Pinv j ;;
    reach_walk (S (length U)) Parent top i U) U.

Section WithArith.
Variable A : Arith.
Notation F := (car A).
Notation zero := (f0 A).

(** ** LDL_row_cache_numeric, src/ldl.c:431-489 *)

(** Lines 459-467: scatter the part of column k at or above the diagonal into Y. *)
Definition cache_scatter (Ap Ai : arr Z) (Ax : arr F) (P Pinv : option (arr Z)) (k : Z) (Y : arr F) : res (arr F) :=
  kk <- perm_get P k ;;
  p1 <- rd Ap kk ;;
  p2 <- rd Ap (kk + 1) ;;
  for_ p1 p2 (fun p Y =>
    a <- rd Ai p ;;
    i <- perm_get Pinv a ;;
    if i <=? k then
      yi <- rd Y i ;;
      v <- rd Ax p ;;
      wr Y i (fadd A yi v)
    else Ok Y) Y.

(** Lines 476-479:  for (p = Lp[i]; Li[p] < k; p++) Y[Li[p]] -= Lx[p] * yi;  returns p and Y.
    C has no bound on this loop; running out of fuel is the outcome [NoFuel]. *)
Fixpoint cache_down (fuel : nat) (Li : arr Z) (Lx : arr F) (k : Z) (yi : F) (p : Z) (Y : arr F)
  : res (Z * arr F) :=
  r <- rd Li p ;;
  if r <? k then
    match fuel with
    | O => NoFuel
    | S fuel' =>
        yr <- rd Y r ;;
        l <- rd Lx p ;;
        Y <- wr Y r (fsub A yr (fmul A l yi)) ;;
        cache_down fuel' Li Lx k yi (p + 1) Y
    end
  else Ok (p, Y).

(** Lines 473-482; state (Lx, D, Y). *)
Definition cache_elim (Lti Li Lp : arr Z) (k jj : Z) (st : arr F * arr F * arr F) : res (arr F * arr F * arr F) :=
  let '(Lx, D, Y) := st in
  i <- rd Lti jj ;;
  yi <- rd Y i ;;
  Y <- wr Y i zero ;;
  p0 <- rd Lp i ;;
  '(p, Y) <- cache_down (S (length Li)) Li Lx k yi p0 Y ;;
  di <- rd D i ;;
  l_ki <- fdiv A yi di ;;
  dk <- rd D k ;;
  D <- wr D k (fsub A dk (fmul A l_ki yi)) ;;
  Lx <- wr Lx p l_ki ;;
  Ok (Lx, D, Y).

(** Lines 456-486 for one k. *)
Definition cache_row (n : Z) (Ap Ai : arr Z) (Ax : arr F) (Ltp Lti Li Lp : arr Z) (P Pinv : option (arr Z)) (U : arr Z)
  (k : Z) (st : arr F * arr F * arr F) : res (arr F * arr F * arr F) :=
  let '(Lx, D, Y) := st in
  u <- rd U k ;;
  if u =? n then
    Y <- wr Y k zero ;;
    Y <- cache_scatter Ap Ai Ax P Pinv k Y ;;
    yk <- rd Y k ;;
    D <- wr D k yk ;;
    Y <- wr Y k zero ;;
    lo <- rd Ltp k ;;
    hi <- rd Ltp (k + 1) ;;
    '(Lx, D, Y) <- for_ lo hi (cache_elim Lti Li Lp k) (Lx, D, Y) ;;
    dk <- rd D k ;;
    D <- wr D k (regularize A dk) ;;
    Ok (Lx, D, Y)
  else Ok (Lx, D, Y).

(** Whole function; returns the C return value and (Lx, D, Y). *)
Definition LDL_row_cache_numeric (n : Z) (Ap Ai : arr Z) (Ax : arr F) (Ltp Lti Li Lp : arr Z) (Lx D Y : arr F)
  (P Pinv : option (arr Z)) (U : arr Z) : res (Z * (arr F * arr F * arr F)) :=
  st <- for_ 0 n (cache_row n Ap Ai Ax Ltp Lti Li Lp P Pinv U) (Lx, D, Y) ;;
  Ok (n, st).

(** ** LDL_cache_numeric, src/ldl.c:342-415 *)

(** Lines 376-384: scatter the part of column k at or below the diagonal.  An entry overwrites what Y
    holds: duplicates are not summed, in spite of the comment. *)
Definition left_scatter (Ap Ai : arr Z) (Ax : arr F) (P Pinv : option (arr Z)) (k : Z) (Y : arr F) : res (arr F) :=
  kk <- perm_get P k ;;
  p1 <- rd Ap kk ;;
  p2 <- rd Ap (kk + 1) ;;
  for_ p1 p2 (fun p Y =>
    a <- rd Ai p ;;
    i <- perm_get Pinv a ;;
    if k <=? i then
      v <- rd Ax p ;;
      wr Y i v
    else Ok Y) Y.

(** Lines 387-392; state (work, Y). *)
Definition left_update (Lti Li Lp : arr Z) (Lx D : arr F) (jj : Z) (st : arr Z * arr F) : res (arr Z * arr F) :=
  let '(work, Y) := st in
  c <- rd Lti jj ;;
  tt <- rd work c ;;
  work <- wr work c (tt + 1) ;;
  l <- rd Lx tt ;;
  d <- rd D c ;;
  let l_ki := fmul A l d in
  hi <- rd Lp (c + 1) ;;
  Y <- for_ tt hi (fun t Y =>
         r <- rd Li t ;;
         yr <- rd Y r ;;
         l <- rd Lx t ;;
         wr Y r (fsub A yr (fmul A l l_ki))) Y ;;
  Ok (work, Y).

(** Lines 401-404; state (Lx, Y). *)
Definition left_store (Li : arr Z) (d : F) (t : Z) (st : arr F * arr F) : res (arr F * arr F) :=
  let '(Lx, Y) := st in
  r <- rd Li t ;;
  yr <- rd Y r ;;
  q <- fdiv A yr d ;;
  Lx <- wr Lx t q ;;
  Y <- wr Y r zero ;;
  Ok (Lx, Y).

(** Line 409.  The condition reads Li[jj] and UPattern[Li[jj]] before it tests jj < Lp[k+1]. *)
Fixpoint left_skip (fuel : nat) (n : Z) (U Li : arr Z) (hi k jj : Z) (work : arr Z) : res (arr Z) :=
  r <- rd Li jj ;;
  u <- rd U r ;;
  if negb (u =? n) && (jj <? hi) then
    match fuel with
    | O => NoFuel
    | S fuel' =>
        w <- rd work k ;;
        work <- wr work k (w + 1) ;;
        left_skip fuel' n U Li hi k (jj + 1) work
    end
  else Ok work.

(** Lines 374-410 for one k; state (work, Lx, D, Y).
    Simplification: Sign is an int in this function and a double in the other two (src/ldl.c:364, 449);
    the products Sign * Y[k] and Sign * delta are the same either way. *)
Definition left_col (n : Z) (Ap Ai : arr Z) (Ax : arr F) (Ltp Lti Li Lp : arr Z) (P Pinv : option (arr Z)) (U : arr Z)
  (k : Z) (st : arr Z * arr F * arr F * arr F) : res (arr Z * arr F * arr F * arr F) :=
  let '(work, Lx, D, Y) := st in
  u <- rd U k ;;
  if u =? n then
    Y <- left_scatter Ap Ai Ax P Pinv k Y ;;
    lo <- rd Ltp k ;;
    hi <- rd Ltp (k + 1) ;;
    '(work, Y) <- for_ lo hi (left_update Lti Li Lp Lx D) (work, Y) ;;
    yk <- rd Y k ;;
    D <- wr D k (regularize A yk) ;;
    Y <- wr Y k zero ;;
    d <- rd D k ;;
    lo <- rd Lp k ;;
    hi <- rd Lp (k + 1) ;;
    '(Lx, Y) <- for_ lo hi (left_store Li d) (Lx, Y) ;;
    Ok (work, Lx, D, Y)
  else
    lo <- rd Lp k ;;
    hi <- rd Lp (k + 1) ;;
    work <- left_skip (S (length Li)) n U Li hi k lo work ;;
    Ok (work, Lx, D, Y).

(** Whole function; returns the C return value and (Lx, D, Y).  MALLOC is assumed to succeed. *)
Definition LDL_cache_numeric (n : Z) (Ap Ai : arr Z) (Ax : arr F) (Ltp Lti Li Lp : arr Z) (Lx D Y : arr F)
  (P Pinv : option (arr Z)) (U : arr Z) : res (Z * (arr F * arr F * arr F)) :=
  work <- for_ 0 n (fun k work => v <- rd Lp k ;; wr work k v) (malloc Z n) ;;
  '(work, Lx, D, Y) <- for_ 0 n (left_col n Ap Ai Ax Ltp Lti Li Lp P Pinv U) (work, Lx, D, Y) ;;
  Ok (n, (Lx, D, Y)).

(** ** formkktmatrix_U, src/Auxilary.c:14-54 *)

(** Lines 22-35: append the entries of column [i] of P at or above the diagonal. *)
Definition append_upper (P : smat F) (i : Z) (st : arr Z * arr F * Z) : res (arr Z * arr F * Z) :=
  lo <- rd (jc P) i ;;
  hi <- rd (jc P) (i + 1) ;;
  for_ lo hi (fun j st =>
    let '(kir, kpr, k) := st in
    r <- rd (ir P) j ;;
    if r <=? i then
      kir <- wr kir k r ;;
      v <- rd (pr P) j ;;
      kpr <- wr kpr k v ;;
      Ok (kir, kpr, k + 1)
    else Ok (kir, kpr, k)) st.

(** Whole function.  [G] is a parameter of the C function that it does not use.  The loop over Gt
    (lines 37-52) is the loop of formkktmatrix_full, see [append_col_diag]. *)
Definition formkktmatrix_U (P Gt K : smat F) : res (smat F) :=
  kjc <- wr (jc K) 0 0 ;;
  '(kjc, st) <- for_ 0 (sn P) (fun i st =>
      let '(kjc, st) := st in
      '(kir, kpr, k) <- append_upper P i st ;;
      kjc <- wr kjc (i + 1) k ;;
      Ok (kjc, (kir, kpr, k))) (kjc, (ir K, pr K, 0)) ;;
  '(kjc, (kir, kpr, k)) <- for_ 0 (sn Gt) (fun i st =>
      let '(kjc, st) := st in
      '(kir, kpr, k) <- append_col_diag A Gt i (sn P) st ;;
      kjc <- wr kjc (i + 1 + sn P) k ;;
      Ok (kjc, (kir, kpr, k))) (kjc, st) ;;
  Ok (mkSmat kjc kir kpr (sn K) (sm K) (nnz K)).

End WithArith.
