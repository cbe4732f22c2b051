(** Model of src/ldl.c (sparse LDL' with dynamic pivot regularisation). *)
From Coq Require Import ZArith List Bool.
From Verif Require Import Res Arith.
Import ListNotations.
Open Scope Z_scope.
Open Scope res_scope.

(** [P ? P[k] : k] and [Pinv ? Pinv[i] : i] (src/ldl.c:215, 220, 283, 287). *)
Definition perm_get (P : option (arr Z)) (k : Z) : res Z :=
  match P with
  | Some a => rd a k
  | None => Ok k
  end.

(** ** LDL_symbolic, src/ldl.c:187-240 *)

(** The path walk of lines 224-230; state (Parent, Lnz, Flag).  C has no bound on this loop; the fuel
    is a modelling device and running out of it is the outcome [NoFuel]. *)
Fixpoint sym_walk (fuel : nat) (k i : Z) (st : arr Z * arr Z * arr Z) : res (arr Z * arr Z * arr Z) :=
  let '(Parent, Lnz, Flag) := st in
  fi <- rd Flag i ;;
  if fi =? k then Ok st
  else
    match fuel with
    | O => NoFuel
    | S fuel' =>
        pi <- rd Parent i ;;
        Parent <- (if pi =? -1 then wr Parent i k else Ok Parent) ;;
        li <- rd Lnz i ;;
        Lnz <- wr Lnz i (li + 1) ;;
        Flag <- wr Flag i k ;;
        i' <- rd Parent i ;;
        sym_walk fuel' k i' (Parent, Lnz, Flag)
    end.

(** Lines 203-208. *)
Definition compute_Pinv (n : Z) (P : option (arr Z)) (Pinv : option (arr Z)) : res (option (arr Z)) :=
  match P with
  | None => Ok Pinv
  | Some p =>
      match Pinv with
      | None => if 0 <? n then Ub NullPtr else Ok None
      | Some q =>
          q <- for_ 0 n (fun k q => pk <- rd p k ;; wr q pk k) q ;;
          Ok (Some q)
      end
  end.

(** Whole function; returns (Lp, Parent, Lnz, Flag, Pinv). *)
Definition LDL_symbolic (n : Z) (Ap Ai : arr Z) (Lp Parent Lnz Flag : arr Z) (P Pinv : option (arr Z))
  : res (arr Z * arr Z * arr Z * arr Z * option (arr Z)) :=
  Pinv <- compute_Pinv n P Pinv ;;
  '(Parent, Lnz, Flag) <- for_ 0 n (fun k st =>
      let '(Parent, Lnz, Flag) := st in
      Parent <- wr Parent k (-1) ;;
      Flag <- wr Flag k k ;;
      Lnz <- wr Lnz k 0 ;;
      kk <- perm_get P k ;;
      p2 <- rd Ap (kk + 1) ;;
      p1 <- rd Ap kk ;;
      for_ p1 p2 (fun p st =>
        a <- rd Ai p ;;
        i <- perm_get Pinv a ;;
        if i <? k then sym_walk (S (Z.to_nat n)) k i st else Ok st) (Parent, Lnz, Flag))
    (Parent, Lnz, Flag) ;;
  Lp <- wr Lp 0 0 ;;
  Lp <- for_ 0 n (fun k Lp =>
          a <- rd Lp k ;;
          b <- rd Lnz k ;;
          wr Lp (k + 1) (a + b)) Lp ;;
  Ok (Lp, Parent, Lnz, Flag, Pinv).

(** ** LDL_numeric, src/ldl.c:253-326 *)

(** Lines 291-295: state (Pattern, Flag, len). *)
Fixpoint num_walk (fuel : nat) (Parent : arr Z) (k i : Z) (st : arr Z * arr Z * Z)
  : res (arr Z * arr Z * Z) :=
  let '(Pattern, Flag, len) := st in
  fi <- rd Flag i ;;
  if fi =? k then Ok st
  else
    match fuel with
    | O => NoFuel
    | S fuel' =>
        Pattern <- wr Pattern len i ;;
        Flag <- wr Flag i k ;;
        i' <- rd Parent i ;;
        num_walk fuel' Parent k i' (Pattern, Flag, len + 1)
    end.

(** Line 296:  while (len > 0) Pattern[--top] = Pattern[--len]. *)
Definition push_path (Pattern : arr Z) (len top : Z) : res (arr Z) :=
  for_ 0 len (fun t Pattern =>
    v <- rd Pattern (len - 1 - t) ;;
    wr Pattern (top - 1 - t) v) Pattern.

Section WithArith.
Variable A : Arith.
Notation F := (car A).
Notation zero := (f0 A).

(** Constants of lines 273-274. *)
Definition ldl_delta : F := fdec A 1 10000000.
Definition ldl_eps : F := fdec A 1 100000000000000.

(** Lines 319-320. *)
Definition regularize (d : F) : F :=
  let Sign := if fle A d zero then fopp A (f1 A) else f1 A in
  if fle A (fmul A Sign d) ldl_eps then fmul A Sign ldl_delta else d.

(** The arrays LDL_numeric writes. *)
Record numst : Type := mkNum {
  nLnz : arr Z;
  nLi : arr Z;
  nLx : arr F;
  nD : arr F;
  nY : arr F;
  nPattern : arr Z;
  nFlag : arr Z
}.

(** Lines 285-298: scatter column k into Y and build the pattern of row k;
    state (Y, Pattern, Flag, top). *)
Definition num_scatter (n : Z) (Ap Ai : arr Z) (Ax : arr F) (Parent : arr Z) (P Pinv : option (arr Z))
  (k : Z) (st : arr F * arr Z * arr Z * Z) : res (arr F * arr Z * arr Z * Z) :=
  kk <- perm_get P k ;;
  p2 <- rd Ap (kk + 1) ;;
  p1 <- rd Ap kk ;;
  for_ p1 p2 (fun p st =>
    let '(Y, Pattern, Flag, top) := st in
    a <- rd Ai p ;;
    i <- perm_get Pinv a ;;
    if i <=? k then
      yi <- rd Y i ;;
      v <- rd Ax p ;;
      Y <- wr Y i (fadd A yi v) ;;
      '(Pattern, Flag, len) <- num_walk (S (Z.to_nat n)) Parent k i (Pattern, Flag, 0) ;;
      Pattern <- push_path Pattern len top ;;
      Ok (Y, Pattern, Flag, top - len)
    else Ok (Y, Pattern, Flag, top)) st.

(** Lines 305-317: eliminate with column i = Pattern[t]; state (Lnz, Li, Lx, D, Y). *)
Definition num_elim (Lp Pattern : arr Z) (k t : Z) (st : arr Z * arr Z * arr F * arr F * arr F)
  : res (arr Z * arr Z * arr F * arr F * arr F) :=
  let '(Lnz, Li, Lx, D, Y) := st in
  i <- rd Pattern t ;;
  yi <- rd Y i ;;
  Y <- wr Y i zero ;;
  lp <- rd Lp i ;;
  lnz <- rd Lnz i ;;
  let p2 := lp + lnz in
  Y <- for_ lp p2 (fun p Y =>
         r <- rd Li p ;;
         yr <- rd Y r ;;
         l <- rd Lx p ;;
         wr Y r (fsub A yr (fmul A l yi))) Y ;;
  let p := Z.max lp p2 in
  di <- rd D i ;;
  l_ki <- fdiv A yi di ;;
  dk <- rd D k ;;
  D <- wr D k (fsub A dk (fmul A l_ki yi)) ;;
  Li <- wr Li p k ;;
  Lx <- wr Lx p l_ki ;;
  Lnz <- wr Lnz i (lnz + 1) ;;
  Ok (Lnz, Li, Lx, D, Y).

(** One row, lines 278-321. *)
Definition num_row (n : Z) (Ap Ai : arr Z) (Ax : arr F) (Lp Parent : arr Z) (P Pinv : option (arr Z))
  (k : Z) (w : numst) : res numst :=
  Y <- wr (nY w) k zero ;;
  Flag <- wr (nFlag w) k k ;;
  Lnz <- wr (nLnz w) k 0 ;;
  '(Y, Pattern, Flag, top) <- num_scatter n Ap Ai Ax Parent P Pinv k (Y, nPattern w, Flag, n) ;;
  yk <- rd Y k ;;
  D <- wr (nD w) k yk ;;
  Y <- wr Y k zero ;;
  '(Lnz, Li, Lx, D, Y) <- for_ top n (num_elim Lp Pattern k) (Lnz, nLi w, nLx w, D, Y) ;;
  dk <- rd D k ;;
  D <- wr D k (regularize dk) ;;
  Ok (mkNum Lnz Li Lx D Y Pattern Flag).

(** Whole function; returns the C return value and the arrays. *)
Definition LDL_numeric (n : Z) (Ap Ai : arr Z) (Ax : arr F) (Lp Parent : arr Z) (w : numst)
  (P Pinv : option (arr Z)) : res (Z * numst) :=
  w <- for_ 0 n (num_row n Ap Ai Ax Lp Parent P Pinv) w ;;
  Ok (n, w).

(** LDL_lsolve, src/ldl.c:495-513. *)
Definition LDL_lsolve (n : Z) (X : arr F) (Lp Li : arr Z) (Lx : arr F) : res (arr F) :=
  for_ 0 n (fun j X =>
    p2 <- rd Lp (j + 1) ;;
    p1 <- rd Lp j ;;
    for_ p1 p2 (fun p X =>
      r <- rd Li p ;;
      xr <- rd X r ;;
      l <- rd Lx p ;;
      xj <- rd X j ;;
      wr X r (fsub A xr (fmul A l xj))) X) X.

(** LDL_dsolve, src/ldl.c:520-532. *)
Definition LDL_dsolve (n : Z) (X D : arr F) : res (arr F) :=
  for_ 0 n (fun j X =>
    xj <- rd X j ;;
    dj <- rd D j ;;
    q <- fdiv A xj dj ;;
    wr X j q) X.

(** LDL_ltsolve, src/ldl.c:539-557; the loop counts down, [t] = n-1-j. *)
Definition LDL_ltsolve (n : Z) (X : arr F) (Lp Li : arr Z) (Lx : arr F) : res (arr F) :=
  for_ 0 n (fun t X =>
    let j := n - 1 - t in
    p2 <- rd Lp (j + 1) ;;
    p1 <- rd Lp j ;;
    for_ p1 p2 (fun p X =>
      xj <- rd X j ;;
      l <- rd Lx p ;;
      r <- rd Li p ;;
      xr <- rd X r ;;
      wr X j (fsub A xj (fmul A l xr))) X) X.

(** LDL_perm, src/ldl.c:564-577. *)
Definition LDL_perm (n : Z) (X B : arr F) (P : arr Z) : res (arr F) :=
  for_ 0 n (fun j X =>
    pj <- rd P j ;;
    v <- rd B pj ;;
    wr X j v) X.

(** LDL_permt, src/ldl.c:584-597. *)
Definition LDL_permt (n : Z) (X B : arr F) (P : arr Z) : res (arr F) :=
  for_ 0 n (fun j X =>
    pj <- rd P j ;;
    v <- rd B j ;;
    wr X pj v) X.

End WithArith.

(** LDL_valid_perm, src/ldl.c:604-634.  [None] pointers are NULL. *)
Definition LDL_valid_perm (n : Z) (P Flag : option (arr Z)) : res Z :=
  match Flag with
  | None => Ok 0
  | Some Flag =>
      if n <? 0 then Ok 0
      else
        match P with
        | None => Ok 1
        | Some P =>
            Flag <- for_ 0 n (fun j Flag => wr Flag j 0) Flag ;;
            '(_, valid) <- for_ 0 n (fun k st =>
                let '(Flag, valid) := st in
                if valid : bool then
                  j <- rd P k ;;
                  if (j <? 0) || (n <=? j) then Ok (Flag, false)   (* return 0 *)
                  else
                    fj <- rd Flag j ;;
                    if negb (fj =? 0) then Ok (Flag, false)
                    else Flag <- wr Flag j 1 ;; Ok (Flag, true)
                else Ok st) (Flag, true) ;;
            Ok (if valid : bool then 1 else 0)
        end
  end.

(** LDL_valid_matrix, src/ldl.c:648-675.  [ret] = false after an early return 0. *)
Definition LDL_valid_matrix (n : Z) (Ap Ai : option (arr Z)) : res Z :=
  if n <? 0 then Ok 0
  else
    match Ap, Ai with
    | Some Ap, Some Ai =>
        a0 <- rd Ap 0 ;;
        if negb (a0 =? 0) then Ok 0
        else
          ok <- for_ 0 n (fun j ok =>
                  if ok : bool then
                    a <- rd Ap j ;;
                    b <- rd Ap (j + 1) ;;
                    Ok (negb (b <? a))
                  else Ok false) true ;;
          if ok : bool then
            nz <- rd Ap n ;;
            ok <- for_ 0 nz (fun p ok =>
                    if ok : bool then
                      i <- rd Ai p ;;
                      Ok (negb ((i <? 0) || (n <=? i)))
                    else Ok false) true ;;
            Ok (if ok : bool then 1 else 0)
          else Ok 0
    | _, _ => Ok 0
    end.
