(** Model of the ordering package AMD (src/amd_valid.c, amd_preprocess.c, amd_aat.c, amd_1.c, amd_2.c,
    amd_postorder.c, amd_post_tree.c, amd_order.c), as compiled into the library: Int is a 64-bit integer,
    NDEBUG is defined (assertions and debugging output are off).

    Simplifications.  Int values are unbounded integers (size_t and the hash key wrap as in C).  The statistics in Info,
    which no other code reads, are left out.  The single block S is split into its seven disjoint parts, so leaving a
    part counts as an error even where the next part follows.  The number (Int)(alpha * sqrt(n)) that decides which
    rows count as dense is a parameter. *)
From Coq Require Import ZArith List Bool.
From RecordUpdate Require Import RecordUpdate.
From Verif Require Import Res.
Import ListNotations.
Open Scope Z_scope.
Open Scope res_scope.

(** include/amd_internal.h:119-125. *)
Definition EMPTY : Z := -1.
Definition FLIP (i : Z) : Z := - i - 2.
Definition Int_MAX : Z := 2 ^ 63 - 1.
Definition size_t (x : Z) : Z := x mod 2 ^ 64.
Definition SIZE_T_MAX : Z := 2 ^ 64 - 1.

(** Status codes, include/amd.h. *)
Definition AMD_OK : Z := 0.
Definition AMD_OUT_OF_MEMORY : Z := -1.
Definition AMD_INVALID : Z := -2.
Definition AMD_OK_BUT_JUMBLED : Z := 1.

(** [while (cond) body]; the proofs show that the fuel is never exhausted. *)
Fixpoint while_ {S : Type} (fuel : nat) (cond : S -> res bool) (body : S -> res S) (s : S) : res S :=
  match fuel with
  | O => NoFuel
  | Datatypes.S f => b <- cond s ;; if b : bool then s' <- body s ;; while_ f cond body s' else Ok s
  end.

Definition fuel (z : Z) : nat := Z.to_nat (z + 1).

(** ** AMD_valid, src/amd_valid.c:38-91 (the NULL tests are in [AMD_order]). *)

(** The inner loop, lines 71-88: (returned early, result, ilast). *)
Definition valid_col (n_row : Z) (Ai : arr Z) (p1 p2 : Z) (result : Z) : res (bool * Z) :=
  '(bad, result, _) <- for_ p1 p2 (fun p '(bad, result, ilast) =>
    if bad : bool then Ok (bad, result, ilast)
    else
      i <- rd Ai p ;;
      if (i <? 0) || (n_row <=? i) then Ok (true, result, ilast)
      else Ok (false, if i <=? ilast then AMD_OK_BUT_JUMBLED else result, i)) (false, result, EMPTY) ;;
  Ok (bad, result).

Definition AMD_valid (n_row n_col : Z) (Ap Ai : arr Z) : res Z :=
  if (n_row <? 0) || (n_col <? 0) then Ok AMD_INVALID
  else
    nz <- rd Ap n_col ;;
    a0 <- rd Ap 0 ;;
    if negb (a0 =? 0) || (nz <? 0) then Ok AMD_INVALID
    else
      '(bad, result) <- for_ 0 n_col (fun j '(bad, result) =>
        if bad : bool then Ok (bad, result)
        else
          p1 <- rd Ap j ;;
          p2 <- rd Ap (j + 1) ;;
          if p2 <? p1 then Ok (true, result) else valid_col n_row Ai p1 p2 result) (false, AMD_OK) ;;
      Ok (if bad : bool then AMD_INVALID else result).

(** ** AMD_preprocess, src/amd_preprocess.c:29-118; returns (Rp, Ri, W, Flag). *)
Definition AMD_preprocess (n : Z) (Ap Ai Rp Ri W Flag : arr Z) : res (arr Z * arr Z * arr Z * arr Z) :=
  '(W, Flag) <- for_ 0 n (fun i '(W, Flag) =>
    W <- wr W i 0 ;; Flag <- wr Flag i EMPTY ;; Ok (W, Flag)) (W, Flag) ;;                          (* 56-60 *)
  '(W, Flag) <- for_ 0 n (fun j '(W, Flag) =>                                                       (* 61-74 *)
    p2 <- rd Ap (j + 1) ;;
    p1 <- rd Ap j ;;
    for_ p1 p2 (fun p '(W, Flag) =>
      i <- rd Ai p ;;
      f <- rd Flag i ;;
      if negb (f =? j) then
        w <- rd W i ;; W <- wr W i (w + 1) ;; Flag <- wr Flag i j ;; Ok (W, Flag)
      else Ok (W, Flag)) (W, Flag)) (W, Flag) ;;
  Rp <- wr Rp 0 0 ;;                                                                                (* 80-84 *)
  Rp <- for_ 0 n (fun i Rp => r <- rd Rp i ;; w <- rd W i ;; wr Rp (i + 1) (r + w)) Rp ;;
  '(W, Flag) <- for_ 0 n (fun i '(W, Flag) =>                                                       (* 85-89 *)
    r <- rd Rp i ;; W <- wr W i r ;; Flag <- wr Flag i EMPTY ;; Ok (W, Flag)) (W, Flag) ;;
  '(Ri, W, Flag) <- for_ 0 n (fun j '(Ri, W, Flag) =>                                               (* 96-109 *)
    p2 <- rd Ap (j + 1) ;;
    p1 <- rd Ap j ;;
    for_ p1 p2 (fun p '(Ri, W, Flag) =>
      i <- rd Ai p ;;
      f <- rd Flag i ;;
      if negb (f =? j) then
        w <- rd W i ;; Ri <- wr Ri w j ;; W <- wr W i (w + 1) ;; Flag <- wr Flag i j ;; Ok (Ri, W, Flag)
      else Ok (Ri, W, Flag)) (Ri, W, Flag)) (Ri, W, Flag) ;;
  Ok (Rp, Ri, W, Flag).

(** ** The traversal shared by AMD_aat and AMD_1

    Both functions walk through A in the same way (src/amd_aat.c:59-141, src/amd_1.c:86-165) and, for every pair
    (i, j) of A+A', do something with the positions (i, j) and (j, i): AMD_aat counts, AMD_1 stores.  [pair] is that
    something. *)
Section Walk.
Context {S : Type}.
Variables (n : Z) (Ap Ai : arr Z) (pair : Z -> Z -> S -> res S).

(** Lines 96-121 (122-146): scan column j from Tp[j] until row k; returns the final pj. *)
Definition walk_lower (k j pj pj2 : Z) (s : S) : res (Z * S) :=
  '(pj, _, s) <- while_ (fuel (pj2 - pj)) (fun '(pj, stop, s) => Ok (negb stop && (pj <? pj2))) (fun '(pj, stop, s) =>
    i <- rd Ai pj ;;
    if i <? k then s <- pair i j s ;; Ok (pj + 1, false, s)
    else if i =? k then Ok (pj + 1, true, s)
    else Ok (pj, true, s)) (pj, false, s) ;;
  Ok (pj, s).

(** Lines 61-125 (89-149). *)
Definition walk_col (k : Z) (st : arr Z * S) : res (arr Z * S) :=
  let '(Tp, s) := st in
  p1 <- rd Ap k ;;
  p2 <- rd Ap (k + 1) ;;
  '(p, _, Tp, s) <- while_ (fuel (p2 - p1)) (fun '(p, stop, Tp, s) => Ok (negb stop && (p <? p2))) (fun '(p, stop, Tp, s) =>
    j <- rd Ai p ;;
    if j <? k then
      s <- pair j k s ;;
      pj2 <- rd Ap (j + 1) ;;
      pj <- rd Tp j ;;
      '(pj, s) <- walk_lower k j pj pj2 s ;;
      Tp <- wr Tp j pj ;;
      Ok (p + 1, false, Tp, s)
    else if j =? k then Ok (p + 1, true, Tp, s)
    else Ok (p, true, Tp, s)) (p1, false, Tp, s) ;;
  Tp <- wr Tp k p ;;
  Ok (Tp, s).

(** The clean-up, lines 129-141 (153-165). *)
Definition walk_rest (Tp : arr Z) (s : S) : res S :=
  for_ 0 n (fun j s =>
    pj <- rd Tp j ;;
    pj2 <- rd Ap (j + 1) ;;
    for_ pj pj2 (fun pj s => i <- rd Ai pj ;; pair i j s) s) s.

Definition walk (Tp : arr Z) (s : S) : res (arr Z * S) :=
  '(Tp, s) <- for_ 0 n walk_col (Tp, s) ;;
  s <- walk_rest Tp s ;;
  Ok (Tp, s).
End Walk.

(** AMD_aat: [Len [i]++ ; Len [j]++]. *)
Definition count_pair (i j : Z) (Len : arr Z) : res (arr Z) :=
  a <- rd Len i ;; Len <- wr Len i (a + 1) ;; b <- rd Len j ;; wr Len j (b + 1).

(** AMD_aat, src/amd_aat.c:20-184; returns (nzaat, Len, Tp). *)
Definition AMD_aat (n : Z) (Ap Ai Len Tp : arr Z) : res (Z * arr Z * arr Z) :=
  Len <- for_ 0 n (fun k Len => wr Len k 0) Len ;;
  '(Tp, Len) <- walk n Ap Ai count_pair Tp Len ;;
  nzaat <- for_ 0 n (fun k s => l <- rd Len k ;; Ok (size_t (s + l))) 0 ;;
  Ok (nzaat, Len, Tp).

(** AMD_1: [Iw [Sp [i]++] = j ; Iw [Sp [j]++] = i]. *)
Definition store_pair (i j : Z) (st : arr Z * arr Z) : res (arr Z * arr Z) :=
  let '(Iw, Sp) := st in
  a <- rd Sp i ;; Iw <- wr Iw a j ;; Sp <- wr Sp i (a + 1) ;;
  b <- rd Sp j ;; Iw <- wr Iw b i ;; Sp <- wr Sp j (b + 1) ;;
  Ok (Iw, Sp).

(** ** AMD_2 *)

(** The arrays of AMD_2 and the scalars that live across pivots. *)
Record ast : Type := mkAst {
  aPe : arr Z; aIw : arr Z; aLen : arr Z; aNv : arr Z; aNext : arr Z; aLast : arr Z; aHead : arr Z; aElen : arr Z;
  aDeg : arr Z; aW : arr Z;
  pfree : Z; nel : Z; mindeg : Z; wflg : Z; lemax : Z; ndense : Z
}.
#[export] Instance eta_ast : Settable ast :=
  settable! mkAst <aPe; aIw; aLen; aNv; aNext; aLast; aHead; aElen; aDeg; aW; pfree; nel; mindeg; wflg; lemax; ndense>.

Definition sPe (s : ast) (i v : Z) : res ast := a <- wr (aPe s) i v ;; Ok (s <| aPe := a |>).
Definition sIw (s : ast) (i v : Z) : res ast := a <- wr (aIw s) i v ;; Ok (s <| aIw := a |>).
Definition sLen (s : ast) (i v : Z) : res ast := a <- wr (aLen s) i v ;; Ok (s <| aLen := a |>).
Definition sNv (s : ast) (i v : Z) : res ast := a <- wr (aNv s) i v ;; Ok (s <| aNv := a |>).
Definition sNext (s : ast) (i v : Z) : res ast := a <- wr (aNext s) i v ;; Ok (s <| aNext := a |>).
Definition sLast (s : ast) (i v : Z) : res ast := a <- wr (aLast s) i v ;; Ok (s <| aLast := a |>).
Definition sHead (s : ast) (i v : Z) : res ast := a <- wr (aHead s) i v ;; Ok (s <| aHead := a |>).
Definition sElen (s : ast) (i v : Z) : res ast := a <- wr (aElen s) i v ;; Ok (s <| aElen := a |>).
Definition sDeg (s : ast) (i v : Z) : res ast := a <- wr (aDeg s) i v ;; Ok (s <| aDeg := a |>).
Definition sW (s : ast) (i v : Z) : res ast := a <- wr (aW s) i v ;; Ok (s <| aW := a |>).

Section Amd2.
Variables (n iwlen : Z) (aggressive : bool).

(** clear_flag, src/amd_2.c:22-35. *)
Definition wbig : Z := Int_MAX - n.
Definition clear_flag (s : ast) : res ast :=
  if (wflg s <? 2) || (wbig <=? wflg s) then
    s <- for_ 0 n (fun x s => w <- rd (aW s) x ;; if negb (w =? 0) then sW s x 1 else Ok s) s ;;
    Ok (s <| wflg := 2 |>)
  else Ok s.

(** Lines 685-689: put i at the head of degree list deg. *)
Definition link (s : ast) (deg i : Z) : res ast :=
  inext <- rd (aHead s) deg ;;
  s <- (if negb (inext =? EMPTY) then sLast s inext i else Ok s) ;;
  s <- sNext s i inext ;;
  sHead s deg i.

(** Lines 610-692: initialisation; [dense] is the bound of lines 596-606. *)
Definition init_one (i : Z) (s : ast) : res ast :=
  s <- sLast s i EMPTY ;;
  s <- sHead s i EMPTY ;;
  s <- sNext s i EMPTY ;;
  s <- sNv s i 1 ;;
  s <- sW s i 1 ;;
  s <- sElen s i 0 ;;
  l <- rd (aLen s) i ;;
  sDeg s i l.
Definition init_list (dense i : Z) (s : ast) : res ast :=
  deg <- rd (aDeg s) i ;;
  if deg =? 0 then
    s <- sElen s i (FLIP 1) ;;
    let s := s <| nel := nel s + 1 |> in
    s <- sPe s i EMPTY ;;
    sW s i 0
  else if dense <? deg then
    let s := s <| ndense := ndense s + 1 |> in
    s <- sNv s i 0 ;;
    s <- sElen s i EMPTY ;;
    let s := s <| nel := nel s + 1 |> in
    sPe s i EMPTY
  else link s deg i.
Definition amd2_init (dense : Z) (s : ast) : res ast :=
  s <- for_ 0 n init_one s ;;
  s <- clear_flag (s <| wflg := 0 |>) ;;
  for_ 0 n (init_list dense) s.

(** Lines 719-735: pick the pivot and take it off its list; returns me. *)
Definition find_pivot (s : ast) : res (Z * ast) :=
  '(me, deg, _) <- while_ (fuel n) (fun '(me, deg, stop) => Ok (negb stop && (deg <? n))) (fun '(me, deg, stop) =>
      me <- rd (aHead s) deg ;;
      if negb (me =? EMPTY) then Ok (me, deg, true) else Ok (me, deg + 1, false)) (EMPTY, mindeg s, false) ;;
  let s := s <| mindeg := deg |> in
  inext <- rd (aNext s) me ;;
  s <- (if negb (inext =? EMPTY) then sLast s inext EMPTY else Ok s) ;;
  s <- sHead s deg inext ;;
  Ok (me, s).

(** Lines 796-810 (955-969): take i off its degree list. *)
Definition unlink (s : ast) (i : Z) : res ast :=
  ilast <- rd (aLast s) i ;;
  inext <- rd (aNext s) i ;;
  s <- (if negb (inext =? EMPTY) then sLast s inext ilast else Ok s) ;;
  if negb (ilast =? EMPTY) then sNext s ilast inext
  else d <- rd (aDeg s) i ;; sHead s d inext.

(** Lines 771-812: the new element in place; returns (pme1, pme2, degme). *)
Definition build_in_place (me : Z) (s : ast) : res (Z * Z * Z * ast) :=
  pme1 <- rd (aPe s) me ;;
  ln <- rd (aLen s) me ;;
  '(s, degme, pme2) <- for_ pme1 (pme1 + ln) (fun p '(s, degme, pme2) =>
    i <- rd (aIw s) p ;;
    nvi <- rd (aNv s) i ;;
    if 0 <? nvi then
      s <- sNv s i (- nvi) ;;
      s <- sIw s (pme2 + 1) i ;;
      s <- unlink s i ;;
      Ok (s, degme + nvi, pme2 + 1)
    else Ok (s, degme, pme2)) (s, 0, pme1 - 1) ;;
  Ok (pme1, pme2, degme, s).

(** Lines 880-936: garbage collection; returns (pme1, p, pj). *)
Definition gc_mark (s : ast) : res ast :=
  for_ 0 n (fun j s =>
    pn <- rd (aPe s) j ;;
    if 0 <=? pn then
      v <- rd (aIw s) pn ;; s <- sPe s j v ;; sIw s pn (FLIP j)
    else Ok s) s.
Definition gc_move (pend : Z) (s : ast) : res (Z * ast) :=
  '(_, pdst, s) <- while_ (fuel (pend + 1)) (fun '(psrc, pdst, s) => Ok (psrc <=? pend)) (fun '(psrc, pdst, s) =>
    x <- rd (aIw s) psrc ;;
    let j := FLIP x in
    let psrc := psrc + 1 in
    if 0 <=? j then
      v <- rd (aPe s) j ;;
      s <- sIw s pdst v ;;
      s <- sPe s j pdst ;;
      let pdst := pdst + 1 in
      lenj <- rd (aLen s) j ;;
      for_ 0 (lenj - 1) (fun knt3 '(psrc, pdst, s) =>
        v <- rd (aIw s) psrc ;; s <- sIw s pdst v ;; Ok (psrc + 1, pdst + 1, s)) (psrc, pdst, s)
    else Ok (psrc, pdst, s)) (0, 0, s) ;;
  Ok (pdst, s).
Definition gc (me e p pj pme1 knt1 ln knt2 : Z) (s : ast) : res (Z * Z * Z * ast) :=
  s <- sPe s me p ;;
  l <- rd (aLen s) me ;;
  s <- sLen s me (l - knt1) ;;
  l <- rd (aLen s) me ;;
  s <- (if l =? 0 then sPe s me EMPTY else Ok s) ;;
  s <- sPe s e pj ;;
  s <- sLen s e (ln - knt2) ;;
  l <- rd (aLen s) e ;;
  s <- (if l =? 0 then sPe s e EMPTY else Ok s) ;;
  s <- gc_mark s ;;
  '(pdst, s) <- gc_move (pme1 - 1) s ;;
  let p1 := pdst in
  '(pdst, s) <- for_ pme1 (pfree s) (fun psrc '(pdst, s) =>
    v <- rd (aIw s) psrc ;; s <- sIw s pdst v ;; Ok (pdst + 1, s)) (pdst, s) ;;
  let s := s <| pfree := pdst |> in
  pj <- rd (aPe s) e ;;
  p <- rd (aPe s) me ;;
  Ok (p1, p, pj, s).

(** Lines 857-970: one entry of the list being searched; state (p, pj, pme1, degme, s). *)
Definition gather_one (me e knt1 ln knt2 : Z) (st : Z * Z * Z * Z * ast) : res (Z * Z * Z * Z * ast) :=
  let '(p, pj, pme1, degme, s) := st in
  i <- rd (aIw s) pj ;;
  let pj := pj + 1 in
  nvi <- rd (aNv s) i ;;
  if 0 <? nvi then
    '(pme1, p, pj, s) <- (if iwlen <=? pfree s then gc me e p pj pme1 knt1 ln knt2 s else Ok (pme1, p, pj, s)) ;;
    s <- sNv s i (- nvi) ;;
    s <- sIw s (pfree s) i ;;
    let s := s <| pfree := pfree s + 1 |> in
    s <- unlink s i ;;
    Ok (p, pj, pme1, degme + nvi, s)
  else Ok (p, pj, pme1, degme, s).

(** Lines 821-983: the new element in empty space. *)
Definition build_new (me elenme : Z) (s : ast) : res (Z * Z * Z * ast) :=
  p <- rd (aPe s) me ;;
  let pme1 := pfree s in
  l <- rd (aLen s) me ;;
  let slenme := l - elenme in
  '(p, pme1, degme, s) <- for_ 1 (elenme + 2) (fun knt1 '(p, pme1, degme, s) =>
    '(e, p, pj, ln) <- (if elenme <? knt1 then Ok (me, p, p, slenme)
                        else
                          e <- rd (aIw s) p ;;
                          let p := p + 1 in
                          pj <- rd (aPe s) e ;;
                          ln <- rd (aLen s) e ;;
                          Ok (e, p, pj, ln)) ;;
    '(p, _, pme1, degme, s) <- for_ 1 (ln + 1) (fun knt2 st => gather_one me e knt1 ln knt2 st) (p, pj, pme1, degme, s) ;;
    s <- (if negb (e =? me) then s <- sPe s e (FLIP me) ;; sW s e 0 else Ok s) ;;
    Ok (p, pme1, degme, s)) (p, pme1, 0, s) ;;
  Ok (pme1, pfree s - 1, degme, s).

(** Lines 1034-1069. *)
Definition scan1_one (i : Z) (s : ast) : res ast :=
  eln <- rd (aElen s) i ;;
  if 0 <? eln then
    nv <- rd (aNv s) i ;;
    let nvi := - nv in
    let wnvi := wflg s - nvi in
    pi <- rd (aPe s) i ;;
    for_ pi (pi + eln) (fun p s =>
      e <- rd (aIw s) p ;;
      we <- rd (aW s) e ;;
      we <- (if wflg s <=? we then Ok (we - nvi)
             else if negb (we =? 0) then d <- rd (aDeg s) e ;; Ok (d + wnvi)
             else Ok we) ;;
      sW s e we) s
  else Ok s.
Definition scan1 (pme1 pme2 : Z) (s : ast) : res ast :=
  for_ pme1 (pme2 + 1) (fun pme s => i <- rd (aIw s) pme ;; scan1_one i s) s.

Definition uint (x : Z) : Z := x mod 2 ^ 64.

(** Lines 1100-1149: the elements of i; returns (pn, deg, hash). *)
Definition scan2_elements (me p1 p2 : Z) (s : ast) : res (Z * Z * Z * ast) :=
  for_ p1 (p2 + 1) (fun p '(pn, deg, hash, s) =>
    e <- rd (aIw s) p ;;
    we <- rd (aW s) e ;;
    if negb (we =? 0) then
      let dext := we - wflg s in
      if negb aggressive || (0 <? dext) then
        s <- sIw s pn e ;; Ok (pn + 1, deg + dext, uint (hash + e), s)
      else
        s <- sPe s e (FLIP me) ;;
        s <- sW s e 0 ;;
        Ok (pn, deg, hash, s)
    else Ok (pn, deg, hash, s)) (p1, 0, 0, s).

(** Lines 1163-1178: the variables of i. *)
Definition scan2_variables (p2 p4 : Z) (st : Z * Z * Z * ast) : res (Z * Z * Z * ast) :=
  for_ (p2 + 1) p4 (fun p '(pn, deg, hash, s) =>
    j <- rd (aIw s) p ;;
    nvj <- rd (aNv s) j ;;
    if 0 <? nvj then
      s <- sIw s pn j ;; Ok (pn + 1, deg + nvj, uint (hash + j), s)
    else Ok (pn, deg, hash, s)) st.

(** Lines 1088-1283: one variable of the new element; state (degme, nvpiv, s). *)
Definition scan2_one (me i : Z) (st : Z * Z * ast) : res (Z * Z * ast) :=
  let '(degme, nvpiv, s) := st in
  p1 <- rd (aPe s) i ;;
  el <- rd (aElen s) i ;;
  let p2 := p1 + el - 1 in
  '(pn, deg, hash, s) <- scan2_elements me p1 p2 s ;;
  s <- sElen s i (pn - p1 + 1) ;;
  let p3 := pn in
  l <- rd (aLen s) i ;;
  let p4 := p1 + l in
  '(pn, deg, hash, s) <- scan2_variables p2 p4 (pn, deg, hash, s) ;;
  el <- rd (aElen s) i ;;
  if (el =? 1) && (p3 =? pn) then                                     (* mass elimination, 1216-1222 *)
    s <- sPe s i (FLIP me) ;;
    nv <- rd (aNv s) i ;;
    let nvi := - nv in
    let s := s <| nel := nel s + nvi |> in
    s <- sNv s i 0 ;;
    s <- sElen s i EMPTY ;;
    Ok (degme - nvi, nvpiv + nvi, s)
  else
    d <- rd (aDeg s) i ;;
    s <- sDeg s i (Z.min d deg) ;;                                    (* 1235 *)
    v <- rd (aIw s) p3 ;;
    s <- sIw s pn v ;;                                                (* 1242-1248 *)
    v <- rd (aIw s) p1 ;;
    s <- sIw s p3 v ;;
    s <- sIw s p1 me ;;
    s <- sLen s i (pn - p1 + 1) ;;
    let hash := hash mod n in                                         (* 1258-1282 *)
    j <- rd (aHead s) hash ;;
    s <- (if j <=? EMPTY then
            s <- sNext s i (FLIP j) ;; sHead s hash (FLIP i)
          else
            v <- rd (aLast s) j ;; s <- sNext s i v ;; sLast s j i) ;;
    s <- sLast s i hash ;;
    Ok (degme, nvpiv, s).
Definition scan2 (me pme1 pme2 : Z) (st : Z * Z * ast) : res (Z * Z * ast) :=
  for_ pme1 (pme2 + 1) (fun pme '(degme, nvpiv, s) =>
    i <- rd (aIw s) pme ;; scan2_one me i (degme, nvpiv, s)) st.

(** Lines 1389-1395: do i (scattered into W) and j have the same pattern? *)
Definition same_pattern (j ln eln : Z) (s : ast) : res bool :=
  lj <- rd (aLen s) j ;;
  ok <- (if lj =? ln then ej <- rd (aElen s) j ;; Ok (ej =? eln) else Ok false) ;;
  pj <- rd (aPe s) j ;;
  for_ (pj + 1) (pj + ln) (fun p (ok : bool) =>
    if ok then x <- rd (aIw s) p ;; w <- rd (aW s) x ;; Ok (w =? wflg s) else Ok false) ok.

(** Lines 1359-1432: absorb into i what follows it in the bucket; returns the next i. *)
Definition absorb (i : Z) (s : ast) : res (Z * ast) :=
  ln <- rd (aLen s) i ;;
  eln <- rd (aElen s) i ;;
  pi <- rd (aPe s) i ;;
  s <- for_ (pi + 1) (pi + ln) (fun p s => x <- rd (aIw s) p ;; sW s x (wflg s)) s ;;
  j <- rd (aNext s) i ;;
  '(_, _, s) <- while_ (fuel n) (fun '(jlast, j, s) => Ok (negb (j =? EMPTY))) (fun '(jlast, j, s) =>
    ok <- same_pattern j ln eln s ;;
    if ok : bool then
      s <- sPe s j (FLIP i) ;;
      ni <- rd (aNv s) i ;;
      nj <- rd (aNv s) j ;;
      s <- sNv s i (ni + nj) ;;
      s <- sNv s j 0 ;;
      s <- sElen s j EMPTY ;;
      j' <- rd (aNext s) j ;;
      s <- sNext s jlast j' ;;
      Ok (jlast, j', s)
    else
      j' <- rd (aNext s) j ;;
      Ok (j, j', s)) (i, j, s) ;;
  let s := s <| wflg := wflg s + 1 |> in
  i' <- rd (aNext s) i ;;
  Ok (i', s).

(** Lines 1320-1435: one hash bucket. *)
Definition bucket (i : Z) (s : ast) : res ast :=
  hash <- rd (aLast s) i ;;
  j <- rd (aHead s) hash ;;
  '(i, s) <- (if j =? EMPTY then Ok (EMPTY, s)
              else if j <? EMPTY then s <- sHead s hash EMPTY ;; Ok (FLIP j, s)
              else i <- rd (aLast s) j ;; s <- sLast s j EMPTY ;; Ok (i, s)) ;;
  '(_, s) <- while_ (fuel n) (fun '(i, s) =>
      if i =? EMPTY then Ok false else x <- rd (aNext s) i ;; Ok (negb (x =? EMPTY))) (fun '(i, s) => absorb i s) (i, s) ;;
  Ok s.

(** Lines 1303-1437. *)
Definition detect (pme1 pme2 : Z) (s : ast) : res ast :=
  for_ pme1 (pme2 + 1) (fun pme s =>
    i <- rd (aIw s) pme ;;
    nv <- rd (aNv s) i ;;
    if nv <? 0 then bucket i s else Ok s) s.

(** Lines 1444-1491; returns the end of the element. *)
Definition restore (pme1 pme2 degme : Z) (s : ast) : res (Z * ast) :=
  let nleft := n - nel s in
  for_ pme1 (pme2 + 1) (fun pme '(p, s) =>
    i <- rd (aIw s) pme ;;
    nv <- rd (aNv s) i ;;
    let nvi := - nv in
    if 0 <? nvi then
      s <- sNv s i nvi ;;
      d <- rd (aDeg s) i ;;
      let deg := d + degme - nvi in
      let deg := Z.min deg (nleft - nvi) in
      inext <- rd (aHead s) deg ;;
      s <- (if negb (inext =? EMPTY) then sLast s inext i else Ok s) ;;
      s <- sNext s i inext ;;
      s <- sLast s i EMPTY ;;
      s <- sHead s deg i ;;
      let s := s <| mindeg := Z.min (mindeg s) deg |> in
      s <- sDeg s i deg ;;
      s <- sIw s p i ;;
      Ok (p + 1, s)
    else Ok (p, s)) (pme1, s).

(** Lines 1499-1514. *)
Definition finalize (me pme1 p nvpiv elenme : Z) (s : ast) : res ast :=
  s <- sNv s me nvpiv ;;
  s <- sLen s me (p - pme1) ;;
  l <- rd (aLen s) me ;;
  s <- (if l =? 0 then s <- sPe s me EMPTY ;; sW s me 0 else Ok s) ;;
  Ok (if negb (elenme =? 0) then s <| pfree := p |> else s).

(** One pass of the main loop, lines 698-1553. *)
Definition pivot (s : ast) : res ast :=
  '(me, s) <- find_pivot s ;;
  elenme <- rd (aElen s) me ;;
  nvpiv <- rd (aNv s) me ;;
  let s := s <| nel := nel s + nvpiv |> in
  s <- sNv s me (- nvpiv) ;;
  '(pme1, pme2, degme, s) <- (if elenme =? 0 then build_in_place me s else build_new me elenme s) ;;
  s <- sDeg s me degme ;;                                             (* 991-996 *)
  s <- sPe s me pme1 ;;
  s <- sLen s me (pme2 - pme1 + 1) ;;
  s <- sElen s me (FLIP (nvpiv + degme)) ;;
  s <- clear_flag s ;;                                                (* 1013 *)
  s <- scan1 pme1 pme2 s ;;
  '(degme, nvpiv, s) <- scan2 me pme1 pme2 (degme, nvpiv, s) ;;
  s <- sDeg s me degme ;;                                             (* 1286-1295 *)
  let s := s <| lemax := Z.max (lemax s) degme |> in
  s <- clear_flag (s <| wflg := wflg s + lemax s |>) ;;
  s <- detect pme1 pme2 s ;;
  '(p, s) <- restore pme1 pme2 degme s ;;
  finalize me pme1 p nvpiv elenme s.

Definition pivots (s : ast) : res ast := while_ (fuel n) (fun s => Ok (nel s <? n)) pivot s.

(** ** Postordering *)

(** AMD_post_tree, src/amd_post_tree.c:15-120; state (Child, Order, Stack, k). *)
Definition post_tree (root : Z) (Sibling : arr Z) (st : arr Z * arr Z * arr Z * Z) : res (arr Z * arr Z * arr Z * Z) :=
  let '(Child, Order, Stack, k) := st in
  Stack <- wr Stack 0 root ;;
  '(_, Child, Order, Stack, k) <- while_ (fuel (2 * n)) (fun '(head, Child, Order, Stack, k) => Ok (0 <=? head))
    (fun '(head, Child, Order, Stack, k) =>
      i <- rd Stack head ;;
      c <- rd Child i ;;
      if negb (c =? EMPTY) then
        '(_, head) <- while_ (fuel n) (fun '(f, head) => Ok (negb (f =? EMPTY))) (fun '(f, head) =>
          f <- rd Sibling f ;; Ok (f, head + 1)) (c, head) ;;
        '(_, _, Stack) <- while_ (fuel n) (fun '(f, h, Stack) => Ok (negb (f =? EMPTY))) (fun '(f, h, Stack) =>
          Stack <- wr Stack h f ;; f <- rd Sibling f ;; Ok (f, h - 1, Stack)) (c, head, Stack) ;;
        Child <- wr Child i EMPTY ;;
        Ok (head, Child, Order, Stack, k)
      else
        Order <- wr Order i k ;;
        Ok (head - 1, Child, Order, Stack, k + 1)) (0, Child, Order, Stack, k) ;;
  Ok (Child, Order, Stack, k).

(** AMD_postorder, src/amd_postorder.c:15-206. *)
Definition biggest_last (Fsize : arr Z) (i : Z) (st : arr Z * arr Z) : res (arr Z * arr Z) :=
  let '(Child, Sibling) := st in
  c <- rd Child i ;;
  '(_, fprev, _, bigfprev, bigf) <- while_ (fuel n) (fun '(f, fprev, maxfrsize, bigfprev, bigf) => Ok (negb (f =? EMPTY)))
    (fun '(f, fprev, maxfrsize, bigfprev, bigf) =>
      frsize <- rd Fsize f ;;
      f' <- rd Sibling f ;;
      if maxfrsize <=? frsize then Ok (f', f, frsize, fprev, f) else Ok (f', f, maxfrsize, bigfprev, bigf))
    (c, EMPTY, EMPTY, EMPTY, EMPTY) ;;
  fnext <- rd Sibling bigf ;;
  if negb (fnext =? EMPTY) then
    '(Child, Sibling) <- (if bigfprev =? EMPTY then Child <- wr Child i fnext ;; Ok (Child, Sibling)
                          else Sibling <- wr Sibling bigfprev fnext ;; Ok (Child, Sibling)) ;;
    Sibling <- wr Sibling bigf EMPTY ;;
    Sibling <- wr Sibling fprev bigf ;;
    Ok (Child, Sibling)
  else Ok (Child, Sibling).

Definition AMD_postorder (Parent Nv Fsize Order Child Sibling Stack : arr Z) : res (arr Z * arr Z * arr Z * arr Z) :=
  '(Child, Sibling) <- for_ 0 n (fun j '(Child, Sibling) =>
    Child <- wr Child j EMPTY ;; Sibling <- wr Sibling j EMPTY ;; Ok (Child, Sibling)) (Child, Sibling) ;;
  '(Child, Sibling) <- for_ 0 n (fun k '(Child, Sibling) =>
    let j := n - 1 - k in
    nv <- rd Nv j ;;
    if 0 <? nv then
      parent <- rd Parent j ;;
      if negb (parent =? EMPTY) then
        c <- rd Child parent ;; Sibling <- wr Sibling j c ;; Child <- wr Child parent j ;; Ok (Child, Sibling)
      else Ok (Child, Sibling)
    else Ok (Child, Sibling)) (Child, Sibling) ;;
  '(Child, Sibling) <- for_ 0 n (fun i '(Child, Sibling) =>
    nv <- rd Nv i ;;
    if 0 <? nv then
      c <- rd Child i ;;
      if negb (c =? EMPTY) then biggest_last Fsize i (Child, Sibling) else Ok (Child, Sibling)
    else Ok (Child, Sibling)) (Child, Sibling) ;;
  Order <- for_ 0 n (fun i Order => wr Order i EMPTY) Order ;;
  '(Child, Order, Stack, _) <- for_ 0 n (fun i '(Child, Order, Stack, k) =>
    pa <- rd Parent i ;;
    nv <- rd Nv i ;;
    if (pa =? EMPTY) && (0 <? nv) then post_tree i Sibling (Child, Order, Stack, k)
    else Ok (Child, Order, Stack, k)) (Child, Order, Stack, 0) ;;
  Ok (Order, Child, Sibling, Stack).

(** Lines 1708-1760: compress the path of one unordered variable. *)
Definition compress_one (Nv : arr Z) (i : Z) (Pe : arr Z) : res (arr Z) :=
  nv <- rd Nv i ;;
  if nv =? 0 then
    j <- rd Pe i ;;
    if j =? EMPTY then Ok Pe
    else
      e <- while_ (fuel n) (fun j => x <- rd Nv j ;; Ok (x =? 0)) (fun j => rd Pe j) j ;;
      '(_, Pe) <- while_ (fuel n) (fun '(j, Pe) => x <- rd Nv j ;; Ok (x =? 0)) (fun '(j, Pe) =>
        jnext <- rd Pe j ;; Pe <- wr Pe j e ;; Ok (jnext, Pe)) (i, Pe) ;;
      Ok Pe
  else Ok Pe.

(** Lines 1634-1841: from the assembly tree to the permutation (left in Last). *)
Definition post_phase (s : ast) : res ast :=
  s <- for_ 0 n (fun i s => x <- rd (aPe s) i ;; sPe s i (FLIP x)) s ;;
  s <- for_ 0 n (fun i s => x <- rd (aElen s) i ;; sElen s i (FLIP x)) s ;;
  Pe <- for_ 0 n (fun i Pe => compress_one (aNv s) i Pe) (aPe s) ;;
  let s := s <| aPe := Pe |> in
  '(W, Head, Next, Last) <- AMD_postorder (aPe s) (aNv s) (aElen s) (aW s) (aHead s) (aNext s) (aLast s) ;;
  let s := s <| aW := W |> <| aHead := Head |> <| aNext := Next |> <| aLast := Last |> in
  s <- for_ 0 n (fun k s => s <- sHead s k EMPTY ;; sNext s k EMPTY) s ;;                        (* 1778-1782 *)
  s <- for_ 0 n (fun e s => k <- rd (aW s) e ;; if negb (k =? EMPTY) then sHead s k e else Ok s) s ;;   (* 1783-1792 *)
  '(_, nel, s) <- for_ 0 n (fun k '(stop, nel, s) =>                                               (* 1796-1804 *)
    if stop : bool then Ok (stop, nel, s)
    else
      e <- rd (aHead s) k ;;
      if e =? EMPTY then Ok (true, nel, s)
      else s <- sNext s e nel ;; nv <- rd (aNv s) e ;; Ok (false, nel + nv, s)) (false, 0, s) ;;
  '(_, s) <- for_ 0 n (fun i '(nel, s) =>                                                          (* 1808-1831 *)
    nv <- rd (aNv s) i ;;
    if nv =? 0 then
      e <- rd (aPe s) i ;;
      if negb (e =? EMPTY) then
        x <- rd (aNext s) e ;; s <- sNext s i x ;; y <- rd (aNext s) e ;; s <- sNext s e (y + 1) ;; Ok (nel, s)
      else s <- sNext s i nel ;; Ok (nel + 1, s)
    else Ok (nel, s)) (nel, s) ;;
  for_ 0 n (fun i s => k <- rd (aNext s) i ;; sLast s k i) s.                                    (* 1835-1841 *)
End Amd2.

(** AMD_2, src/amd_2.c:42-1842; [alpha] is (Int)(alpha * sqrt(n)). *)
Definition AMD_2 (n iwlen alpha : Z) (aggressive : bool) (s : ast) : res ast :=
  let dense := Z.min n (Z.max 16 alpha) in                                                          (* 596-606 *)
  s <- amd2_init n dense s ;;
  s <- pivots n iwlen aggressive s ;;
  post_phase n s.

(** AMD_1, src/amd_1.c:29-180; returns the output permutation.  The parts of the block S are fresh. *)
Definition AMD_1 (n alpha : Z) (aggressive : bool) (Ap Ai P Pinv Len : arr Z) (slen : Z) : res (arr Z) :=
  let iwlen := slen - 6 * n in
  '(Pe, Sp, pfree) <- for_ 0 n (fun j '(Pe, Sp, pfree) =>
    Pe <- wr Pe j pfree ;; Sp <- wr Sp j pfree ;; l <- rd Len j ;; Ok (Pe, Sp, pfree + l)) (malloc Z n, malloc Z n, 0) ;;
  '(Tp, (Iw, Sp)) <- walk n Ap Ai store_pair (malloc Z n) (malloc Z iwlen, Sp) ;;
  s <- AMD_2 n iwlen alpha aggressive
    (mkAst Pe Iw Len Sp Pinv P (malloc Z n) (malloc Z n) (malloc Z n) Tp pfree 0 0 0 0 0) ;;
  Ok (aLast s).

(** AMD_order, src/amd_order.c:21-199; returns (status, P).  [mem k] tells whether the k-th allocation succeeds. *)
Definition AMD_order (mem : nat -> bool) (alpha : Z) (aggressive : bool) (n : Z) (Ap Ai P : arr Z) : res (Z * arr Z) :=
  if n <? 0 then Ok (AMD_INVALID, P)
  else if n =? 0 then Ok (AMD_OK, P)
  else
    nz <- rd Ap n ;;
    if nz <? 0 then Ok (AMD_INVALID, P)
    else if (SIZE_T_MAX / 8 <=? n) || (SIZE_T_MAX / 8 <=? nz) then Ok (AMD_OUT_OF_MEMORY, P)
    else
      status <- AMD_valid n n Ap Ai ;;
      if status =? AMD_INVALID then Ok (AMD_INVALID, P)
      else if negb (mem 0%nat && mem 1%nat) then Ok (AMD_OUT_OF_MEMORY, P)
      else
        let Len := malloc Z n in
        let Pinv := malloc Z n in
        if (status =? AMD_OK_BUT_JUMBLED) && negb (mem 2%nat && mem 3%nat) then Ok (AMD_OUT_OF_MEMORY, P)
        else
          '(Cp, Ci, Len, Pinv) <- (if status =? AMD_OK_BUT_JUMBLED
                                   then AMD_preprocess n Ap Ai (malloc Z (n + 1)) (malloc Z (Z.max nz 1)) Len Pinv
                                   else Ok (Ap, Ai, Len, Pinv)) ;;
          '(nzaat, Len, P) <- AMD_aat n Cp Ci Len P ;;
          let slen := nzaat in
          let ok := slen <=? size_t (slen + nzaat / 5) in
          let slen := size_t (slen + nzaat / 5) in
          '(ok, slen) <- for_ 0 7 (fun i '(ok, slen) =>
            if ok : bool then Ok (slen <? size_t (slen + n), size_t (slen + n)) else Ok (ok, slen)) (ok, slen) ;;
          if (ok : bool) && (slen <? SIZE_T_MAX / 8) && (slen <? Int_MAX) && mem 4%nat then
            P <- AMD_1 n alpha aggressive Cp Ci P Pinv Len slen ;;
            Ok (status, P)
          else Ok (AMD_OUT_OF_MEMORY, P).
